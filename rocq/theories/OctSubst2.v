(** hmat_subst at the level of expressions, oct_substitute_linexpr. *)
From Coq Require Import Arith Lia List ZArith QArith Qreals Reals Lra Bool.
From Verif Require Import Bound BoundFacts Linexpr LinexprFacts OctMat OctIdx OctClose OctWalk OctInc OctStrong OctGeom OctGeom2 Oct OctFacts OctFacts2 OctFacts3 OctForget OctTransfer OctUexpr OctGuard OctGuard2 OctGuard3 OctGuard4 OctGuard5 OctQuery OctAssign OctAssign2 OctAssign3 OctAssign4 OctAssign5 OctAssign6 OctSubst.
Import ListNotations.
Open Scope nat_scope.
#[local] Arguments Nat.div : simpl never.
#[local] Arguments Nat.modulo : simpl never.
#[local] Arguments Nat.mul : simpl never.
#[local] Arguments Nat.leb : simpl never.
#[local] Arguments Nat.ltb : simpl never.
#[local] Arguments xor1 : simpl never.
#[local] Arguments or1 : simpl never.
#[local] Arguments matpos : simpl never.
#[local] Arguments matpos2 : simpl never.
Local Notation E := exact_num.

Section HSubst.
Context {N : numtype}.
Variables (intdim n d : nat) (e : linexpr) (dst : hmat) (u : uexpr) (m : hmat).
Hypothesis Hd : d < n.
Hypothesis W : wf_linexpr n e.
Hypothesis US : uspec (N:=N) intdim n e dst u.
Hypothesis ND : nndiag n m.
Definition swapped : hmat := upd (upd (upd dst (2 * n + 3) (dst 0)) 0 (dst 1)) 1 (dst 0).
Lemma swapped_01 : swapped 0 = dst 1 /\ swapped 1 = dst 0.
Proof. split; reflexivity. Qed.
Lemma hsubst_sound : forall resp w r, gam n m (vset w d r) -> expr_val e w r -> exists m' rr, hmat_subst (N:=N) dst m u n d resp = Some (m', rr) /\ gam n m' w.
Proof.
  intros resp w r G HE. pose proof (uval_nonempty intdim n e dst u W US w r HE) as NE.
  assert (FG : gam n (hmat_forget_var n d m) w).
  { apply forget_offd; auto. apply (offd_vset n d m w r). intros i j Hi Hj _ _. apply gam_full with n; auto. }
  assert (VW : forall x, x < n -> forall y, y = w d -> vset (vset w d r) d y x = w x).
  { intros x _ y ->. unfold vset. destruct (Nat.eqb_spec x d); subst; auto. }
  unfold hmat_subst. destruct (u_type u) eqn:T; try congruence; eauto.
  - destruct (uval_unit intdim n e dst u W US w r) as (c1 & C1 & H1); auto; [unfold unit_type; rewrite T; exact I|].
    unfold upart in H1. rewrite T, Rplus_0_r in H1. subst c1. destruct (sz_sound (N:=N) n d dst m Hd w r ND G C1) as (m' & -> & H). eauto.
  - destruct (uci intdim n e dst u US T) as [Hi CI]. destruct (uval_unit intdim n e dst u W US w r) as (c1 & C1 & H1); auto; [unfold unit_type; rewrite T; exact I|].
    unfold upart in H1. rewrite T in H1. destruct (Nat.eqb_spec (u_i u) d) as [ED|ND']; cbn [negb].
    + unfold hmat_assign. rewrite T, ED, Nat.eqb_refl. cbn [negb]. unfold ulit in H1. destruct CI as [CI|CI]; rewrite CI in *; simpl (_ =? _)%Z in *; cbv iota in *.
      * rewrite lit_even, ED in H1. do 2 eexists. split; [reflexivity|]. fold swapped.
        apply (gam_ext n _ (vset (vset w d r) d (vset w d r d + - c1)) w); [intros x Hx; apply VW; auto; rewrite vset_same; lra|].
        apply shift_sound; auto. destruct swapped_01 as [-> ->]. destruct C1. split; auto. rewrite Ropp_involutive. auto.
      * rewrite lit_odd, ED in H1. do 2 eexists. split; [reflexivity|].
        apply (gam_ext n _ (vset (vset w d r) d (- vset w d r d + c1)) w); [intros x Hx; apply VW; auto; rewrite vset_same; lra|].
        apply opp_sound; auto.
    + rewrite Rplus_comm in H1. rewrite H1 in G.
      assert (O : off n d (ulit (u_i u) (u_ci u))) by (split; [apply ulit_lt; auto|rewrite ulit_half; auto]).
      destruct (scp_sound (N:=N) n d _ dst m Hd O w c1 ND G C1) as (m' & -> & H). eauto.
Qed.
Lemma hsubst_wf : forall resp m' rr, wfm n m -> u_type u <> UEmpty -> hmat_subst (N:=N) dst m u n d resp = Some (m', rr) -> wfm n m' /\ nndiag n m'.
Proof.
  intros resp m' rr WM NE H. destruct (cell_not_MInf intdim n e dst u W US) as (T0 & T1 & TJ).
  assert (FG : wfm n (hmat_forget_var n d m) /\ nndiag n (hmat_forget_var n d m)) by (apply forget_wf1; auto).
  assert (M2 : forall i j, i < 2 * n -> j < 2 * n -> m (matpos2 i j) <> MInf) by (intros; eapply wfm2; eauto).
  assert (MU : m (matpos (2 * d) (2 * d + 1)) <> MInf /\ m (matpos (2 * d + 1) (2 * d)) <> MInf) by (split; apply WM; rewrite ?or1_even, ?or1_odd; lia).
  assert (B2 : bmul_2 (N:=N) (dst 0) <> MInf /\ bmul_2 (N:=N) (dst 1) <> MInf) by (split; apply bmul_2_not_MInf; auto).
  unfold hmat_subst in H. destruct (u_type u) eqn:T; try congruence; try (injection H as <- <-; auto; fail).
  - destruct (subst_zero dst m n d) eqn:SZ; [|discriminate]. injection H as <- <-. apply (sz_wf (N:=N) n d dst m Hd); auto.
  - destruct (uci intdim n e dst u US T) as [Hi CI]. destruct (Nat.eqb_spec (u_i u) d) as [ED|ND']; cbn [negb] in H.
    + unfold hmat_assign in H. rewrite T, ED, Nat.eqb_refl in H. cbn [negb] in H. destruct CI as [CI|CI]; rewrite CI in *; simpl (_ =? _)%Z in *; cbv iota in *; injection H as <- <-.
      * fold swapped. split; [apply (ac_wfm _ _ _ _ _ _ _ _ Hd (shift_cells n d swapped m Hd)); auto|apply (ac_nndiag _ _ _ _ _ _ _ _ Hd (shift_cells n d swapped m Hd)); auto];
          destruct swapped_01 as [SW0 SW1]; rewrite ?SW0, ?SW1; intros; rewrite ?SW0, ?SW1; try split; apply badd_not_MInf; try tauto; apply M2; auto; lia.
      * split; [apply (ac_wfm _ _ _ _ _ _ _ _ Hd (opp_cells n d dst m Hd)); auto|apply (ac_nndiag _ _ _ _ _ _ _ _ Hd (opp_cells n d dst m Hd)); auto];
          intros; try split; apply badd_not_MInf; try tauto; apply M2; auto; lia.
    + destruct (subst_copy dst m n d _) eqn:SZ; [|discriminate]. injection H as <- <-.
      assert (O : off n d (ulit (u_i u) (u_ci u))) by (split; [apply ulit_lt; auto|rewrite ulit_half; auto]).
      apply (scp_wf (N:=N) n d _ dst m Hd O _ (conj WM ND) T0 T1 SZ).
Qed.
End HSubst.

Section HSubstE.
Variables (intdim n d : nat) (e : linexpr) (dst : hmat) (u : uexpr) (m : hmat).
Hypothesis Hd : d < n.
Hypothesis W : wf_linexpr n e.
Hypothesis US : uspec (N:=E) intdim n e dst u.
Hypothesis ND : nndiag n m.
Lemma hsubst_exact : forall resp m' rr w, u_type u <> UEmpty -> ~ general u -> (sclosed n m \/ (non_inv u d = false /\ pt_cst (le_cst e))) ->
  hmat_subst (N:=E) dst m u n d resp = Some (m', rr) -> gam n m' w -> exists r, gam n m (vset w d r) /\ expr_val e w r.
Proof.
  intros resp m' rr w NE NG CL H G. destruct (uval_exists intdim n e dst u W US w NE) as [r0 Hr0]. destruct (uval intdim n e dst u W US _ r0 Hr0) as (c0 & c & C0 & _).
  assert (BK : forall x c1, unit_type u -> in2 c1 (dst 0) (dst 1) -> (x = c1 + upart u w)%R -> expr_val e w x).
  { intros x c1 UT C1 ->. apply (uval_back intdim n e dst u); auto. }
  unfold hmat_subst, general, non_inv, unit_type, upart in *. destruct (u_type u) eqn:T; try congruence; try tauto.
  - destruct CL as [SC|[X _]]; [|discriminate]. destruct (subst_zero dst m n d) as [mm|] eqn:SZ; [|discriminate]. injection H as <- <-.
    destruct (sz_exact n d dst m mm w Hd SC (ex_intro _ c0 C0) SZ G) as (r & R1 & R2). exists r. split; auto. apply (BK r r); auto. lra.
  - destruct (uci intdim n e dst u US T) as [Hi CI]. destruct (Nat.eqb_spec (u_i u) d) as [ED|ND']; cbn [negb] in *.
    + assert (CL' : sclosed n m \/ exists p q, dst 0 = Fin p /\ dst 1 = Fin q /\ (Q2R p = - Q2R q)%R).
      { destruct CL as [SC|[_ P]]; auto. right. destruct W as [WC _]. destruct (ui_cst _ _ _ _ _ US) as [em CB]. simpl in CB.
        assert (PT : forall r s, in2 r (dst 0) (dst 1) -> in2 s (dst 0) (dst 1) -> r = s).
        { intros r s H1 H2. apply P; apply (cbnd_exact _ _ _ _ _ WC CB); auto. }
        destruct C0 as [C01 C02]. destruct (dst 0) as [|p|]; [destruct C01| |].
        - destruct (dst 1) as [|q|]; [destruct C02| |]; simpl in *.
          + exists p, q. split; auto. split; auto. assert (HH : (- Q2R p = Q2R q)%R) by (apply PT; split; simpl; lra). lra.
          + assert (HH : (c0 = c0 + 1)%R) by (apply PT; split; simpl; auto; lra). lra.
        - assert (HH : (c0 = c0 - 1)%R) by (apply PT; split; simpl; auto; eapply le_rb_le; [|exact C02]; lra). lra. }
      unfold hmat_assign in H. rewrite T, ED, Nat.eqb_refl in H. cbn [negb] in H.
      destruct CI as [CI|CI]; rewrite CI in *; unfold ulit in BK; simpl (_ =? _)%Z in *; cbv iota in *; injection H as <- <-.
      * fold (swapped n dst) in G. destruct (swapped_01 n dst) as [S0 S1].
        destruct (shift_exact n d (swapped n dst) m Hd ND w) as (x & X1 & X2); auto.
        { exists (- c0)%R. rewrite S0, S1. destruct C0. split; auto. rewrite Ropp_involutive. auto. }
        { destruct CL' as [SC|(p & q & D0 & D1 & PQ)]; auto. right. exists q, p. rewrite S0, S1. repeat split; auto. lra. }
        exists x. split; auto. rewrite S0, S1 in X2. destruct X2 as [X2 X3].
        apply (BK x (x - w d)%R); auto; [split; [eapply le_rb_le; [|exact X3]|eapply le_rb_le; [|exact X2]]; lra|]. rewrite lit_even, ED. lra.
      * destruct (opp_exact n d dst m Hd ND w (ex_intro _ c0 C0) CL' G) as (x & X1 & X2). exists x. split; auto.
        apply (BK x (w d + x)%R); auto. rewrite lit_odd, ED. lra.
    + destruct CL as [SC|[X _]]; [|discriminate]. destruct (subst_copy dst m n d _) as [mm|] eqn:SZ; [|discriminate]. injection H as <- <-.
      assert (O : off n d (ulit (u_i u) (u_ci u))) by (split; [eapply ulit_lt; eauto|rewrite ulit_half; auto]).
      destruct (scp_exact n d _ dst m mm w Hd O SC (ex_intro _ c0 C0) SZ G) as (r & R1 & R2). exists (lit w (ulit (u_i u) (u_ci u)) + r)%R. split; auto.
      apply (BK _ r); auto. lra.
Qed.
Lemma hsubst_closed : forall resp m', u_type u <> UEmpty -> (resp = true -> sclosed n m) -> hmat_subst (N:=E) dst m u n d resp = Some (m', true) -> resp = true /\ sclosed n m'.
Proof.
  intros resp m' NE SC H. destruct (uval_exists intdim n e dst u W US (fun _ => 0%R) NE) as [r0 Hr0]. destruct (uval intdim n e dst u W US _ r0 Hr0) as (c0 & c & C0 & _).
  assert (FG : Some (hmat_forget_var n d m, resp) = Some (m', true) -> resp = true /\ sclosed n m').
  { intros X. injection X as <- ->. split; auto. apply (forget_sclosed n (Nat.eqb d) m); auto. intros; apply fvar_half; auto. }
  unfold hmat_subst in H. destruct (u_type u) eqn:T; try congruence; auto.
  - destruct (subst_zero dst m n d); discriminate.
  - destruct (uci intdim n e dst u US T) as [Hi CI]. destruct (Nat.eqb_spec (u_i u) d) as [ED|ND']; cbn [negb] in *.
    + unfold hmat_assign in H. rewrite T, ED, Nat.eqb_refl in H. cbn [negb] in H.
      destruct CI as [CI|CI]; rewrite CI in *; simpl (_ =? _)%Z in *; cbv iota in *; injection H as <- ->; split; auto.
      * fold (swapped n dst). apply shift_closed; auto. destruct (swapped_01 n dst) as [S0 S1]. exists (- c0)%R. rewrite S0, S1. destruct C0. split; auto. rewrite Ropp_involutive. auto.
      * apply opp_closed; eauto.
    + destruct (subst_copy dst m n d _); discriminate.
Qed.
End HSubstE.

(** ** oct_substitute_linexpr *)
Section Subst.
Context {N : numtype}.
Lemma subst_dim : forall algo tmp a d e dest, odim (oct_substitute_linexpr (N:=N) algo tmp a d e dest) = odim a /\ oint (oct_substitute_linexpr (N:=N) algo tmp a d e dest) = oint a.
Proof.
  intros. unfold oct_substitute_linexpr. destruct (uexpr_of_linexpr _ _ _ _) as [t u]. destruct (dest_empty dest); auto.
  destruct (u_type u); auto; destruct (best _); try (split; destruct (non_inv u d); auto; apply cached_dim);
    destruct (hmat_subst _ _ _ _ _ _) as [[m' r]|]; try destruct r; (split; destruct (non_inv u d); auto; apply cached_dim).
Qed.
Lemma subst_cases : forall algo tmp a d e dest dst u, uexpr_of_linexpr (N:=N) tmp e (oint a) (odim a) = (dst, u) ->
  let a' := if non_inv u d then cached (N:=N) algo a else a in
  let resp := is_some (ocl a') && (0 <=? algo)%Z && negb (is_some dest) in
  (dest_empty dest = true /\ oct_substitute_linexpr (N:=N) algo tmp a d e dest = set_mat a None None) \/
  (dest_empty dest = false /\ u_type u = UEmpty /\ oct_substitute_linexpr (N:=N) algo tmp a d e dest = set_mat a None None) \/
  (dest_empty dest = false /\ u_type u <> UEmpty /\ best a' = None /\ oct_substitute_linexpr (N:=N) algo tmp a d e dest = mkOct None None (odim a) (oint a)) \/
  (exists m, dest_empty dest = false /\ u_type u <> UEmpty /\ best a' = Some m /\ hmat_subst (N:=N) dst m u (odim a) d resp = None /\
     oct_substitute_linexpr (N:=N) algo tmp a d e dest = mkOct None None (odim a) (oint a)) \/
  (exists m m' r, dest_empty dest = false /\ u_type u <> UEmpty /\ best a' = Some m /\ hmat_subst (N:=N) dst m u (odim a) d resp = Some (m', r) /\
     oct_substitute_linexpr (N:=N) algo tmp a d e dest =
       if r then mkOct None (Some (inter_dest m' dest)) (odim a) (oint a) else mkOct (Some (inter_dest m' dest)) None (odim a) (oint a)).
Proof.
  intros algo tmp a d e dest dst u UE a' resp. unfold oct_substitute_linexpr. rewrite UE. fold a'. fold resp.
  assert (DA : odim a' = odim a /\ oint a' = oint a) by (unfold a'; destruct (non_inv u d); auto; apply cached_dim).
  destruct DA as [D1 D2]. destruct (dest_empty dest) eqn:DE; auto.
  destruct (u_type u) eqn:T; auto; right; right; unfold set_mat; rewrite D1, D2; (destruct (best a') as [m|] eqn:B; [right|left; repeat split; auto; discriminate]);
    (destruct (hmat_subst dst m u (odim a) d resp) as [[m' r]|] eqn:H; [right; exists m, m', r|left; exists m]); (repeat split; auto; discriminate).
Qed.
Lemma subst_sound : forall algo tmp a d e dest w r, wfo a -> d < odim a -> wf_linexpr (odim a) e -> dest_ok a dest ->
  gamo a (vset w d r) -> expr_val e w r -> in_dest dest w -> gamo (oct_substitute_linexpr (N:=N) algo tmp a d e dest) w.
Proof.
  intros algo tmp a d e dest w r W Hd WE DO G HE HD. destruct (uexpr_of_linexpr (N:=N) tmp e (oint a) (odim a)) as [dst u] eqn:UE.
  destruct (uexpr_spec (oint a) tmp e (odim a) dst u WE UE) as [US _].
  assert (WA' : wfo (if non_inv u d then cached (N:=N) algo a else a)) by (destruct (non_inv u d); auto; apply cached_wfo; auto).
  assert (GA' : gamo (if non_inv u d then cached (N:=N) algo a else a) (vset w d r)) by (destruct (non_inv u d); auto; apply cached_gamo; auto).
  assert (DA : odim (if non_inv u d then cached (N:=N) algo a else a) = odim a) by (destruct (non_inv u d); auto; apply cached_dim).
  pose proof GA' as GB. rewrite (gamo_best _ _ WA'), DA in GB.
  destruct (subst_cases algo tmp a d e dest dst u UE) as [(DE & ->)|[(DE & T & ->)|[(DE & T & B & ->)|[(m & DE & T & B & H & ->)|(m & m' & rr & DE & T & B & H & ->)]]]].
  - exfalso. destruct dest as [o|]; simpl in *; [|discriminate]. destruct (ocl o) eqn:OC; [discriminate|]. destruct (om o) eqn:OM; [discriminate|].
    destruct HD as ([X|X] & _); congruence.
  - exfalso. apply (uval_nonempty (oint a) (odim a) e dst u WE US w r HE T).
  - rewrite B in GB. tauto.
  - exfalso. rewrite B in GB. destruct (best_wf _ m WA' B) as [WM DM]. rewrite DA in *.
    match type of H with hmat_subst _ _ _ _ _ ?R = _ => destruct (hsubst_sound (oint a) (odim a) d e dst u m Hd WE US DM R w r GB HE) as (m' & rr & H' & _) end. congruence.
  - rewrite B in GB. destruct (best_wf _ m WA' B) as [WM DM]. rewrite DA in *.
    match type of H with hmat_subst _ _ _ _ _ ?R = _ => destruct (hsubst_sound (oint a) (odim a) d e dst u m Hd WE US DM R w r GB HE) as (m2 & r2 & H' & S) end.
    assert (m2 = m') by congruence. subst m2.
    destruct rr; [apply gamo_single_c|apply gamo_single_m]; apply (inter_gam (odim a) m' dest a); auto.
Qed.
Lemma subst_wfo : forall algo tmp a d e dest, wfo a -> d < odim a -> wf_linexpr (odim a) e -> dest_ok a dest -> wfo (oct_substitute_linexpr (N:=N) algo tmp a d e dest).
Proof.
  intros algo tmp a d e dest W Hd WE DO. destruct (uexpr_of_linexpr (N:=N) tmp e (oint a) (odim a)) as [dst u] eqn:UE.
  destruct (uexpr_spec (oint a) tmp e (odim a) dst u WE UE) as [US _]. pose proof (wfo_int _ W) as WI.
  assert (WA' : wfo (if non_inv u d then cached (N:=N) algo a else a)) by (destruct (non_inv u d); auto; apply cached_wfo; auto).
  assert (DA : odim (if non_inv u d then cached (N:=N) algo a else a) = odim a) by (destruct (non_inv u d); auto; apply cached_dim).
  destruct (subst_cases algo tmp a d e dest dst u UE) as [(DE & ->)|[(DE & T & ->)|[(DE & T & B & ->)|[(m & DE & T & B & H & ->)|(m & m' & rr & DE & T & B & H & ->)]]]]; try (apply wfo_none; auto).
  destruct (best_wf _ m WA' B) as [WM DM]. rewrite DA in *.
  destruct (hsubst_wf (oint a) (odim a) d e dst u m Hd WE US DM _ _ _ WM T H) as [W1 W2].
  destruct (inter_wf m' dest a DO (conj W1 W2)). destruct rr; [apply wfo_single_c|apply wfo_single_m]; auto.
Qed.
End Subst.

Lemma subst_exo : forall algo tmp a d e dest, exo a -> d < odim a -> wf_linexpr (odim a) e -> dest_ok a dest -> exo (oct_substitute_linexpr (N:=E) algo tmp a d e dest).
Proof.
  intros algo tmp a d e dest X Hd WE DO. destruct (uexpr_of_linexpr (N:=E) tmp e (oint a) (odim a)) as [dst u] eqn:UE. pose proof (exo_wf _ X) as W.
  destruct (uexpr_spec (oint a) tmp e (odim a) dst u WE UE) as [US _]. pose proof (wfo_int _ W) as WI.
  assert (XA' : exo (if non_inv u d then cached (N:=E) algo a else a)) by (destruct (non_inv u d); auto; apply cached_exo; auto).
  pose proof (exo_wf _ XA') as WA'.
  assert (DA : odim (if non_inv u d then cached (N:=E) algo a else a) = odim a) by (destruct (non_inv u d); auto; apply cached_dim).
  destruct (subst_cases algo tmp a d e dest dst u UE) as [(DE & ->)|[(DE & T & ->)|[(DE & T & B & ->)|[(m & DE & T & B & H & ->)|(m & m' & rr & DE & T & B & H & ->)]]]]; try (apply exo_none; auto).
  set (a' := if non_inv u d then cached (N:=E) algo a else a) in *. destruct (best_wf _ m WA' B) as [WM DM]. rewrite DA in *.
  set (resp := is_some (ocl a') && (0 <=? algo)%Z && negb (is_some dest)) in *.
  assert (SC : resp = true -> sclosed (odim a) m) by (intros R; rewrite <- DA; eapply resp_closed; eauto).
  destruct (hsubst_wf (oint a) (odim a) d e dst u m Hd WE US DM _ _ _ WM T H) as [W1 W2].
  destruct (inter_wf m' dest a DO (conj W1 W2)) as [W3 W4]. destruct rr; [|apply exo_single_m; auto].
  destruct (hsubst_closed (oint a) (odim a) d e dst u m Hd WE US resp m' T SC H) as [R SC'].
  assert (ND : dest = None) by (unfold resp in R; apply andb_true_iff in R as [_ R]; destruct dest; [discriminate|auto]). subst dest. simpl.
  apply exo_single_c; auto.
Qed.
Lemma subst_exact : forall algo tmp a d e dest w, (0 <= algo)%Z -> exo a -> d < odim a -> wf_linexpr (odim a) e -> dest_ok a dest -> unary_expr e ->
  (not_in d e \/ pt_cst (le_cst e) \/ ocl a <> None) ->
  gamo (oct_substitute_linexpr (N:=E) algo tmp a d e dest) w -> in_dest dest w /\ exists r, gamo a (vset w d r) /\ expr_val e w r.
Proof.
  intros algo tmp a d e dest w HA X Hd WE DO UN CL G. destruct (uexpr_of_linexpr (N:=E) tmp e (oint a) (odim a)) as [dst u] eqn:UE. pose proof (exo_wf _ X) as W.
  destruct (uexpr_spec (oint a) tmp e (odim a) dst u WE UE) as [US _]. pose proof (wfo_int _ W) as WI.
  assert (XA' : exo (if non_inv u d then cached (N:=E) algo a else a)) by (destruct (non_inv u d); auto; apply cached_exo; auto).
  pose proof (exo_wf _ XA') as WA'.
  assert (DA : odim (if non_inv u d then cached (N:=E) algo a else a) = odim a) by (destruct (non_inv u d); auto; apply cached_dim).
  destruct (subst_cases algo tmp a d e dest dst u UE) as [(DE & EQ)|[(DE & T & EQ)|[(DE & T & B & EQ)|[(m & DE & T & B & H & EQ)|(m & m' & rr & DE & T & B & H & EQ)]]]]; rewrite EQ in G; try (apply gamo_none in G; tauto).
  pose proof (not_general exact_units_E (oint a) (odim a) e dst u WE US UN) as NG.
  set (a' := if non_inv u d then cached (N:=E) algo a else a) in *. destruct (best_wf _ m WA' B) as [WM DM]. rewrite DA in *.
  assert (G' : gam (odim a) (inter_dest m' dest) w) by (destruct rr; [apply gamo_single_c in G|apply gamo_single_m in G]; auto).
  apply (inter_gam (odim a) m' dest a w eq_refl DO DE) in G'. destruct G' as [G1 G2]. split; auto.
  assert (CL' : sclosed (odim a) m \/ (non_inv u d = false /\ pt_cst (le_cst e))).
  { destruct (non_inv u d) eqn:NI.
    - left. apply (closed_ex algo a m HA X). exact B.
    - destruct CL as [CL|[CL|CL]]; auto.
      + apply (not_in_non_inv exact_units_E (oint a) (odim a) e dst u d WE US Hd) in CL. congruence.
      + left. unfold a', best in B. destruct (ocl a) as [c|] eqn:OC; [|tauto]. injection B as <-. apply (exo_c _ X). auto. }
  destruct (hsubst_exact (oint a) (odim a) d e dst u m Hd WE US DM _ m' rr w T NG CL' H G1) as (x & X1 & X2).
  exists x. split; auto. assert (GA : gamo a' (vset w d x)) by (rewrite (gamo_best _ _ WA'), B, DA; auto).
  unfold a' in GA. destruct (non_inv u d); auto. apply cached_gamo in GA; auto.
Qed.

(** Assignment: matrices and octagons. *)
From Coq Require Import Arith Lia List ZArith QArith Qreals Reals Lra Bool.
From Verif Require Import Bound BoundFacts Linexpr LinexprFacts OctMat OctIdx OctClose OctWalk OctInc OctStrong OctGeom OctGeom2 Oct OctFacts OctFacts2 OctFacts3 OctForget OctTransfer OctUexpr OctGuard OctGuard2 OctGuard3 OctGuard4 OctGuard5 OctAssign OctAssign2 OctAssign3 OctAssign4.
Import ListNotations.
Open Scope nat_scope.
#[local] Arguments Nat.div : simpl never.
#[local] Arguments Nat.modulo : simpl never.
#[local] Arguments Nat.mul : simpl never.
#[local] Arguments Nat.leb : simpl never.
#[local] Arguments Nat.ltb : simpl never.
#[local] Arguments xor1 : simpl never.
#[local] Arguments or1 : simpl never.
#[local] Arguments matpos : simpl never.
#[local] Arguments matpos2 : simpl never.
Local Notation E := exact_num.

Section Copy.
Context {N : numtype}.
Variables (n d i : nat) (tmp m : hmat).
Hypothesis Hd : d < n.
Hypothesis Hi : i < 2 * n.
Hypothesis Ni : i / 2 <> d.
Hypothesis ND : nndiag n m.
Definition copy0 : hmat := upd (upd (hmat_forget_var n d m) (matpos2 (2 * d) i) (tmp 0)) (matpos2 i (2 * d)) (tmp 1).
Lemma copy_cells : acells n d m copy0 (fun j => if Nat.eqb j i then tmp 0 else if Nat.eqb j (xor1 i) then PInf else PInf)
  (fun j => if Nat.eqb j i then tmp 1 else PInf) PInf PInf.
Proof. apply (acells_bin n d m _ PInf PInf i (tmp 0) (tmp 1) (fun _ => PInf) (fun _ => PInf) Hd Ni). apply fvar_acells; auto. Qed.
Lemma copy_gam : forall w x, gam n copy0 (vset w d x) <-> offd n d m w /\ in2 (x - lit w i) (tmp 0) (tmp 1).
Proof.
  intros w x. rewrite (ac_gam _ _ _ _ _ _ _ _ Hd copy_cells w x ND). split.
  - intros (O & H & _). split; auto. destruct (H i Hi Ni) as [H1 H2]. rewrite Nat.eqb_refl in *. split; auto. eapply le_rb_le; [|exact H2]. lra.
  - intros (O & H1 & H2). split; auto. split; [|simpl; auto]. intros j Hj Nj. destruct (Nat.eqb_spec j i) as [->|].
    + split; auto. eapply le_rb_le; [|exact H1]. lra.
    + destruct (Nat.eqb j (xor1 i)); simpl; auto.
Qed.
Lemma copy_sound : forall resp v r, gam n m v -> in2 r (tmp 0) (tmp 1) -> gam n (assign_copy (N:=N) tmp m n d i resp) (vset v d (lit v i + r)).
Proof.
  intros resp v r G R. unfold assign_copy. fold copy0.
  assert (C : gam n copy0 (vset v d (lit v i + r))).
  { apply copy_gam. split; [intros p q Hp Hq _ _; apply gam_full with n; auto|]. destruct R. split; eapply le_rb_le; eauto; lra. }
  destruct resp; auto. destruct (hmat_close_incremental (N:=N) copy0 n d) as [m' b] eqn:H.
  destruct (close_inc_sound n copy0 d (vset v d (lit v i + r)) m' b Hd H) as [S1 S2]. simpl. specialize (S1 C). apply S2; auto.
Qed.
Lemma copy_wf : forall resp, wfm n m -> tmp 0 <> MInf -> tmp 1 <> MInf -> (resp = true -> exists v r, gam n m v /\ in2 r (tmp 0) (tmp 1)) ->
  wfm n (assign_copy (N:=N) tmp m n d i resp) /\ nndiag n (assign_copy (N:=N) tmp m n d i resp).
Proof.
  intros resp W T0 T1 NE. assert (W0 : wfm n copy0).
  { apply (ac_wfm _ _ _ _ _ _ _ _ Hd copy_cells); auto; try discriminate. intros j _ _. destruct (Nat.eqb j i), (Nat.eqb j (xor1 i)); split; auto; discriminate. }
  unfold assign_copy. fold copy0. destruct resp; [|split; auto; apply (ac_nndiag _ _ _ _ _ _ _ _ Hd copy_cells); auto].
  destruct (NE eq_refl) as (v & r & G & R).
  destruct (hmat_close_incremental (N:=N) copy0 n d) as [m' b] eqn:H.
  assert (C : gam n copy0 (vset v d (lit v i + r))).
  { apply copy_gam. split; [intros p q Hp Hq _ _; apply gam_full with n; auto|]. destruct R. split; eapply le_rb_le; eauto; lra. }
  destruct (close_inc_sound n copy0 d (vset v d (lit v i + r)) m' b Hd H) as [S1 S2]. specialize (S1 C). subst b. simpl.
  split; [eapply close_inc_wf; eauto|eapply close_inc_nndiag; eauto].
Qed.
End Copy.
Lemma copy_exact : forall n d i tmp m resp w, d < n -> i < 2 * n -> i / 2 <> d -> sclosed n m -> (exists r, in2 r (tmp 0) (tmp 1)) ->
  gam n (assign_copy (N:=E) tmp m n d i resp) w -> exists x, gam n m (vset w d x) /\ in2 (w d - lit w i) (tmp 0) (tmp 1).
Proof.
  intros n d i tmp m resp w Hd Hi Ni SC (r & R) G. assert (ND : nndiag n m) by (apply sclosed_nndiag; auto).
  assert (C : gam n (copy0 n d i tmp m) w).
  { unfold assign_copy in G. fold (copy0 n d i tmp m) in G. destruct resp; auto.
    destruct (hmat_close_incremental (N:=E) (copy0 n d i tmp m) n d) as [m' b] eqn:H. simpl in G.
    destruct (sc_nonempty n m SC) as [v Gv].
    assert (C : gam n (copy0 n d i tmp m) (vset v d (lit v i + r))).
    { apply copy_gam; auto. split; [intros p q Hp Hq _ _; apply gam_full with n; auto|]. destruct R. split; eapply le_rb_le; eauto; lra. }
    destruct (close_inc_sound n (copy0 n d i tmp m) d (vset v d (lit v i + r)) m' b Hd H) as [S1 _]. specialize (S1 C).
    destruct (close_inc_sound n (copy0 n d i tmp m) d w m' b Hd H) as [_ S2]. apply S2; auto. }
  rewrite (gam_vset_id n _ w d) in C. apply copy_gam in C; auto. destruct C as [O R'].
  destruct (offd_extend n d m w Hd SC O) as [x X]. exists x. split; auto.
Qed.
Lemma copy_closed : forall n d i tmp m, d < n -> i < 2 * n -> i / 2 <> d -> sclosed n m -> (exists r, in2 r (tmp 0) (tmp 1)) ->
  sclosed n (assign_copy (N:=E) tmp m n d i true).
Proof.
  intros n d i tmp m Hd Hi Ni SC (r & R). assert (ND : nndiag n m) by (apply sclosed_nndiag; auto).
  unfold assign_copy. fold (copy0 n d i tmp m). destruct (hmat_close_incremental (N:=E) (copy0 n d i tmp m) n d) as [m' b] eqn:H. simpl.
  destruct (sc_nonempty n m SC) as [v Gv].
  assert (C : gam n (copy0 n d i tmp m) (vset v d (lit v i + r))).
  { apply copy_gam; auto. split; [intros p q Hp Hq _ _; apply gam_full with n; auto|]. destruct R. split; eapply le_rb_le; eauto; lra. }
  destruct (close_inc_sound n (copy0 n d i tmp m) d (vset v d (lit v i + r)) m' b Hd H) as [S1 _]. specialize (S1 C). subst b.
  apply (close_inc_exact n (copy0 n d i tmp m) d m' Hd); auto.
  - assert (T : tmp 0 <> MInf /\ tmp 1 <> MInf) by (destruct R as [R1 R2]; split; intros X; rewrite X in *; simpl in *; tauto). destruct T.
    apply (ac_wfm _ _ _ _ _ _ _ _ Hd (copy_cells n d i tmp m Hd Ni)); auto; try discriminate; [apply SC|].
    intros j _ _. destruct (Nat.eqb j i), (Nat.eqb j (xor1 i)); split; auto; discriminate.
  - apply (agree_tri_except n d m); [apply SC|]. apply (ac_off _ _ _ _ _ _ _ _ (copy_cells n d i tmp m Hd Ni)).
Qed.

(** constants, without closure *)
Section Zero0.
Context {N : numtype}.
Variables (n d : nat) (tmp m : hmat).
Hypothesis Hd : d < n.
Lemma zero0_cells : acells n d m (assign_zero (N:=N) tmp m n d false) (fun _ => PInf) (fun _ => PInf) (bmul_2 (N:=N) (tmp 0)) (bmul_2 (N:=N) (tmp 1)).
Proof. unfold assign_zero. eapply acells_un; auto. apply fvar_acells; auto. Qed.
Lemma zero0_sound : forall v r, nndiag n m -> gam n m v -> in2 r (tmp 0) (tmp 1) -> gam n (assign_zero (N:=N) tmp m n d false) (vset v d r).
Proof.
  intros v r ND G [R1 R2]. apply (ac_gam _ _ _ _ _ _ _ _ Hd zero0_cells v r ND). split; [intros p q Hp Hq _ _; apply gam_full with n; auto|].
  split; [simpl; auto|]. split; [|apply bmul_2_sound; auto]. replace (- (2 * r))%R with (2 * - r)%R by ring. apply bmul_2_sound; auto.
Qed.
End Zero0.
Lemma zero_exact' : forall n d tmp m resp w, d < n -> sclosed n m -> gam n (assign_zero (N:=E) tmp m n d resp) w ->
  exists x, gam n m (vset w d x) /\ in2 (w d) (tmp 0) (tmp 1).
Proof.
  intros n d tmp m resp w Hd SC G. assert (ND : nndiag n m) by (apply sclosed_nndiag; auto). destruct resp; [apply zero_exact; auto|].
  rewrite (gam_vset_id n _ w d) in G. rewrite (ac_gam _ _ _ _ _ _ _ _ Hd (zero0_cells n d tmp m Hd)) in G by auto.
  destruct G as (O & _ & G1 & G2). destruct (offd_extend n d m w Hd SC O) as [x X]. exists x. split; auto.
  split; [destruct (tmp 0)|destruct (tmp 1)]; simpl in *; auto; rewrite Q2R_two in *; lra.
Qed.

Lemma in2_not_MInf : forall r a b, in2 r a b -> a <> MInf /\ b <> MInf.
Proof. intros r a b [H1 H2]. split; intros ->; simpl in *; tauto. Qed.

(** ** hmat_assign *)
Section HAssign.
Context {N : numtype}.
Variables (intdim n d : nat) (e : linexpr) (dst : hmat) (u : uexpr) (m : hmat).
Hypothesis Hd : d < n.
Hypothesis W : wf_linexpr n e.
Hypothesis US : uspec (N:=N) intdim n e dst u.
Hypothesis ND : nndiag n m.
Lemma uci : u_type u = UUnary -> u_i u < n /\ (u_ci u = 1%Z \/ u_ci u = (-1)%Z).
Proof.
  intros T. pose proof (ui_cls _ _ _ _ _ US) as C. simpl in C. unfold cls in C. rewrite T in C. destruct C as (A1 & (A2 & _) & _). auto.
Qed.
Lemma ulit_half : forall i c, ulit i c / 2 = i.
Proof. intros i c. unfold ulit. destruct (Z.eqb_spec c 1); [apply div2_even|apply div2_odd]. Qed.
Lemma ulit_lt : forall i c, i < n -> ulit i c < 2 * n.
Proof. clear Hd. intros i c H. unfold ulit. destruct (Z.eqb_spec c 1); lia. Qed.
Definition general (u : uexpr) : Prop := match u_type u with UBinary | UOther => True | _ => False end.
Lemma hassign_sound : forall resp v r, gam n m v -> expr_val e v r -> (general u -> other_ok (N:=N) n dst m) ->
  gam n (fst (hmat_assign (N:=N) dst m u n d resp)) (vset v d r).
Proof.
  intros resp v r G HE OK. pose proof (uval_nonempty intdim n e dst u W US v r HE) as NE.
  destruct (uval intdim n e dst u W US v r HE) as (c0 & c & C0 & CC & Hr & _).
  unfold hmat_assign, general in *. destruct (u_type u) eqn:T; try congruence.
  - destruct (uval_unit intdim n e dst u W US v r) as (c1 & C1 & H1); auto; [unfold unit_type; rewrite T; exact I|].
    unfold upart in H1. rewrite T, Rplus_0_r in H1. subst c1. cbn [fst]. destruct resp; [apply zero_sound; auto|apply zero0_sound; auto].
  - destruct (uci T) as [Hi CI]. destruct (uval_unit intdim n e dst u W US v r) as (c1 & C1 & H1); auto; [unfold unit_type; rewrite T; exact I|].
    unfold upart in H1. rewrite T in H1. destruct (Nat.eqb_spec (u_i u) d) as [ED|ND']; cbn [negb].
    + unfold ulit in H1. destruct CI as [CI|CI]; rewrite CI in *; simpl (_ =? _)%Z in *; cbv iota in *; cbn [fst].
      * rewrite lit_even, ED in H1. rewrite Rplus_comm in H1. rewrite H1. apply shift_sound; auto.
      * rewrite lit_odd, ED in H1. rewrite Rplus_comm in H1. rewrite H1. apply opp_sound; auto.
    + cbn [fst]. rewrite Rplus_comm in H1. rewrite H1. apply copy_sound; auto; [apply ulit_lt; auto|rewrite ulit_half; auto].
  - rewrite Hr. apply other_sound; auto.
  - rewrite Hr. apply other_sound; auto.
Qed.
Lemma hassign_wf : forall resp, wfm n m -> u_type u <> UEmpty -> (resp = true -> exists v, gam n m v) ->
  wfm n (fst (hmat_assign (N:=N) dst m u n d resp)) /\ nndiag n (fst (hmat_assign (N:=N) dst m u n d resp)).
Proof.
  intros resp WM NE PT. destruct (cell_not_MInf intdim n e dst u W US) as (T0 & T1 & TJ).
  destruct (uval_exists intdim n e dst u W US (fun _ => 0%R) NE) as [r Hr]. destruct (uval intdim n e dst u W US _ r Hr) as (c0 & c & C0 & CC & _).
  assert (OW : wfm n (assign_other (N:=N) dst m n d) /\ nndiag n (assign_other (N:=N) dst m n d)).
  { apply other_wf; auto. intros j Hj. unfold Tlo, Thi. destruct (bounds_mul (N:=N) dst 0 _ _ _ _) as [[t' ti] ts] eqn:BM. simpl.
    apply (bounds_mul_not_MInf _ _ _ _ _ _ _ _ _ BM); try apply WM; try apply TJ; auto; rewrite ?or1_even, ?or1_odd; lia. }
  assert (M2 : forall i j, i < 2 * n -> j < 2 * n -> m (matpos2 i j) <> MInf) by (intros; eapply wfm2; eauto).
  assert (MU : forall i, i < n -> m (matpos (2 * i) (2 * i + 1)) <> MInf /\ m (matpos (2 * i + 1) (2 * i)) <> MInf) by (intros i Hi; split; apply WM; rewrite ?or1_even, ?or1_odd; lia).
  assert (B2 : bmul_2 (N:=N) (dst 0) <> MInf /\ bmul_2 (N:=N) (dst 1) <> MInf) by (split; apply bmul_2_not_MInf; auto).
  unfold hmat_assign. destruct (u_type u) eqn:T; try congruence; auto.
  - cbn [fst]. destruct resp.
    + split; [apply (ac_wfm _ _ _ _ _ _ _ _ Hd (zero_cells n d dst m Hd)); auto; try tauto|apply (ac_nndiag _ _ _ _ _ _ _ _ Hd (zero_cells n d dst m Hd)); auto].
      intros j Hj Nj. split; apply badd_not_MInf; auto; apply bdiv_2_not_MInf; rewrite <- ?unary_cell', <- ?unary_cell; apply M2; auto using xor1_lt.
    + split; [apply (ac_wfm _ _ _ _ _ _ _ _ Hd (zero0_cells n d dst m Hd)); auto; try tauto; try (intros; split; discriminate)|apply (ac_nndiag _ _ _ _ _ _ _ _ Hd (zero0_cells n d dst m Hd)); auto].
  - destruct (uci T) as [Hi CI]. destruct (Nat.eqb_spec (u_i u) d) as [ED|ND']; cbn [negb].
    + destruct CI as [CI|CI]; rewrite CI in *; simpl (_ =? _)%Z in *; cbv iota in *; cbn [fst].
      * split; [apply (ac_wfm _ _ _ _ _ _ _ _ Hd (shift_cells n d dst m Hd)); auto|apply (ac_nndiag _ _ _ _ _ _ _ _ Hd (shift_cells n d dst m Hd)); auto].
        -- intros j Hj Nj. split; apply badd_not_MInf; auto; apply M2; auto; lia.
        -- apply badd_not_MInf; [apply MU; auto|tauto].
        -- apply badd_not_MInf; [apply MU; auto|tauto].
      * split; [apply (ac_wfm _ _ _ _ _ _ _ _ Hd (opp_cells n d dst m Hd)); auto|apply (ac_nndiag _ _ _ _ _ _ _ _ Hd (opp_cells n d dst m Hd)); auto].
        -- intros j Hj Nj. split; apply badd_not_MInf; auto; apply M2; auto; lia.
        -- apply badd_not_MInf; [apply MU; auto|tauto].
        -- apply badd_not_MInf; [apply MU; auto|tauto].
    + cbn [fst]. apply copy_wf; auto; [apply ulit_lt; auto|rewrite ulit_half; auto|].
      intros R. destruct (PT R) as [v G]. exists v, c0. auto.
Qed.
End HAssign.
Section HExact.
Variables (intdim n d : nat) (e : linexpr) (dst : hmat) (u : uexpr) (m : hmat).
Hypothesis Hd : d < n.
Hypothesis W : wf_linexpr n e.
Hypothesis US : uspec (N:=E) intdim n e dst u.
Hypothesis ND : nndiag n m.
Definition pt_cst (k : coeff) : Prop := forall r s, coeff_in r k -> coeff_in s k -> r = s.
Lemma hassign_exact : forall resp w, u_type u <> UEmpty -> ~ general u -> (sclosed n m \/ (non_inv u d = false /\ pt_cst (le_cst e))) ->
  gam n (fst (hmat_assign (N:=E) dst m u n d resp)) w -> exists x, gam n m (vset w d x) /\ expr_val e (vset w d x) (w d).
Proof.
  intros resp w NE NG CL G. destruct (uval_exists intdim n e dst u W US w NE) as [r0 Hr0]. destruct (uval intdim n e dst u W US _ r0 Hr0) as (c0 & c & C0 & _).
  assert (BK : forall x c1, unit_type u -> in2 c1 (dst 0) (dst 1) -> (w d = c1 + upart u (vset w d x))%R -> expr_val e (vset w d x) (w d)).
  { intros x c1 UT C1 ->. apply (uval_back intdim n e dst u); auto. }
  unfold hmat_assign, general, non_inv, unit_type, upart in *. destruct (u_type u) eqn:T; try congruence; try tauto.
  - cbn [fst] in G. destruct CL as [SC|[X _]]; [|discriminate]. destruct (zero_exact' n d dst m resp w Hd SC G) as (x & X1 & X2). exists x. split; auto.
    apply (BK x (w d)); auto. lra.
  - destruct (uci intdim n e dst u US T) as [Hi CI]. destruct (Nat.eqb_spec (u_i u) d) as [ED|ND']; cbn [negb] in *.
    + assert (CL' : sclosed n m \/ exists p q, dst 0 = Fin p /\ dst 1 = Fin q /\ (Q2R p = - Q2R q)%R).
      { destruct CL as [SC|[_ P]]; auto. right. destruct W as [WC _]. destruct (ui_cst _ _ _ _ _ US) as [em CB]. simpl in CB.
        assert (PT : forall r s, in2 r (dst 0) (dst 1) -> in2 s (dst 0) (dst 1) -> r = s).
        { intros r s H1 H2. apply P; apply (cbnd_exact _ _ _ _ _ WC CB); auto. }
        destruct C0 as [C01 C02]. destruct (dst 0) as [|p|]; [destruct C01| |].
        - destruct (dst 1) as [|q|]; [destruct C02| |]; simpl in *.
          + exists p, q. split; auto. split; auto. assert (H : (- Q2R p = Q2R q)%R) by (apply PT; split; simpl; lra). lra.
          + assert (H : (c0 = c0 + 1)%R) by (apply PT; split; simpl; auto; lra). lra.
        - assert (H : (c0 = c0 - 1)%R) by (apply PT; split; simpl; auto; eapply le_rb_le; [|exact C02]; lra). lra. }
      destruct CI as [CI|CI]; rewrite CI in *; unfold ulit in BK; simpl (_ =? _)%Z in *; cbv iota in *; cbn [fst] in G.
      * destruct (shift_exact n d dst m Hd ND w (ex_intro _ c0 C0) CL' G) as (x & X1 & X2). exists x. split; auto.
        apply (BK x (w d - x)%R); auto. rewrite lit_even, ED, vset_same. lra.
      * destruct (opp_exact n d dst m Hd ND w (ex_intro _ c0 C0) CL' G) as (x & X1 & X2). exists x. split; auto.
        apply (BK x (w d + x)%R); auto. rewrite lit_odd, ED, vset_same. lra.
    + cbn [fst] in G. destruct CL as [SC|[X _]]; [|discriminate].
      assert (L1 : ulit (u_i u) (u_ci u) < 2 * n) by (eapply ulit_lt; eauto).
      assert (L2 : ulit (u_i u) (u_ci u) / 2 <> d) by (rewrite ulit_half; auto).
      destruct (copy_exact n d (ulit (u_i u) (u_ci u)) dst m resp w Hd L1 L2 SC (ex_intro _ c0 C0) G) as (x & X1 & X2). exists x. split; auto.
      apply (BK x (w d - lit w (ulit (u_i u) (u_ci u)))%R); auto. rewrite lit_vset_other by auto. lra.
Qed.
Lemma hassign_closed : forall m', u_type u <> UEmpty -> sclosed n m -> hmat_assign (N:=E) dst m u n d true = (m', true) -> sclosed n m'.
Proof.
  intros m' NE SC H. destruct (uval_exists intdim n e dst u W US (fun _ => 0%R) NE) as [r0 Hr0]. destruct (uval intdim n e dst u W US _ r0 Hr0) as (c0 & c & C0 & _).
  assert (EX : exists r, in2 r (dst 0) (dst 1)) by eauto.
  unfold hmat_assign in H. destruct (u_type u) eqn:T; try congruence.
  - injection H as <-. apply zero_closed; auto.
  - destruct (uci intdim n e dst u US T) as [Hi CI]. destruct (Nat.eqb_spec (u_i u) d) as [ED|ND']; cbn [negb] in *.
    + destruct CI as [CI|CI]; rewrite CI in *; simpl (_ =? _)%Z in *; cbv iota in *; injection H as <-; [apply shift_closed; auto|apply opp_closed; auto].
    + injection H as <-. apply copy_closed; auto; [apply ulit_lt; auto|rewrite ulit_half; auto].
Qed.
Lemma hassign_resp : forall dim tmp (u' : uexpr) mm resp, snd (hmat_assign (N:=E) tmp mm u' dim d resp) = true -> resp = true.
Proof. intros. unfold hmat_assign in *. destruct (u_type u'); simpl in *; auto; try discriminate. destruct (negb _); simpl in *; auto. destruct (_ =? _)%Z; simpl in *; auto. destruct (_ =? _)%Z; simpl in *; auto. discriminate. Qed.
End HExact.

(** oct_assign_linexpr. *)
From Coq Require Import Arith Lia List ZArith QArith Qreals Reals Lra Bool.
From Verif Require Import Bound BoundFacts Linexpr LinexprFacts OctMat OctIdx OctClose OctWalk OctInc OctStrong OctGeom OctGeom2 Oct OctFacts OctFacts2 OctFacts3 OctForget OctTransfer OctUexpr OctGuard OctGuard2 OctGuard3 OctGuard4 OctGuard5 OctAssign OctAssign2 OctAssign3 OctAssign4 OctAssign5.
Import ListNotations.
Open Scope nat_scope.
#[local] Arguments Nat.div : simpl never.
#[local] Arguments Nat.modulo : simpl never.
#[local] Arguments Nat.mul : simpl never.
#[local] Arguments Nat.leb : simpl never.
#[local] Arguments Nat.ltb : simpl never.
#[local] Arguments xor1 : simpl never.
#[local] Arguments or1 : simpl never.
#[local] Arguments matpos : simpl never.
#[local] Arguments matpos2 : simpl never.
Local Notation E := exact_num.

(** ** Specification vocabulary *)
(** the number type represents -1, 0 and 1 *)
Definition exact_units (N : numtype) : Prop := forall z q, (z = -1 \/ z = 0 \/ z = 1)%Z -> (q == inject_Z z)%Q -> exists p, rnd N q = Fin p /\ (p == inject_Z z)%Q.
Lemma exact_units_E : exact_units E.
Proof. intros z q _ H. exists q. auto. Qed.
(** the value is a constant, or one variable with coefficient 1 or -1 plus a constant *)
Definition unary_expr (e : linexpr) : Prop := exists i,
  match le_terms e with
  | Dense l => forall d k, nth_error l d = Some k -> unit_at i i d k
  | Sparse ts => forall d k, In (Some d, k) ts -> unit_at i i d k
  end.
(** the octagon, if given, contains the point *)
Definition in_dest (dest : option oct) (v : nat -> R) : Prop := match dest with Some o => gamo o v | None => True end.
Definition dest_ok (a : oct) (dest : option oct) : Prop := match dest with Some o => wfo o /\ odim o = odim a | None => True end.
(** variable [d] does not occur in the expression *)
Definition not_in (d : nat) (e : linexpr) : Prop := forall k, lin_coeff e d = Some k -> is_cst k 0.

Section Class.
Context {N : numtype}.
Hypothesis HU : exact_units N.
Lemma is_cst_cbnd' : forall k z lo hi em, (z = -1 \/ z = 0 \/ z = 1)%Z -> is_cst k z -> cbnd (N:=N) k = (lo, hi, em) -> ieq lo (- z) = true /\ ieq hi z = true.
Proof.
  intros k z lo hi em Hz H B.
  assert (G : forall q, (q == inject_Z z)%Q -> ieq (bound_of_scalar (N:=N) (Fin q) true false) (- z) = true /\ ieq (bound_of_scalar (N:=N) (Fin q) false false) z = true).
  { intros q Hq. split; apply ieq_spec; unfold bound_of_scalar; simpl.
    - destruct (HU (- z) (- q)%Q) as (p & H1 & H2); [lia|rewrite Hq, inject_Z_opp; reflexivity|]. exists p. split; auto. apply Qeq_Q2R in H2. rewrite Q2R_inject in H2. auto.
    - destruct (HU z q Hz Hq) as (p & H1 & H2). exists p. split; auto. apply Qeq_Q2R in H2. rewrite Q2R_inject in H2. auto. }
  unfold cbnd in B. destruct k as [[|q|]|[|p|] [|q|]]; simpl in H; try tauto.
  - inversion B; subst. apply G; auto.
  - destruct H as [H1 H2]. unfold coeff_reduce in B. destruct (bequal (Fin p) (Fin q)); inversion B; subst; [apply G; auto|].
    split; [apply (G p); auto|apply (G q); auto].
Qed.
Lemma not_general : forall intdim n e dst u, wf_linexpr n e -> uspec (N:=N) intdim n e dst u -> unary_expr e -> ~ general u.
Proof.
  intros intdim n e dst u W S0 (a & O) T. pose proof (ui_cls _ _ _ _ _ S0) as C. simpl in C. unfold cls, general in *.
  assert (K : forall d, d < n -> zcell dst d \/ (d = a /\ exists c, ucell dst d c)).
  { intros d Hd. pose proof (ui_cell _ _ _ _ _ S0 d Hd) as CE. simpl in CE. unfold cell2 in CE. replace (2 * d + 2 + 1) with (2 * d + 3) in CE by lia.
    destruct (lin_coeff e d) as [k|] eqn:LC.
    - destruct CE as [em CE].
      assert (UA : unit_at a a d k).
      { unfold lin_coeff in LC. destruct (le_terms e); [apply O; auto|apply O, sp_coeff_In; auto]. }
      destruct UA as [UA|[D [UA|UA]]]; (eapply is_cst_cbnd' in UA; [|lia|exact CE]); destruct UA as [H1 H2].
      + left. split; apply ieq_szero; auto.
      + right. split; [tauto|]. exists 1%Z. split; auto.
      + right. split; [tauto|]. exists (-1)%Z. split; auto.
    - destruct CE as [H1 H2]. left. unfold zcell. rewrite H1, H2. auto. }
  destruct (u_type u); try tauto.
  - destruct C as (A1 & A2 & A3 & A4 & A5 & _). destruct (K _ A1) as [B|[B _]]; [apply ucell_nz in A4; tauto|]. destruct (K _ A2) as [B'|[B' _]]; [apply ucell_nz in A5; tauto|]. congruence.
  - destruct C as [(j & A1 & A2 & A3)|(i & j & k & A1 & A2 & A3 & A4 & A5 & A6 & A7 & A8 & A9)].
    + destruct (K j A1) as [B|[_ [c B]]]; [tauto|]. apply (A3 c B).
    + destruct (K i A1) as [B|[B _]]; [tauto|]. destruct (K j A2) as [B'|[B' _]]; [tauto|]. congruence.
Qed.
Lemma not_in_non_inv : forall intdim n e dst u d, wf_linexpr n e -> uspec (N:=N) intdim n e dst u -> d < n -> not_in d e -> non_inv u d = true.
Proof.
  intros intdim n e dst u d W S0 Hd NI. unfold non_inv. destruct (u_type u) eqn:T; auto. destruct (Nat.eqb_spec (u_i u) d) as [<-|]; auto. exfalso.
  pose proof (ui_cls _ _ _ _ _ S0) as C. simpl in C. unfold cls in C. rewrite T in C. destruct C as (A1 & A2 & _). apply ucell_nz in A2. apply A2.
  pose proof (ui_cell _ _ _ _ _ S0 (u_i u) Hd) as CE. simpl in CE. unfold cell2 in CE. replace (2 * u_i u + 2 + 1) with (2 * u_i u + 3) in CE by lia.
  destruct (lin_coeff e (u_i u)) as [k|] eqn:LC.
  - destruct CE as [em CE]. pose proof (NI k LC) as UA. eapply is_cst_cbnd' in UA; [|lia|exact CE]. destruct UA as [H1 H2]. split; apply ieq_szero; auto.
  - destruct CE as [E1 E2]. unfold zcell. rewrite E1, E2. split; reflexivity.
Qed.
End Class.

(** ** Intersection with the destination *)
Lemma inter_gam : forall n m dest a v, n = odim a -> dest_ok a dest -> dest_empty dest = false -> (gam n (inter_dest m dest) v <-> gam n m v /\ in_dest dest v).
Proof.
  intros n m [o|] a v Hn HO DE; simpl in *; [|tauto]. destruct HO as [W D]. rewrite (gamo_best o v W).
  unfold best. unfold best in *. destruct (ocl o) as [c|] eqn:OC; [|destruct (om o) as [c|] eqn:OM].
  - rewrite gam_min. rewrite D, <- Hn. tauto.
  - rewrite gam_min. rewrite D, <- Hn. tauto.
  - simpl in DE. discriminate.
Qed.
Lemma bmin_or : forall a b, bmin a b = a \/ bmin a b = b.
Proof. intros a b. destruct a, b; simpl; auto; destruct (Qle_bool _ _); auto. Qed.
Lemma bmax_or : forall a b, bmax a b = a \/ bmax a b = b.
Proof. intros a b. destruct a, b; simpl; auto; destruct (Qle_bool _ _); auto. Qed.
Lemma inter_wf : forall m dest a, dest_ok a dest -> wfm (odim a) m /\ nndiag (odim a) m -> wfm (odim a) (inter_dest m dest) /\ nndiag (odim a) (inter_dest m dest).
Proof.
  intros m [o|] a HO [W D]; simpl in *; auto. destruct HO as [WO DO]. destruct (best o) as [c|] eqn:B; auto. pose proof (best_wf o c WO B) as [WC DC]. rewrite DO in *.
  split.
  - intros i j Hi Hj. unfold cellwise. destruct (bmin_or (m (matpos i j)) (c (matpos i j))) as [-> | ->]; auto.
  - intros x Hx. unfold cellwise. destruct (bmin_or (m (matpos x x)) (c (matpos x x))) as [-> | ->]; auto.
Qed.

(** ** oct_assign_linexpr *)
Section Assign.
Context {N : numtype}.
Lemma assign_dim : forall algo tmp a d e dest, odim (oct_assign_linexpr (N:=N) algo tmp a d e dest) = odim a /\ oint (oct_assign_linexpr (N:=N) algo tmp a d e dest) = oint a.
Proof.
  intros. unfold oct_assign_linexpr. destruct (uexpr_of_linexpr _ _ _ _) as [t u]. destruct (dest_empty dest); auto.
  destruct (u_type u); auto; destruct (best _); try (split; destruct (non_inv u d); auto; apply cached_dim);
    destruct (hmat_assign _ _ _ _ _ _) as [m' r]; destruct r; (split; destruct (non_inv u d); auto; apply cached_dim).
Qed.
(** unfolding, in one place *)
Lemma assign_cases : forall algo tmp a d e dest dst u, uexpr_of_linexpr (N:=N) tmp e (oint a) (odim a) = (dst, u) ->
  let a' := if non_inv u d then cached (N:=N) algo a else a in
  let resp := is_some (ocl a') && (0 <=? algo)%Z && negb (is_some dest) in
  (dest_empty dest = true /\ oct_assign_linexpr (N:=N) algo tmp a d e dest = set_mat a None None) \/
  (dest_empty dest = false /\ u_type u = UEmpty /\ oct_assign_linexpr (N:=N) algo tmp a d e dest = set_mat a None None) \/
  (dest_empty dest = false /\ u_type u <> UEmpty /\ best a' = None /\ oct_assign_linexpr (N:=N) algo tmp a d e dest = mkOct None None (odim a) (oint a)) \/
  (exists m m' r, dest_empty dest = false /\ u_type u <> UEmpty /\ best a' = Some m /\ hmat_assign (N:=N) dst m u (odim a) d resp = (m', r) /\
     oct_assign_linexpr (N:=N) algo tmp a d e dest =
       if r then mkOct None (Some (inter_dest m' dest)) (odim a) (oint a) else mkOct (Some (inter_dest m' dest)) None (odim a) (oint a)).
Proof.
  intros algo tmp a d e dest dst u UE a' resp. unfold oct_assign_linexpr. rewrite UE. fold a'. fold resp.
  assert (DA : odim a' = odim a /\ oint a' = oint a) by (unfold a'; destruct (non_inv u d); auto; apply cached_dim).
  destruct DA as [D1 D2]. destruct (dest_empty dest) eqn:DE; auto.
  destruct (u_type u) eqn:T; auto; right; right; unfold set_mat; rewrite D1, D2; (destruct (best a') as [m|] eqn:B; [right|left; repeat split; auto; discriminate]);
    destruct (hmat_assign dst m u (odim a) d resp) as [m' r] eqn:H; exists m, m', r; (repeat split; auto; discriminate).
Qed.
Lemma assign_sound : forall algo tmp a d e dest v r, wfo a -> d < odim a -> wf_linexpr (odim a) e -> dest_ok a dest ->
  (forall dst u m, uexpr_of_linexpr (N:=N) tmp e (oint a) (odim a) = (dst, u) -> general u -> best (cached (N:=N) algo a) = Some m -> other_ok (N:=N) (odim a) dst m) ->
  gamo a v -> expr_val e v r -> in_dest dest (vset v d r) -> gamo (oct_assign_linexpr (N:=N) algo tmp a d e dest) (vset v d r).
Proof.
  intros algo tmp a d e dest v r W Hd WE DO OK G HE HD. destruct (uexpr_of_linexpr (N:=N) tmp e (oint a) (odim a)) as [dst u] eqn:UE.
  destruct (uexpr_spec (oint a) tmp e (odim a) dst u WE UE) as [US _].
  assert (WA' : wfo (if non_inv u d then cached (N:=N) algo a else a)) by (destruct (non_inv u d); auto; apply cached_wfo; auto).
  assert (GA' : gamo (if non_inv u d then cached (N:=N) algo a else a) v) by (destruct (non_inv u d); auto; apply cached_gamo; auto).
  assert (DA : odim (if non_inv u d then cached (N:=N) algo a else a) = odim a) by (destruct (non_inv u d); auto; apply cached_dim).
  pose proof GA' as GB. rewrite (gamo_best _ v WA'), DA in GB.
  destruct (assign_cases algo tmp a d e dest dst u UE) as [(DE & ->)|[(DE & T & ->)|[(DE & T & B & ->)|(m & m' & rr & DE & T & B & H & ->)]]].
  - exfalso. destruct dest as [o|]; simpl in *; [|discriminate]. destruct (ocl o) eqn:OC; [discriminate|]. destruct (om o) eqn:OM; [discriminate|].
    destruct HD as ([X|X] & _); congruence.
  - exfalso. apply (uval_nonempty (oint a) (odim a) e dst u WE US v r HE T).
  - rewrite B in GB. tauto.
  - rewrite B in GB. destruct (best_wf _ m WA' B) as [WM DM]. rewrite DA in *.
    assert (S : gam (odim a) m' (vset v d r)).
    { pose proof (hassign_sound (oint a) (odim a) d e dst u m Hd WE US DM (is_some (ocl (if non_inv u d then cached (N:=N) algo a else a)) && (0 <=? algo)%Z && negb (is_some dest)) v r GB HE) as S.
      rewrite H in S. apply S. intros GE. apply (OK dst u m eq_refl GE).
      unfold general, non_inv in *. destruct (u_type u); tauto. }
    destruct rr; [apply gamo_single_c|apply gamo_single_m]; apply (inter_gam (odim a) m' dest a); auto.
Qed.
Lemma assign_wfo : forall algo tmp a d e dest, wfo a -> d < odim a -> wf_linexpr (odim a) e -> dest_ok a dest ->
  (exists v, gamo a v) -> wfo (oct_assign_linexpr (N:=N) algo tmp a d e dest).
Proof.
  intros algo tmp a d e dest W Hd WE DO (v & G). destruct (uexpr_of_linexpr (N:=N) tmp e (oint a) (odim a)) as [dst u] eqn:UE.
  destruct (uexpr_spec (oint a) tmp e (odim a) dst u WE UE) as [US _]. pose proof (wfo_int _ W) as WI.
  assert (WA' : wfo (if non_inv u d then cached (N:=N) algo a else a)) by (destruct (non_inv u d); auto; apply cached_wfo; auto).
  assert (GA' : gamo (if non_inv u d then cached (N:=N) algo a else a) v) by (destruct (non_inv u d); auto; apply cached_gamo; auto).
  assert (DA : odim (if non_inv u d then cached (N:=N) algo a else a) = odim a) by (destruct (non_inv u d); auto; apply cached_dim).
  pose proof GA' as GB. rewrite (gamo_best _ v WA'), DA in GB.
  destruct (assign_cases algo tmp a d e dest dst u UE) as [(DE & ->)|[(DE & T & ->)|[(DE & T & B & ->)|(m & m' & rr & DE & T & B & H & ->)]]]; try (apply wfo_none; auto).
  rewrite B in GB. destruct (best_wf _ m WA' B) as [WM DM]. rewrite DA in *.
  destruct (hassign_wf (oint a) (odim a) d e dst u m Hd WE US DM (is_some (ocl (if non_inv u d then cached (N:=N) algo a else a)) && (0 <=? algo)%Z && negb (is_some dest)) WM T) as [W1 W2]; [eauto|].
  rewrite H in W1, W2. destruct (inter_wf m' dest a DO (conj W1 W2)). destruct rr; [apply wfo_single_c|apply wfo_single_m]; auto.
Qed.
End Assign.

Section AssignE.
Lemma resp_closed : forall (algo : Z) a (dest : option oct), exo a -> forall m, best a = Some m -> is_some (ocl a) && (0 <=? algo)%Z && negb (is_some dest) = true -> sclosed (odim a) m.
Proof.
  intros algo a dest X m B R. apply andb_true_iff in R as [R _]. apply andb_true_iff in R as [R _]. unfold best in B. destruct (ocl a) as [c|] eqn:OC; [|discriminate]. injection B as <-. apply (exo_c _ X). auto.
Qed.
Lemma assign_exo : forall algo tmp a d e dest, exo a -> d < odim a -> wf_linexpr (odim a) e -> dest_ok a dest -> exo (oct_assign_linexpr (N:=E) algo tmp a d e dest).
Proof.
  intros algo tmp a d e dest X Hd WE DO. destruct (uexpr_of_linexpr (N:=E) tmp e (oint a) (odim a)) as [dst u] eqn:UE. pose proof (exo_wf _ X) as W.
  destruct (uexpr_spec (oint a) tmp e (odim a) dst u WE UE) as [US _]. pose proof (wfo_int _ W) as WI.
  assert (XA' : exo (if non_inv u d then cached (N:=E) algo a else a)) by (destruct (non_inv u d); auto; apply cached_exo; auto).
  pose proof (exo_wf _ XA') as WA'.
  assert (DA : odim (if non_inv u d then cached (N:=E) algo a else a) = odim a) by (destruct (non_inv u d); auto; apply cached_dim).
  destruct (assign_cases algo tmp a d e dest dst u UE) as [(DE & ->)|[(DE & T & ->)|[(DE & T & B & ->)|(m & m' & rr & DE & T & B & H & ->)]]]; try (apply exo_none; auto).
  set (a' := if non_inv u d then cached (N:=E) algo a else a) in *. destruct (best_wf _ m WA' B) as [WM DM]. rewrite DA in *.
  set (resp := is_some (ocl a') && (0 <=? algo)%Z && negb (is_some dest)) in *.
  assert (SC : resp = true -> sclosed (odim a) m) by (intros R; rewrite <- DA; eapply resp_closed; eauto).
  destruct (hassign_wf (oint a) (odim a) d e dst u m Hd WE US DM resp WM T) as [W1 W2].
  { intros R. apply sc_nonempty. auto. }
  rewrite H in W1, W2. destruct (inter_wf m' dest a DO (conj W1 W2)) as [W3 W4]. destruct rr; [|apply exo_single_m; auto].
  assert (R : resp = true) by (apply (hassign_resp d (odim a) dst u m); rewrite H; auto).
  assert (ND : dest = None) by (unfold resp in R; apply andb_true_iff in R as [_ R]; destruct dest; [discriminate|auto]). subst dest. simpl.
  apply exo_single_c; auto. rewrite R in H. apply (hassign_closed (oint a) (odim a) d e dst u m Hd WE US m' T (SC R) H).
Qed.
Lemma assign_exact : forall algo tmp a d e dest w, (0 <= algo)%Z -> exo a -> d < odim a -> wf_linexpr (odim a) e -> dest_ok a dest -> unary_expr e ->
  (not_in d e \/ pt_cst (le_cst e) \/ ocl a <> None) ->
  gamo (oct_assign_linexpr (N:=E) algo tmp a d e dest) w -> in_dest dest w /\ exists x, gamo a (vset w d x) /\ expr_val e (vset w d x) (w d).
Proof.
  intros algo tmp a d e dest w HA X Hd WE DO UN CL G. destruct (uexpr_of_linexpr (N:=E) tmp e (oint a) (odim a)) as [dst u] eqn:UE. pose proof (exo_wf _ X) as W.
  destruct (uexpr_spec (oint a) tmp e (odim a) dst u WE UE) as [US _]. pose proof (wfo_int _ W) as WI.
  assert (XA' : exo (if non_inv u d then cached (N:=E) algo a else a)) by (destruct (non_inv u d); auto; apply cached_exo; auto).
  pose proof (exo_wf _ XA') as WA'.
  assert (DA : odim (if non_inv u d then cached (N:=E) algo a else a) = odim a) by (destruct (non_inv u d); auto; apply cached_dim).
  destruct (assign_cases algo tmp a d e dest dst u UE) as [(DE & EQ)|[(DE & T & EQ)|[(DE & T & B & EQ)|(m & m' & rr & DE & T & B & H & EQ)]]]; rewrite EQ in G; try (apply gamo_none in G; tauto).
  pose proof (not_general exact_units_E (oint a) (odim a) e dst u WE US UN) as NG.
  set (a' := if non_inv u d then cached (N:=E) algo a else a) in *. destruct (best_wf _ m WA' B) as [WM DM]. rewrite DA in *.
  assert (G' : gam (odim a) (inter_dest m' dest) w) by (destruct rr; [apply gamo_single_c in G|apply gamo_single_m in G]; auto).
  apply (inter_gam (odim a) m' dest a w eq_refl DO DE) in G'. destruct G' as [G1 G2]. split; auto.
  assert (CL' : sclosed (odim a) m \/ (non_inv u d = false /\ pt_cst (le_cst e))).
  { destruct (non_inv u d) eqn:NI.
    - left. apply (closed_ex algo a m HA X). exact B.
    - destruct CL as [CL|[CL|CL]]; auto.
      + apply (not_in_non_inv exact_units_E (oint a) (odim a) e dst u d WE US Hd) in CL. congruence.
      + left. unfold a', best in B. destruct (ocl a) as [c|] eqn:OC; [|tauto]. injection B as <-. apply (exo_c _ X). auto. }
  match type of H with hmat_assign dst m u (odim a) d ?R = _ => 
    destruct (hassign_exact (oint a) (odim a) d e dst u m Hd WE US DM R w T NG CL') as (x & X1 & X2); [rewrite H; auto|] end.
  exists x. split; auto. assert (GA : gamo a' (vset w d x)) by (rewrite (gamo_best _ _ WA'), B, DA; auto).
  unfold a' in GA. destruct (non_inv u d); auto. apply cached_gamo in GA; auto.
Qed.
End AssignE.

(** expressions over bounded variables *)
Definition fin_coeff (k : coeff) : Prop := match k with Scal (Fin _) => True | Intv (Fin _) (Fin _) => True | _ => False end.
Definition bounded_terms (a : oct) (e : linexpr) : Prop := forall j k, lin_coeff e j = Some k ->
  is_cst k 0 \/ (fin_coeff k /\ exists B, forall v, gamo a v -> (Rabs (v j) <= B)%R).
Lemma bmul_zero_fin : forall a b, bsgn b = 0%Z -> bmul (N:=E) a b = Fin 0.
Proof. intros a b H. unfold bmul. rewrite H. simpl. rewrite orb_true_r. auto. Qed.
Lemma bmul_fin_fin : forall p q, exists r, bmul (N:=E) (Fin p) (Fin q) = Fin r.
Proof. intros p q. unfold bmul. destruct (_ || _); simpl; eauto. Qed.
Lemma bmax_fin : forall a b, (exists p, a = Fin p) -> (exists q, b = Fin q) -> exists r, bmax a b = Fin r.
Proof. intros a b Ha Hb. destruct (bmax_or a b) as [-> | ->]; auto. Qed.
Lemma bounded_ok : forall tmp a e dst u m, exo a -> wf_linexpr (odim a) e -> sclosed (odim a) m -> (forall v, gam (odim a) m v -> gamo a v) ->
  uexpr_of_linexpr (N:=E) tmp e (oint a) (odim a) = (dst, u) -> u_type u <> UEmpty -> bounded_terms a e -> other_ok (N:=E) (odim a) dst m.
Proof.
  intros tmp a e dst u m X WE SC GM UE T BT. destruct (uexpr_spec (oint a) tmp e (odim a) dst u WE UE) as [US _].
  unfold other_ok. destruct (other_sums (N:=E) (odim a) m dst) as [[tmp' cs] Cs] eqn:OS. destruct (other_sums_spec _ _ _ _ _ _ OS) as (_ & OL & OH).
  assert (F : forall j, j < odim a -> binfty (Tlo (N:=E) m dst j) = false /\ binfty (Thi (N:=E) m dst j) = false).
  { intros j Hj. pose proof (ui_cell _ _ _ _ _ US j Hj) as CE. simpl in CE. unfold cell2 in CE. replace (2 * j + 2 + 1) with (2 * j + 3) in CE by lia.
    assert (Z : (bsgn (dst (2 * j + 2)) = 0%Z /\ bsgn (dst (2 * j + 3)) = 0%Z) \/
      (exists p q p' q', dst (2 * j + 2) = Fin p /\ dst (2 * j + 3) = Fin q /\ m (matpos (2 * j) (2 * j + 1)) = Fin p' /\ m (matpos (2 * j + 1) (2 * j)) = Fin q')).
    { destruct (lin_coeff e j) as [k|] eqn:LC.
      - destruct CE as [em CE]. destruct (BT j k LC) as [Z|(FC & B & HB)].
        + destruct (is_cst_cbnd k 0 _ _ _ Z CE) as [Z1 Z2]. apply ieq_szero in Z1, Z2. unfold szero in *. left. split; apply Z.eqb_eq; auto.
        + right. assert (DF : exists p q, dst (2 * j + 2) = Fin p /\ dst (2 * j + 3) = Fin q).
          { unfold cbnd in CE. destruct k as [[|q|]|[|p|] [|q|]]; simpl in FC; try tauto; unfold coeff_reduce in CE.
            - injection CE as E1 E2 E3. rewrite <- E1, <- E2. unfold bound_of_scalar; simpl. eauto.
            - destruct (bequal (Fin p) (Fin q)); injection CE as E1 E2 E3; rewrite <- E1, <- E2; unfold bound_of_scalar; simpl; eauto. }
          destruct DF as (p & q & D1 & D2). exists p, q.
          assert (M1 : exists p', m (matpos (2 * j) (2 * j + 1)) = Fin p').
          { rewrite <- (matpos2_half (2 * j) (2 * j + 1)) by (rewrite or1_even; lia). pose proof (sc_reach _ m (2 * j) (2 * j + 1) SC ltac:(lia) ltac:(lia)) as R.
            destruct (m (matpos2 (2 * j) (2 * j + 1))) as [|p'|]; simpl in R; [tauto|eauto|]. exfalso. destruct (R (2 * B + 1)%R) as (v & G & H).
            specialize (HB v (GM v G)). rewrite lit_odd, lit_even in H. pose proof (Rle_abs (- v j)) as A. rewrite Rabs_Ropp in A. lra. }
          assert (M2 : exists p', m (matpos (2 * j + 1) (2 * j)) = Fin p').
          { rewrite <- (matpos2_half (2 * j + 1) (2 * j)) by (rewrite or1_odd; lia). pose proof (sc_reach _ m (2 * j + 1) (2 * j) SC ltac:(lia) ltac:(lia)) as R.
            destruct (m (matpos2 (2 * j + 1) (2 * j))) as [|p'|]; simpl in R; [tauto|eauto|]. exfalso. destruct (R (2 * B + 1)%R) as (v & G & H).
            specialize (HB v (GM v G)). rewrite lit_odd, lit_even in H. pose proof (Rle_abs (v j)) as A. lra. }
          destruct M1 as [p' M1], M2 as [q' M2]. exists p', q'. auto.
      - destruct CE as [-> ->]. left. auto. }
    assert (BF : forall x, (exists q, x = Fin q) -> binfty x = false) by (intros x (q & ->); auto).
    unfold Tlo, Thi, bounds_mul. cbn [fst snd].
    destruct Z as [[Z1 Z2]|(p & q & p' & q' & Z1 & Z2 & Z3 & Z4)].
    - assert (Z3 : bsgn (bneg (dst (2 * j + 2))) = 0%Z) by (destruct (dst (2 * j + 2)); simpl in *; lia).
      assert (Z4 : bsgn (bneg (dst (2 * j + 3))) = 0%Z) by (destruct (dst (2 * j + 3)); simpl in *; lia).
      rewrite !bmul_zero_fin by auto. split; apply BF; repeat (apply bmax_fin; eauto).
    - rewrite Z1, Z2, Z3, Z4. simpl bneg. split; apply BF; repeat (apply bmax_fin); apply bmul_fin_fin. }
  left. split; intros I1.
  - destruct (os_1 _ _ _ _ OL) as [L1 L2]; [lia|]. destruct (F _ L1). congruence.
  - destruct (os_1 _ _ _ _ OH) as [L1 L2]; [lia|]. destruct (F _ L1). congruence.
Qed.

(** hmat_add_lincons with exact numbers, and meet with constraints at the level of octagons. *)
From Coq Require Import Arith Lia List ZArith QArith Qreals Reals Lra Bool.
From Verif Require Import Bound BoundFacts Linexpr LinexprFacts OctMat OctIdx OctClose OctWalk OctInc OctStrong OctGeom OctGeom2 Oct OctFacts OctFacts2 OctFacts3 OctTransfer OctUexpr OctGuard OctGuard2 OctGuard3 OctGuard4.
Import ListNotations.
Open Scope nat_scope.
#[local] Arguments Nat.div : simpl never.
#[local] Arguments Nat.modulo : simpl never.
#[local] Arguments Nat.mul : simpl never.
#[local] Arguments Nat.leb : simpl never.
#[local] Arguments Nat.ltb : simpl never.
#[local] Arguments xor1 : simpl never.
#[local] Arguments or1 : simpl never.
#[local] Arguments matpos : simpl never.
#[local] Arguments matpos2 : simpl never.
Local Notation E := exact_num.

(** ** Octagonal expressions: at most two variables, with coefficients 1 or -1 *)
Definition is_cst (k : coeff) (z : Z) : Prop :=
  match k with
  | Scal (Fin q) => (q == inject_Z z)%Q
  | Intv (Fin p) (Fin q) => (p == inject_Z z)%Q /\ (q == inject_Z z)%Q
  | _ => False
  end.
Definition unit_at (i j d : nat) (k : coeff) : Prop := is_cst k 0 \/ ((d = i \/ d = j) /\ (is_cst k 1 \/ is_cst k (-1))).
Definition oct_expr (e : linexpr) : Prop := exists i j,
  match le_terms e with
  | Dense l => forall d k, nth_error l d = Some k -> unit_at i j d k
  | Sparse ts => forall d k, In (Some d, k) ts -> unit_at i j d k
  end.
Lemma sp_coeff_In : forall ts d k, sp_coeff ts d = Some k -> In (Some d, k) ts.
Proof.
  induction ts as [|[[x|] c] ts IH]; simpl; intros d k H; try discriminate; auto.
  destruct (Nat.eqb_spec x d); [inversion H; subst; auto|auto].
Qed.
Lemma is_cst_cbnd : forall k z lo hi em, is_cst k z -> cbnd (N:=E) k = (lo, hi, em) -> ieq lo (- z) = true /\ ieq hi z = true.
Proof.
  intros k z lo hi em H B.
  assert (G : forall q, (q == inject_Z z)%Q -> ieq (bound_of_scalar (N:=E) (Fin q) true false) (- z) = true /\ ieq (bound_of_scalar (N:=E) (Fin q) false false) z = true).
  { intros q Hq. apply Qeq_Q2R in Hq. rewrite Q2R_inject in Hq. split; apply ieq_spec; unfold bound_of_scalar; simpl.
    - exists (- q)%Q. split; auto. rewrite Q2R_opp, opp_IZR. lra.
    - exists q. auto. }
  unfold cbnd in B. destruct k as [[|q|]|[|p|] [|q|]]; simpl in H; try tauto.
  - inversion B; subst. apply G; auto.
  - destruct H as [H1 H2]. unfold coeff_reduce in B. destruct (bequal (Fin p) (Fin q)); inversion B; subst; [apply G; auto|].
    split; [apply (G p); auto|apply (G q); auto].
Qed.
Lemma ieq_szero : forall b, ieq b 0 = true -> szero b = true.
Proof. intros b H. apply ieq_spec in H. apply szero_spec. exact H. Qed.
Lemma oct_not_other : forall intdim n e dst u, wf_linexpr n e -> uspec (N:=E) intdim n e dst u -> oct_expr e -> u_type u <> UOther.
Proof.
  intros intdim n e dst u W S0 (a & b & O) T. pose proof (ui_cls _ _ _ _ _ S0) as C. simpl in C. unfold cls in C. rewrite T in C.
  assert (K : forall d, d < n -> zcell dst d \/ ((d = a \/ d = b) /\ exists c, ucell dst d c)).
  { intros d Hd. pose proof (ui_cell _ _ _ _ _ S0 d Hd) as CE. simpl in CE. unfold cell2 in CE. replace (2 * d + 2 + 1) with (2 * d + 3) in CE by lia.
    destruct (lin_coeff e d) as [k|] eqn:LC.
    - destruct CE as [em CE].
      assert (UA : unit_at a b d k).
      { unfold lin_coeff in LC. destruct (le_terms e); [apply O; auto|apply O, sp_coeff_In; auto]. }
      destruct UA as [UA|[D [UA|UA]]]; destruct (is_cst_cbnd k _ _ _ _ UA CE) as [H1 H2].
      + left. split; apply ieq_szero; auto.
      + right. split; auto. exists 1%Z. split; auto.
      + right. split; auto. exists (-1)%Z. split; auto.
    - destruct CE as [H1 H2]. left. unfold zcell. rewrite H1, H2. auto. }
  destruct C as [(j & A1 & A2 & A3)|(i & j & k & A1 & A2 & A3 & A4 & A5 & A6 & A7 & A8 & A9)].
  - destruct (K j A1) as [B|[_ [c B]]]; [tauto|]. apply (A3 c B).
  - destruct (K i A1) as [B|[B _]]; [tauto|]. destruct (K j A2) as [B'|[B' _]]; [tauto|]. destruct (K k A3) as [B''|[B'' _]]; [tauto|].
    destruct B, B', B''; subst; tauto.
Qed.

Section Exact.
Variables (intdim n : nat).

Lemma in2_max : forall r x lo hi, in2 r lo hi -> le_rb x hi -> in2 (Rmax r x) lo hi.
Proof.
  intros r x lo hi [H1 H2] H. split.
  - eapply le_rb_le; [|exact H1]. pose proof (Rmax_l r x). lra.
  - unfold Rmax. destruct (Rle_dec r x); auto.
Qed.
(** the bounds put in the matrix are those of a solution *)
Lemma unit_sat : forall c dst u v, wf_linexpr n (lc_expr c) -> uspec (N:=E) intdim n (lc_expr c) dst u -> unit_type u ->
  ~ (lc_typ c = CEqMod \/ lc_typ c = CDisEq) ->
  match strict_typ u (lc_typ c) with
  | CEq => le_rb (- upart u v) (strict_tmp (N:=E) u (lc_typ c) dst 1) /\ le_rb (upart u v) (strict_tmp (N:=E) u (lc_typ c) dst 0)
  | CSup => exists x, (0 < x)%R /\ le_rb (x - upart u v) (strict_tmp (N:=E) u (lc_typ c) dst 1)
  | _ => le_rb (- upart u v) (strict_tmp (N:=E) u (lc_typ c) dst 1)
  end -> sat_cons c v.
Proof.
  intros c dst u v W S0 UT DM H.
  assert (T : u_type u <> UEmpty) by (unfold unit_type in UT; destruct (u_type u); try tauto; discriminate).
  destruct (uval_exists intdim n _ dst u W S0 v T) as [r0 Hr0]. destruct (uval_unit intdim n _ dst u W S0 v r0 UT Hr0) as (c1 & A1 & _).
  assert (P : forall x, (exists y, (x <= y)%R /\ le_rb (y - upart u v) (dst 1)) -> exists r, expr_val (lc_expr c) v r /\ (x <= r)%R).
  { intros x (y & L & Hy). exists (Rmax c1 (y - upart u v) + upart u v)%R. split; [|pose proof (Rmax_r c1 (y - upart u v)); lra].
    apply (uval_back intdim n _ dst); auto. apply in2_max; auto. }
  unfold sat_cons. unfold strict_typ, strict_tmp in H. destruct (strict_int u (lc_typ c)) eqn:SI.
  - unfold strict_int in SI. apply andb_true_iff in SI as [_ SI]. destruct (lc_typ c) eqn:TC; try discriminate. rewrite upd_same in H.
    destruct (P 1%R) as (r & R1 & R2).
    + exists 1%R. split; [lra|]. destruct (dst 1) as [|q|]; simpl in *; auto.
      rewrite Q2R_minus, Q2R_inject in H. lra.
    + exists r. split; auto. simpl. lra.
  - destruct (lc_typ c) eqn:TC; try (exfalso; apply DM; auto; fail).
    + destruct H as [H1 H2]. exists 0%R. split; [|reflexivity].
      replace 0%R with (- upart u v + upart u v)%R by ring. apply (uval_back intdim n _ dst); auto. split; auto. rewrite Ropp_involutive. auto.
    + destruct (P 0%R) as (r & R1 & R2); [exists 0%R; split; [lra|rewrite Rminus_0_l; auto]|]. exists r. auto.
    + destruct H as (x & X1 & X2). destruct (P x) as (r & R1 & R2); [exists x; split; [lra|auto]|]. exists r. split; auto. simpl. lra.
Qed.

Lemma add1_exact : forall c g g', wf_linexpr n (lc_expr c) -> (exists v r, expr_val (lc_expr c) v r) -> (g_pend g = true -> g_var g < n) ->
  add_lincons1 (N:=E) intdim n c g = Some g' -> g_exact g' = true ->
  g_exact g = true /\ forall v, gam n (g_m g') v -> gam n (g_m g) v /\ sat_cons c v.
Proof.
  intros c g g' W (v0 & r0 & HE) HV HG HX. pose proof (add1_step (N:=E) intdim n c g W) as ST. rewrite HG in ST. clear HG.
  remember (Some g') as o eqn:O. destruct ST.
  - inversion O; subst g'. discriminate.
  - exfalso. apply (uval_nonempty intdim n _ dst u W H0 v0 r0 HE). auto.
  - assert (UT : unit_type u) by (unfold unit_type; rewrite H1; exact I).
    rewrite O in H4. destruct (match t with CEq => _ | _ => _ end) eqn:B; inversion H4. subst g'. simpl in *. split; auto. intros v G. split; auto.
    apply (unit_sat c dst u v W H0 UT H). rewrite <- H2, <- H3. unfold upart. rewrite H1.
    destruct t.
    + apply andb_true_iff in B as [B1 B2]. apply snonneg_spec in B1, B2. rewrite Ropp_0. auto.
    + apply snonneg_spec in B. rewrite Ropp_0. auto.
    + apply spos_spec in B. destruct B as (x & X1 & X2). exists x. rewrite Rminus_0_r. auto.
    + apply andb_true_iff in B as [B1 B2]. apply snonneg_spec in B1, B2. rewrite Ropp_0. auto.
    + apply andb_true_iff in B as [B1 B2]. apply snonneg_spec in B1, B2. rewrite Ropp_0. auto.
  - assert (UT : unit_type u) by (unfold unit_type; destruct H1 as [-> | ->]; exact I).
    rewrite O in H11. destruct (pend_close (N:=E) n keep g) as [m|] eqn:PC; inversion H11. subst g'. clear H11. simpl in *.
    assert (TX : t <> CSup /\ g_exact g = true) by (destruct t; try discriminate HX; split; auto; discriminate). destruct TX as [TX ->]. split; auto.
    intros v G.
    assert (GM : gam n m v /\ le_rb (lit v j - lit v i) hi /\ (t = CEq -> le_rb (lit v (xor1 j) - lit v (xor1 i)) lo)).
    { unfold add_unit in G. destruct t.
      - apply mmin_gam in G; auto using xor1_lt. destruct G as [G G2]. apply mmin_gam in G; auto. tauto.
      - apply mmin_gam in G; auto. destruct G. split; [auto|]. split; auto. discriminate.
      - apply mmin_gam in G; auto. destruct G. split; [auto|]. split; auto. discriminate.
      - apply mmin_gam in G; auto. destruct G. split; [auto|]. split; auto. discriminate.
      - apply mmin_gam in G; auto. destruct G. split; [auto|]. split; auto. discriminate. }
    destruct GM as (GM & L1 & L2). split; [eapply pend_back; eauto|].
    apply (unit_sat c dst u v W H0 UT H). rewrite <- H2, <- H3.
    destruct (H10 v) as (kk & K1 & K2 & K3 & K4).
    assert (D2 : forall y b, le_rb (2 * y) (bmul_2 (N:=E) b) -> le_rb y b) by (intros y [|q|]; simpl; auto; rewrite Q2R_two; lra).
    assert (M1 : le_rb (- upart u v) (tmp 1)).
    { rewrite K2 in L1. destruct K1 as [-> | ->].
      - destruct (K3 eq_refl) as [-> _]. eapply le_rb_le; [|exact L1]. lra.
      - destruct (K4 eq_refl) as [-> _]. apply D2. eapply le_rb_le; [|exact L1]. lra. }
    assert (M2 : t = CEq -> le_rb (upart u v) (tmp 0)).
    { intros TE. specialize (L2 TE). rewrite !lit_xor1 in L2. replace (- lit v j - - lit v i)%R with (- (lit v j - lit v i))%R in L2 by lra. rewrite K2 in L2.
      destruct K1 as [-> | ->].
      - destruct (K3 eq_refl) as [_ ->]. eapply le_rb_le; [|exact L2]. lra.
      - destruct (K4 eq_refl) as [_ ->]. apply D2. eapply le_rb_le; [|exact L2]. lra. }
    destruct t; auto. congruence.
  - inversion O; subst g'. discriminate.
Qed.
(** octagonal constraints are exact *)
Lemma add1_flag : forall c g g', wf_linexpr n (lc_expr c) -> oct_expr (lc_expr c) -> (lc_typ c = CEq \/ lc_typ c = CSupEq) ->
  add_lincons1 (N:=E) intdim n c g = Some g' -> g_exact g = true -> g_exact g' = true.
Proof.
  intros c g g' W OE TY HG HX. pose proof (add1_step (N:=E) intdim n c g W) as ST. rewrite HG in ST. clear HG.
  remember (Some g') as o eqn:O.
  assert (SN : forall u, strict_typ u (lc_typ c) <> CSup) by (intros u; unfold strict_typ, strict_int; destruct TY as [-> | ->]; rewrite andb_false_r; discriminate).
  destruct ST.
  - destruct TY as [TY|TY]; rewrite TY in H; destruct H; discriminate.
  - inversion O; subst; auto.
  - rewrite O in H4. destruct (match t with CEq => _ | _ => _ end); inversion H4. auto.
  - rewrite O in H11. destruct (pend_close (N:=E) n keep g) as [m|]; inversion H11. simpl. specialize (SN u). rewrite <- H3 in SN. destruct t; auto; congruence.
  - exfalso. apply (oct_not_other intdim n _ dst u W H0 OE). auto.
Qed.

(** ** Closure *)
Definition cinv (g : gst) : Prop := g_resp g = true ->
  if g_pend g then exists m0, sclosed n m0 /\ agree_except n (g_var g) m0 (g_m g) else sclosed n (g_m g).
Lemma add_unit_agree : forall x m0 m t i j hi lo, (i / 2 = x \/ j / 2 = x) -> agree_except n x m0 m -> agree_except n x m0 (add_unit m t i j hi lo).
Proof.
  intros x m0 m t i j hi lo D A. unfold add_unit. pose proof (mmin_agree n x m0 m i j hi D A) as A1. destruct t; auto.
  apply mmin_agree; auto. rewrite !div2_xor1. auto.
Qed.
Lemma agree_refl : forall x m, agree_except n x m m.
Proof. intros x m i j _ _ _ _. reflexivity. Qed.
Lemma pend_cinv : forall keep g m, ginv n g -> cinv g -> pend_close (N:=E) n keep g = Some m -> g_resp g = true ->
  (g_pend g = true /\ keep = true /\ m = g_m g) \/ sclosed n m.
Proof.
  intros keep g m (HV & W1 & W2) C P R. unfold pend_close in P. rewrite R in P. simpl in P. specialize (C R).
  destruct (g_pend g) eqn:PE; simpl in P.
  - destruct keep; simpl in P; [inversion P; subst; auto|]. right. destruct C as (m0 & S0 & A).
    destruct (hmat_close_incremental (N:=E) (g_m g) n (g_var g)) as [m' b] eqn:CI. destruct b; inversion P; subst.
    apply (close_inc_exact n (g_m g) (g_var g)); auto. apply (agree_tri_except n (g_var g) m0); auto. apply sc_tri; auto.
  - inversion P; subst. right. auto.
Qed.
Lemma add1_cinv : forall c g g', wf_linexpr n (lc_expr c) -> ginv n g -> cinv g -> add_lincons1 (N:=E) intdim n c g = Some g' -> cinv g'.
Proof.
  intros c g g' W GI C HG. pose proof (add1_step (N:=E) intdim n c g W) as ST. rewrite HG in ST. clear HG.
  remember (Some g') as o eqn:O. destruct ST.
  - inversion O; subst g'. exact C.
  - inversion O; subst g'. exact C.
  - rewrite O in H4. destruct (match t with CEq => _ | _ => _ end); inversion H4. exact C.
  - rewrite O in H11. destruct (pend_close (N:=E) n keep g) as [m|] eqn:PC; inversion H11. intros R. simpl in *.
    destruct (pend_cinv keep g m GI C PC R) as [(P1 & P2 & ->)|S0].
    + specialize (C R). rewrite P1 in C. destruct C as (m0 & S0 & A). exists m0. split; auto. rewrite (H9 P2) in A. apply add_unit_agree; auto.
    + exists m. split; auto. apply add_unit_agree; auto. apply agree_refl.
  - inversion O; subst g'. intros R. discriminate.
Qed.
End Exact.

(** ** All the constraints *)
Section Loop.
Context {N : numtype}.
Variables (intdim n : nat).
Lemma loop_sound : forall ar g v, (forall c, In c ar -> wf_linexpr n (lc_expr c)) -> (g_pend g = true -> g_var g < n) -> gam n (g_m g) v ->
  (forall c, In c ar -> sat_cons c v) -> (forall c, In c ar -> lc_typ c = CSup -> int_pts intdim v /\ repr_e (N:=N) (lc_expr c)) ->
  exists g', add_lincons_loop (N:=N) intdim n ar g = Some g' /\ gam n (g_m g') v /\ (g_pend g' = true -> g_var g' < n).
Proof.
  induction ar as [|c ar IH]; intros g v W HV G S0 HI; simpl; [eauto|].
  destruct (add1_sound (N:=N) intdim n c g v) as (g1 & E1 & G1 & V1); auto; [apply W; simpl; auto|apply S0; simpl; auto|apply HI; simpl; auto|].
  rewrite E1. apply IH; auto; intros c' Hc'; [apply W|apply S0|apply HI]; simpl; auto.
Qed.
Lemma loop_wf : forall ar g g', (forall c, In c ar -> wf_linexpr n (lc_expr c)) -> ginv n g -> add_lincons_loop (N:=N) intdim n ar g = Some g' -> ginv n g'.
Proof.
  induction ar as [|c ar IH]; intros g g' W GI H; simpl in H; [inversion H; subst; auto|].
  destruct (add_lincons1 (N:=N) intdim n c g) as [g1|] eqn:A; [|discriminate].
  apply (IH g1 g'); auto; [intros; apply W; simpl; auto|]. eapply (add1_wf (N:=N) intdim n c g); eauto. apply W; simpl; auto.
Qed.
Lemma add_sound : forall tmp b ar resp v, (forall c, In c ar -> wf_linexpr n (lc_expr c)) -> gam n b v ->
  (forall c, In c ar -> sat_cons c v) -> (forall c, In c ar -> lc_typ c = CSup -> int_pts intdim v /\ repr_e (N:=N) (lc_expr c)) ->
  exists m x r, hmat_add_lincons (N:=N) tmp b intdim n ar resp = Some (m, x, r) /\ gam n m v.
Proof.
  intros tmp b ar resp v W G S0 HI. unfold hmat_add_lincons.
  destruct (loop_sound ar (mkG b tmp true resp false 0) v) as (g' & -> & G1 & V1); auto; [discriminate|].
  destruct (pend_sound (N:=N) n false g' v V1 G1) as (m & -> & Gm). eauto.
Qed.
Lemma add_wf : forall tmp b ar resp m x r, (forall c, In c ar -> wf_linexpr n (lc_expr c)) -> wfm n b /\ nndiag n b ->
  hmat_add_lincons (N:=N) tmp b intdim n ar resp = Some (m, x, r) -> wfm n m /\ nndiag n m.
Proof.
  intros tmp b ar resp m x r W WB H. unfold hmat_add_lincons in H.
  destruct (add_lincons_loop intdim n ar (mkG b tmp true resp false 0)) as [g'|] eqn:L; [|discriminate].
  apply loop_wf in L; auto; [|split; [discriminate|auto]]. destruct L as (V & WM).
  destruct (pend_close (N:=N) n false g') as [m'|] eqn:P; [|discriminate]. inversion H; subst. eapply pend_wf; eauto.
Qed.
End Loop.
Section LoopE.
Variables (intdim n : nat).
Lemma loop_exact : forall ar g g', (forall c, In c ar -> wf_linexpr n (lc_expr c)) -> (forall c, In c ar -> exists v r, expr_val (lc_expr c) v r) ->
  ginv n g -> add_lincons_loop (N:=E) intdim n ar g = Some g' -> g_exact g' = true ->
  g_exact g = true /\ forall v, gam n (g_m g') v -> gam n (g_m g) v /\ forall c, In c ar -> sat_cons c v.
Proof.
  induction ar as [|c ar IH]; intros g g' W HE GI H X; simpl in H; [inversion H; subst; split; auto; intros; split; auto; contradiction|].
  destruct (add_lincons1 (N:=E) intdim n c g) as [g1|] eqn:A; [|discriminate].
  assert (GI1 : ginv n g1) by (eapply (add1_wf (N:=E) intdim n c g); eauto; apply W; simpl; auto).
  destruct (IH g1 g') as [X1 H1]; auto; [intros; apply W; simpl; auto|intros; apply HE; simpl; auto|].
  destruct (add1_exact intdim n c g g1) as [X0 H0]; auto; [apply W; simpl; auto|apply HE; simpl; auto|apply GI|].
  split; auto. intros v G. destruct (H1 v G) as [G1 S1]. destruct (H0 v G1) as [G2 S2]. split; auto. intros c' [<-|Hc']; auto.
Qed.
Lemma loop_flag : forall ar g g', (forall c, In c ar -> wf_linexpr n (lc_expr c) /\ oct_expr (lc_expr c) /\ (lc_typ c = CEq \/ lc_typ c = CSupEq)) ->
  add_lincons_loop (N:=E) intdim n ar g = Some g' -> g_exact g = true -> g_exact g' = true.
Proof.
  induction ar as [|c ar IH]; intros g g' W H X; simpl in H; [inversion H; subst; auto|].
  destruct (add_lincons1 (N:=E) intdim n c g) as [g1|] eqn:A; [|discriminate].
  destruct (W c) as (A1 & A2 & A3); [simpl; auto|].
  apply (IH g1 g'); auto; [intros; apply W; simpl; auto|]. eapply add1_flag; eauto.
Qed.
Lemma loop_cinv : forall ar g g', (forall c, In c ar -> wf_linexpr n (lc_expr c)) -> ginv n g -> cinv n g ->
  add_lincons_loop (N:=E) intdim n ar g = Some g' -> cinv n g'.
Proof.
  induction ar as [|c ar IH]; intros g g' W GI C H; simpl in H; [inversion H; subst; auto|].
  destruct (add_lincons1 (N:=E) intdim n c g) as [g1|] eqn:A; [|discriminate].
  assert (WC : wf_linexpr n (lc_expr c)) by (apply W; simpl; auto).
  apply (IH g1 g'); auto; [intros; apply W; simpl; auto| |].
  - eapply (add1_wf (N:=E) intdim n c g); eauto.
  - eapply (add1_cinv intdim n c g); eauto.
Qed.
Lemma add_exact : forall tmp b ar resp m r, (forall c, In c ar -> wf_linexpr n (lc_expr c)) -> (forall c, In c ar -> exists v r, expr_val (lc_expr c) v r) ->
  wfm n b /\ nndiag n b -> hmat_add_lincons (N:=E) tmp b intdim n ar resp = Some (m, true, r) ->
  forall v, gam n m v -> gam n b v /\ forall c, In c ar -> sat_cons c v.
Proof.
  intros tmp b ar resp m r W HE WB H v G. unfold hmat_add_lincons in H.
  destruct (add_lincons_loop intdim n ar (mkG b tmp true resp false 0)) as [g'|] eqn:L; [|discriminate].
  assert (GI : ginv n (mkG b tmp true resp false 0)) by (split; [discriminate|auto]).
  destruct (pend_close (N:=E) n false g') as [m'|] eqn:P; [|discriminate]. inversion H; subst.
  destruct (loop_exact ar _ g' W HE GI L) as [_ X]; auto. apply X. eapply pend_back; eauto.
  apply (loop_wf (N:=E) intdim n ar _ g' W GI L).
Qed.
Lemma add_flag : forall tmp b ar resp m x r, (forall c, In c ar -> wf_linexpr n (lc_expr c) /\ oct_expr (lc_expr c) /\ (lc_typ c = CEq \/ lc_typ c = CSupEq)) ->
  hmat_add_lincons (N:=E) tmp b intdim n ar resp = Some (m, x, r) -> x = true.
Proof.
  intros tmp b ar resp m x r W H. unfold hmat_add_lincons in H.
  destruct (add_lincons_loop intdim n ar (mkG b tmp true resp false 0)) as [g'|] eqn:L; [|discriminate].
  destruct (pend_close (N:=E) n false g') as [m'|] eqn:P; [|discriminate]. inversion H; subst. eapply loop_flag; eauto.
Qed.
Lemma add_closed : forall tmp b ar resp m x, (forall c, In c ar -> wf_linexpr n (lc_expr c)) -> wfm n b /\ nndiag n b -> (resp = true -> sclosed n b) ->
  hmat_add_lincons (N:=E) tmp b intdim n ar resp = Some (m, x, true) -> sclosed n m.
Proof.
  intros tmp b ar resp m x W WB SC H. unfold hmat_add_lincons in H.
  destruct (add_lincons_loop intdim n ar (mkG b tmp true resp false 0)) as [g'|] eqn:L; [|discriminate].
  assert (GI : ginv n (mkG b tmp true resp false 0)) by (split; [discriminate|auto]).
  assert (C0 : cinv n (mkG b tmp true resp false 0)) by (intros R; simpl in *; auto).
  pose proof (loop_cinv ar _ g' W GI C0 L) as C. pose proof (loop_wf (N:=E) intdim n ar _ g' W GI L) as GI'.
  destruct (pend_close (N:=E) n false g') as [m'|] eqn:P; [|discriminate]. inversion H; subst.
  destruct (pend_cinv n false g' m GI' C P) as [(_ & Q & _)|]; auto. discriminate.
Qed.
End LoopE.

(** ** Octagons *)
Section OctLevel.
Context {N : numtype}.
Lemma meet_lincons_dim : forall algo tmp a ar, odim (fst (oct_meet_lincons_array (N:=N) algo tmp a ar)) = odim a /\ oint (fst (oct_meet_lincons_array (N:=N) algo tmp a ar)) = oint a.
Proof.
  intros. unfold oct_meet_lincons_array. destruct (best a); auto. destruct (hmat_add_lincons _ _ _ _ _ _) as [[[m x] r]|]; auto. destruct r; auto.
Qed.
Lemma meet_lincons_sound : forall algo tmp a ar v, wfo a -> (forall c, In c ar -> wf_linexpr (odim a) (lc_expr c)) ->
  gamo a v -> (forall c, In c ar -> sat_cons c v) ->
  (forall c, In c ar -> lc_typ c = CSup -> int_pts (oint a) v /\ repr_e (N:=N) (lc_expr c)) ->
  gamo (fst (oct_meet_lincons_array (N:=N) algo tmp a ar)) v.
Proof.
  intros algo tmp a ar v W WC G S0 HI. apply gamo_best in G; auto. unfold oct_meet_lincons_array. destruct (best a) as [b|] eqn:B; [|tauto].
  destruct (add_sound (N:=N) (oint a) (odim a) tmp b ar (is_some (ocl a) && (0 <=? algo)%Z) v WC G S0 HI) as (m & x & r & -> & Gm).
  unfold set_mat. destruct r; simpl; [apply gamo_single_c|apply gamo_single_m]; auto.
Qed.
Lemma meet_lincons_wfo : forall algo tmp a ar, wfo a -> (forall c, In c ar -> wf_linexpr (odim a) (lc_expr c)) -> wfo (fst (oct_meet_lincons_array (N:=N) algo tmp a ar)).
Proof.
  intros algo tmp a ar W WC. pose proof (wfo_int _ W) as WI. unfold oct_meet_lincons_array. destruct (best a) as [b|] eqn:B; [|apply wfo_none; auto].
  pose proof (best_wf a b W B) as WB.
  destruct (hmat_add_lincons tmp b (oint a) (odim a) ar _) as [[[m x] r]|] eqn:H; [|apply wfo_none; auto].
  destruct (add_wf (N:=N) _ _ _ _ _ _ _ _ _ WC WB H). destruct r; [apply wfo_single_c|apply wfo_single_m]; auto.
Qed.
End OctLevel.
Lemma meet_lincons_exo : forall algo tmp a ar, exo a -> (forall c, In c ar -> wf_linexpr (odim a) (lc_expr c)) -> exo (fst (oct_meet_lincons_array (N:=E) algo tmp a ar)).
Proof.
  intros algo tmp a ar X WC. pose proof (exo_wf _ X) as W. pose proof (wfo_int _ W) as WI. unfold oct_meet_lincons_array. destruct (best a) as [b|] eqn:B; [|apply exo_none; auto].
  pose proof (best_wf a b W B) as WB.
  destruct (hmat_add_lincons tmp b (oint a) (odim a) ar _) as [[[m x] r]|] eqn:H; [|apply exo_none; auto].
  destruct (add_wf (N:=E) _ _ _ _ _ _ _ _ _ WC WB H). destruct r; [apply exo_single_c|apply exo_single_m]; auto.
  refine (add_closed _ _ _ _ _ _ _ _ WC WB _ H). intros R. apply andb_true_iff in R as [R _].
  unfold best in B. destruct (ocl a) as [c|] eqn:OC; [|discriminate]. inversion B; subst. apply (exo_c _ X); auto.
Qed.
Lemma meet_lincons_exact : forall algo tmp a ar v, wfo a -> (forall c, In c ar -> wf_linexpr (odim a) (lc_expr c)) ->
  (forall c, In c ar -> exists v r, expr_val (lc_expr c) v r) -> snd (oct_meet_lincons_array (N:=E) algo tmp a ar) = true ->
  gamo (fst (oct_meet_lincons_array (N:=E) algo tmp a ar)) v -> gamo a v /\ forall c, In c ar -> sat_cons c v.
Proof.
  intros algo tmp a ar v W WC HE X G. rewrite (gamo_best a v W). unfold oct_meet_lincons_array in *. destruct (best a) as [b|] eqn:B; [|apply gamo_none in G; tauto].
  pose proof (best_wf a b W B) as WB.
  destruct (hmat_add_lincons tmp b (oint a) (odim a) ar _) as [[[m x] r]|] eqn:H; [|apply gamo_none in G; tauto].
  simpl in X. subst x. assert (Gm : gam (odim a) m v) by (destruct r; [apply gamo_single_c in G|apply gamo_single_m in G]; auto).
  apply (add_exact _ _ _ _ _ _ _ _ WC HE WB H v Gm).
Qed.
Lemma meet_lincons_flag : forall algo tmp a ar, (forall c, In c ar -> wf_linexpr (odim a) (lc_expr c) /\ oct_expr (lc_expr c) /\ (lc_typ c = CEq \/ lc_typ c = CSupEq)) ->
  snd (oct_meet_lincons_array (N:=E) algo tmp a ar) = true.
Proof.
  intros algo tmp a ar H. unfold oct_meet_lincons_array. destruct (best a) as [b|]; auto.
  destruct (hmat_add_lincons tmp b (oint a) (odim a) ar _) as [[[m x] r]|] eqn:HH; auto. simpl. eapply add_flag; eauto.
Qed.

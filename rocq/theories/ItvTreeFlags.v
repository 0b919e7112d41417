(** With exact numbers, the flag "the constant is a point" of a linearised tree is right whenever
    all its coefficients are points. *)
From Coq Require Import Arith ZArith QArith Qround Qreals Reals Bool List Lra Lia Psatz.
From Verif Require Import Bound BoundFacts Itv ItvFacts ItvFacts2 ItvHistory Linexpr ItvLin ItvLinFacts ItvLinCons ApTexpr TexprSem ItvTree ItvTreeFacts.
Import ListNotations.
Open Scope Z_scope.
Local Notation E := exact_num.

Definition wide (a : itv) : Prop := exists x y, x <> y /\ in_itv x a /\ in_itv y a.
Definition nzero (a : itv) : Prop := exists x, x <> 0%R /\ in_itv x a.
Lemma point_or_wide : forall a x, in_itv x a -> itv_is_point a = true \/ wide a.
Proof.
  intros [i s] x [A B]. simpl in A, B. destruct i as [|p|], s as [|q|]; simpl in A, B; try tauto.
  - destruct (Req_dec (Q2R p) (- Q2R q)) as [D|D]. left. apply point_iff. exists p, q. auto.
    right. exists (- Q2R p)%R, (Q2R q). split; [lra|]. split; split; simpl; lra.
  - right. exists x, (x + 1)%R. split; [lra|]. split; split; simpl; auto; lra.
  - right. exists x, (x - 1)%R. split; [lra|]. split; split; simpl; auto; lra.
  - right. exists x, (x - 1)%R. split; [lra|]. split; split; simpl; auto; lra.
Qed.
Lemma wide_not_point : forall a, wide a -> itv_is_point a = false.
Proof. intros a (x & y & D & X & Y). destruct (itv_is_point a) eqn:P; auto. apply (point_val a x P) in X. apply (point_val a y P) in Y. congruence. Qed.
Lemma not_wide_point : forall a x, in_itv x a -> (forall y, in_itv y a -> y = x) -> itv_is_point a = true.
Proof. intros a x X H. destruct (point_or_wide a x X) as [|(y & z & D & Y & Z)]; auto. rewrite (H y Y), (H z Z) in D. congruence. Qed.
Lemma nzero_of : forall a x, in_itv x a -> itv_is_zero a = false -> nzero a.
Proof.
  intros [i s] x [A B] Z. unfold itv_is_zero in Z. simpl in *. destruct (Req_dec x 0) as [X|X]; [|exists x; split; auto; split; auto]. subst x. rewrite Ropp_0 in A.
  apply andb_false_iff in Z. destruct i as [|p|], s as [|q|]; simpl in *; try tauto; try (exists 1%R; split; [lra|]; split; simpl; auto; lra); try (exists (-1)%R; split; [lra|]; split; simpl; auto; lra).
  - destruct (Req_dec (Q2R p) 0) as [P|P].
    + destruct (Req_dec (Q2R q) 0) as [Q|Q]; [|exists (Q2R q); split; auto; split; simpl; lra].
      exfalso. destruct Z as [Z|Z]; apply Z.eqb_neq in Z; apply Z; apply sgn_Q_zero; auto.
    + exists (- Q2R p)%R. split; [lra|]. split; simpl; lra.
Qed.
Lemma nzero_not_zero : forall a, nzero a -> itv_is_zero a = false.
Proof. intros a (x & D & X). destruct (itv_is_zero a) eqn:Z; auto. exfalso. apply D. eapply is_zero_val; eauto. Qed.

(** products and quotients of points *)
Lemma point_mul_E : forall a b, itv_is_point a = true -> itv_is_point b = true -> itv_is_point (itv_mul (N:=E) a b) = true.
Proof.
  intros a b A B. pose proof (point_ex a A) as XA. pose proof (point_ex b B) as XB. set (x := Q2R (bfinq (sup a))) in *. set (y := Q2R (bfinq (sup b))) in *.
  apply (not_wide_point _ (x * y)%R). apply itv_mul_sound; auto.
  pose (q := (bfinq (sup a) * bfinq (sup b))%Q). destruct (itv_arith_best a b (itv_of_num q) x y XA XB) as (_ & _ & _ & M).
  intros z Z. assert (Z' : in_itv z (itv_of_num q)).
  { apply M; auto. intros x' y' X' Y'. apply (point_val a x' A) in X'. apply (point_val b y' B) in Y'. subst x' y'. split; simpl; unfold q; try rewrite Q2R_opp; rewrite Q2R_mult; lra. }
  destruct Z' as [Z1 Z2]. simpl in Z1, Z2. rewrite Q2R_opp in Z1. unfold q in Z1, Z2. rewrite Q2R_mult in Z1, Z2. unfold x, y. lra.
Qed.
Lemma bdiv_fin : forall p q, Q2R q <> 0%R -> exists r, bdiv (N:=E) (Fin p) (Fin q) = Fin r /\ Q2R r = (Q2R p / Q2R q)%R.
Proof.
  intros p q H. unfold bdiv. simpl. destruct (Z.sgn (Qnum p) =? 0) eqn:P; simpl.
  - apply Z.eqb_eq in P. apply sgn_Q_zero in P. eexists. split; [reflexivity|]. rewrite P. rewrite Q2R_0'. lra.
  - destruct (Z.sgn (Qnum q) =? 0) eqn:Q. apply Z.eqb_eq in Q. apply sgn_Q_zero in Q. congruence.
    eexists. split; [reflexivity|]. apply Q2R_div. intro K. apply H. apply Qeq_Q2R in K. rewrite K. apply Q2R_0'.
Qed.
Lemma point_div_E : forall a b, itv_is_point a = true -> itv_is_point b = true -> nzero b -> itv_is_point (itv_div (N:=E) a b) = true.
Proof.
  intros a b A B (y & NY & Y). apply (point_val b y B) in Y. apply point_iff in A, B. destruct A as (p & p' & A1 & A2 & A3), B as (q & q' & B1 & B2 & B3). rewrite B2 in Y. simpl in Y.
  assert (NQ : Q2R q' <> 0%R) by congruence. assert (NQ' : Q2R q <> 0%R) by (rewrite B3; lra).
  assert (NN : Q2R (- q) <> 0%R) by (rewrite Q2R_opp; lra). assert (NN' : Q2R (- q') <> 0%R) by (rewrite Q2R_opp; lra).
  apply point_iff. unfold itv_div, itv_divp, itv_divn, itv_divpp, itv_divnn, itv_divpn, itv_divnp. rewrite A1, A2, B1, B2. cbn [bneg].
  assert (G : forall s1 s2 t1 t2, Q2R t1 <> 0%R -> Q2R t2 <> 0%R -> (Q2R s1 / Q2R t1 = - (Q2R s2 / Q2R t2))%R ->
     exists p0 q0, inf (mkItv (bdiv (N:=E) (Fin s1) (Fin t1)) (bdiv (N:=E) (Fin s2) (Fin t2))) = Fin p0 /\ sup (mkItv (bdiv (N:=E) (Fin s1) (Fin t1)) (bdiv (N:=E) (Fin s2) (Fin t2))) = Fin q0 /\ Q2R p0 = (- Q2R q0)%R).
  { intros s1 s2 t1 t2 T1 T2 H. destruct (bdiv_fin s1 t1 T1) as (r1 & R1 & V1), (bdiv_fin s2 t2 T2) as (r2 & R2 & V2). rewrite R1, R2. exists r1, r2. simpl. rewrite V1, V2. auto. }
  destruct (bsgn (Fin q) <? 0) eqn:S1.
  - destruct (bsgn (Fin p) <=? 0); [|destruct (bsgn (Fin p') <=? 0)]; apply G; auto; rewrite ?Q2R_opp, ?A3, ?B3; field; auto.
  - destruct (bsgn (Fin q') <? 0) eqn:S2.
    + destruct (bsgn (Fin p) <=? 0); [|destruct (bsgn (Fin p') <=? 0)]; apply G; auto; rewrite ?Q2R_opp, ?A3, ?B3; field; auto.
    + exfalso. apply Z.ltb_ge in S1, S2. apply bsgn_ge0 in S1, S2. simpl in S1, S2. lra.
Qed.

Section Flags.
Context {N : numtype} {F : fmts}.
Definition tnz (ts : list iterm) : Prop := Forall (fun t => nzero (t_itv t)) ts.
Definition some_wide (ts : list iterm) : Prop := Exists (fun t => wide (t_itv t)) ts.
Definition okl (l : ilin) : Prop := tnz (il_terms l) /\ (il_terms l = [] \/ some_wide (il_terms l) \/ cst_flag_ok l).

Lemma okl_neg : forall l, okl l -> okl (ilin_neg l).
Proof.
  intros l [A B]. split; simpl.
  - apply Forall_map. eapply Forall_impl; [|exact A]. simpl. intros t (x & D & X). exists (- x)%R. split; [lra|]. apply itv_neg_sound; auto.
  - destruct B as [B|[B|B]].
    + left. rewrite B. auto.
    + right; left. apply Exists_exists in B. destruct B as (t & T & x & y & D & X & Y). apply Exists_exists. eexists. split. apply in_map; eauto. simpl. exists (- x)%R, (- y)%R. split; [lra|]. split; apply itv_neg_sound; auto.
    + right; right. intros Q. simpl in *. specialize (B Q). apply point_iff in B. destruct B as (p & q & E1 & E2 & E3). apply point_iff. unfold itv_neg. simpl. rewrite E1, E2. exists q, p. repeat split; auto. rewrite E3. lra.
Qed.
Lemma okl_add : forall a b, okl a -> okl b -> okl (ilin_add (N:=N) a b).
Proof.
  intros a b [A _] [B _]. unfold ilin_add. split.
  - destruct (itv_is_top _); simpl. constructor. revert A B. generalize (il_terms a) as la. generalize (il_terms b) as lb. intros lb la. revert lb.
    induction la as [|x la IH]; intros lb A B.
    + simpl. destruct lb; auto.
    + induction lb as [|y lb IHb]; [simpl; auto|]. simpl. inversion A; inversion B; subst.
      destruct (Nat.ltb (t_dim y) (t_dim x)). { constructor; [auto|apply IHb; auto]. }
      destruct (Nat.ltb (t_dim x) (t_dim y)). { constructor; auto. apply IH; auto. }
      destruct (itv_is_zero _) eqn:Z; [apply IH; auto|]. constructor; [|apply IH; auto]. simpl.
      destruct H1 as (u & _ & U), H5 as (w & _ & W). apply (nzero_of _ (u + w)%R); auto. apply itv_add_sound; auto.
  - right; right. intros Q. destruct (itv_is_top _); simpl in *; apply andb_true_iff in Q; tauto.
Qed.
Lemma okl_sub : forall a b, okl a -> okl b -> okl (ilin_sub (N:=N) a b).
Proof. intros. apply okl_add; auto. apply okl_neg; auto. Qed.
End Flags.
Lemma scal_or_wide : forall (f : itv -> itv -> itv) (g : R -> R -> R) ts c y,
  (forall x a z, in_itv x a -> in_itv z c -> z <> 0%R -> in_itv (g x z) (f a c)) -> in_itv y c -> y <> 0%R ->
  (forall x x' z, x <> x' -> z <> 0%R -> g x z <> g x' z) -> (forall x z z', x <> 0%R -> z <> 0%R -> z' <> 0%R -> z <> z' -> g x z <> g x z') ->
  (forall x z, x <> 0%R -> z <> 0%R -> g x z <> 0%R) -> tnz ts ->
  let ts' := map (fun t => mkT (f (t_itv t) c) (t_eq t && itv_is_point (f (t_itv t) c)) (t_dim t)) ts in
  tnz ts' /\ (ts = [] \/ itv_is_point c = true \/ some_wide ts') /\ (some_wide ts -> some_wide ts').
Proof.
  intros f g ts c y FS Y NY G1 G2 G3 T ts'. split; [|split].
  - apply Forall_map. eapply Forall_impl; [|exact T]. simpl. intros t (x & D & X). exists (g x y). split; auto.
  - destruct ts as [|t ts]; auto. right. destruct (point_or_wide c y Y) as [P|W]; auto. right. left. simpl. inversion T as [|? ? (x & D & X)]; subst.
    destruct W as (z & z' & DZ & Z & Z'). 
    assert (W : exists z, z <> y /\ z <> 0%R /\ in_itv z c).
    { assert (W0 : exists z, z <> y /\ in_itv z c). { destruct (Req_dec z y). exists z'. split; auto. congruence. exists z; auto. }
      destruct W0 as (w & DW & W). destruct (Req_dec w 0) as [W0|W0]; [|exists w; auto]. subst w. exists (y / 2)%R. split; [lra|]. split; [lra|].
      destruct (Rle_lt_dec y 0). eapply in_itv_convex; [exact Y|exact W|lra]. eapply in_itv_convex; [exact W|exact Y|lra]. }
    destruct W as (w & D1 & D2 & W). exists (g x w), (g x y). split; [apply G2; auto|]. split; apply FS; auto.
  - intros W. apply Exists_exists in W. destruct W as (t & I & x & x' & D & X & X'). apply Exists_exists. eexists. split. unfold ts'. apply in_map; eauto. simpl.
    exists (g x y), (g x' y). split; [apply G1; auto|]. split; apply FS; auto.
Qed.
Lemma okl_scale : forall l c y, okl l -> in_itv y c -> okl (ilin_scale (N:=E) l c).
Proof.
  intros l c y [A B] Y. unfold ilin_scale. destruct (itv_is_zero c) eqn:Z. split; simpl; auto. constructor.
  destruct (itv_is_top _). split; simpl; auto. constructor.
  destruct (nzero_of c y Y Z) as (z & NZ & IZ).
  assert (SC := scal_or_wide (itv_mul (N:=E)) Rmult (il_terms l) c z). destruct SC as (P1 & P2 & P3).
  - intros. apply itv_mul_sound; auto.
  - auto.
  - auto.
  - intros. intro K. apply Rmult_eq_reg_r in K; auto.
  - intros. intro K. apply Rmult_eq_reg_l in K; auto.
  - intros. apply Rmult_integral_contrapositive_currified; auto.
  - auto.
  - split; auto. destruct B as [B|[B|B]]; [left; simpl; rewrite B; auto|right; left; apply P3; auto|].
    destruct P2 as [P2|[P2|P2]]; [left; simpl; rewrite P2; auto| |right; left; auto].
    right; right. intros Q. simpl in *. apply point_mul_E; auto.
Qed.
Lemma okl_div : forall l c y, okl l -> in_itv y c -> y <> 0%R -> okl (ilin_div (N:=E) l c).
Proof.
  intros l c y [A B] Y NY. unfold ilin_div.
  assert (SC := scal_or_wide (itv_div (N:=E)) Rdiv (il_terms l) c y). destruct SC as (P1 & P2 & P3).
  - intros. apply itv_div_sound; auto.
  - auto.
  - auto.
  - intros x x' z D NZ K. apply D. unfold Rdiv in K. apply Rmult_eq_reg_r in K; auto. apply Rinv_neq_0_compat; auto.
  - intros x z z' D NZ NZ' DZ K. apply DZ. unfold Rdiv in K. apply Rmult_eq_reg_l in K; auto. rewrite <- (Rinv_involutive z), <- (Rinv_involutive z'), K; auto.
  - intros. unfold Rdiv. apply Rmult_integral_contrapositive_currified; auto. apply Rinv_neq_0_compat; auto.
  - auto.
  - split; auto. destruct B as [B|[B|B]]; [left; simpl; rewrite B; auto|right; left; apply P3; auto|].
    destruct P2 as [P2|[P2|P2]]; [left; simpl; rewrite P2; auto| |right; left; auto].
    right; right. intros Q. simpl in *. apply point_div_E; auto. exists y; auto.
Qed.
Section Round.
Context {F : fmts}.
Lemma okl_float : forall f l, okl l -> okl (round_float_lin (N:=E) f l).
Proof.
  intros f l [A B]. split; [|right; right; intros Q; discriminate]. simpl. apply Forall_map. eapply Forall_impl; [|exact A]. simpl. intros t (x & D & X). exists x. split; auto.
  rewrite <- (Rplus_0_r x). apply enlarge_sound; auto. apply le_rb_le with (Rabs x * Q2R (f_ulp f))%R.
  - rewrite Rabs_R0. apply Rmult_le_pos. apply Rabs_pos. rewrite <- Q2R_0'. apply Qle_Q2R. apply f_ulp_pos.
  - apply magnitude_mul; auto. apply f_ulp_pos.
Qed.
Lemma okl_round : forall l i org dst d, okl l -> okl (fst (lin_round (N:=E) (F:=F) l i org dst d)).
Proof.
  intros l i org dst d H. unfold lin_round. destruct dst; auto; try (destruct (_ || _); simpl; auto; apply okl_float; auto).
  - destruct (rtype_eqb org RInt); simpl; auto. destruct H as [A B]. split; simpl; auto. right; right. intros Q. discriminate.
  - destruct (rtype_eqb org RSingle); simpl; auto; apply okl_float; auto.
  - destruct (float_of org); simpl; auto; apply okl_float; auto.
Qed.
Lemma okl_reduce : forall env l i, okl l -> okl (fst (lin_reduce (N:=E) env l i)).
Proof.
  intros env l i H. unfold lin_reduce. destruct (_ || _). split; simpl; auto. constructor. destruct (il_terms l) eqn:T; simpl; auto. split; simpl; auto. constructor.
Qed.
Lemma okl_cst : forall i, okl (cst_form i).
Proof. intros. split; simpl; auto. constructor. Qed.
Lemma okl_rec : forall eq0 env intdim v e r, pt_ok env intdim v e -> lin_pow_ok (N:=E) (F:=F) eq0 env intdim e -> xval F v e r ->
  okl (snd (fst (intlin_rec (N:=E) (F:=F) eq0 env intdim e))).
Proof.
  intros eq0 env intdim v. induction e as [c|k|o t d a IH|o t d a IHa b IHb]; intros r PT PO H.
  - apply okl_cst.
  - simpl. split; simpl. repeat constructor. exists 1%R. split; [lra|]. split; simpl; unfold Q2R; simpl; lra. right; right. intros _. reflexivity.
  - apply xval_un in H. destruct H as (x & A & _). pose proof (IH x (pt_un _ _ _ _ _ _ _ PT) PO A) as G. simpl. destruct (intlin_rec eq0 env intdim a) as [[t1 l1] i1]. simpl in G.
    destruct o; simpl; [apply okl_neg; auto| |apply okl_cst].
    pose proof (okl_round l1 i1 t1 t d G) as G1. destruct (lin_round l1 i1 t1 t d) as [l i]. simpl in G1. pose proof (okl_reduce env l i G1) as G2. destruct (lin_reduce env l i). auto.
  - apply xval_bin in H. destruct H as (x & y & A & B & C). destruct PO as (PO1 & PO2 & _).
    pose proof (IHa x (pt_l _ _ _ _ _ _ _ _ PT) PO1 A) as GA. pose proof (IHb y (pt_r _ _ _ _ _ _ _ _ PT) PO2 B) as GB.
    destruct (intlin_rec_sound eq0 env intdim v a x (pt_l _ _ _ _ _ _ _ _ PT) PO1 A) as (_ & IA & _). destruct (intlin_rec_sound eq0 env intdim v b y (pt_r _ _ _ _ _ _ _ _ PT) PO2 B) as (_ & IB & _).
    simpl. destruct (intlin_rec eq0 env intdim a) as [[t1 l1] i1]. destruct (intlin_rec eq0 env intdim b) as [[t2 l2] i2]. simpl in *.
    rewrite (not_bottom _ _ IA), (not_bottom _ _ IB). simpl.
    assert (G : forall l i org, okl l -> okl (snd (fst (let '(l0, i0) := lin_round (N:=E) (F:=F) l i org t d in let '(l1, i1) := lin_reduce (N:=E) env l0 i0 in (t, l1, i1))))).
    { intros l i org O. pose proof (okl_round l i org t d O) as G1. destruct (lin_round l i org t d) as [l0 i0]. simpl in G1. pose proof (okl_reduce env l0 i0 G1) as G2. destruct (lin_reduce env l0 i0). auto. }
    destruct o; try apply G; try apply okl_cst.
    + apply okl_add; auto.
    + apply okl_sub; auto.
    + destruct (cmp_range l1 i1 l2 i2); eapply okl_scale; eauto.
    + simpl in C. destruct C as [C _]. eapply okl_div; eauto.
Qed.
(** the statement used: all coefficients points *)
Lemma okl_flag : forall l, okl l -> flags_ok (il_terms l) -> il_terms l <> [] -> is_quasilinear l = true -> cst_flag_ok l.
Proof.
  intros l [_ [B|[B|B]]] FO NE Q; auto. congruence. exfalso. unfold is_quasilinear in Q. rewrite forallb_forall in Q. apply Exists_exists in B. destruct B as (t & I & W).
  unfold flags_ok in FO. rewrite Forall_forall in FO. specialize (FO t I (Q t I)). apply wide_not_point in W. congruence.
Qed.
End Round.

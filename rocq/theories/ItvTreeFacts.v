(** Soundness of the evaluation and linearisation of tree expressions. *)
From Coq Require Import Arith ZArith QArith Qround Qreals Reals Bool List Lra Lia Psatz.
From Verif Require Import Bound BoundFacts Itv ItvFacts ItvFacts2 Linexpr ItvLin ItvLinFacts ItvLinCons ApTexpr TexprSem ItvTree.
Import ListNotations.
Open Scope Z_scope.

Section Tree.
Context {N : numtype} {F : fmts}.

(** ** Rounding *)
Lemma bto_up : forall f (G : R -> Prop) x r b, (forall s, f_set f s -> G s) -> faithful G x r -> le_rb x b -> le_rb r (bto f b).
Proof.
  intros f G x r b I (Fr & _ & _ & H) L. destruct b as [|q|]; simpl in *; auto. pose proof (f_up_ok f q) as U. destruct (f_up f q) as [|p|]; simpl; auto; try contradiction.
  destruct U as [U1 U2]. apply H; auto. lra.
Qed.
Lemma faithful_opp : forall (G : R -> Prop) x r, (forall s, G s -> G (- s)%R) -> faithful G x r -> faithful G (- x) (- r).
Proof.
  intros G x r O (A & (s1 & B1 & B2) & (s2 & C1 & C2) & H). repeat split; auto.
  - exists (- s2)%R. split; auto. lra.
  - exists (- s1)%R. split; auto. lra.
  - intros L. destruct (H (- s)%R) as [_ K]; auto. specialize (K ltac:(lra)). lra.
  - intros L. destruct (H (- s)%R) as [K _]; auto. specialize (K ltac:(lra)). lra.
Qed.
Lemma to_fmt_sound : forall f (G : R -> Prop) x r a, (forall s, f_set f s -> G s) -> (forall s, G s -> G (- s)%R) -> faithful G x r -> in_itv x a -> in_itv r (itv_to_fmt f a).
Proof. intros f G x r a I O H [A B]. split; simpl; eapply bto_up; eauto. apply faithful_opp; eauto. Qed.
Lemma rounded_int_near : forall d x z, rounded_int d x z -> (Rabs (IZR z - x) < 1)%R.
Proof.
  intros [] x z H; simpl in H; auto.
  - lra.
  - destruct H as [A B]. unfold is_floor, is_ceil in *. apply Rabs_def1; destruct (Rle_lt_dec 0 x) as [L|L]; [specialize (A L)|specialize (B (Rlt_le _ _ L))|specialize (A L)|specialize (B (Rlt_le _ _ L))]; lra.
  - unfold is_ceil in H. apply Rabs_def1; lra.
  - unfold is_floor in H. apply Rabs_def1; lra.
Qed.
Lemma itv_round_sound : forall t d x r a, in_itv x a -> rounded F t d x r -> in_itv r (itv_round (F:=F) t d a).
Proof.
  intros t d x r a A H. destruct t; simpl in H |- *.
  - subst; auto.
  - destruct H as (z & -> & H). destruct d; simpl in H.
    + apply itv_to_int_sound with x; auto. lra.
    + apply itv_trunc_sound with x; auto.
    + apply itv_ceil_sound with x; auto.
    + apply itv_floor_sound with x; auto.
    + apply itv_to_int_sound with x; auto.
  - destruct H as [H _]. eapply to_fmt_sound; eauto. apply f_opp.
  - destruct H as [H _]. eapply to_fmt_sound; eauto. apply f_opp.
  - destruct H as [H _]. eapply to_fmt_sound with (G := f_set (fm_extended F)); eauto. apply fm_de. apply f_opp.
  - destruct H as [H _]. eapply to_fmt_sound with (G := f_set (fm_quad F)); eauto. intros s S. apply fm_eq, fm_de; auto. apply f_opp.
Qed.
Lemma not_bottom : forall x a, in_itv x a -> itv_is_bottom a = false.
Proof. intros x a H. destruct (itv_is_bottom a) eqn:E; auto. exfalso. eapply itv_empty_test_sound; eauto. Qed.
Lemma itv_top_in : forall x, in_itv x itv_top. Proof. intros x. split; simpl; auto. Qed.
(** the odd power of an interval that is not bounded below is wrong *)
Definition pow_base_ok (b n : itv) : Prop := inf b <> PInf \/ forall k, itv_exponent n = Some k -> Nat.odd k = false.
Lemma itv_exponent_val : forall n k, itv_exponent n = Some k -> forall y, in_itv y n <-> y = INR k.
Proof.
  intros [i s] k. unfold itv_exponent; simpl. destruct i as [|p|]; try discriminate. destruct s as [|q|]; try discriminate.
  destruct (Qeq_bool (- p) q) eqn:E; simpl; try discriminate. destruct (Qeq_bool (inject_Z (Qceiling q)) q) eqn:E2; simpl; try discriminate.
  destruct (Z.ltb_spec (Qceiling q) 0); try discriminate. intros K; inversion K; subst. intros y. unfold in_itv; simpl.
  apply Qeq_bool_iff, Qeq_Q2R in E. apply Qeq_bool_iff, Qeq_Q2R in E2. rewrite Q2R_opp in E. rewrite Q2R_inject in E2.
  rewrite INR_IZR_INZ, Z2Nat.id by auto. lra.
Qed.
Lemma pow_sound : forall x y p b n, in_itv x b -> in_itv y n -> is_pow x y p -> pow_base_ok b n -> in_itv p (itv_pow b n).
Proof.
  intros x y p b n B C P OK. destruct (itv_exponent n) as [j|] eqn:E.
  - pose proof (itv_exponent_val _ _ E) as V. pose proof C as C'. apply V in C'. destruct P as [(k & E1 & ->)|P]; [|exfalso; eapply P; eauto].
    rewrite E1 in C'. apply INR_eq in C'. subst j y. apply itv_pow_sound; auto. intros O. destruct OK as [OK|OK]; auto. rewrite (OK _ E) in O. discriminate.
  - unfold itv_pow. rewrite (not_bottom _ _ B), (not_bottom _ _ C), E. apply itv_top_in.
Qed.

(** ** C11 *)
Lemma eval_un_sound : forall o t d x r a, in_itv x a -> un_val F o t d x r -> in_itv r (eval_un (F:=F) o t d a).
Proof.
  intros [] t d x r a A H; simpl in *.
  - subst. apply itv_neg_sound; auto.
  - eapply itv_round_sound; eauto.
  - destruct H. eapply itv_round_sound; eauto. apply itv_sqrt_sound; auto.
Qed.
Lemma rtype_eqb_eq : forall a b, rtype_eqb a b = true <-> a = b.
Proof. intros [] []; simpl; split; intros; auto; discriminate. Qed.
Lemma eval_bin_sound : forall o t d x y r a b, in_itv x a -> in_itv y b -> bin_val F o t d x y r -> (o = BPow -> pow_base_ok a b) ->
  in_itv r (eval_bin (N:=N) (F:=F) o t d a b).
Proof.
  intros [] t d x y r a b A B H P; simpl in *.
  - eapply itv_round_sound; eauto. apply itv_add_sound; auto.
  - eapply itv_round_sound; eauto. apply itv_sub_sound; auto.
  - eapply itv_round_sound; eauto. apply itv_mul_sound; auto.
  - destruct H. eapply itv_round_sound; eauto. apply itv_div_sound; auto.
  - destruct H as (H1 & H2 & H3 & _). eapply itv_mod_sound; eauto. intros E. apply rtype_eqb_eq in E. auto.
  - destruct H as (p & H1 & H2). eapply itv_round_sound; eauto. eapply pow_sound; eauto.
Qed.
Fixpoint pow_ok (env : nat -> itv) (e : texpr) : Prop :=
  match e with
  | TUn _ _ _ a => pow_ok env a
  | TBin o _ _ a b => pow_ok env a /\ pow_ok env b /\ (o = BPow -> pow_base_ok (eval_texpr (N:=N) (F:=F) env a) (eval_texpr (N:=N) (F:=F) env b))
  | _ => True
  end.
Lemma eval_texpr_sound : forall env v e r, (forall d, occurs d e -> in_itv (v d) (env d)) -> pow_ok env e -> xval F v e r -> in_itv r (eval_texpr (N:=N) (F:=F) env e).
Proof.
  intros env v. induction e as [c|d|o t d a IH|o t d a IHa b IHb]; intros r E P H; simpl in *.
  - apply xval_cst in H. apply itv_set_coeff_sound; auto.
  - apply xval_dim in H. subst. apply E. constructor.
  - apply xval_un in H. destruct H as (x & A & B). assert (I : in_itv x (eval_texpr (N:=N) (F:=F) env a)) by (apply IH; auto; intros; apply E; constructor; auto).
    rewrite (not_bottom _ _ I). eapply eval_un_sound; eauto.
  - apply xval_bin in H. destruct H as (x & y & A & B & C). destruct P as (P1 & P2 & P3).
    assert (I : in_itv x (eval_texpr (N:=N) (F:=F) env a)) by (apply IHa; auto; intros; apply E; apply oc_l; auto).
    assert (J : in_itv y (eval_texpr (N:=N) (F:=F) env b)) by (apply IHb; auto; intros; apply E; apply oc_r; auto).
    rewrite (not_bottom _ _ I), (not_bottom _ _ J). simpl. eapply eval_bin_sound; eauto.
Qed.

(** ** Linear forms *)
Lemma in_itv_convex : forall a x y z, in_itv x a -> in_itv y a -> (x <= z <= y)%R -> in_itv z a.
Proof. intros a x y z [A1 A2] [B1 B2] H. split; [apply le_rb_le with (- x)%R|apply le_rb_le with y]; auto; lra. Qed.
Lemma in_itv_between : forall a x y t, in_itv x a -> in_itv y a -> (0 <= t <= 1)%R -> in_itv (x + t * (y - x)) a.
Proof.
  intros a x y t X Y T. destruct (Rle_lt_dec x y). apply (in_itv_convex a x y); auto. split; nra. apply (in_itv_convex a y x); auto. split; nra.
Qed.
Lemma tval_convex : forall v ts x y t, tval v ts x -> tval v ts y -> (0 <= t <= 1)%R -> tval v ts (x + t * (y - x)).
Proof.
  intros v. induction ts as [|m ts IH]; intros x y t X Y T; inversion X as [|c m1 ts1 r1 C1 R1]; inversion Y as [|c' m2 ts2 r2 C2 R2]; subst.
  - replace (0 + t * (0 - 0))%R with 0%R by ring. constructor.
  - replace (_ + _)%R with ((c + t * (c' - c)) * v (t_dim m) + (r1 + t * (r2 - r1)))%R by ring. constructor. apply in_itv_between; auto. apply IH; auto.
Qed.
Lemma ival_convex : forall e v x y z, ival e v x -> ival e v y -> (x <= z <= y)%R -> ival e v z.
Proof.
  intros e v x y z (c1 & r1 & A1 & B1 & ->) (c2 & r2 & A2 & B2 & ->) H.
  assert (exists t, (0 <= t <= 1)%R /\ z = (c1 + r1 + t * (c2 + r2 - (c1 + r1)))%R) as (t & T & ->).
  { destruct (Req_dec (c1 + r1) (c2 + r2)). exists 0%R. split; lra. exists ((z - (c1 + r1)) / (c2 + r2 - (c1 + r1)))%R. split; [|field; lra].
    split. apply Rmult_le_pos. lra. left. apply Rinv_0_lt_compat. lra. apply Rmult_le_reg_r with (c2 + r2 - (c1 + r1))%R. lra. unfold Rdiv. rewrite Rmult_assoc, Rinv_l by lra. lra. }
  exists (c1 + t * (c2 - c1))%R, (r1 + t * (r2 - r1))%R. split; [apply in_itv_between; auto|]. split; [apply tval_convex; auto|]. ring.
Qed.
(** ** Rounding of linear forms *)
Lemma magnitude_sound : forall c a, in_itv c a -> le_rb (Rabs c) (itv_magnitude a).
Proof.
  intros c [i s] [A B]. unfold itv_magnitude; simpl in *. destruct (Z.leb_spec (bsgn i) 0) as [H|H].
  - pose proof (bsgn_le0 _ H _ A). rewrite Rabs_pos_eq by lra. auto.
  - destruct (Z.leb_spec (bsgn s) 0) as [H2|H2].
    + pose proof (bsgn_le0 _ H2 _ B). rewrite Rabs_left1 by lra. auto.
    + apply bmax_spec. unfold Rabs. destruct (Rcase_abs c); auto.
Qed.
Lemma magnitude_mul : forall c a q, in_itv c a -> (0 <= q)%Q -> le_rb (Rabs c * Q2R q) (bmul (N:=N) (itv_magnitude a) (Fin q)).
Proof.
  intros c a q A Q. pose proof (magnitude_sound c a A) as M. apply Qle_Q2R in Q. rewrite Q2R_0' in Q. apply bmul_case1; auto. 2: simpl; lra.
  apply bsgn_ge0_iff. apply le_rb_le with (Rabs c); auto. apply Rabs_pos.
Qed.
Lemma enlarge_sound : forall x y a b, in_itv x a -> le_rb (Rabs y) b -> in_itv (x + y) (itv_enlarge_bound (N:=N) a b).
Proof.
  intros x y a b [A B] H. split; simpl.
  - apply le_rb_le with (- x + Rabs y)%R. pose proof (Rle_abs (- y)). rewrite Rabs_Ropp in H0. lra. apply badd_sound; auto.
  - apply le_rb_le with (x + Rabs y)%R. pose proof (Rle_abs y). lra. apply badd_sound; auto.
Qed.
(** a value of the terms and the sum of the absolute values of its monomials *)
Inductive tvala (v : nat -> R) : list iterm -> R -> R -> Prop :=
| ta_nil : tvala v [] 0 0
| ta_cons : forall c t ts r s, in_itv c (t_itv t) -> tvala v ts r s -> tvala v (t :: ts) (c * v (t_dim t) + r) (Rabs (c * v (t_dim t)) + s).
Lemma tval_tvala : forall v ts r, tval v ts r -> exists s, tvala v ts r s.
Proof. induction 1. exists 0%R; constructor. destruct IHtval as [s S]. eexists; constructor; eauto. Qed.
Lemma tvala_abs : forall v ts r s, tvala v ts r s -> (Rabs r <= s)%R.
Proof. induction 1. rewrite Rabs_R0; lra. pose proof (Rabs_triang (c * v (t_dim t)) r). lra. Qed.
Lemma abs_sgn : forall x, exists g, (Rabs x = g * x)%R /\ (Rabs g <= 1)%R.
Proof. intros x. destruct (Rle_lt_dec 0 x). exists 1%R. rewrite Rabs_pos_eq, Rabs_R1 by auto. lra. exists (-1)%R. rewrite Rabs_left by auto. rewrite Rabs_left by lra. lra. Qed.
Lemma float_terms : forall f v ts r s th, tvala v ts r s -> (Rabs th <= 1)%R ->
  tval v (map (fun t => let i := t_itv t in mkT (itv_enlarge_bound (N:=N) i (bmul (N:=N) (itv_magnitude i) (Fin (f_ulp f)))) false (t_dim t)) ts) (r + th * (Q2R (f_ulp f) * s)).
Proof.
  intros f v ts r s th H T. pose proof (f_ulp_pos f) as U. pose proof U as U'. apply Qle_Q2R in U'. rewrite Q2R_0' in U'. induction H as [|c t ts r s C H IH]; simpl.
  - replace (0 + _)%R with 0%R by ring. constructor.
  - destruct (abs_sgn (v (t_dim t))) as (g & G1 & G2).
    replace (_ + _)%R with ((c + th * Q2R (f_ulp f) * Rabs c * g) * v (t_dim t) + (r + th * (Q2R (f_ulp f) * s)))%R.
    2:{ rewrite Rabs_mult, G1. ring. }
    apply (tv_cons v _ (mkT _ false (t_dim t))); auto. simpl. apply enlarge_sound; auto. eapply le_rb_le; [|apply magnitude_mul; eauto].
    rewrite !Rabs_mult, Rabs_Rabsolu, (Rabs_pos_eq (Q2R _)) by auto. pose proof (Rabs_pos c). pose proof (Rabs_pos th). pose proof (Rabs_pos g).
    assert (Rabs th * Rabs g <= 1)%R by nra. assert (0 <= Rabs c * Q2R (f_ulp f))%R by nra. nra.
Qed.
Lemma round_float_sound : forall f l v x r, ival l v x -> (Rabs (r - x) <= Q2R (f_ulp f) * Rabs x + Q2R (f_min f))%R -> ival (round_float_lin (N:=N) f l) v r.
Proof.
  intros f l v x r (c & y & C & Y & ->) E. destruct (tval_tvala _ _ _ Y) as [s S]. pose proof (tvala_abs _ _ _ _ S) as AB.
  pose proof (f_ulp_pos f) as U. pose proof U as U'. apply Qle_Q2R in U'. rewrite Q2R_0' in U'.
  pose proof (f_min_pos f) as M. pose proof M as M'. apply Qle_Q2R in M'. rewrite Q2R_0' in M'.
  set (B := (Q2R (f_ulp f) * (Rabs c + s) + Q2R (f_min f))%R).
  assert (E2 : (Rabs (r - (c + y)) <= B)%R). { pose proof (Rabs_triang c y). unfold B. nra. }
  assert (B0 : (0 <= B)%R) by (eapply Rle_trans; [apply Rabs_pos|exact E2]).
  assert (exists th, (Rabs th <= 1)%R /\ r = (c + y + th * B)%R) as (th & T & ->).
  { destruct (Req_dec B 0) as [Z|Z]. exists 0%R. rewrite Rabs_R0. split; [lra|]. rewrite Z in E2. destruct (Req_dec (r - (c + y)) 0); [lra|]. apply Rabs_pos_lt in H. lra.
    exists ((r - (c + y)) / B)%R. split; [|field; auto]. unfold Rdiv. rewrite Rabs_mult, Rabs_inv, (Rabs_pos_eq B) by lra. apply Rmult_le_reg_r with B. lra. rewrite Rmult_assoc, Rinv_l by lra. lra. }
  exists (c + th * (Rabs c * Q2R (f_ulp f) + Q2R (f_min f)))%R, (y + th * (Q2R (f_ulp f) * s))%R. split; [|split].
  - simpl. apply enlarge_sound; auto. eapply le_rb_le with (Rabs c * Q2R (f_ulp f) + Q2R (f_min f))%R.
    rewrite Rabs_mult, (Rabs_pos_eq (_ + _)). pose proof (Rabs_pos c). assert (0 <= Rabs c * Q2R (f_ulp f) + Q2R (f_min f))%R by nra. nra. pose proof (Rabs_pos c). nra.
    apply badd_sound. apply magnitude_mul; auto. simpl; lra.
  - apply float_terms; auto.
  - unfold B. ring.
Qed.
Lemma half_R : Q2R half = (/ 2)%R. Proof. unfold half, Q2R; simpl. lra. Qed.
Lemma badd1_sound : forall x y b, le_rb x b -> (y <= 1)%R -> le_rb (x + y) (badd1 (N:=N) b).
Proof. intros x y b H L. apply badd_sound; auto. simpl. unfold Q2R; simpl. lra. Qed.
Lemma to_int_sound : forall l i d v x z, ival l v x -> in_itv x i -> rounded_int d x z -> ival (lin_to_int (N:=N) l i d) v (IZR z).
Proof.
  intros l i d v x z (c & y & C & Y & E) I R. exists (c + (IZR z - x))%R, y. split; [|split; [auto|simpl; lra]].
  destruct C as [C1 C2]. destruct d; simpl in *.
  - apply itv_add_sound; [split; auto|]. split; simpl; rewrite half_R; pose proof (Rle_abs (IZR z - x)); pose proof (Rle_abs (- (IZR z - x))) as K; rewrite Rabs_Ropp in K; lra.
  - destruct I as [I1 I2]. destruct R as [R1 R2]. unfold is_floor, is_ceil in *. split; simpl.
    + replace (- (c + (IZR z - x)))%R with (- c + (x - IZR z))%R by ring. destruct (Z.ltb_spec 0 (bsgn (sup i))) as [S|S].
      * apply badd1_sound; auto. destruct (Rle_lt_dec 0 x) as [L|L]; [specialize (R1 L)|specialize (R2 (Rlt_le _ _ L))]; lra.
      * pose proof (bsgn_le0 _ S _ I2). specialize (R2 H). eapply le_rb_le; [|exact C1]. lra.
    + destruct (Z.ltb_spec 0 (bsgn (inf i))) as [S|S].
      * apply badd1_sound; auto. destruct (Rle_lt_dec 0 x) as [L|L]; [specialize (R1 L)|specialize (R2 (Rlt_le _ _ L))]; lra.
      * pose proof (bsgn_le0 _ S _ I1). specialize (R1 ltac:(lra)). eapply le_rb_le; [|exact C2]. lra.
  - unfold is_ceil in R. split; simpl. eapply le_rb_le; [|exact C1]. lra. apply badd1_sound; auto. lra.
  - unfold is_floor in R. split; simpl. replace (- (c + (IZR z - x)))%R with (- c + (x - IZR z))%R by ring. apply badd1_sound; auto. lra. eapply le_rb_le; [|exact C2]. lra.
  - apply Rabs_def2 in R. split; simpl. replace (- (c + (IZR z - x)))%R with (- c + (x - IZR z))%R by ring. apply badd1_sound; auto. lra. apply badd1_sound; auto. lra.
Qed.

(** ** C12 *)
(** what the type returned by the linearisation says of the value: with [RInt] both integers
    around the value are values of the linear form, too *)
Definition tyok (t : rtype) (l : ilin) (i : itv) (v : nat -> R) (x : R) : Prop :=
  match t with
  | RReal => True
  | RInt => forall z, (Rabs (IZR z - x) < 1)%R -> ival l v (IZR z) /\ in_itv (IZR z) i
  | _ => match fmt_of F t with Some f => f_set f x | None => False end
  end.
Lemma faithful_id : forall (G : R -> Prop) x r, G x -> faithful G x r -> r = x.
Proof. intros G x r H (_ & _ & _ & K). destruct (K x H) as [A B]. apply Rle_antisym; [apply A|apply B]; lra. Qed.
Lemma lin_round_sound : forall l i org dst d v x r, ival l v x -> in_itv x i -> tyok org l i v x -> rounded F dst d x r ->
  ival (fst (lin_round (N:=N) (F:=F) l i org dst d)) v r /\ in_itv r (snd (lin_round (N:=N) (F:=F) l i org dst d)).
Proof.
  intros l i org dst d v x r L I T R.
  assert (FL : forall f, fmt_of F dst = Some f -> ival (round_float_lin (N:=N) f l) v r).
  { intros f E. apply round_float_sound with x; auto. apply f_err_ok. destruct dst; simpl in E; inversion E; subst; destruct R; auto. }
  assert (ID : forall f, fmt_of F dst = Some f -> f_set f x -> r = x).
  { intros f E S. apply (faithful_id (f_set f)); auto. destruct dst; simpl in E; inversion E; subst; destruct R; auto. }
  pose proof (itv_round_sound dst d x r i I R) as RI.
  destruct dst; simpl in R, FL, ID.
  - simpl. subst; auto.
  - destruct R as (z & -> & R). unfold lin_round. destruct (rtype_eqb org RInt) eqn:E.
    + apply rtype_eqb_eq in E. subst. simpl in T. apply T. eapply rounded_int_near; eauto.
    + cbn [fst snd]. split; auto. eapply to_int_sound; eauto.
  - unfold lin_round. destruct (rtype_eqb org RSingle) eqn:E; cbn [fst snd]; auto. apply rtype_eqb_eq in E. subst org. simpl in T. rewrite (ID _ eq_refl T). auto.
  - unfold lin_round. destruct (rtype_eqb org RSingle || rtype_eqb org RDouble) eqn:E; cbn [fst snd]; auto.
    apply orb_true_iff in E. rewrite !rtype_eqb_eq in E. assert (S : f_set (fm_double F) x) by (destruct E; subst org; simpl in T; auto; apply fm_sd; auto). rewrite (ID _ eq_refl S). auto.
  - unfold lin_round. destruct (rtype_eqb org RSingle || rtype_eqb org RDouble || rtype_eqb org RExtended) eqn:E; cbn [fst snd]; auto.
    rewrite !orb_true_iff, !rtype_eqb_eq in E. assert (S : f_set (fm_extended F) x) by (destruct E as [[E|E]|E]; subst org; simpl in T; auto; apply fm_de; auto; apply fm_sd; auto). rewrite (ID _ eq_refl S). auto.
  - unfold lin_round. destruct (float_of org) eqn:E; cbn [fst snd]; auto.
    assert (S : f_set (fm_quad F) x) by (destruct org; try discriminate; simpl in T; auto; apply fm_eq; auto; apply fm_de; auto; apply fm_sd; auto). rewrite (ID _ eq_refl S). auto.
Qed.
Lemma lin_round_flags : forall l i org dst d, flags_ok (il_terms l) -> flags_ok (il_terms (fst (lin_round (N:=N) (F:=F) l i org dst d))).
Proof.
  intros l i org dst d H.
  assert (G : forall f, flags_ok (il_terms (round_float_lin (N:=N) f l))). { intros f. simpl. unfold flags_ok. rewrite Forall_map. apply Forall_forall. intros t _. simpl. discriminate. }
  destruct dst; unfold lin_round; simpl; auto; match goal with |- context[if ?b then _ else _] => destruct b end; cbn [fst]; auto.
Qed.
Lemma lin_round_dims : forall P l i org dst d, dims_in P (il_terms l) -> dims_in P (il_terms (fst (lin_round (N:=N) (F:=F) l i org dst d))).
Proof.
  intros P l i org dst d H.
  assert (G : forall f, dims_in P (il_terms (round_float_lin (N:=N) f l))). { intros f. simpl. unfold dims_in in *. rewrite Forall_map. simpl. auto. }
  destruct dst; unfold lin_round; simpl; auto; match goal with |- context[if ?b then _ else _] => destruct b end; cbn [fst]; auto.
Qed.
Lemma cst_form_val : forall i v r, ival (cst_form i) v r <-> in_itv r i.
Proof. intros. apply ival_nil. Qed.
Lemma lin_reduce_sound : forall env l i v r, flags_ok (il_terms l) -> in_env v env (il_terms l) -> ival l v r -> in_itv r i ->
  ival (fst (lin_reduce (N:=N) env l i)) v r /\ in_itv r (snd (lin_reduce (N:=N) env l i)).
Proof.
  intros env l i v r FL EN L I. unfold lin_reduce.
  assert (J : in_itv r (fst (itv_meet i (itv_eval_linexpr (N:=N) env l)))) by (apply itv_meet_spec; split; auto; apply eval_linexpr_sound with v; auto).
  rewrite (not_bottom _ _ J). assert (B : itv_is_bottom (il_cst l) = false) by (destruct L as (c & y & C & _); eapply not_bottom; eauto). rewrite B. simpl.
  destruct (il_terms l) eqn:E; cbn [fst snd]; auto. rewrite cst_form_val. auto.
Qed.
(** shape of the linear forms built: right flags of the terms, known dimensions; the flag of the
    constant is right if there is no term, unless the constant is empty *)
Definition shape (P : nat -> Prop) (l : ilin) : Prop :=
  flags_ok (il_terms l) /\ dims_in P (il_terms l) /\ (il_terms l = [] -> itv_is_bottom (il_cst l) = true \/ cst_flag_ok l).
Lemma shape_bottom : forall P q, shape P (mkIL [] itv_bottom q).
Proof. intros. split; [constructor|split;[constructor|]]. intros _. left. reflexivity. Qed.
Lemma shape_cst : forall P i, shape P (cst_form i).
Proof. intros. split; [constructor|split;[constructor|]]. intros _. right. unfold cst_flag_ok; simpl; auto. Qed.
Lemma lin_reduce_shape : forall P env l i, flags_ok (il_terms l) -> dims_in P (il_terms l) -> shape P (fst (lin_reduce (N:=N) env l i)).
Proof.
  intros P env l i FL D. unfold lin_reduce. destruct (_ || _); cbn [fst]. apply shape_bottom. destruct (il_terms l) eqn:E; cbn [fst]. apply shape_cst.
  split; [|split]; rewrite E; auto; discriminate.
Qed.
Lemma round_reduce : forall env P l i org dst d v x r, flags_ok (il_terms l) -> dims_in P (il_terms l) ->
  let p := lin_round (N:=N) (F:=F) l i org dst d in let q := lin_reduce (N:=N) env (fst p) (snd p) in
  shape P (fst q) /\
  ((forall k, P k -> in_itv (v k) (env k)) -> ival l v x -> in_itv x i -> tyok org l i v x -> rounded F dst d x r -> ival (fst q) v r /\ in_itv r (snd q)).
Proof.
  intros env P l i org dst d v x r FL D p q. pose proof (lin_round_flags l i org dst d FL) as FL'. pose proof (lin_round_dims P l i org dst d D) as D'. fold p in FL', D'. split.
  - apply lin_reduce_shape; auto.
  - intros E L I T R. destruct (lin_round_sound l i org dst d v x r L I T R) as [A B]. fold p in A, B. apply lin_reduce_sound; auto.
    unfold in_env. unfold dims_in in D'. eapply Forall_impl; [|exact D']. intros t Ht. auto.
Qed.
Definition lin_in (P : nat -> Prop) (t : rtype) (l : ilin) (i : itv) (v : nat -> R) (x : R) : Prop := ival l v x /\ in_itv x i /\ tyok t l i v x.
Lemma rounded_tyok : forall t d x r l i v, rounded F t d x r -> ival l v r -> in_itv r i -> tyok t l i v r.
Proof.
  intros t d x r l i v R L I. destruct t; simpl in *; auto; try (destruct R as [(R & _) _]; auto; fail).
  destruct R as (z & -> & _). intros z' H. rewrite <- minus_IZR, <- abs_IZR in H. apply lt_IZR in H. assert (z' = z) by lia. subst. auto.
Qed.
(** integers around a sum, a difference, a product *)
Lemma int_around : forall x, exists a b, (IZR a <= x <= IZR b)%R /\ (Rabs (IZR a - x) < 1)%R /\ (Rabs (IZR b - x) < 1)%R.
Proof.
  intros x. destruct (base_Int_part x) as [A B]. destruct (Req_dec (IZR (Int_part x)) x) as [E|E].
  - exists (Int_part x), (Int_part x). rewrite E. replace (x - x)%R with 0%R by ring. rewrite Rabs_R0. lra.
  - exists (Int_part x), (Int_part x + 1)%Z. rewrite plus_IZR. split; [lra|]. split; apply Rabs_def1; lra.
Qed.
Lemma tyok_int : forall l i v x, (exists a b, (IZR a <= x <= IZR b)%R /\ (ival l v (IZR a) /\ in_itv (IZR a) i) /\ (ival l v (IZR b) /\ in_itv (IZR b) i)) -> tyok RInt l i v x.
Proof.
  intros l i v x (a & b & AB & [A1 A2] & [B1 B2]) z Z. apply Rabs_def2 in Z.
  assert (IZR a <= IZR z <= IZR b)%R. { split; apply IZR_le; apply Z.lt_succ_r; apply lt_IZR; unfold Z.succ; rewrite plus_IZR; lra. }
  split. apply (ival_convex l v (IZR a) (IZR b)); auto. apply (in_itv_convex i (IZR a) (IZR b)); auto.
Qed.
Lemma corners : forall (a1 b1 a2 b2 : Z) x y, (IZR a1 <= x <= IZR b1)%R -> (IZR a2 <= y <= IZR b2)%R ->
  exists p q : Z, (IZR p <= x * y <= IZR q)%R /\ (exists u w, (u = a1 \/ u = b1) /\ (w = a2 \/ w = b2) /\ p = (u * w)%Z) /\ (exists u w, (u = a1 \/ u = b1) /\ (w = a2 \/ w = b2) /\ q = (u * w)%Z).
Proof.
  intros a1 b1 a2 b2 x y X Y.
  assert (L : forall c, exists u, (u = a1 \/ u = b1) /\ (IZR u * c <= x * c)%R) by (intros c; destruct (Rle_lt_dec 0 c); [exists a1|exists b1]; split; auto; nra).
  assert (U : forall c, exists u, (u = a1 \/ u = b1) /\ (x * c <= IZR u * c)%R) by (intros c; destruct (Rle_lt_dec 0 c); [exists b1|exists a1]; split; auto; nra).
  assert (L2 : forall c, exists w, (w = a2 \/ w = b2) /\ (c * IZR w <= c * y)%R) by (intros c; destruct (Rle_lt_dec 0 c); [exists a2|exists b2]; split; auto; nra).
  assert (U2 : forall c, exists w, (w = a2 \/ w = b2) /\ (c * y <= c * IZR w)%R) by (intros c; destruct (Rle_lt_dec 0 c); [exists b2|exists a2]; split; auto; nra).
  destruct (L2 x) as (w & W1 & W2). destruct (L (IZR w)) as (u & U1' & U2'). destruct (U2 x) as (w' & W1' & W2'). destruct (U (IZR w')) as (u' & U1'' & U2'').
  exists (u * w)%Z, (u' * w')%Z. rewrite !mult_IZR. split; [lra|]. split; eauto 8.
Qed.
Section Rec.
Variable eq0 : bool.
Variable env : nat -> itv.
Variable intdim : nat.
Local Notation rec := (intlin_rec (N:=N) (F:=F) eq0 env intdim).
(** Powers: the code ignores the rounding they ask for, and the odd powers of what is not bounded
    below are wrong *)
Fixpoint lin_pow_ok (e : texpr) : Prop :=
  match e with
  | TUn _ _ _ a => lin_pow_ok a
  | TBin o t _ a b => lin_pow_ok a /\ lin_pow_ok b /\ (o = BPow -> t = RReal /\ pow_base_ok (snd (rec a)) (snd (rec b)))
  | _ => True
  end.
(** the point is in the box, with integer values for the integer dimensions, as far as the
    dimensions of the expression are concerned *)
Definition pt_ok (v : nat -> R) (e : texpr) : Prop := forall d, occurs d e -> in_itv (v d) (env d) /\ ((d < intdim)%nat -> is_integer (v d)).
Lemma pt_un : forall v o t d a, pt_ok v (TUn o t d a) -> pt_ok v a.
Proof. intros v o t d a H k K. apply H. constructor; auto. Qed.
Lemma pt_l : forall v o t d a b, pt_ok v (TBin o t d a b) -> pt_ok v a.
Proof. intros v o t d a b H k K. apply H. apply oc_l; auto. Qed.
Lemma pt_r : forall v o t d a b, pt_ok v (TBin o t d a b) -> pt_ok v b.
Proof. intros v o t d a b H k K. apply H. apply oc_r; auto. Qed.
Lemma shape_mono : forall (P Q : nat -> Prop) l, (forall d, P d -> Q d) -> shape P l -> shape Q l.
Proof. intros P Q l H (A & B & C). split; auto. split; auto. eapply Forall_impl; [|exact B]. simpl. auto. Qed.
Lemma shape_neg : forall P l, shape P l -> shape P (ilin_neg l).
Proof.
  intros P l (A & B & C). split; [apply ilin_neg_flags; auto|]. split; [apply ilin_neg_dims; auto|]. intros E. destruct C as [C|C]; [simpl in E; destruct (il_terms l); auto; discriminate| |].
  - left. simpl. clear -C. unfold itv_is_bottom, itv_empty_test in *. destruct (il_cst l) as [[|p|] [|q|]]; simpl in *; auto.
    rewrite Z.ltb_lt in *. rewrite qcmp_lt in *. rewrite Q2R_opp in *. lra.
  - right. apply ilin_neg_flags; auto.
Qed.
Lemma intlin_rec_shape : forall e, shape (fun d => occurs d e) (snd (fst (rec e))).
Proof.
  induction e as [c|k|o t d a IH|o t d a IHa b IHb]; simpl.
  - apply shape_cst.
  - split; [|split]. repeat constructor. repeat constructor. discriminate.
  - destruct (rec a) as [[t1 l1] i1] eqn:E. simpl in IH. apply (shape_mono _ (fun d0 => occurs d0 (TUn o t d a))) in IH; [|intros; constructor; auto]. destruct o; simpl.
    + apply shape_neg; auto.
    + destruct IH as (A & B & _). pose proof (fun v x r => proj1 (round_reduce env _ l1 i1 t1 t d v x r A B)) as G. destruct (lin_round l1 i1 t1 t d) as [l i]. simpl in G. destruct (lin_reduce env l i) as [l' i']. simpl in *. apply (G (fun _ => 0%R) 0%R 0%R).
    + apply shape_cst.
  - destruct (rec a) as [[t1 l1] i1] eqn:Ea. destruct (rec b) as [[t2 l2] i2] eqn:Eb. simpl in IHa, IHb.
    apply (shape_mono _ (fun d0 => occurs d0 (TBin o t d a b))) in IHa; [|intros; apply oc_l; auto]. apply (shape_mono _ (fun d0 => occurs d0 (TBin o t d a b))) in IHb; [|intros; apply oc_r; auto].
    destruct IHa as (A1 & B1 & _). destruct IHb as (A2 & B2 & _).
    destruct (itv_is_bottom i1 || itv_is_bottom i2). simpl. apply shape_bottom.
    assert (G : forall l i org, flags_ok (il_terms l) -> dims_in (fun d0 => occurs d0 (TBin o t d a b)) (il_terms l) ->
      shape (fun d0 => occurs d0 (TBin o t d a b)) (snd (fst (let '(l0, i0) := lin_round (N:=N) (F:=F) l i org t d in let '(l1, i1) := lin_reduce (N:=N) env l0 i0 in (t, l1, i1))))).
    { intros l i org FL D. pose proof (proj1 (round_reduce env _ l i org t d (fun _ => 0%R) 0%R 0%R FL D)) as G. destruct (lin_round l i org t d) as [l0 i0]. simpl in G. destruct (lin_reduce env l0 i0) as [l' i']. simpl in *. auto. }
    destruct o; try apply G.
    + apply ilin_add_flags; auto.
    + apply ilin_add_dims; auto.
    + apply ilin_add_flags; auto. apply ilin_neg_flags; auto.
    + apply ilin_add_dims; auto. apply ilin_neg_dims; auto.
    + destruct (cmp_range l1 i1 l2 i2); apply ilin_scale_flags.
    + destruct (cmp_range l1 i1 l2 i2); apply ilin_scale_dims; auto.
    + apply ilin_div_flags.
    + apply ilin_div_dims; auto.
    + simpl. apply shape_cst.
    + simpl. apply shape_cst.
Qed.
Lemma bint_up : forall b, bcmp (btrunc b) b = 0 -> forall x z, le_rb x b -> (IZR z < x + 1)%R -> le_rb (IZR z) b.
Proof.
  intros b H x z L Z. destruct b as [|q|]; simpl in *; auto. apply qcmp_eq in H. rewrite Q2R_inject in H. rewrite <- H in *. apply IZR_le. apply Z.lt_succ_r. apply lt_IZR. unfold Z.succ. rewrite plus_IZR. lra.
Qed.
Lemma is_int_tyok : forall i v x, itv_is_int i = true -> in_itv x i -> tyok RInt (cst_form i) i v x.
Proof.
  intros i v x H I z Z. apply Rabs_def2 in Z. unfold itv_is_int in H. apply andb_true_iff in H. destruct H as [A B]. apply Z.eqb_eq in A, B. destruct I as [I1 I2].
  assert (in_itv (IZR z) i). { split. rewrite <- opp_IZR. eapply bint_up; eauto. rewrite opp_IZR. lra. eapply bint_up; eauto. lra. }
  split; auto. apply cst_form_val; auto.
Qed.
Lemma tyok_integer : forall l i v r, is_integer r -> ival l v r -> in_itv r i -> tyok RInt l i v r.
Proof. intros l i v r [k ->] L I. apply tyok_int. exists k, k. split; [lra|auto]. Qed.
Lemma both_int_sound : forall t1 t2 l i v x, (t1 = RInt -> t2 = RInt -> tyok RInt l i v x) -> tyok (both_int t1 t2) l i v x.
Proof. intros t1 t2 l i v x H. unfold both_int. destruct (rtype_eqb t1 RInt && rtype_eqb t2 RInt) eqn:E; simpl; auto. apply andb_true_iff in E. rewrite !rtype_eqb_eq in E. destruct E. apply H; auto. Qed.
Lemma intlin_rec_sound : forall v e r, pt_ok v e -> lin_pow_ok e -> xval F v e r ->
  ival (snd (fst (rec e))) v r /\ in_itv r (snd (rec e)) /\ tyok (fst (fst (rec e))) (snd (fst (rec e))) (snd (rec e)) v r.
Proof.
  intros v. induction e as [c|k|o t d a IH|o t d a IHa b IHb]; intros r PT PO H.
  - apply xval_cst in H. simpl. assert (I : in_itv r (fst (itv_set_coeff (N:=N) c))) by (apply itv_set_coeff_sound; auto). split; [apply cst_form_val; auto|]. split; auto.
    destruct (itv_is_int _) eqn:E; simpl; auto. apply is_int_tyok; auto.
  - apply xval_dim in H. subst. destruct (PT k) as [P1 P2]. constructor. simpl. 
    assert (L : ival (dim_form eq0 k) v (v k)).
    { exists 0%R, (1 * v k + 0)%R. split; [|split; [|lra]]. split; simpl; unfold Q2R; simpl; lra. apply (tv_cons v 1%R (mkT _ true k)). split; simpl; unfold Q2R; simpl; lra. constructor. }
    split; auto. split; auto. destruct (Nat.ltb_spec k intdim); simpl; auto. apply tyok_integer; auto.
  - apply xval_un in H. destruct H as (x & A & B). pose proof (IH x (pt_un _ _ _ _ _ PT) PO A) as G. pose proof (intlin_rec_shape a) as SH. simpl. destruct (rec a) as [[t1 l1] i1] eqn:E. simpl in G, SH. destruct G as (G1 & G2 & G3).
    apply (shape_mono _ (fun d0 => occurs d0 (TUn o t d a))) in SH; [|intros; constructor; auto]. destruct SH as (S1 & S2 & _).
    destruct o; simpl in B |- *.
    + subst r. split; [apply ilin_neg_iff; rewrite Ropp_involutive; auto|]. split; [apply itv_neg_sound; auto|].
      destruct t1; simpl in G3 |- *; auto; try (apply f_opp; auto; fail). intros z Z. destruct (G3 (- z)%Z) as [K1 K2]. rewrite opp_IZR. rewrite <- Rabs_Ropp. replace (- (- IZR z - x))%R with (IZR z - - x)%R by ring. auto.
      rewrite opp_IZR in K1, K2. split. apply ilin_neg_iff; auto. rewrite <- (Ropp_involutive (IZR z)). apply itv_neg_sound; auto.
    + pose proof (proj2 (round_reduce env _ l1 i1 t1 t d v x r S1 S2)) as G. destruct (lin_round l1 i1 t1 t d) as [l i]. simpl in G. destruct (lin_reduce env l i) as [l' i']. simpl in *.
      destruct G as [K1 K2]; auto. intros k K. apply PT; auto. split; auto. split; auto. eapply rounded_tyok; eauto.
    + destruct B as [B0 B]. assert (I : in_itv r (itv_round (F:=F) t d (itv_sqrt i1))) by (eapply itv_round_sound; eauto; apply itv_sqrt_sound; auto).
      assert (L : ival (cst_form (itv_round (F:=F) t d (itv_sqrt i1))) v r) by (apply cst_form_val; auto). split; auto. split; auto. eapply rounded_tyok; eauto.
  - apply xval_bin in H. destruct H as (x & y & A & B & C). destruct PO as (PO1 & PO2 & PO3).
    pose proof (IHa x (pt_l _ _ _ _ _ _ PT) PO1 A) as GA. pose proof (intlin_rec_shape a) as SA. pose proof (IHb y (pt_r _ _ _ _ _ _ PT) PO2 B) as GB. pose proof (intlin_rec_shape b) as SB.
    simpl. destruct (rec a) as [[t1 l1] i1] eqn:Ea. destruct (rec b) as [[t2 l2] i2] eqn:Eb. simpl in GA, SA, GB, SB, PO3. destruct GA as (LA & IA & TA). destruct GB as (LB & IB & TB).
    apply (shape_mono _ (fun d0 => occurs d0 (TBin o t d a b))) in SA; [|intros; apply oc_l; auto]. apply (shape_mono _ (fun d0 => occurs d0 (TBin o t d a b))) in SB; [|intros; apply oc_r; auto].
    destruct SA as (FA & DA & _). destruct SB as (FB & DB & _).
    rewrite (not_bottom _ _ IA), (not_bottom _ _ IB). simpl.
    assert (G : forall l i org z, flags_ok (il_terms l) -> dims_in (fun d0 => occurs d0 (TBin o t d a b)) (il_terms l) -> ival l v z -> in_itv z i -> tyok org l i v z -> rounded F t d z r ->
      let q := (let '(l0, i0) := lin_round (N:=N) (F:=F) l i org t d in let '(l1, i1) := lin_reduce (N:=N) env l0 i0 in (t, l1, i1)) in
      ival (snd (fst q)) v r /\ in_itv r (snd q) /\ tyok (fst (fst q)) (snd (fst q)) (snd q) v r).
    { intros l i org z FL D L I T R. pose proof (proj2 (round_reduce env _ l i org t d v z r FL D)) as G. destruct (lin_round l i org t d) as [l0 i0]. simpl in G. destruct (lin_reduce env l0 i0) as [l' i']. simpl in *.
      destruct G as [K1 K2]; auto. intros k K. apply PT; auto. split; auto. split; auto. eapply rounded_tyok; eauto. }
    assert (INT : t1 = RInt -> t2 = RInt -> exists a1 b1 a2 b2, ((IZR a1 <= x <= IZR b1)%R /\ (IZR a2 <= y <= IZR b2)%R) /\
      (ival l1 v (IZR a1) /\ in_itv (IZR a1) i1) /\ (ival l1 v (IZR b1) /\ in_itv (IZR b1) i1) /\ (ival l2 v (IZR a2) /\ in_itv (IZR a2) i2) /\ (ival l2 v (IZR b2) /\ in_itv (IZR b2) i2)).
    { intros -> ->. simpl in TA, TB. destruct (int_around x) as (a1 & b1 & X1 & X2 & X3). destruct (int_around y) as (a2 & b2 & Y1 & Y2 & Y3). exists a1, b1, a2, b2. auto 10. }
    destruct o; simpl in C.
    + apply G with (x + y)%R; auto. apply ilin_add_flags; auto. apply ilin_add_dims; auto. apply ilin_add_sound; auto. apply itv_add_sound; auto.
      apply both_int_sound. intros T1 T2. destruct (INT T1 T2) as (a1 & b1 & a2 & b2 & [X Y] & [K1 K2] & [K3 K4] & [K5 K6] & [K7 K8]). apply tyok_int. exists (a1 + a2)%Z, (b1 + b2)%Z. rewrite !plus_IZR.
      split; [lra|]. split; split; try (apply ilin_add_sound; auto); apply itv_add_sound; auto.
    + apply G with (x - y)%R; auto. apply ilin_add_flags; auto. apply ilin_neg_flags; auto. apply ilin_add_dims; auto. apply ilin_neg_dims; auto. apply ilin_sub_sound; auto. apply itv_sub_sound; auto.
      apply both_int_sound. intros T1 T2. destruct (INT T1 T2) as (a1 & b1 & a2 & b2 & [X Y] & [K1 K2] & [K3 K4] & [K5 K6] & [K7 K8]). apply tyok_int. exists (a1 - b2)%Z, (b1 - a2)%Z. rewrite !minus_IZR.
      split; [lra|]. split; split; try (apply ilin_sub_sound; auto); apply itv_sub_sound; auto.
    + assert (SC : forall p q, ival l1 v p -> in_itv p i1 -> ival l2 v q -> in_itv q i2 -> ival (if cmp_range (N:=N) l1 i1 l2 i2 then ilin_scale (N:=N) l1 i2 else ilin_scale (N:=N) l2 i1) v (p * q) /\ in_itv (p * q) (itv_mul (N:=N) i1 i2)).
      { intros p q P1 P2 Q1 Q2. split; [|apply itv_mul_sound; auto]. destruct (cmp_range l1 i1 l2 i2). apply ilin_scale_sound; auto. rewrite Rmult_comm. apply ilin_scale_sound; auto. }
      apply G with (x * y)%R; auto; try apply SC; auto.
      * destruct (cmp_range l1 i1 l2 i2); apply ilin_scale_flags.
      * destruct (cmp_range l1 i1 l2 i2); apply ilin_scale_dims; auto.
      * apply both_int_sound. intros T1 T2. destruct (INT T1 T2) as (a1 & b1 & a2 & b2 & [X Y] & [K1 K2] & [K3 K4] & [K5 K6] & [K7 K8]).
        destruct (corners a1 b1 a2 b2 x y X Y) as (p & q & PQ & (u & w & U & W & ->) & (u' & w' & U' & W' & ->)). apply tyok_int. exists (u * w)%Z, (u' * w')%Z. split; auto. rewrite !mult_IZR.
        split; apply SC; destruct U as [-> | ->], W as [-> | ->], U' as [-> | ->], W' as [-> | ->]; auto.
    + destruct C as [C0 C]. apply G with (x / y)%R; simpl; auto. apply ilin_div_flags. apply ilin_div_dims; auto. apply ilin_div_sound; auto. apply itv_div_sound; auto.
    + destruct C as (C0 & C1 & C2 & C3). assert (I : in_itv r (itv_mod (N:=N) (rtype_eqb t RInt) i1 i2)) by (eapply itv_mod_sound; eauto; intros E; apply rtype_eqb_eq in E; auto).
      assert (L : ival (cst_form (itv_mod (N:=N) (rtype_eqb t RInt) i1 i2)) v r) by (apply cst_form_val; auto). cbn [fst snd]. split; auto. split; auto.
      destruct t; simpl in C3 |- *; auto. destruct (C2 eq_refl) as [[zx ->] [zy ->]]. destruct C1 as (k & _ & ->). apply tyok_integer; auto. exists (zx - zy * k)%Z. rewrite minus_IZR, mult_IZR. auto.
    + destruct (PO3 eq_refl) as [-> PB]. destruct C as (p & C1 & C2). simpl in C2. subst r. assert (I : in_itv p (itv_pow i1 i2)) by (eapply pow_sound; eauto). cbn [fst snd]. split; [apply cst_form_val; auto|]. split; auto. simpl. auto.
Qed.
(** itv_intlinearize_ap_texpr0 *)
Lemma intlin_texpr_sound : forall v e r, pt_ok v e -> lin_pow_ok e -> xval F v e r ->
  exists l, intlin_texpr (N:=N) (F:=F) eq0 env intdim e = Some l /\ shape (fun d => occurs d e) l /\ ival l v r.
Proof.
  intros v e r PT PO H. destruct (intlin_rec_sound v e r PT PO H) as (A & B & _). pose proof (intlin_rec_shape e) as S. unfold intlin_texpr. destruct (rec e) as [[t l] i]. simpl in *.
  rewrite (not_bottom _ _ B). assert (C : itv_is_bottom (il_cst l) = false) by (destruct A as (c & y & C & _); eapply not_bottom; eauto). rewrite C. simpl. eexists; split; eauto.
  destruct (il_terms l) eqn:E; [|split; auto]. split. apply shape_cst. apply cst_form_val. apply itv_meet_spec. split; auto. apply (ival_nil' l v); auto.
Qed.
End Rec.
End Tree.

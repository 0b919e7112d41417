(** Facts on bounds. *)
From Coq Require Import ZArith QArith Qreals Reals Lra Lia Bool Qround Qabs.
From Verif Require Import Bound.
Open Scope Z_scope.

Lemma Q2R_inject : forall z, Q2R (inject_Z z) = IZR z.
Proof. intros z. unfold Q2R, inject_Z; simpl. field. Qed.

Lemma Q2R_0' : Q2R 0 = 0%R.
Proof. exact RMicromega.Q2R_0. Qed.

Lemma Q2R_half : forall q, Q2R (q / 2) = (Q2R q / 2)%R.
Proof.
  intros q. rewrite Q2R_div by (intro H; discriminate H).
  f_equal. unfold Q2R; simpl; field.
Qed.

Lemma Q2R_two : forall q, Q2R (2 * q) = (2 * Q2R q)%R.
Proof. intros q. rewrite Q2R_mult. f_equal. unfold Q2R; simpl; field. Qed.

Lemma Qle_Q2R : forall p q, (p <= q)%Q <-> (Q2R p <= Q2R q)%R.
Proof. intros; split; [apply Qle_Rle | apply Rle_Qle]. Qed.
Lemma Qlt_Q2R : forall p q, (p < q)%Q <-> (Q2R p < Q2R q)%R.
Proof. intros; split; [apply Qlt_Rlt | apply Rlt_Qlt]. Qed.
Lemma Qeq_Q2R : forall p q, (p == q)%Q <-> (Q2R p = Q2R q)%R.
Proof. intros; split; [apply Qeq_eqR | apply eqR_Qeq]. Qed.

Lemma sgn_Q_pos : forall q, 0 < Z.sgn (Qnum q) <-> (0 < Q2R q)%R.
Proof.
  intros q. rewrite <- Q2R_0', <- Qlt_Q2R. unfold Qlt; simpl. rewrite Z.mul_1_r.
  destruct (Qnum q); simpl; lia.
Qed.
Lemma sgn_Q_neg : forall q, Z.sgn (Qnum q) < 0 <-> (Q2R q < 0)%R.
Proof.
  intros q. rewrite <- Q2R_0', <- Qlt_Q2R. unfold Qlt; simpl. rewrite Z.mul_1_r.
  destruct (Qnum q); simpl; lia.
Qed.
Lemma sgn_Q_zero : forall q, Z.sgn (Qnum q) = 0 <-> (Q2R q = 0)%R.
Proof.
  intros q. pose proof (sgn_Q_pos q). pose proof (sgn_Q_neg q).
  split; intro E.
  - destruct (Rtotal_order (Q2R q) 0) as [L|[L|L]]; auto.
    + apply H0 in L. lia.
    + apply H in L. lia.
  - destruct (Z.lt_trichotomy (Z.sgn (Qnum q)) 0) as [L|[L|L]]; auto.
    + apply H0 in L. lra.
    + apply H in L. lra.
Qed.
Lemma sgn_Q_le : forall q, Z.sgn (Qnum q) <= 0 <-> (Q2R q <= 0)%R.
Proof.
  intros q. pose proof (sgn_Q_pos q). split; intro E.
  - destruct (Rle_dec (Q2R q) 0); auto. assert (0 < Q2R q)%R as L by lra.
    apply H in L; lia.
  - destruct (Z.le_gt_cases (Z.sgn (Qnum q)) 0) as [L|L]; auto.
    apply H in L; lra.
Qed.
Lemma sgn_Q_ge : forall q, 0 <= Z.sgn (Qnum q) <-> (0 <= Q2R q)%R.
Proof.
  intros q. pose proof (sgn_Q_neg q). split; intro E.
  - destruct (Rle_dec 0 (Q2R q)); auto. assert (Q2R q < 0)%R as L by lra.
    apply H in L; lia.
  - destruct (Z.le_gt_cases 0 (Z.sgn (Qnum q))) as [L|L]; auto.
    apply H in L; lra.
Qed.

Lemma qcmp_lt : forall p q, qcmp p q < 0 <-> (Q2R p < Q2R q)%R.
Proof.
  intros p q. unfold qcmp. destruct (Qcompare_spec p q) as [H|H|H].
  - apply Qeq_Q2R in H. split; intro; [lia|lra].
  - apply Qlt_Q2R in H. split; intro; [lra|lia].
  - apply Qlt_Q2R in H. split; intro; [lia|lra].
Qed.
Lemma qcmp_gt : forall p q, 0 < qcmp p q <-> (Q2R q < Q2R p)%R.
Proof.
  intros p q. unfold qcmp. destruct (Qcompare_spec p q) as [H|H|H].
  - apply Qeq_Q2R in H. split; intro; [lia|lra].
  - apply Qlt_Q2R in H. split; intro; [lia|lra].
  - apply Qlt_Q2R in H. split; intro; [lra|lia].
Qed.
Lemma qcmp_eq : forall p q, qcmp p q = 0 <-> (Q2R p = Q2R q)%R.
Proof.
  intros p q. unfold qcmp. destruct (Qcompare_spec p q) as [H|H|H].
  - apply Qeq_Q2R in H. split; intro; [lra|lia].
  - apply Qlt_Q2R in H. split; intro; [lia|lra].
  - apply Qlt_Q2R in H. split; intro; [lia|lra].
Qed.
Lemma qcmp_le : forall p q, qcmp p q <= 0 <-> (Q2R p <= Q2R q)%R.
Proof.
  intros p q. pose proof (qcmp_gt p q). split; intro E.
  - destruct (Rle_dec (Q2R p) (Q2R q)); auto. assert (Q2R q < Q2R p)%R as L by lra.
    apply H in L; lia.
  - destruct (Z.le_gt_cases (qcmp p q) 0) as [L|L]; auto. apply H in L; lra.
Qed.

Lemma Qle_bool_R : forall p q, Qle_bool p q = true <-> (Q2R p <= Q2R q)%R.
Proof. intros. rewrite Qle_bool_iff. apply Qle_Q2R. Qed.
Lemma Qle_bool_R_false : forall p q, Qle_bool p q = false <-> (Q2R q < Q2R p)%R.
Proof.
  intros. pose proof (Qle_bool_R p q). destruct (Qle_bool p q).
  - split; intro; [discriminate|]. assert (Q2R p <= Q2R q)%R by (apply H; auto). lra.
  - split; intro; auto. destruct (Rle_dec (Q2R p) (Q2R q)) as [L|L]; [|lra].
    apply H in L; discriminate.
Qed.

Lemma Qfloor_R : forall q, (IZR (Qfloor q) <= Q2R q < IZR (Qfloor q) + 1)%R.
Proof.
  intros q. pose proof (Qfloor_le q) as H1. pose proof (Qlt_floor q) as H2.
  apply Qle_Rle in H1. apply Qlt_Rlt in H2. rewrite Q2R_inject in H1.
  rewrite Q2R_inject in H2. rewrite plus_IZR in H2. simpl in H2. lra.
Qed.
Lemma Qceiling_R : forall q, (IZR (Qceiling q) - 1 < Q2R q <= IZR (Qceiling q))%R.
Proof.
  intros q. unfold Qceiling. pose proof (Qfloor_R (- q)). rewrite Q2R_opp in H.
  rewrite opp_IZR. lra.
Qed.

(** ** Order *)

Lemma le_bb_refl : forall a, le_bb a a.
Proof. destruct a; simpl; auto. apply Qle_refl. Qed.
Lemma le_bb_trans : forall a b c, le_bb a b -> le_bb b c -> le_bb a c.
Proof.
  destruct a, b, c; simpl; auto; try tauto. apply Qle_trans.
Qed.
Lemma le_bb_PInf : forall a, le_bb a PInf.
Proof. destruct a; simpl; auto. Qed.
Lemma le_bb_Fin : forall p q, le_bb (Fin p) (Fin q) <-> (Q2R p <= Q2R q)%R.
Proof. intros; simpl. apply Qle_Q2R. Qed.
Lemma le_rb_mono : forall x a b, le_rb x a -> le_bb a b -> le_rb x b.
Proof.
  destruct a, b; simpl; try tauto. intros. apply Qle_Q2R in H0. lra.
Qed.
Lemma le_rb_le : forall x y b, (x <= y)%R -> le_rb y b -> le_rb x b.
Proof. destruct b; simpl; intros; auto; lra. Qed.
Lemma ge_rb_le : forall x y b, (x <= y)%R -> ge_rb x b -> ge_rb y b.
Proof. destruct b; simpl; intros; auto; lra. Qed.

Lemma bcmp_le : forall a b, bcmp a b <= 0 <-> le_bb a b.
Proof.
  destruct a, b; simpl; try (split; intro; auto; lia).
  rewrite qcmp_le. symmetry; apply Qle_Q2R.
Qed.
Lemma bcmp_gt : forall a b, 0 < bcmp a b <-> ~ le_bb a b.
Proof. intros. rewrite <- bcmp_le. lia. Qed.
Lemma bcmp_anti : forall a b, bcmp b a = - bcmp a b.
Proof.
  destruct a, b; simpl; auto. unfold qcmp.
  rewrite (Qcompare_antisym q0 q) || idtac.
  rewrite <- (Qcompare_antisym q q0). destruct (q ?= q0)%Q; reflexivity.
Qed.
Lemma le_bb_total : forall a b, le_bb a b \/ le_bb b a.
Proof.
  intros. rewrite <- !bcmp_le. pose proof (bcmp_anti a b). lia.
Qed.
Lemma le_bb_dec : forall a b, {le_bb a b} + {~ le_bb a b}.
Proof.
  intros. destruct (Z_le_gt_dec (bcmp a b) 0).
  - left. apply bcmp_le; auto.
  - right. rewrite <- bcmp_le. lia.
Defined.
Lemma bcmp_eq : forall a b, bcmp a b = 0 <-> bequal a b = true.
Proof.
  destruct a, b; simpl; try (split; intro; auto; try discriminate; lia).
  rewrite qcmp_eq. rewrite Qeq_bool_iff. symmetry; apply Qeq_Q2R.
Qed.
Lemma bequal_le : forall a b, bequal a b = true <-> le_bb a b /\ le_bb b a.
Proof.
  intros. rewrite <- bcmp_eq, <- !bcmp_le. pose proof (bcmp_anti a b). lia.
Qed.
Lemma bequal_refl : forall a, bequal a a = true.
Proof. intros. apply bequal_le. split; apply le_bb_refl. Qed.

(** Characterisation of the order through the reals below. *)
Lemma le_bb_rb : forall a b, le_bb a b <-> (forall x, le_rb x a -> le_rb x b).
Proof.
  intros a b; split.
  - intros H x Hx. eapply le_rb_mono; eauto.
  - destruct a as [|p|], b as [|q|]; simpl; intros H; auto.
    + apply (H (Q2R p)). lra.
    + apply Qle_Q2R. apply H. lra.
    + apply (H 0%R). auto.
    + specialize (H (Q2R q + 1)%R I). lra.
Qed.

Lemma bmin_spec : forall x a b, le_rb x (bmin a b) <-> le_rb x a /\ le_rb x b.
Proof.
  intros x a b. destruct a as [|p|], b as [|q|]; simpl; try tauto.
  destruct (Qle_bool p q) eqn:E; simpl.
  - apply Qle_bool_R in E. lra.
  - apply Qle_bool_R_false in E. lra.
Qed.
Lemma bmax_spec : forall x a b, le_rb x (bmax a b) <-> le_rb x a \/ le_rb x b.
Proof.
  intros x a b. destruct a as [|p|], b as [|q|]; simpl; try tauto.
  destruct (Qle_bool p q) eqn:E; simpl.
  - apply Qle_bool_R in E. split; [auto|]. intros [H|H]; lra.
  - apply Qle_bool_R_false in E. split; [auto|]. intros [H|H]; lra.
Qed.
Lemma bmin_le_l : forall a b, le_bb (bmin a b) a.
Proof. intros. apply le_bb_rb. intros x. rewrite bmin_spec. tauto. Qed.
Lemma bmin_le_r : forall a b, le_bb (bmin a b) b.
Proof. intros. apply le_bb_rb. intros x. rewrite bmin_spec. tauto. Qed.
Lemma bmin_glb : forall a b c, le_bb c a -> le_bb c b -> le_bb c (bmin a b).
Proof.
  intros a b c. rewrite !le_bb_rb. intros H1 H2 x Hx. apply bmin_spec; auto.
Qed.
Lemma bmax_ge_l : forall a b, le_bb a (bmax a b).
Proof. intros. apply le_bb_rb. intros x. rewrite bmax_spec. tauto. Qed.
Lemma bmax_ge_r : forall a b, le_bb b (bmax a b).
Proof. intros. apply le_bb_rb. intros x. rewrite bmax_spec. tauto. Qed.
Lemma bmax_lub : forall a b c, le_bb a c -> le_bb b c -> le_bb (bmax a b) c.
Proof.
  intros a b c. rewrite !le_bb_rb. intros H1 H2 x Hx. apply bmax_spec in Hx.
  destruct Hx; auto.
Qed.
Lemma bmin_mono : forall a b c d, le_bb a c -> le_bb b d -> le_bb (bmin a b) (bmin c d).
Proof.
  intros. apply bmin_glb.
  - eapply le_bb_trans; [apply bmin_le_l|auto].
  - eapply le_bb_trans; [apply bmin_le_r|auto].
Qed.

(** ** Arithmetic *)

Lemma rnd_ge : forall (N : numtype) x q, (x <= Q2R q)%R -> le_rb x (rnd N q).
Proof.
  intros N x q H. pose proof (rnd_up N q) as U. destruct (rnd N q); simpl in *; auto.
  apply Qle_Rle in U. lra.
Qed.
Lemma rnd_not_MInf : forall (N : numtype) q, rnd N q <> MInf.
Proof. intros N q E. pose proof (rnd_up N q) as U. rewrite E in U. exact U. Qed.

Lemma bneg_le : forall x b, le_rb x (bneg b) <-> ge_rb (- x) b.
Proof.
  destruct b; simpl; try tauto. rewrite Q2R_opp. split; intro; lra.
Qed.
Lemma bneg_ge : forall x b, ge_rb x (bneg b) <-> le_rb (- x) b.
Proof.
  destruct b; simpl; try tauto. rewrite Q2R_opp. split; intro; lra.
Qed.
Lemma bneg_le_bb : forall a b, le_bb (bneg a) (bneg b) <-> le_bb b a.
Proof.
  destruct a, b; simpl; try tauto. rewrite !Qle_Q2R, !Q2R_opp. lra.
Qed.

Section A.
Context {N : numtype}.

Lemma badd_sound : forall x y b c, le_rb x b -> le_rb y c -> le_rb (x + y) (badd (N:=N) b c).
Proof.
  intros x y [|p|] [|q|]; simpl; intros; try tauto.
  apply rnd_ge. rewrite Q2R_plus. lra.
Qed.
Lemma bmul_2_sound : forall x b, le_rb x b -> le_rb (2 * x) (bmul_2 (N:=N) b).
Proof.
  intros x [|q|]; simpl; intros; auto. apply rnd_ge. rewrite Q2R_two. lra.
Qed.
Lemma bdiv_2_sound : forall x b, le_rb x b -> le_rb (x / 2) (bdiv_2 (N:=N) b).
Proof.
  intros x [|q|]; simpl; intros; auto. apply rnd_ge. rewrite Q2R_half. lra.
Qed.
Lemma badd_uint_sound : forall x b n, le_rb x b -> le_rb (x + IZR n) (badd_uint (N:=N) b n).
Proof.
  intros x [|q|] n; simpl; intros; auto. apply rnd_ge.
  rewrite Q2R_plus, Q2R_inject. lra.
Qed.
Lemma bsub_uint_sound : forall x b n, le_rb x b -> le_rb (x - IZR n) (bsub_uint (N:=N) b n).
Proof.
  intros x [|q|] n; simpl; intros; auto. apply rnd_ge.
  rewrite Q2R_minus, Q2R_inject. lra.
Qed.
Lemma bconv_sound : forall x b, le_rb x b -> le_rb x (bconv (N:=N) b).
Proof. intros x [|q|]; simpl; intros; auto. apply rnd_ge; auto. Qed.

(** Infinite upper bounds stay +oo: no operation on non-[MInf] operands
    returns -oo. *)
Lemma badd_not_MInf : forall b c, b <> MInf -> c <> MInf -> badd (N:=N) b c <> MInf.
Proof.
  intros [|p|] [|q|]; simpl; intros; try congruence. apply rnd_not_MInf.
Qed.
End A.

Lemma bmin_not_MInf : forall b c, b <> MInf -> c <> MInf -> bmin b c <> MInf.
Proof.
  intros [|p|] [|q|]; simpl; intros; try congruence. destruct (Qle_bool p q); congruence.
Qed.
Lemma bmax_not_MInf : forall b c, b <> MInf -> c <> MInf -> bmax b c <> MInf.
Proof.
  intros [|p|] [|q|]; simpl; intros; try congruence. destruct (Qle_bool p q); congruence.
Qed.
Lemma le_rb_not_MInf : forall x b, le_rb x b -> b <> MInf.
Proof. intros x b H E; subst; exact H. Qed.

(** ** Sign tests *)
Ltac bcase b := destruct b as [|?q|]; simpl in *.

Lemma bsgn_le0 : forall b, bsgn b <= 0 -> forall x, le_rb x b -> (x <= 0)%R.
Proof.
  intros [|q|]; simpl; intros H x Hx; try lia; try tauto.
  apply sgn_Q_le in H. lra.
Qed.
Lemma bsgn_lt0 : forall b, bsgn b < 0 -> forall x, le_rb x b -> (x < 0)%R.
Proof.
  intros [|q|]; simpl; intros H x Hx; try lia; try tauto.
  apply sgn_Q_neg in H. lra.
Qed.
Lemma bsgn_ge0 : forall b, 0 <= bsgn b -> le_rb 0 b.
Proof.
  intros [|q|]; simpl; intros H; try lia; auto. apply sgn_Q_ge in H. auto.
Qed.
Lemma bsgn_ge0_iff : forall b, 0 <= bsgn b <-> le_rb 0 b.
Proof.
  intros [|q|]; simpl; try tauto; try (split; intro; auto; lia). apply sgn_Q_ge.
Qed.
Lemma bsgn_le0_iff : forall b, bsgn b <= 0 <-> ge_rb 0 b.
Proof.
  intros [|q|]; simpl; try tauto; try (split; intro; auto; lia). apply sgn_Q_le.
Qed.

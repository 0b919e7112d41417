(** Property C62: the tests of linearity, polynomiality and determinism of tree expressions. *)
From Coq Require Import Arith ZArith QArith Qreals Reals Lra Lia Bool List.
From Verif Require Import Bound BoundFacts Itv ItvFacts ItvFacts2 Linexpr LinexprFacts ItvLinFacts ApCore ApCoreEq ApTexpr TexprSem PropTexpr.
Import ListNotations.
Open Scope nat_scope.

Definition fn := (nat -> R) -> R.
Definition affine (f : fn) : Prop := exists n c0 c, forall v, f v = (c0 + lsum n c v)%R.
Inductive poly : fn -> Prop :=
| po_cst : forall k, poly (fun _ => k)
| po_var : forall d, poly (fun v => v d)
| po_add : forall f g, poly f -> poly g -> poly (fun v => f v + g v)%R
| po_mul : forall f g, poly f -> poly g -> poly (fun v => f v * g v)%R.
Lemma po_pow : forall f k, poly f -> poly (fun v => f v ^ k)%R.
Proof. induction k; intros P; simpl; [apply po_cst|apply po_mul; auto]. Qed.
Lemma po_neg : forall f, poly f -> poly (fun v => -1 * f v)%R.
Proof. intros f P. apply (po_mul (fun _ => (-1)%R)); auto. apply po_cst. Qed.
Lemma lsum_dim : forall d v, lsum (d + 1) (fun j => if Nat.eqb j d then 1%R else 0%R) v = v d.
Proof. intros d v. rewrite (lsum_one (d + 1) _ v d); [|lia|intros j _ D; destruct (Nat.eqb_spec j d); [contradiction|lra]]. rewrite Nat.eqb_refl. lra. Qed.
Lemma lsum_pad : forall n m c v, n <= m -> lsum n c v = lsum m (fun j => if Nat.ltb j n then c j else 0%R) v.
Proof.
  intros n m c v L. rewrite (lsum_more n m); [|auto|intros j J; destruct (Nat.ltb_spec j n); [lia|lra]]. apply lsum_ext. intros j J. destruct (Nat.ltb_spec j n); [auto|lia].
Qed.
Lemma af_cst : forall k, affine (fun _ => k). Proof. intros k. exists 0, k, (fun _ => 0%R). intros v. simpl. lra. Qed.
Lemma af_var : forall d, affine (fun v => v d). Proof. intros d. exists (d + 1), 0%R, (fun j => if Nat.eqb j d then 1%R else 0%R). intros v. rewrite lsum_dim. lra. Qed.
Lemma af_add : forall f g, affine f -> affine g -> affine (fun v => f v + g v)%R.
Proof.
  intros f g (n & c0 & c & A) (m & d0 & d & B). exists (Nat.max n m), (c0 + d0)%R, (fun j => (if Nat.ltb j n then c j else 0) + (if Nat.ltb j m then d j else 0))%R. intros v.
  rewrite lsum_add, <- !lsum_pad by lia. rewrite A, B. lra.
Qed.
Lemma af_scale : forall k f, affine f -> affine (fun v => k * f v)%R.
Proof. intros k f (n & c0 & c & A). exists n, (k * c0)%R, (fun j => k * c j)%R. intros v. rewrite lsum_scale, A. lra. Qed.
Lemma cst_const : forall F a, is_interval_cst a = true -> forall v w r, xval F v a r <-> xval F w a r.
Proof. intros F a C v w r. apply xval_ext. intros d O. destruct (C43_dims a) as (_ & _ & _ & H). exfalso. eapply H; eauto. Qed.
Lemma un_exact_cast : forall t, un_exact UCast t = true -> t = RReal. Proof. intros t. unfold un_exact. simpl. apply rtype_eqb_eq. Qed.
Lemma bin_exact_real : forall o t, o <> BMod -> bin_exact o t = true -> t = RReal.
Proof. intros o t N. unfold bin_exact. rewrite orb_true_iff, binop_eqb_eq, rtype_eqb_eq. tauto. Qed.
Ltac ex := repeat split; try eassumption; try reflexivity.
Definition v0 : nat -> R := fun _ => 0%R.

(** an expression that passes the test is a set of affine functions: its values at a point are
    the values of these functions *)
Theorem C62_linear : forall F a, is_interval_linear a = true ->
  exists S : fn -> Prop, (forall f, S f -> affine f) /\ forall v r, xval F v a r <-> exists f, S f /\ r = f v.
Proof.
  intros F. induction a as [c|d|o t q a IH|o t q a IHa b IHb]; simpl; intros H.
  - exists (fun f => exists k, coeff_in k c /\ f = (fun _ => k)). split. intros f (k & _ & ->). apply af_cst. intros v r. rewrite xval_cst. split. intros C. exists (fun _ => r); split; eauto. intros (f & (k & K & ->) & ->); auto.
  - exists (fun f => f = (fun v => v d)). split. intros f ->. apply af_var. intros v r. rewrite xval_dim. split. intros ->; exists (fun v => v d); auto. intros (f & -> & ->); auto.
  - assert (G : is_interval_linear a = true /\ (o = UNeg \/ (o = UCast /\ t = RReal))).
    { destruct o; try discriminate; auto. apply andb_true_iff in H. destruct H as [H1 H2]. apply un_exact_cast in H1. auto. }
    destruct G as [L O]. destruct (IH L) as (S & S1 & S2). destruct O as [->|[-> ->]].
    + exists (fun f => exists g, S g /\ f = (fun v => -1 * g v)%R). split. intros f (g & G & ->). apply af_scale; auto. intros v r. rewrite xval_un. split.
      * intros (x & A & B). simpl in B. subst. apply S2 in A. destruct A as (g & G & ->). eexists; split; [exists g; ex|]. simpl. lra.
      * intros (f & (g & G & ->) & ->). exists (g v). split. apply S2; eauto. simpl. lra.
    + exists S. split; auto. intros v r. rewrite xval_un, <- S2. simpl. split. intros (x & A & ->); auto. intros A; exists r; auto.
  - destruct o; try discriminate; rewrite ?andb_true_iff, ?orb_true_iff, ?andb_true_iff in H.
    + destruct H as [[H1 H2] H3]. apply bin_exact_real in H1; [|discriminate]. subst t. destruct (IHa H2) as (S & S1 & S2). destruct (IHb H3) as (T & T1 & T2).
      exists (fun f => exists g h, S g /\ T h /\ f = (fun v => g v + h v)%R). split. intros f (g & h & G & K & ->). apply af_add; auto. intros v r. rewrite xval_bin. simpl. split.
      * intros (x & y & A & B & ->). apply S2 in A. apply T2 in B. destruct A as (g & G & ->), B as (h & K & ->). eexists; split; [exists g, h; ex|]. auto.
      * intros (f & (g & h & G & K & ->) & ->). exists (g v), (h v). split. apply S2; eauto. split; auto. apply T2; eauto.
    + destruct H as [[H1 H2] H3]. apply bin_exact_real in H1; [|discriminate]. subst t. destruct (IHa H2) as (S & S1 & S2). destruct (IHb H3) as (T & T1 & T2).
      exists (fun f => exists g h, S g /\ T h /\ f = (fun v => g v + -1 * h v)%R). split. intros f (g & h & G & K & ->). apply (af_add g (fun v => -1 * h v)%R); auto. apply af_scale; auto. intros v r. rewrite xval_bin. simpl. split.
      * intros (x & y & A & B & ->). apply S2 in A. apply T2 in B. destruct A as (g & G & ->), B as (h & K & ->). eexists; split; [exists g, h; ex|]. simpl. lra.
      * intros (f & (g & h & G & K & ->) & ->). exists (g v), (h v). split. apply S2; eauto. split. apply T2; eauto. lra.
    + destruct H as [H1 H2]. apply bin_exact_real in H1; [|discriminate]. subst t. destruct H2 as [[L C]|[L C]].
      * destruct (IHa L) as (S & S1 & S2). exists (fun f => exists g k, S g /\ xval F v0 b k /\ f = (fun v => k * g v)%R). split. intros f (g & k & G & K & ->). apply af_scale; auto. intros v r. rewrite xval_bin. simpl. split.
        -- intros (x & y & A & B & ->). apply S2 in A. destruct A as (g & G & ->). apply (cst_const F b C v v0) in B. eexists; split; [exists g, y; ex|]. simpl. lra.
        -- intros (f & (g & k & G & K & ->) & ->). exists (g v), k. split. apply S2; eauto. split. apply (cst_const F b C v0 v); auto. lra.
      * destruct (IHb L) as (S & S1 & S2). exists (fun f => exists g k, S g /\ xval F v0 a k /\ f = (fun v => k * g v)%R). split. intros f (g & k & G & K & ->). apply af_scale; auto. intros v r. rewrite xval_bin. simpl. split.
        -- intros (x & y & A & B & ->). apply S2 in B. destruct B as (g & G & ->). apply (cst_const F a C v v0) in A. eexists; split; [exists g, x; ex|]. simpl. lra.
        -- intros (f & (g & k & G & K & ->) & ->). exists k, (g v). split. apply (cst_const F a C v0 v); auto. split; auto. apply S2; eauto.
    + destruct H as [[H1 L] C]. apply bin_exact_real in H1; [|discriminate]. subst t.
      destruct (IHa L) as (S & S1 & S2). exists (fun f => exists g k, S g /\ (xval F v0 b k /\ k <> 0%R) /\ f = (fun v => / k * g v)%R). split. intros f (g & k & G & K & ->). apply af_scale; auto. intros v r. rewrite xval_bin. simpl. split.
      * intros (x & y & A & B & Y & ->). apply S2 in A. destruct A as (g & G & ->). apply (cst_const F b C v v0) in B. eexists; split; [exists g, y; ex|]. simpl. field; auto.
      * intros (f & (g & k & G & [K K0] & ->) & ->). exists (g v), k. split. apply S2; eauto. split. apply (cst_const F b C v0 v); auto. split; auto. field; auto.
Qed.
Print Assumptions C62_linear.
(** likewise with polynomial functions; a power whose exponent is not a natural number counts as
    an arbitrary constant (its value is unspecified) *)
Theorem C62_polynomial : forall F a, is_interval_polynomial a = true ->
  exists S : fn -> Prop, (forall f, S f -> poly f) /\ forall v r, xval F v a r <-> exists f, S f /\ r = f v.
Proof.
  intros F. induction a as [c|d|o t q a IH|o t q a IHa b IHb]; simpl; intros H.
  - exists (fun f => exists k, coeff_in k c /\ f = (fun _ => k)). split. intros f (k & _ & ->). apply po_cst. intros v r. rewrite xval_cst. split. intros C. exists (fun _ => r); split; eauto. intros (f & (k & K & ->) & ->); auto.
  - exists (fun f => f = (fun v => v d)). split. intros f ->. apply po_var. intros v r. rewrite xval_dim. split. intros ->; exists (fun v => v d); auto. intros (f & -> & ->); auto.
  - assert (G : is_interval_polynomial a = true /\ (o = UNeg \/ (o = UCast /\ t = RReal))).
    { destruct o; try discriminate; auto. apply andb_true_iff in H. destruct H as [H1 H2]. apply un_exact_cast in H1. auto. }
    destruct G as [L O]. destruct (IH L) as (S & S1 & S2). destruct O as [->|[-> ->]].
    + exists (fun f => exists g, S g /\ f = (fun v => -1 * g v)%R). split. intros f (g & G & ->). apply po_neg; auto. intros v r. rewrite xval_un. split.
      * intros (x & A & B). simpl in B. subst. apply S2 in A. destruct A as (g & G & ->). eexists; split; [exists g; ex|]. simpl. lra.
      * intros (f & (g & G & ->) & ->). exists (g v). split. apply S2; eauto. simpl. lra.
    + exists S. split; auto. intros v r. rewrite xval_un, <- S2. simpl. split. intros (x & A & ->); auto. intros A; exists r; auto.
  - destruct o; try discriminate; rewrite ?andb_true_iff in H; destruct H as [[H1 H2] H3]; apply bin_exact_real in H1; try discriminate; subst t; destruct (IHa H2) as (S & S1 & S2).
    + destruct (IHb H3) as (T & T1 & T2).
      exists (fun f => exists g h, S g /\ T h /\ f = (fun v => g v + h v)%R). split. intros f (g & h & G & K & ->). apply po_add; auto. intros v r. rewrite xval_bin. simpl. split.
      * intros (x & y & A & B & ->). apply S2 in A. apply T2 in B. destruct A as (g & G & ->), B as (h & K & ->). eexists; split; [exists g, h; ex|]. auto.
      * intros (f & (g & h & G & K & ->) & ->). exists (g v), (h v). split. apply S2; eauto. split; auto. apply T2; eauto.
    + destruct (IHb H3) as (T & T1 & T2).
      exists (fun f => exists g h, S g /\ T h /\ f = (fun v => g v + -1 * h v)%R). split. intros f (g & h & G & K & ->). apply (po_add g (fun v => -1 * h v)%R); auto. apply po_neg; auto. intros v r. rewrite xval_bin. simpl. split.
      * intros (x & y & A & B & ->). apply S2 in A. apply T2 in B. destruct A as (g & G & ->), B as (h & K & ->). eexists; split; [exists g, h; ex|]. simpl. lra.
      * intros (f & (g & h & G & K & ->) & ->). exists (g v), (h v). split. apply S2; eauto. split. apply T2; eauto. lra.
    + destruct (IHb H3) as (T & T1 & T2).
      exists (fun f => exists g h, S g /\ T h /\ f = (fun v => g v * h v)%R). split. intros f (g & h & G & K & ->). apply po_mul; auto. intros v r. rewrite xval_bin. simpl. split.
      * intros (x & y & A & B & ->). apply S2 in A. apply T2 in B. destruct A as (g & G & ->), B as (h & K & ->). eexists; split; [exists g, h; ex|]. auto.
      * intros (f & (g & h & G & K & ->) & ->). exists (g v), (h v). split. apply S2; eauto. split; auto. apply T2; eauto.
    + rename H3 into C. exists (fun f => exists g k, S g /\ (xval F v0 b k /\ k <> 0%R) /\ f = (fun v => / k * g v)%R). split. intros f (g & k & G & K & ->). apply (po_mul (fun _ => (/ k)%R)); auto. apply po_cst. intros v r. rewrite xval_bin. simpl. split.
      * intros (x & y & A & B & Y & ->). apply S2 in A. destruct A as (g & G & ->). apply (cst_const F b C v v0) in B. eexists; split; [exists g, y; ex|]. simpl. field; auto.
      * intros (f & (g & k & G & [K K0] & ->) & ->). exists (g v), k. split. apply S2; eauto. split. apply (cst_const F b C v0 v); auto. split; auto. field; auto.
    + rename H3 into C. exists (fun f => (exists g k, S g /\ xval F v0 b (INR k) /\ f = (fun v => g v ^ k)%R) \/ (exists g y r, S g /\ xval F v0 b y /\ (forall k, y <> INR k) /\ f = (fun _ => r))). split.
      { intros f [(g & k & G & K & ->)|(g & y & r & _ & _ & _ & ->)]. apply po_pow; auto. apply po_cst. }
      intros v r. rewrite xval_bin. simpl. split.
      * intros (x & y & A & B & p & P & ->). apply S2 in A. destruct A as (g & G & ->). apply (cst_const F b C v v0) in B. destruct P as [(k & -> & ->)|N].
        eexists; split; [left; exists g, k; ex|]. auto. exists (fun _ => p). split; auto. right. exists g, y, p. auto.
      * intros (f & [(g & k & G & K & ->)|(g & y & p & G & K & N & ->)] & ->).
        -- exists (g v), (INR k). split. apply S2; eauto. split. apply (cst_const F b C v0 v); auto. exists (g v ^ k)%R. split; auto. left; eauto.
        -- exists (g v), y. split. apply S2; eauto. split. apply (cst_const F b C v0 v); auto. exists p. split; auto. right; auto.
Qed.
Print Assumptions C62_polynomial.
(** likewise with quotients of polynomials, where the denominator is not zero *)
Theorem C62_polyfrac : forall F a, is_interval_polyfrac a = true ->
  exists S : fn -> fn -> Prop, (forall f g, S f g -> poly f /\ poly g) /\ forall v r, xval F v a r <-> exists f g, S f g /\ g v <> 0%R /\ r = (f v / g v)%R.
Proof.
  intros F. induction a as [c|d|o t q a IH|o t q a IHa b IHb]; simpl; intros H.
  - exists (fun f g => exists k, coeff_in k c /\ f = (fun _ => k) /\ g = (fun _ => 1%R)). split. intros f g (k & _ & -> & ->). split; apply po_cst. intros v r. rewrite xval_cst. split.
    intros C. exists (fun _ => r), (fun _ => 1%R). split; eauto. split; [lra|field]. intros (f & g & (k & K & -> & ->) & _ & ->). replace (k / 1)%R with k by field. auto.
  - exists (fun f g => f = (fun v => v d) /\ g = (fun _ => 1%R)). split. intros f g [-> ->]. split; [apply po_var|apply po_cst]. intros v r. rewrite xval_dim. split.
    intros ->. exists (fun v => v d), (fun _ => 1%R). split; auto. split; [lra|field]. intros (f & g & [-> ->] & _ & ->). field.
  - assert (G : is_interval_polyfrac a = true /\ (o = UNeg \/ (o = UCast /\ t = RReal))).
    { destruct o; try discriminate; auto. apply andb_true_iff in H. destruct H as [H1 H2]. apply un_exact_cast in H1. auto. }
    destruct G as [L O]. destruct (IH L) as (S & S1 & S2). destruct O as [->|[-> ->]].
    + exists (fun f g => exists h, S h g /\ f = (fun v => -1 * h v)%R). split. intros f g (h & G & ->). destruct (S1 _ _ G). split; auto. apply po_neg; auto. intros v r. rewrite xval_un. split.
      * intros (x & A & B). simpl in B. subst. apply S2 in A. destruct A as (h & g & G & N & ->). exists (fun v => -1 * h v)%R, g. split; eauto. split; auto. field; auto.
      * intros (f & g & (h & G & ->) & N & ->). exists (h v / g v)%R. split. apply S2; eauto. simpl. field; auto.
    + exists S. split; auto. intros v r. rewrite xval_un, <- S2. simpl. split. intros (x & A & ->); auto. intros A; exists r; auto.
  - destruct o; try discriminate; rewrite ?andb_true_iff in H; destruct H as [[H1 H2] H3]; apply bin_exact_real in H1; try discriminate; subst t; destruct (IHa H2) as (S & S1 & S2).
    + destruct (IHb H3) as (T & T1 & T2).
      exists (fun f g => exists f1 g1 f2 g2, S f1 g1 /\ T f2 g2 /\ f = (fun v => f1 v * g2 v + f2 v * g1 v)%R /\ g = (fun v => g1 v * g2 v)%R). split.
      { intros f g (f1 & g1 & f2 & g2 & A & B & -> & ->). destruct (S1 _ _ A), (T1 _ _ B). split. apply (po_add (fun v => f1 v * g2 v)%R (fun v => f2 v * g1 v)%R); apply po_mul; auto. apply po_mul; auto. }
      intros v r. rewrite xval_bin. simpl. split.
      * intros (x & y & A & B & ->). apply S2 in A. apply T2 in B. destruct A as (f1 & g1 & A1 & A2 & ->), B as (f2 & g2 & B1 & B2 & ->). eexists; eexists; split; [exists f1, g1, f2, g2; ex|]. simpl. split. apply Rmult_integral_contrapositive; auto. field; auto.
      * intros (f & g & (f1 & g1 & f2 & g2 & A & B & -> & ->) & N & ->). assert (N1 : g1 v <> 0%R) by (intro X; apply N; rewrite X; lra). assert (N2 : g2 v <> 0%R) by (intro X; apply N; rewrite X; lra).
        exists (f1 v / g1 v)%R, (f2 v / g2 v)%R. split. apply S2; eauto. split. apply T2; eauto. field; auto.
    + destruct (IHb H3) as (T & T1 & T2).
      exists (fun f g => exists f1 g1 f2 g2, S f1 g1 /\ T f2 g2 /\ f = (fun v => f1 v * g2 v + -1 * (f2 v * g1 v))%R /\ g = (fun v => g1 v * g2 v)%R). split.
      { intros f g (f1 & g1 & f2 & g2 & A & B & -> & ->). destruct (S1 _ _ A), (T1 _ _ B). split. apply (po_add (fun v => f1 v * g2 v)%R (fun v => -1 * (f2 v * g1 v))%R). apply po_mul; auto. apply (po_neg (fun v => f2 v * g1 v)%R). apply po_mul; auto. apply po_mul; auto. }
      intros v r. rewrite xval_bin. simpl. split.
      * intros (x & y & A & B & ->). apply S2 in A. apply T2 in B. destruct A as (f1 & g1 & A1 & A2 & ->), B as (f2 & g2 & B1 & B2 & ->). eexists; eexists; split; [exists f1, g1, f2, g2; ex|]. simpl. split. apply Rmult_integral_contrapositive; auto. field; auto.
      * intros (f & g & (f1 & g1 & f2 & g2 & A & B & -> & ->) & N & ->). assert (N1 : g1 v <> 0%R) by (intro X; apply N; rewrite X; lra). assert (N2 : g2 v <> 0%R) by (intro X; apply N; rewrite X; lra).
        exists (f1 v / g1 v)%R, (f2 v / g2 v)%R. split. apply S2; eauto. split. apply T2; eauto. field; auto.
    + destruct (IHb H3) as (T & T1 & T2).
      exists (fun f g => exists f1 g1 f2 g2, S f1 g1 /\ T f2 g2 /\ f = (fun v => f1 v * f2 v)%R /\ g = (fun v => g1 v * g2 v)%R). split.
      { intros f g (f1 & g1 & f2 & g2 & A & B & -> & ->). destruct (S1 _ _ A), (T1 _ _ B). split; apply po_mul; auto. }
      intros v r. rewrite xval_bin. simpl. split.
      * intros (x & y & A & B & ->). apply S2 in A. apply T2 in B. destruct A as (f1 & g1 & A1 & A2 & ->), B as (f2 & g2 & B1 & B2 & ->). eexists; eexists; split; [exists f1, g1, f2, g2; ex|]. simpl. split. apply Rmult_integral_contrapositive; auto. field; auto.
      * intros (f & g & (f1 & g1 & f2 & g2 & A & B & -> & ->) & N & ->). assert (N1 : g1 v <> 0%R) by (intro X; apply N; rewrite X; lra). assert (N2 : g2 v <> 0%R) by (intro X; apply N; rewrite X; lra).
        exists (f1 v / g1 v)%R, (f2 v / g2 v)%R. split. apply S2; eauto. split. apply T2; eauto. field; auto.
    + destruct (IHb H3) as (T & T1 & T2).
      exists (fun f g => exists f1 g1 f2 g2, S f1 g1 /\ T f2 g2 /\ f = (fun v => f1 v * (g2 v * g2 v))%R /\ g = (fun v => g1 v * (f2 v * g2 v))%R). split.
      { intros f g (f1 & g1 & f2 & g2 & A & B & -> & ->). destruct (S1 _ _ A), (T1 _ _ B). split. apply (po_mul f1 (fun v => g2 v * g2 v)%R); auto. apply po_mul; auto. apply (po_mul g1 (fun v => f2 v * g2 v)%R); auto. apply po_mul; auto. }
      intros v r. rewrite xval_bin. simpl. split.
      * intros (x & y & A & B & Y & ->). apply S2 in A. apply T2 in B. destruct A as (f1 & g1 & A1 & A2 & ->), B as (f2 & g2 & B1 & B2 & ->).
        assert (N : f2 v <> 0%R) by (intro X; apply Y; rewrite X; field; auto). eexists; eexists; split; [exists f1, g1, f2, g2; ex|]. simpl. split. repeat (apply Rmult_integral_contrapositive; split; auto). field; auto.
      * intros (f & g & (f1 & g1 & f2 & g2 & A & B & -> & ->) & N & ->). assert (N1 : g1 v <> 0%R) by (intro X; apply N; rewrite X; lra). assert (N2 : g2 v <> 0%R) by (intro X; apply N; rewrite X; lra). assert (N3 : f2 v <> 0%R) by (intro X; apply N; rewrite X; lra).
        exists (f1 v / g1 v)%R, (f2 v / g2 v)%R. split. apply S2; eauto. split. apply T2; eauto. split. apply Rmult_integral_contrapositive; split; auto. apply Rinv_neq_0_compat; auto. field; auto.
    + rename H3 into C. exists (fun f g => (exists f1 g1 k, S f1 g1 /\ xval F v0 b (INR k) /\ f = (fun v => f1 v ^ k * g1 v)%R /\ g = (fun v => g1 v ^ k * g1 v)%R) \/
        (exists f1 g1 y p, S f1 g1 /\ xval F v0 b y /\ (forall k, y <> INR k) /\ f = (fun v => p * g1 v)%R /\ g = g1)). split.
      { intros f g [(f1 & g1 & k & G & K & -> & ->)|(f1 & g1 & y & p & G & _ & _ & -> & ->)]; destruct (S1 _ _ G). split; (apply (po_mul (fun v => _ ^ k)%R); [apply po_pow; auto|auto]). split; auto. apply (po_mul (fun _ => p)); auto. apply po_cst. }
      intros v r. rewrite xval_bin. simpl. split.
      * intros (x & y & A & B & p & P & ->). apply S2 in A. destruct A as (f1 & g1 & G & N & ->). apply (cst_const F b C v v0) in B. destruct P as [(k & -> & ->)|K].
        -- eexists; eexists; split; [left; exists f1, g1, k; ex|]. simpl. assert (NK : (g1 v ^ k <> 0)%R) by (apply pow_nonzero; auto). split. apply Rmult_integral_contrapositive; auto. unfold Rdiv. rewrite Rpow_mult_distr, pow_inv. field; auto.
        -- exists (fun v => p * g1 v)%R, g1. split. right. exists f1, g1, y, p. auto. split; auto. field; auto.
      * intros (f & g & [(f1 & g1 & k & G & K & -> & ->)|(f1 & g1 & y & p & G & K & NK & -> & ->)] & N & ->).
        -- assert (N1 : g1 v <> 0%R) by (intro X; apply N; rewrite X; lra). assert (NK : (g1 v ^ k <> 0)%R) by (apply pow_nonzero; auto).
           exists (f1 v / g1 v)%R, (INR k). split. apply S2; eauto. split. apply (cst_const F b C v0 v); auto. exists ((f1 v / g1 v) ^ k)%R. split. left; eauto. unfold Rdiv. rewrite Rpow_mult_distr, pow_inv. field; auto.
        -- exists (f1 v / g1 v)%R, y. split. apply S2; eauto. split. apply (cst_const F b C v0 v); auto. exists p. split. right; auto. field; auto.
Qed.
Print Assumptions C62_polyfrac.

(** ** Scalar expressions *)
Definition det_round (t : rtype) (d : rdir) : Prop := t = RReal \/ d = DZero \/ d = DUp \/ d = DDown.
(** rounding is deterministic at each node, exponents are natural numbers *)
Fixpoint det (a : texpr) : Prop :=
  match a with
  | TCst _ | TDim _ => True
  | TUn o t d a => (o = UNeg \/ det_round t d) /\ det a
  | TBin BPow t d a b => det_round t d /\ det a /\ exists q k, b = TCst (Scal (Fin q)) /\ Q2R q = INR k
  | TBin o t d a b => (o = BMod \/ det_round t d) /\ det a /\ det b
  end.
Lemma ceil_unique : forall x z w, is_ceil x z -> is_ceil x w -> z = w.
Proof. unfold is_ceil. intros x z w A B. assert (z < w + 1)%Z by (apply lt_IZR; rewrite plus_IZR; lra). assert (w < z + 1)%Z by (apply lt_IZR; rewrite plus_IZR; lra). lia. Qed.
Lemma floor_unique : forall x z w, is_floor x z -> is_floor x w -> z = w.
Proof. unfold is_floor. intros x z w A B. assert (z < w + 1)%Z by (apply lt_IZR; rewrite plus_IZR; lra). assert (w < z + 1)%Z by (apply lt_IZR; rewrite plus_IZR; lra). lia. Qed.
Lemma trunc_unique : forall x z w, is_trunc x z -> is_trunc x w -> z = w.
Proof. unfold is_trunc. intros x z w [A1 A2] [B1 B2]. destruct (Rle_lt_dec 0 x). apply (floor_unique x); auto. apply (ceil_unique x); [apply A2|apply B2]; lra. Qed.
Lemma det_round_unique : forall F t d x r s, det_round t d -> rounded F t d x r -> rounded F t d x s -> r = s.
Proof.
  intros F t d x r s D A B.
  assert (FL : forall S, rounded_float S d x r -> rounded_float S d x s -> d = DZero \/ d = DUp \/ d = DDown -> r = s).
  { clear. intros S [(A1 & _ & _ & A2) A3] [(B1 & _ & _ & B2) B3] D. destruct (A2 s B1) as [P1 P2]. destruct (B2 r A1) as [P3 P4]. destruct D as [->| [->| ->]]; simpl in *.
    - unfold Rabs in *. destruct (Rcase_abs r), (Rcase_abs x), (Rcase_abs s); destruct (Rle_lt_dec 0 x); try lra; try (specialize (P2 ltac:(lra)); specialize (P4 ltac:(lra)); lra); try (specialize (P1 ltac:(lra)); specialize (P3 ltac:(lra)); lra).
    - specialize (P1 B3). specialize (P3 A3). lra.
    - specialize (P2 B3). specialize (P4 A3). lra. }
  destruct D as [->|D]. simpl in *; congruence.
  destruct t; simpl in *; try congruence; eauto.
  destruct A as (z & -> & Z), B as (w & -> & W). f_equal. destruct D as [->| [->| ->]]; simpl in *; [eapply trunc_unique|eapply ceil_unique|eapply floor_unique]; eauto.
Qed.
Theorem C62_scalar : forall F a v, texpr_is_scalar a = true -> det a -> forall r s, xval F v a r -> xval F v a s -> r = s.
Proof.
  intros F a v. induction a as [c|d|o t q a IH|o t q a IHa b IHb]; simpl; intros SC D r s A B.
  - apply xval_cst in A. apply xval_cst in B. destruct c as [[|p|]|l u]; simpl in *; try contradiction; try congruence. rewrite scalar_bequal in SC.
    destruct A as [A1 A2], B as [B1 B2]. destruct l as [|p|], u as [|p'|]; simpl in *; try contradiction; try discriminate. apply Qeq_bool_iff in SC. apply Qeq_eqR in SC. lra.
  - apply xval_dim in A. apply xval_dim in B. congruence.
  - destruct D as [D1 D2]. apply xval_un in A. apply xval_un in B. destruct A as (x & A1 & A2), B as (y & B1 & B2). assert (x = y) by (apply IH; auto). subst y.
    destruct D1 as [->|D1]. simpl in *; congruence. destruct o; simpl in *; [congruence| |]; [|destruct A2 as [_ A2], B2 as [_ B2]]; eapply det_round_unique; eauto.
  - apply andb_true_iff in SC. destruct SC as [SA SB]. apply xval_bin in A. apply xval_bin in B. destruct A as (x & y & A1 & A2 & A3), B as (x' & y' & B1 & B2 & B3).
    assert (D' : det a /\ (o <> BPow -> det b)) by (destruct o; tauto). destruct D' as [Da Db]. assert (x = x') by (apply IHa; auto). subst x'.
    destruct o; simpl in *; try (assert (y = y') by (apply IHb; auto; apply Db; discriminate); subst y'; destruct D as [[E|D1] _]; [discriminate E|]).
    1-3: eapply det_round_unique; eauto. { destruct A3 as [_ A3], B3 as [_ B3]. eapply det_round_unique; eauto. }
    + assert (y = y') by (apply IHb; auto; apply Db; discriminate). subst y'. destruct A3 as (_ & (k & K1 & ->) & _), B3 as (_ & (k' & K2 & ->) & _). rewrite (trunc_unique _ _ _ K1 K2). auto.
    + destruct D as (D1 & _ & w & k & -> & K). apply xval_cst in A2. apply xval_cst in B2. simpl in A2, B2. subst. rewrite K in *.
      destruct A3 as (p & P1 & P2), B3 as (p' & P1' & P2'). assert (p = p').
      { destruct P1 as [(i & I1 & ->)|N]; [|exfalso; eapply N; eauto]. destruct P1' as [(j & J1 & ->)|N]; [|exfalso; eapply N; eauto]. apply INR_eq in I1. apply INR_eq in J1. subst; auto. }
      subst p'. eapply det_round_unique; eauto.
Qed.
Print Assumptions C62_scalar.
(** the tests are not monotone: a linear expression that is not reported polynomial, a polynomial
    one that is not reported a quotient of polynomials (constant factors are only required to be
    constant by the first test) *)
Theorem C62_classes_refuted : exists a b, is_interval_linear a = true /\ is_interval_polynomial a = false /\ is_interval_polynomial b = true /\ is_interval_polyfrac b = false.
Proof.
  exists (TBin BMul RReal DRnd (TDim 0) (TUn USqrt RReal DRnd (TCst (Scal (Fin 2))))), (TBin BDiv RReal DRnd (TDim 0) (TUn USqrt RReal DRnd (TCst (Scal (Fin 2))))). auto.
Qed.
Print Assumptions C62_classes_refuted.
Theorem C62_array : forall p l, texpr_array_is p l = true <-> forall e, In e l -> p e = true.
Proof.
  intros p l. induction l as [|e l IH]; simpl. tauto. destruct (p e) eqn:E.
  - rewrite IH. split; auto. intros H x [<-|X]; auto.
  - split; [discriminate|]. intros H. rewrite <- E. apply H; auto.
Qed.
Print Assumptions C62_array.
Example C62_ex : let x := TDim 0 in let y := TDim 1 in let c (q : Q) := TCst (Scal (Fin q)) in
  let a := TBin BAdd RReal DRnd (TBin BMul RReal DRnd (c 3%Q) x) (TUn UNeg RDouble DUp (TBin BDiv RReal DRnd y (TCst (Intv (Fin 1) (Fin 2))))) in
  let b := TBin BSub RReal DRnd (TBin BPow RReal DRnd x (c 3%Q)) (TBin BMul RReal DRnd x y) in
  let d := TBin BDiv RReal DRnd b (TBin BAdd RReal DRnd x (c 1%Q)) in
  is_interval_linear a = true /\ is_interval_linear b = false /\ is_interval_polynomial b = true /\ is_interval_polynomial d = false /\ is_interval_polyfrac d = true /\
  texpr_is_scalar a = false /\ texpr_is_scalar d = true /\ det d /\ is_interval_linear (TBin BAdd RDouble DRnd x y) = false.
Proof.
  cbv zeta. repeat (split; [reflexivity|]). split; [|reflexivity]. simpl. unfold det_round. repeat split; auto. exists 3%Q, 3%nat. split; auto. unfold Q2R; simpl; lra.
Qed.

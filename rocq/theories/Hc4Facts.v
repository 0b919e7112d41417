(** Soundness of the refinement of boxes by tree constraints (Hc4.v). *)
From Coq Require Import Arith ZArith QArith Qround Qreals Reals Bool List Lra Lia Psatz.
From Verif Require Import Bound BoundFacts Itv ItvFacts ItvFacts2 Linexpr ItvLin ItvLinFacts ItvLinCons ApTexpr TexprSem ItvTree ItvTreeFacts Hc4.
Import ListNotations.
Open Scope Z_scope.

Lemma in_meet : forall x b c, in_itv x b -> in_itv x c -> in_itv x (fst (itv_meet b c)).
Proof. intros. apply itv_meet_spec. auto. Qed.

(** ** Roots *)
Lemma root_from_spec : forall k b n, (0 < n)%nat -> 0 <= b -> b < (Z.of_nat k + 1) ^ Z.of_nat n ->
  0 <= root_from k b n /\ root_from k b n ^ Z.of_nat n <= b < (root_from k b n + 1) ^ Z.of_nat n.
Proof.
  induction k; intros b n Hn Hb H; cbn [root_from].
  - split; [lia|]. rewrite Z.pow_0_l by lia. auto.
  - destruct (Z.of_nat (S k) ^ Z.of_nat n <=? b) eqn:E.
    + apply Z.leb_le in E. split; [lia|]. auto.
    + apply Z.leb_gt in E. apply IHk; auto. replace (Z.of_nat k + 1) with (Z.of_nat (S k)) by lia. auto.
Qed.
Lemma zroot_spec : forall b n, (0 < n)%nat -> 0 <= b -> 0 <= zroot b n /\ zroot b n ^ Z.of_nat n <= b < (zroot b n + 1) ^ Z.of_nat n.
Proof.
  intros b n Hn Hb. apply root_from_spec; auto. rewrite Z2Nat.id by auto.
  apply Z.lt_le_trans with ((b + 1) ^ 1). lia. apply Z.pow_le_mono_r; lia.
Qed.
Lemma iroot_spec : forall b n, (0 < n)%nat -> 0 <= b -> 0 <= snd (iroot b n) <= fst (iroot b n) /\ snd (iroot b n) ^ Z.of_nat n <= b <= fst (iroot b n) ^ Z.of_nat n.
Proof.
  intros b n Hn Hb. destruct (zroot_spec b n Hn Hb) as (A & B & C). unfold iroot. destruct (b <? 0) eqn:E. apply Z.ltb_lt in E; lia.
  destruct (zroot b n ^ Z.of_nat n =? b) eqn:E2; simpl. apply Z.eqb_eq in E2. lia. lia.
Qed.
Lemma iroot_pos : forall b n, (0 < n)%nat -> 0 < b -> 0 < snd (iroot b n).
Proof.
  intros b n Hn Hb. destruct (iroot_spec b n Hn ltac:(lia)) as (A & B & C). destruct (zroot_spec b n Hn ltac:(lia)) as (D & E & G).
  assert (zroot b n <> 0). { intro K. rewrite K in G. rewrite Z.add_0_l, Z.pow_1_l in G by lia. lia. }
  unfold iroot. destruct (b <? 0) eqn:E1. apply Z.ltb_lt in E1; lia. destruct (zroot b n ^ Z.of_nat n =? b); simpl; lia.
Qed.
Lemma IZR_pow' : forall z n, IZR (z ^ Z.of_nat n) = (IZR z ^ n)%R.
Proof. intros. rewrite <- pow_IZR. auto. Qed.
Lemma Q2R_red : forall q, Q2R (Qred q) = Q2R q.
Proof. intros. apply Qeq_eqR. apply Qred_correct. Qed.
Lemma Q2R_frac : forall n p, Q2R (n # p) = (IZR n / IZR (Zpos p))%R.
Proof. intros. unfold Q2R. simpl. auto. Qed.
(** up and down surround the root of a non-negative rational *)
Lemma pow_mono : forall n x y, (0 <= x)%R -> (0 <= y)%R -> (0 < n)%nat -> (x ^ n <= y ^ n)%R -> (x <= y)%R.
Proof.
  intros n x y Hx Hy Hn H. destruct (Rle_lt_dec x y); auto. exfalso.
  assert (y ^ n < x ^ n)%R; [|lra]. clear H. destruct n; [lia|]. clear Hn. induction n. simpl; lra.
  change (y * y ^ S n < x * x ^ S n)%R. apply Rmult_le_0_lt_compat; auto. apply pow_le; auto.
Qed.
Lemma qroot_spec : forall q n, (0 < n)%nat -> (0 <= Q2R q)%R ->
  (0 <= Q2R (fst (qroot q n)))%R /\ (0 <= Q2R (snd (qroot q n)))%R /\ (Q2R (snd (qroot q n)) ^ n <= Q2R q <= Q2R (fst (qroot q n)) ^ n)%R.
Proof.
  intros q n Hn Hq. unfold qroot. rewrite <- (Q2R_red q) in *. destruct (Qred q) as [a p]. rewrite Q2R_frac in *. simpl Qnum. simpl Qden.
  assert (Pp : (0 < IZR (Zpos p))%R) by (apply IZR_lt; lia).
  assert (Ha : 0 <= a). { apply le_IZR. apply Rmult_le_reg_r with (/ IZR (Zpos p))%R. apply Rinv_0_lt_compat; auto. unfold Rdiv in Hq. lra. }
  destruct (iroot_spec a n Hn Ha) as (A1 & A2 & A3). destruct (iroot_spec (Zpos p) n Hn ltac:(lia)) as (B1 & B2 & B3).
  pose proof (iroot_pos (Zpos p) n Hn ltac:(lia)) as B4. destruct (iroot a n) as [un dn]. destruct (iroot (Zpos p) n) as [dd ud]. simpl in *.
  rewrite !Q2R_frac, !Z2Pos.id by lia.
  apply IZR_le in A2. apply IZR_le in A3. apply IZR_le in B2. apply IZR_le in B3. rewrite IZR_pow' in *.
  assert (U : (0 <= IZR un)%R) by (apply IZR_le; lia). assert (D : (0 <= IZR dn)%R) by (apply IZR_le; lia).
  assert (UD : (0 < IZR ud)%R) by (apply IZR_lt; lia). assert (DD : (0 < IZR dd)%R) by (apply IZR_lt; lia).
  assert (PU : (0 < IZR ud ^ n)%R) by (apply pow_lt; auto). assert (PD : (0 < IZR dd ^ n)%R) by (apply pow_lt; auto).
  assert (IU : (0 < / IZR ud)%R) by (apply Rinv_0_lt_compat; auto). assert (ID : (0 < / IZR dd)%R) by (apply Rinv_0_lt_compat; auto).
  assert (Ra : (0 <= IZR a)%R) by (apply IZR_le; auto). assert (0 <= IZR dn ^ n)%R by (apply pow_le; auto).
  unfold Rdiv. rewrite !Rpow_mult_distr, !pow_inv. split; [nra|]. split; [nra|]. split.
  - apply Rmult_le_compat; auto. apply Rlt_le, Rinv_0_lt_compat; auto. apply Rinv_le_contravar; auto.
  - apply Rmult_le_compat; auto. apply Rlt_le, Rinv_0_lt_compat; auto. apply Rinv_le_contravar; auto.
Qed.
Lemma even_pow_abs : forall x n, Nat.odd n = false -> (x ^ n = Rabs x ^ n)%R.
Proof.
  intros x n H. assert (E : Nat.even n = true). { rewrite <- Nat.negb_odd, H. auto. } apply Nat.even_spec in E. destruct E as [k ->].
  rewrite !pow_mult. f_equal. simpl. rewrite !Rmult_1_r. destruct (Rle_lt_dec 0 x). rewrite Rabs_pos_eq; auto. rewrite Rabs_left by auto. lra.
Qed.
Lemma broot_up : forall b n x, (0 < n)%nat -> (0 <= x)%R -> le_rb (x ^ n) b -> le_rb x (fst (broot b n)).
Proof.
  intros b n x Hn Hx H. destruct b as [|q|]; simpl in *; auto. assert (0 <= x ^ n)%R by (apply pow_le; auto).
  destruct (qroot_spec q n Hn ltac:(lra)) as (A & B & C & D). destruct (qroot q n). simpl in *. apply pow_mono with n; auto. lra.
Qed.
Lemma broot_down : forall q n x, (0 < n)%nat -> (0 <= x)%R -> (0 <= Q2R q)%R -> (Q2R q <= x ^ n)%R -> le_rb (- x) (bneg (snd (broot (Fin q) n))).
Proof.
  intros q n x Hn Hx Hq H. destruct (qroot_spec q n Hn Hq) as (A & B & C & D). simpl. destruct (qroot q n). simpl in *. rewrite Q2R_opp.
  apply Ropp_le_contravar. apply pow_mono with n; auto. lra.
Qed.
Lemma inv_pow_sound : forall x y p a b n, in_itv x a -> in_itv p b -> in_itv y n -> is_pow x y p -> (exists k, y = INR (2 * k)) -> in_itv x (itv_inv_pow a b n).
Proof.
  intros x y p a b n Hx Hp Hy P [k0 Ek]. unfold itv_inv_pow. rewrite (not_bottom _ _ Hp), (not_bottom _ _ Hx), (not_bottom _ _ Hy). simpl.
  destruct (itv_exponent n) as [k|] eqn:EX; [|apply itv_top_in]. pose proof (proj1 (itv_exponent_val n k EX y) Hy) as E1. rewrite Ek in E1. apply INR_eq in E1.
  destruct k as [|k']; [apply itv_top_in|]. set (k := S k') in *.
  assert (OD : Nat.odd k = false). { rewrite <- E1. rewrite <- Nat.negb_even. rewrite Nat.even_mul. auto. }
  assert (PV : p = (Rabs x ^ k)%R). { rewrite <- even_pow_abs by auto. destruct P as [(k2 & K1 & K2)|K]. rewrite Ek in K1. apply INR_eq in K1. subst k2. rewrite E1 in K2. auto. exfalso. apply (K (2 * k0)%nat). auto. }
  assert (PK : (0 < k)%nat) by (unfold k; lia). rewrite OD. simpl orb. pose proof (Rabs_pos x) as AX. assert (P0 : (0 <= p)%R) by (rewrite PV; apply pow_le; auto).
  destruct Hp as [Hp1 Hp2]. pose proof (sgn_sup_ge p b (conj Hp1 Hp2) P0) as SG. replace (bsgn (sup b) <? 0) with false by (symmetry; apply Z.ltb_ge; auto). rewrite andb_false_r.
  assert (UP : le_rb (Rabs x) (fst (broot (sup b) k))) by (apply broot_up; auto; rewrite <- PV; auto).
  assert (DN : le_rb (- Rabs x) (bneg (snd (broot (if bsgn (inf b) <=? 0 then bneg (inf b) else Fin 0) k)))).
  { destruct (bsgn (inf b) <=? 0) eqn:S0.
    - apply Z.leb_le in S0. destruct (inf_fin p b (conj Hp1 Hp2) S0) as (q & Q1 & Q2 & Q3). rewrite Q2. rewrite Q1 in Hp1. simpl in Hp1. apply broot_down; auto.
      exact (inf_le_pos _ _ Q3 S0). rewrite Q2R_opp, <- PV. lra.
    - apply broot_down; auto. rewrite Q2R_0'. lra. rewrite Q2R_0'. apply pow_le; auto. }
  cbn [inf sup]. destruct (bsgn (sup a) <=? 0) eqn:S1.
  - apply Z.leb_le in S1. pose proof (sup_le_neg x a Hx S1). rewrite Rabs_left1 in UP, DN by auto. rewrite Ropp_involutive in DN. split; auto.
  - destruct (0 <=? bsgn (inf a)) eqn:S2.
    + split; simpl; (eapply le_rb_le; [|exact UP]); pose proof (Rle_abs x); pose proof (Rle_abs (- x)) as K; rewrite Rabs_Ropp in K; lra.
    + apply Z.leb_gt in S2. pose proof (inf_le_pos x a Hx ltac:(lia)). rewrite Rabs_pos_eq in UP, DN by auto. split; auto.
Qed.

Section S.
(** [P]: the dimensions of the box *)
Context {N : numtype} {F : fmts} (nx : rtype -> Q -> bound) (P : nat -> Prop).

#[local] Arguments itv_meet _ _ : simpl never.
#[local] Arguments itv_canonicalize _ _ : simpl never.
#[local] Arguments Nat.ltb _ _ : simpl never.

(** ** Preimages of roundings *)
Definition rnd_ok (t : rtype) (d : rdir) : Prop := t = RReal \/ (t = RInt /\ (d = DUp \/ d = DDown)).
Lemma unround_sound : forall t d x r a, rnd_ok t d -> rounded F t d x r -> in_itv r a -> in_itv x (itv_unround (N:=N) nx t d a).
Proof.
  intros t d x r a [-> |(-> & [-> | ->])] H [A B]; simpl in H.
  - subst. split; auto.
  - destruct H as (z & -> & H1 & H2). simpl. rewrite <- opp_IZR in A. apply bfloor_int in A. apply bfloor_int in B. split; simpl.
    + apply le_rb_le with (IZR (- z) + IZR 1)%R. rewrite opp_IZR. lra. apply badd_uint_sound; auto.
    + apply le_rb_le with (IZR z); auto.
  - destruct H as (z & -> & H1 & H2). simpl. rewrite <- opp_IZR in A. apply bfloor_int in A. apply bfloor_int in B. split; simpl.
    + apply le_rb_le with (IZR (- z)); auto. rewrite opp_IZR. lra.
    + apply le_rb_le with (IZR z + IZR 1)%R. lra. apply badd_uint_sound; auto.
Qed.
Definition un_ok (o : unop) (t : rtype) (d : rdir) : Prop := o = UNeg \/ rnd_ok t d.
Definition bin_ok (o : binop) (t : rtype) (d : rdir) (y : R) : Prop :=
  match o with BMod => True | BPow => t = RReal /\ exists k, y = INR (2 * k) | _ => rnd_ok t d end.

(** ** Backward operators *)
Lemma no_zero : forall x a, in_itv x a -> has_zero a = false -> x <> 0%R.
Proof.
  intros x a [A B] H -> . unfold has_zero in H. rewrite Ropp_0 in A. apply bsgn_ge0_iff in A. apply bsgn_ge0_iff in B. apply Z.leb_le in A. apply Z.leb_le in B. rewrite A, B in H. discriminate.
Qed.
Lemma refine_un_sound : forall o t d x r res a, un_ok o t d -> un_val F o t d x r -> in_itv r res -> in_itv x a -> in_itv x (refine_un (N:=N) nx o t d res a).
Proof.
  intros o t d x r res a OK H Hr Ha. destruct o; cbn [refine_un un_val] in *; apply in_meet; auto.
  - subst r. destruct Hr as [A B]. split; simpl; rewrite ?Ropp_involutive in *; auto.
  - destruct OK as [K|OK]; [discriminate|]. eapply unround_sound; eauto.
  - destruct OK as [K|OK]; [discriminate|]. destruct H as [H0 H]. rewrite <- (sqrt_sqrt x) by auto. apply itv_mul_sound; eapply unround_sound; eauto.
Qed.
Lemma refine_bin_sound : forall o t d x y r res a b, bin_ok o t d y -> bin_val F o t d x y r -> in_itv r res -> in_itv x a -> in_itv y b ->
  in_itv x (fst (refine_bin (N:=N) nx o t d res a b)) /\ in_itv y (snd (refine_bin (N:=N) nx o t d res a b)).
Proof.
  intros o t d x y r res a b OK H Hr Ha Hb. destruct o; cbn [refine_bin bin_val bin_ok fst snd] in *; auto.
  - pose proof (unround_sound t d _ r res OK H Hr) as U. split; apply in_meet; auto.
    replace x with (x + y - y)%R by lra. apply itv_sub_sound; auto. replace y with (x + y - x)%R by lra. apply itv_sub_sound; auto.
  - pose proof (unround_sound t d _ r res OK H Hr) as U. split; apply in_meet; auto.
    replace x with (y + (x - y))%R by lra. apply itv_add_sound; auto. replace y with (x - (x - y))%R by lra. apply itv_sub_sound; auto.
  - pose proof (unround_sound t d _ r res OK H Hr) as U. split.
    + destruct (has_zero b) eqn:Z; auto. pose proof (no_zero _ _ Hb Z). apply in_meet; auto. replace x with (x * y / y)%R by (field; auto). apply itv_div_sound; auto.
    + destruct (has_zero a) eqn:Z; auto. pose proof (no_zero _ _ Ha Z). apply in_meet; auto. replace y with (x * y / x)%R by (field; auto). apply itv_div_sound; auto.
  - destruct H as [Y H]. pose proof (unround_sound t d _ r res OK H Hr) as U. split.
    + apply in_meet; auto. replace x with (x / y * y)%R by (field; auto). apply itv_mul_sound; auto.
    + destruct (has_zero (itv_unround nx t d res)) eqn:Z; auto. pose proof (no_zero _ _ U Z) as NZ. apply in_meet; auto.
      assert (x <> 0)%R by (intros ->; apply NZ; unfold Rdiv; ring). replace y with (x / (x / y))%R by (field; auto). apply itv_div_sound; auto.
  - destruct OK as [-> E]. destruct H as (p & P1 & P2). simpl in P2. subst r. split; auto. apply in_meet; auto. eapply inv_pow_sound; eauto.
Qed.

(** ** Values of annotated trees *)
(** [r] is a value of the tree at [v], each node taking a value in its annotation *)
Inductive aval (v : nat -> R) : atree -> R -> Prop :=
| av_cst : forall c i r, coeff_in r c -> in_itv r i -> aval v (ACst c i) r
| av_dim : forall d i, P d -> in_itv (v d) i -> aval v (ADim d i) (v d)
| av_un : forall o t d a i x r, aval v a x -> un_val F o t d x r -> un_ok o t d -> in_itv r i -> aval v (AUn o t d a i) r
| av_bin : forall o t d a b i x y r, aval v a x -> aval v b y -> bin_val F o t d x y r -> bin_ok o t d y -> in_itv r i -> aval v (ABin o t d a b i) r.
Lemma aval_in : forall v x r, aval v x r -> in_itv r (aitv x).
Proof. intros v x r H. inversion H; auto. Qed.
Lemma aval_set : forall v x r i, aval v x r -> in_itv r i -> aval v (aset x i) r.
Proof. intros v x r i H I. inversion H; subst; simpl; econstructor; eauto. Qed.
(** trees handled by the refinement *)
Fixpoint hc4_ok (e : texpr) : Prop :=
  match e with
  | TUn o t d a => hc4_ok a /\ un_ok o t d
  | TBin o t d a b => hc4_ok a /\ hc4_ok b /\
      match o with
      | BMod => True
      | BPow => t = RReal /\ match b with TCst c => forall y, coeff_in y c -> exists k, y = INR (2 * k) | _ => False end
      | _ => rnd_ok t d
      end
  | _ => True
  end.
Lemma even_base : forall x a y b, in_itv y b -> (exists k, y = INR (2 * k)) -> in_itv x a -> pow_base_ok a b.
Proof.
  intros x a y b Hb [k E] Ha. right. intros n EX. pose proof (proj1 (itv_exponent_val b n EX y) Hb) as E1. rewrite E in E1. apply INR_eq in E1. rewrite <- E1, <- Nat.negb_even, Nat.even_mul. auto.
Qed.
Lemma bin_ok_pow : forall o t d x y a b, bin_ok o t d y -> in_itv x a -> in_itv y b -> o = BPow -> pow_base_ok a b.
Proof. intros o t d x y a b H Ha Hb ->. destruct H. eapply even_base; eauto. Qed.
Lemma abuild_sound : forall env v e r, hc4_ok e -> (forall d, occurs d e -> P d /\ in_itv (v d) (env d)) -> xval F v e r -> aval v (abuild (N:=N) (F:=F) env e) r.
Proof.
  intros env v e. induction e as [c|k|o t d e IHe|o t d e1 IHe1 e2 IHe2]; intros w OK I X; inversion X; subst; simpl in *.
  - constructor; auto. eapply itv_set_coeff_sound; eauto.
  - destruct (I k) as [I1 I2]; [constructor|]. constructor; auto.
  - destruct OK as [OK1 OK2]. assert (AV : aval v (abuild (N:=N) (F:=F) env e) x). { apply IHe; auto. intros k O. apply I. constructor; auto. }
    econstructor; eauto. rewrite (not_bottom _ _ (aval_in _ _ _ AV)). eapply eval_un_sound; eauto. apply aval_in with v; auto.
  - destruct OK as (OK1 & OK2 & OK3). assert (AV1 : aval v (abuild (N:=N) (F:=F) env e1) x). { apply IHe1; auto. intros k O. apply I. apply oc_l; auto. }
    assert (AV2 : aval v (abuild (N:=N) (F:=F) env e2) y). { apply IHe2; auto. intros k O. apply I. apply oc_r; auto. }
    assert (B : bin_ok o t d y). { destruct o; simpl; auto. destruct OK3 as [T OK3]. split; auto. destruct e2; try contradiction. apply OK3. match goal with H : xval _ _ (TCst _) y |- _ => inversion H; auto end. }
    pose proof (aval_in _ _ _ AV1) as I1. pose proof (aval_in _ _ _ AV2) as I2.
    econstructor; eauto. rewrite (not_bottom _ _ I1), (not_bottom _ _ I2). simpl. eapply eval_bin_sound; eauto. eapply bin_ok_pow; eauto.
Qed.
Lemma mod_eval_sound : forall x y r b c, in_itv x b -> in_itv y c -> y <> 0%R -> is_mod x y r -> in_itv r (itv_mod_eval (N:=N) b c).
Proof.
  intros x y r b c Hx Hy Hnz Hm. destruct (is_mod_abs x y r Hnz Hm) as [k [T E]]. pose proof (itv_abs_sound _ _ Hy) as Ha.
  assert (Pa : (0 < Rabs y)%R) by (apply Rabs_pos_lt; auto). unfold itv_mod_eval. destruct (bsgn (inf (itv_abs c)) =? 0); [apply in_itv_top|].
  rewrite E. apply itv_sub_sound; auto. apply itv_mul_sound; auto. eapply itv_trunc_sound; [|exact T]. apply itv_div_sound; auto. lra.
Qed.
Lemma re_eval_sound : forall o t d x y r a b, in_itv x a -> in_itv y b -> bin_val F o t d x y r -> bin_ok o t d y -> in_itv r (re_eval_bin (N:=N) (F:=F) o t d a b).
Proof.
  intros o t d x y r a b Ha Hb V OK. assert (PB : o = BPow -> pow_base_ok a b) by (eapply bin_ok_pow; eauto).
  destruct o; try (exact (eval_bin_sound _ _ _ _ _ _ _ _ Ha Hb V PB)). simpl. destruct V as (A & B & _). eapply mod_eval_sound; eauto.
Qed.
Lemma bottom_up_sound : forall env v x r, (forall d, P d -> in_itv (v d) (env d)) -> aval v x r -> aval v (fst (bottom_up (N:=N) (F:=F) env x)) r.
Proof.
  intros env v x r I H. induction H.
  - constructor; auto.
  - simpl. destruct (itv_is_eq _ _); simpl; constructor; auto. apply in_meet; auto.
  - simpl. destruct (bottom_up env a) as [a' r1]. simpl in *. pose proof (aval_in _ _ _ IHaval) as I1. rewrite (not_bottom _ _ I1).
    destruct (itv_is_eq _ _); simpl; econstructor; eauto. apply in_meet; auto. eapply eval_un_sound; eauto.
  - simpl. destruct (bottom_up env a) as [a' r1]. destruct (bottom_up env b) as [b' r2]. simpl in *. pose proof (aval_in _ _ _ IHaval1) as I1. pose proof (aval_in _ _ _ IHaval2) as I2.
    rewrite (not_bottom _ _ I1), (not_bottom _ _ I2). simpl. destruct (itv_is_eq _ _); simpl; econstructor; eauto. apply in_meet; auto. eapply re_eval_sound; eauto.
Qed.
Lemma upd_in : forall (v : nat -> R) env d i, (forall k, P k -> in_itv (v k) (env k)) -> in_itv (v d) i -> forall k, P k -> in_itv (v k) (upd env d i k).
Proof. intros v env d i A B k K. unfold upd. destruct (Nat.eqb k d) eqn:E; auto. apply Nat.eqb_eq in E. subst. auto. Qed.
Lemma top_down_sound : forall intdim v x r i env, (forall d, P d -> in_itv (v d) (env d)) -> (forall d, (d < intdim)%nat -> is_integer (v d)) -> aval v x r -> in_itv r i ->
  aval v (fst (fst (top_down (N:=N) nx intdim x i env))) r /\ forall d, P d -> in_itv (v d) (snd (fst (top_down (N:=N) nx intdim x i env)) d).
Proof.
  intros intdim v x. induction x; intros r j env I J H Hj; simpl; rewrite (not_bottom _ _ Hj).
  - split; auto. simpl. inversion H; subst. constructor; auto.
  - inversion H; subst.
    assert (K : in_itv (v d) (fst (itv_canonicalize (Nat.ltb d intdim) (fst (itv_meet (env d) j))))).
    { assert (M : in_itv (v d) (fst (itv_meet (env d) j))) by (apply in_meet; auto). destruct (Nat.ltb d intdim) eqn:E; auto. apply Nat.ltb_lt in E. destruct (J d E) as [z Z]. rewrite Z in *. apply itv_floor2_int in M; auto. }
    destruct (itv_is_eq _ _); cbn [fst snd]; (split; [constructor; auto|]); auto. apply upd_in; auto.
  - inversion H; subst. assert (RU : in_itv x0 (refine_un (N:=N) nx o t d j (aitv x))). { eapply refine_un_sound; eauto. apply aval_in with v; auto. }
    destruct (itv_is_eq _ _); simpl. split; auto. econstructor; eauto.
    match goal with H : aval v x x0 |- _ => destruct (IHx x0 _ env I J H RU) as [A B] end. destruct (top_down nx intdim x _ env) as [[a' env'] r']. simpl in *. split; auto. econstructor; eauto.
  - inversion H; subst. destruct (refine_bin_sound o t d x y r j (aitv x1) (aitv x2)) as [R1 R2]; auto. apply aval_in with v; auto. apply aval_in with v; auto.
    destruct (refine_bin nx o t d j (aitv x1) (aitv x2)) as [ja jb]. simpl in R1, R2.
    assert (A1 : let p := if itv_is_eq ja (aitv x1) then (x1, env, false) else top_down (N:=N) nx intdim x1 ja env in aval v (fst (fst p)) x /\ forall d, P d -> in_itv (v d) (snd (fst p) d)).
    { destruct (itv_is_eq ja _); simpl; auto. }
    destruct (if itv_is_eq ja (aitv x1) then _ else _) as [[a' env'] r1]. destruct A1 as [A1 E1]. simpl in A1, E1.
    assert (A2 : let p := if itv_is_eq jb (aitv x2) then (x2, env', false) else top_down (N:=N) nx intdim x2 jb env' in aval v (fst (fst p)) y /\ forall d, P d -> in_itv (v d) (snd (fst p) d)).
    { destruct (itv_is_eq jb _); simpl; auto. }
    destruct (if itv_is_eq jb (aitv x2) then _ else _) as [[b' env''] r2]. destruct A2 as [A2 E2]. simpl in *. split; auto. econstructor; eauto.
Qed.
(** ** The loops *)
Definition cons_at (v : nat -> R) (p : constyp * atree) : Prop := exists r m, aval v (snd p) r /\ sat_typ (fst p) m r.
Lemma refine_cons_sound : forall intdim v ty x env, (forall d, P d -> in_itv (v d) (env d)) -> (forall d, (d < intdim)%nat -> is_integer (v d)) -> cons_at v (ty, x) ->
  cons_at v (ty, fst (fst (refine_cons (N:=N) nx intdim ty x env))) /\ forall d, P d -> in_itv (v d) (snd (fst (refine_cons (N:=N) nx intdim ty x env)) d).
Proof.
  intros intdim v ty x env I J (r & m & A & S). unfold cons_at. pose proof (aval_in _ _ _ A) as AI. simpl in *.
  assert (GE : forall q, (0 <= r)%R -> in_itv r (fst (itv_meet (aitv x) (mkItv (Fin 0) q))) <-> le_rb r q).
  { intros q PQ. rewrite itv_meet_spec. split; [intros [_ [_ H]]; auto|]. intros H. split; auto. split; simpl; auto. rewrite Q2R_0'. lra. }
  unfold refine_cons. destruct ty; simpl in S.
  - destruct (itv_is_zero (aitv x)); simpl; [split; eauto|]. destruct (top_down_sound intdim v x r (fst (itv_meet (aitv x) (itv_of_int 0))) env) as [B C]; auto.
    + apply in_meet; auto. subst r. split; simpl; unfold Q2R; simpl; lra.
    + split; eauto.
  - destruct (itv_is_pos (aitv x)); simpl; [split; eauto|]. destruct (top_down_sound intdim v x r (fst (itv_meet (aitv x) (mkItv (Fin 0) PInf))) env) as [B C]; auto.
    apply GE; simpl; auto. split; eauto.
  - destruct (itv_is_pos (aitv x)); simpl; [split; eauto|]. destruct (top_down_sound intdim v x r (fst (itv_meet (aitv x) (mkItv (Fin 0) PInf))) env) as [B C]; auto.
    apply GE; simpl; auto. lra. split; eauto.
  - simpl. split; auto. exists r, m; auto.
  - simpl. split; auto. exists r, m; auto.
Qed.
Lemma refine_all_sound : forall intdim v tab env, (forall d, P d -> in_itv (v d) (env d)) -> (forall d, (d < intdim)%nat -> is_integer (v d)) -> Forall (cons_at v) tab ->
  Forall (cons_at v) (fst (fst (refine_all (N:=N) nx intdim tab env))) /\ forall d, P d -> in_itv (v d) (snd (fst (refine_all (N:=N) nx intdim tab env)) d).
Proof.
  intros intdim v. induction tab as [|[ty x] q IH]; intros env I J H; simpl. auto. inversion H; subst.
  destruct (refine_cons_sound intdim v ty x env I J H2) as [A B]. destruct (refine_cons nx intdim ty x env) as [[x' env'] r]. simpl in A, B.
  destruct (IH env' B J H3) as [C D]. destruct (refine_all nx intdim q env') as [[q' env''] r']. simpl in *. split; auto.
Qed.
Lemma bottom_up_all_sound : forall v tab env, (forall d, P d -> in_itv (v d) (env d)) -> Forall (cons_at v) tab ->
  Forall (cons_at v) (fst (fst (bottom_up_all (N:=N) (F:=F) env tab))) /\ snd (bottom_up_all (N:=N) (F:=F) env tab) = false.
Proof.
  intros v. induction tab as [|[ty x] q IH]; intros env I H; simpl. auto. inversion H as [|? ? (r & m & A & S)]; subst. simpl in A, S.
  pose proof (bottom_up_sound env v x r I A) as B. destruct (bottom_up env x) as [x' r1]. simpl in B. rewrite (not_bottom _ _ (aval_in _ _ _ B)).
  assert (Q : Forall (cons_at v) q) by (inversion H; auto). destruct (IH env I Q) as [C D]. destruct (bottom_up_all env q) as [[q' r'] e]. simpl in *. split; auto. constructor; auto. exists r, m. auto.
Qed.
Lemma hc4_loop_sound : forall k intdim v tab env, (forall d, P d -> in_itv (v d) (env d)) -> (forall d, (d < intdim)%nat -> is_integer (v d)) -> Forall (cons_at v) tab ->
  (forall d, P d -> in_itv (v d) (fst (hc4_loop (N:=N) (F:=F) nx k intdim tab env) d)) /\ snd (hc4_loop (N:=N) (F:=F) nx k intdim tab env) = false.
Proof.
  induction k; intros intdim v tab env I J H; simpl. auto.
  destruct (refine_all_sound intdim v tab env I J H) as [A B]. destruct (refine_all nx intdim tab env) as [[tab' env'] r]. simpl in A, B.
  destruct r; simpl; auto. destruct (bottom_up_all_sound v tab' env' B A) as [C D]. destruct (bottom_up_all env' tab') as [[tab'' r] e]. simpl in C, D. subst e. destruct r; simpl; auto.
Qed.
Lemma hc4_meet_sound : forall kmax intdim v l env, (forall d, P d -> in_itv (v d) (env d)) -> (forall d, (d < intdim)%nat -> is_integer (v d)) ->
  Forall (fun c => hc4_ok (tc_expr c) /\ (forall d, occurs d (tc_expr c) -> P d) /\ exists r, xval F v (tc_expr c) r /\ sat_typ (tc_typ c) (tc_mod c) r) l ->
  (forall d, P d -> in_itv (v d) (fst (hc4_meet (N:=N) (F:=F) nx kmax intdim l env) d)) /\ snd (hc4_meet (N:=N) (F:=F) nx kmax intdim l env) = false.
Proof.
  intros kmax intdim v l env I J H. apply hc4_loop_sound; auto. apply Forall_map. eapply Forall_impl; [|exact H]. intros c (OK & O & r & X & S). exists r, (tc_mod c). simpl. split; auto. apply abuild_sound; auto.
Qed.
End S.

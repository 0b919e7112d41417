(** More interval proofs: modulo, power, optimality of the exact operations. *)
From Coq Require Import ZArith QArith Qround Qreals Reals Lra Lia Psatz Bool List.
From Verif Require Import Bound BoundFacts Itv ItvFacts.
Open Scope Z_scope.

(** ** Modulo *)

(** [r] is the remainder of the division of [x] by [y] rounded to zero. *)
Definition is_mod (x y r : R) : Prop :=
  exists k, is_trunc (x / y) k /\ r = (x - y * IZR k)%R.

Lemma is_mod_abs : forall x y r, y <> 0%R -> is_mod x y r ->
  exists k, is_trunc (x / Rabs y) k /\ r = (x - IZR k * Rabs y)%R.
Proof.
  intros x y r Hy [k [T E]]. unfold Rabs. destruct (Rcase_abs y) as [L|L].
  - exists (- k)%Z. split.
    + replace (x / - y)%R with (- (x / y))%R by (field; lra). apply is_trunc_neg; auto.
    + rewrite opp_IZR. lra.
  - exists k. split; auto. lra.
Qed.

Lemma trunc_rem_pos : forall x y k, (0 < y)%R -> (0 <= x)%R -> is_trunc (x / y) k ->
  (0 <= x - IZR k * y < y)%R.
Proof.
  intros x y k Hy Hx [T _].
  assert (0 <= x / y)%R by (apply Rmult_le_pos; [auto | left; apply Rinv_0_lt_compat; auto]).
  destruct (T H) as [T1 T2].
  assert (X : (x = x / y * y)%R) by (field; lra).
  set (t := (x / y)%R) in *. rewrite X. nra.
Qed.
Lemma trunc_rem_neg : forall x y k, (0 < y)%R -> (x <= 0)%R -> is_trunc (x / y) k ->
  (- y < x - IZR k * y <= 0)%R.
Proof.
  intros x y k Hy Hx T.
  apply is_trunc_neg in T. replace (- (x / y))%R with ((- x) / y)%R in T by (field; lra).
  pose proof (trunc_rem_pos (- x) y (- k) Hy ltac:(lra) T) as H. rewrite opp_IZR in H. lra.
Qed.

(** integer operands: the remainder is an integer *)
Definition is_integer (x : R) : Prop := exists z : Z, x = IZR z.

Lemma int_lt_le : forall r m, is_integer r -> is_integer m -> (r < m)%R -> (r <= m - 1)%R.
Proof.
  intros r m [a A] [b B] L. subst. apply lt_IZR in L. rewrite <- minus_IZR.
  apply IZR_le. lia.
Qed.

Section M.
Context {N : numtype}.

Lemma itv_mod_sound : forall (isint : bool) x y r b c,
  in_itv x b -> in_itv y c -> y <> 0%R -> is_mod x y r ->
  (isint = true -> is_integer x /\ is_integer y) ->
  in_itv r (itv_mod (N:=N) isint b c).
Proof.
  intros isint x y r b c Hx Hy Hnz Hm Hint.
  destruct (is_mod_abs x y r Hnz Hm) as [k [T E]]. clear Hm.
  pose proof (itv_abs_sound _ _ Hy) as Ha.
  assert (Pa : (0 < Rabs y)%R) by (apply Rabs_pos_lt; auto).
  unfold itv_mod. destruct (bsgn (inf (itv_abs c)) =? 0) eqn:F; [apply in_itv_top|].
  apply itv_meet_spec. split.
  - rewrite E. apply itv_sub_sound; auto. apply itv_mul_sound; auto.
    eapply itv_trunc_sound; [|exact T]. apply itv_div_sound; auto. lra.
  - clear F.
    (* magnitude *)
    assert (SUP : le_rb (Rabs r)
      (if isint then bsub_uint (N:=N) (sup (itv_abs c)) 1 else sup (itv_abs c))).
    { destruct Ha as [_ Ha].
      assert (B : (Rabs r < Rabs y)%R).
      { apply Rabs_def1.
        - destruct (Rle_dec 0 x) as [L|L].
          + pose proof (trunc_rem_pos x (Rabs y) k Pa L T). lra.
          + pose proof (trunc_rem_neg x (Rabs y) k Pa ltac:(lra) T). lra.
        - destruct (Rle_dec 0 x) as [L|L].
          + pose proof (trunc_rem_pos x (Rabs y) k Pa L T). lra.
          + pose proof (trunc_rem_neg x (Rabs y) k Pa ltac:(lra) T). lra. }
      destruct isint.
      - destruct (Hint eq_refl) as [[zx Zx] [zy Zy]].
        assert (Rabs r <= Rabs y - 1)%R.
        { apply int_lt_le; auto.
          - rewrite E, Zx, Zy. exists (Z.abs (zx - k * Z.abs zy)).
            rewrite abs_IZR, minus_IZR, mult_IZR, abs_IZR. reflexivity.
          - rewrite Zy. exists (Z.abs zy). rewrite abs_IZR. reflexivity. }
        apply le_rb_le with (Rabs y - IZR 1)%R; [simpl; lra|]. apply bsub_uint_sound; auto.
      - apply le_rb_le with (Rabs y); auto. lra. }
    destruct (bsgn (sup b) <? 0) eqn:F1; zb.
    { destruct Hx as [_ Hx]. pose proof (bsgn_lt0 _ F1 _ Hx) as X.
      pose proof (trunc_rem_neg x (Rabs y) k Pa ltac:(lra) T) as B. rewrite <- E in B.
      split; simpl.
      - eapply le_rb_le; [|exact SUP]. rewrite Rabs_left1; lra.
      - rewrite Q2R_0'. lra. }
    destruct (0 <? bsgn (inf b)) eqn:F2; zb.
    { split; simpl; (eapply le_rb_le; [|exact SUP]).
      - rewrite <- Rabs_Ropp. apply Rle_abs.
      - apply Rle_abs. }
    destruct Hx as [Hx _]. pose proof (bsgn_le0 _ F2 _ Hx) as X.
    pose proof (trunc_rem_pos x (Rabs y) k Pa ltac:(lra) T) as B. rewrite <- E in B.
    split; simpl.
    + rewrite Q2R_0'. lra.
    + eapply le_rb_le; [|exact SUP]. apply Rle_abs.
Qed.
End M.

(** ** Power *)

Lemma Q2R_pow : forall q n, Q2R (qpow q n) = (Q2R q ^ n)%R.
Proof.
  intros q n. induction n; simpl.
  - unfold Q2R; simpl. field.
  - rewrite Q2R_mult, IHn. reflexivity.
Qed.

Lemma pow_odd_mono : forall n x y, Nat.odd n = true -> (x <= y)%R -> (x ^ n <= y ^ n)%R.
Proof.
  intros n x y O L.
  apply Nat.odd_spec in O. destruct O as [m O]. subst n.
  assert (OPP : forall t, ((- t) ^ (2 * m + 1) = - (t ^ (2 * m + 1)))%R).
  { intros t. rewrite !pow_add, !pow_mult. replace ((- t) ^ 2)%R with (t ^ 2)%R by ring. ring. }
  destruct (Rle_dec 0 x) as [X|X].
  - apply pow_incr. lra.
  - destruct (Rle_dec 0 y) as [Y|Y].
    + assert (0 <= y ^ (2 * m + 1))%R by (apply pow_le; auto).
      assert (0 <= (- x) ^ (2 * m + 1))%R by (apply pow_le; lra).
      rewrite OPP in H0. lra.
    + assert ((- y) ^ (2 * m + 1) <= (- x) ^ (2 * m + 1))%R by (apply pow_incr; lra).
      rewrite !OPP in H. lra.
Qed.

Lemma pow_even_abs : forall n x, Nat.odd n = false -> (x ^ n = Rabs x ^ n)%R.
Proof.
  intros n x O. rewrite <- Nat.negb_even in O. apply negb_false_iff in O.
  apply Nat.even_spec in O. destruct O as [m O]. subst n.
  rewrite !pow_mult. f_equal. rewrite pow2_abs. reflexivity.
Qed.

Lemma itv_exponent_spec : forall n k x, itv_exponent n = Some k -> in_itv x n -> x = INR k.
Proof.
  intros n k x H [H1 H2]. unfold itv_exponent in H.
  destruct (inf n) as [|p|]; try discriminate; destruct (sup n) as [|q|]; try discriminate.
  destruct (Qeq_bool (- p) q) eqn:E; simpl in H; [|discriminate].
  destruct (Qeq_bool (inject_Z (Qceiling q)) q) eqn:F; simpl in H; [|discriminate].
  destruct (Qceiling q <? 0) eqn:G; simpl in H; [discriminate|]. zb.
  inversion H; subst. apply Qeq_bool_iff in E. apply Qeq_bool_iff in F.
  apply Qeq_Q2R in E. apply Qeq_Q2R in F. rewrite Q2R_opp in E. rewrite Q2R_inject in F.
  simpl in *. rewrite INR_IZR_INZ. rewrite Z2Nat.id by lia. lra.
Qed.

Lemma itv_pow_sound : forall x n k b,
  in_itv x b -> in_itv (INR k) n ->
  (Nat.odd k = true -> inf b <> PInf) ->
  in_itv (x ^ k) (itv_pow b n).
Proof.
  intros x n k b Hx Hn Hb. unfold itv_pow.
  destruct (itv_is_bottom b || itv_is_bottom n) eqn:E.
  { exfalso. zb. destruct E as [E|E]; eapply itv_empty_test_sound; eauto. }
  destruct (itv_exponent n) as [j|] eqn:F; [|apply in_itv_top].
  assert (j = k).
  { pose proof (itv_exponent_spec n j (INR k) F Hn). apply INR_eq; auto. }
  subst j. destruct (Nat.odd k) eqn:O.
  - specialize (Hb eq_refl). destruct Hx as [H1 H2]. split; simpl.
    + destruct (inf b) as [|p|]; simpl in *; try tauto; try congruence.
      rewrite Q2R_opp, Q2R_pow, Q2R_opp.
      pose proof (pow_odd_mono k (- Q2R p) x O ltac:(lra)). lra.
    + destruct (sup b) as [|p|]; simpl in *; try tauto.
      rewrite Q2R_pow. apply pow_odd_mono; auto.
  - rewrite (pow_even_abs k x O). pose proof (itv_abs_sound _ _ Hx) as [H1 H2].
    pose proof (Rabs_pos x) as P.
    assert (I : exists p, inf (itv_abs b) = Fin p /\ (0 <= - Q2R p)%R).
    { unfold itv_abs. destruct Hx as [A B]. destruct (bsgn (inf b) <=? 0) eqn:E1; zb.
      - destruct (inf b) as [|p|]; simpl in *; try tauto; try lia. exists p. split; auto.
        apply sgn_Q_le in E1. lra.
      - destruct (bsgn (sup b) <=? 0) eqn:E2; zb; simpl.
        + destruct (sup b) as [|p|]; simpl in *; try tauto; try lia. exists p. split; auto.
          apply sgn_Q_le in E2. lra.
        + exists 0%Q. split; auto. rewrite Q2R_0'. lra. }
    destruct I as [p [I1 I2]]. split; simpl.
    + rewrite I1 in *. simpl in *. rewrite Q2R_opp, Q2R_pow, Q2R_opp.
      assert ((- Q2R p) ^ k <= Rabs x ^ k)%R by (apply pow_incr; lra). lra.
    + destruct (sup (itv_abs b)) as [|q|]; simpl in *; try tauto.
      rewrite Q2R_pow. apply pow_incr. lra.
Qed.

(** ** Optimality with exact numbers *)

(** [u] is the least bound above [P]. *)
Definition least (P : R -> Prop) (u : bound) : Prop :=
  forall w, (forall z, P z -> le_rb z w) -> le_bb u w.

Lemma least_ext : forall (P Q : R -> Prop) u, (forall z, P z <-> Q z) -> least P u -> least Q u.
Proof. intros P Q u H L w Hw. apply L. intros z Hz. apply Hw. apply H. auto. Qed.
Lemma least_sub : forall (P Q : R -> Prop) u, (forall z, P z -> Q z) -> least P u -> least Q u.
Proof. intros P Q u H L w Hw. apply L. intros z Hz. apply Hw. apply H. auto. Qed.
Lemma least_attained : forall (P : R -> Prop) q, P (Q2R q) -> least P (Fin q).
Proof.
  intros P q H w Hw. specialize (Hw _ H). destruct w; simpl in *; auto. apply Qle_Q2R; auto.
Qed.
Lemma least_attained_eq : forall (P : R -> Prop) q z, P z -> z = Q2R q -> least P (Fin q).
Proof. intros; subst; apply least_attained; auto. Qed.
Lemma least_unbounded : forall (P : R -> Prop), (forall M, exists z, P z /\ (M < z)%R) -> least P PInf.
Proof.
  intros P H w Hw. destruct w as [|q|]; simpl; auto.
  - destruct (H 0%R) as [z [Hz _]]. exact (Hw z Hz).
  - destruct (H (Q2R q)) as [z [Hz L]]. specialize (Hw z Hz). simpl in Hw. lra.
Qed.
Lemma least_max : forall P Q u v, least P u -> least Q v ->
  least (fun z => P z \/ Q z) (bmax u v).
Proof.
  intros P Q u v H1 H2 w Hw. apply bmax_lub; [apply H1 | apply H2]; auto.
Qed.

Notation xadd := (badd (N:=exact_num)).
Notation xmul := (bmul (N:=exact_num)).

(** [up a b]: the reals between a member and the bound *)
Definition upto (x0 : R) (P : R -> Prop) (b : bound) : Prop :=
  P x0 /\ le_rb x0 b /\ forall x, (x0 <= x)%R -> le_rb x b -> P x.

Lemma upto_fin : forall x0 P q, upto x0 P (Fin q) -> P (Q2R q).
Proof. intros x0 P q [H1 [H2 H3]]. apply H3; simpl in *; lra. Qed.
Lemma upto_inf : forall x0 P M, upto x0 P PInf -> exists x, P x /\ (M < x)%R /\ (x0 <= x)%R.
Proof.
  intros x0 P M [H1 [H2 H3]]. exists (Rmax x0 (M + 1)). split.
  - apply H3; simpl; auto. apply Rmax_l.
  - pose proof (Rmax_l x0 (M + 1)). pose proof (Rmax_r x0 (M + 1)). lra.
Qed.

Lemma add_least : forall x0 y0 P Q b c, upto x0 P b -> upto y0 Q c ->
  least (fun z => exists x y, P x /\ Q y /\ z = (x + y)%R) (xadd b c).
Proof.
  intros x0 y0 P Q b c HP HQ.
  destruct b as [|p|]; [destruct HP as [_ [[] _]]| |].
  - destruct c as [|q|]; [destruct HQ as [_ [[] _]]| |]; simpl.
    + apply least_attained. exists (Q2R p), (Q2R q). split; [eapply upto_fin; eauto|].
      split; [eapply upto_fin; eauto|]. apply Q2R_plus.
    + apply least_unbounded. intros M. destruct (upto_inf y0 Q (M - x0) HQ) as [y [H1 [H2 H3]]].
      exists (x0 + y)%R. split; [exists x0, y; split; [exact (proj1 HP)|auto]|lra].
  - simpl. apply least_unbounded. intros M. destruct (upto_inf x0 P (M - y0) HP) as [x [H1 [H2 H3]]].
    exists (x + y0)%R. split; [exists x, y0; split; auto; split; [exact (proj1 HQ)|auto]|lra].
Qed.

(** case 1 of the product *)
Lemma mul_least1 : forall x0 y0 P Q b c, upto x0 P b -> upto y0 Q c ->
  0 <= bsgn b -> 0 <= bsgn c ->
  least (fun z => exists x y, P x /\ Q y /\ z = (x * y)%R) (xmul b c).
Proof.
  intros x0 y0 P Q b c HP HQ Hb Hc.
  assert (Px : P x0) by exact (proj1 HP). assert (Qy : Q y0) by exact (proj1 HQ).
  unfold bmul. destruct ((bsgn b =? 0) || (bsgn c =? 0)) eqn:E.
  - apply orb_true_iff in E. destruct E as [E|E]; zb.
    + destruct b as [|p|]; simpl in E; try discriminate. apply sgn_Q_zero in E.
      apply least_attained. exists (Q2R p), y0. split; [eapply upto_fin; eauto|].
      split; auto. rewrite E, Q2R_0'. lra.
    + destruct c as [|p|]; simpl in E; try discriminate. apply sgn_Q_zero in E.
      apply least_attained. exists x0, (Q2R p). split; auto.
      split; [eapply upto_fin; eauto|]. rewrite E, Q2R_0'. lra.
  - zb. destruct b as [|p|]; [simpl in Hb; lia| |].
    + destruct c as [|q|]; [simpl in Hc; lia| |].
      * simpl. apply least_attained. exists (Q2R p), (Q2R q). split; [eapply upto_fin; eauto|].
        split; [eapply upto_fin; eauto|]. apply Q2R_mult.
      * simpl in H, Hb. assert (0 < Q2R p)%R as Pp by (apply sgn_Q_pos; lia).
        replace (binf_of_sgn (bsgn (Fin p) * bsgn PInf)) with PInf.
        2:{ simpl. unfold binf_of_sgn. destruct (0 <? Z.sgn (Qnum p) * 1) eqn:G; zb; auto; lia. }
        apply least_unbounded. intros M.
        destruct (upto_inf y0 Q (M / Q2R p) HQ) as [y [H1 [H2 H3]]].
        exists (Q2R p * y)%R. split.
        -- exists (Q2R p), y. split; [eapply upto_fin; eauto|auto].
        -- replace M with (Q2R p * (M / Q2R p))%R by (field; lra).
           apply Rmult_lt_compat_l; auto.
    + destruct c as [|q|]; [simpl in Hc; lia| |].
      * simpl in H0, Hc. assert (0 < Q2R q)%R as Pq by (apply sgn_Q_pos; lia).
        replace (binf_of_sgn (bsgn PInf * bsgn (Fin q))) with PInf.
        2:{ unfold binf_of_sgn. destruct (0 <? bsgn PInf * bsgn (Fin q)) eqn:G; zb; auto.
            simpl bsgn in G. lia. }
        apply least_unbounded. intros M.
        destruct (upto_inf x0 P (M / Q2R q) HP) as [x [H1 [H2 H3]]].
        exists (x * Q2R q)%R. split.
        -- exists x, (Q2R q). split; auto. split; [eapply upto_fin; eauto|auto].
        -- replace M with ((M / Q2R q) * Q2R q)%R by (field; lra).
           apply Rmult_lt_compat_r; auto.
      * simpl. unfold binf_of_sgn; simpl. apply least_unbounded. intros M.
        destruct (upto_inf x0 P (Rmax 1 M) HP) as [x [H1 [H2 H3]]].
        destruct (upto_inf y0 Q 1 HQ) as [y [H4 [H5 H6]]].
        pose proof (Rmax_l 1 M). pose proof (Rmax_r 1 M).
        exists (x * y)%R. split; [exists x, y; auto|]. nra.
Qed.

(** case 2: both bounds are finite and attained *)
Lemma mul_least2 : forall (P Q : R -> Prop) p q b c, b = Fin p -> c = Fin q -> P (Q2R p) -> Q (Q2R q) ->
  least (fun z => exists x y, P x /\ Q y /\ z = (x * y)%R) (xmul b c).
Proof.
  intros P Q p q b c Eb Ec HP HQ. subst. unfold bmul; simpl.
  destruct ((Z.sgn (Qnum p) =? 0) || (Z.sgn (Qnum q) =? 0)) eqn:E.
  - apply least_attained. exists (Q2R p), (Q2R q). split; auto. split; auto.
    rewrite Q2R_0'. apply orb_true_iff in E. destruct E as [E|E]; zb; apply sgn_Q_zero in E;
      rewrite E; lra.
  - apply least_attained. exists (Q2R p), (Q2R q). split; auto. split; auto. apply Q2R_mult.
Qed.

(** upper and (negated) lower side of a non-empty interval *)
Lemma upto_sup : forall x0 b, in_itv x0 b -> upto x0 (fun x => in_itv x b) (sup b).
Proof.
  intros x0 b [H1 H2]. split; [split; auto|]. split; auto.
  intros x L Hx. split; auto. apply le_rb_le with (- x0)%R; auto; lra.
Qed.
Lemma upto_inf' : forall x0 b, in_itv x0 b -> upto (- x0) (fun x => in_itv (- x) b) (inf b).
Proof.
  intros x0 b [H1 H2]. split; [rewrite Ropp_involutive; split; auto|]. split; auto.
  intros x L Hx. split; rewrite ?Ropp_involutive; auto. apply le_rb_le with x0; auto; lra.
Qed.
Lemma inf_fin : forall x0 b, in_itv x0 b -> bsgn (inf b) <= 0 ->
  exists p, inf b = Fin p /\ bneg (inf b) = Fin (- p) /\ in_itv (Q2R (- p)) b.
Proof.
  intros x0 b H S. pose proof (upto_inf' x0 b H) as U.
  destruct (inf b) as [|p|] eqn:E; simpl in S; try lia.
  - destruct H as [H _]; rewrite E in H; destruct H.
  - exists p. split; auto. split; auto. rewrite Q2R_opp.
    apply (upto_fin _ (fun x => in_itv (- x) b) _ U).
Qed.
Lemma sup_fin : forall x0 b, in_itv x0 b -> bsgn (sup b) <= 0 ->
  exists p, sup b = Fin p /\ bneg (sup b) = Fin (- p) /\ in_itv (Q2R p) b.
Proof.
  intros x0 b H S. pose proof (upto_sup x0 b H) as U.
  destruct (sup b) as [|p|] eqn:E; simpl in S; try lia.
  - destruct H as [_ H]; rewrite E in H; destruct H.
  - exists p. split; auto. split; auto. apply (upto_fin _ _ _ U).
Qed.

Definition prods (b c : itv) (z : R) : Prop :=
  exists x y, in_itv x b /\ in_itv y c /\ z = (x * y)%R.
Definition nprods (b c : itv) (z : R) : Prop := prods b c (- z).

Definition tight (b c r : itv) : Prop := least (prods b c) (sup r) /\ least (nprods b c) (inf r).

Lemma sgn_sup_ge : forall x b, in_itv x b -> (0 <= x)%R -> 0 <= bsgn (sup b).
Proof. intros x b [_ H] L. apply bsgn_ge0_iff. apply le_rb_le with x; auto. Qed.
Lemma sgn_inf_ge : forall x b, in_itv x b -> (x <= 0)%R -> 0 <= bsgn (inf b).
Proof. intros x b [H _] L. apply bsgn_ge0_iff. apply le_rb_le with (- x)%R; auto; lra. Qed.
Lemma inf_le_pos : forall x b, in_itv x b -> bsgn (inf b) <= 0 -> (0 <= x)%R.
Proof. intros x b [H _] S. pose proof (bsgn_le0 _ S _ H). lra. Qed.
Lemma sup_le_neg : forall x b, in_itv x b -> bsgn (sup b) <= 0 -> (x <= 0)%R.
Proof. intros x b [_ H] S. exact (bsgn_le0 _ S _ H). Qed.

Ltac wit := let z := fresh in intros z [?x [?y [? [? ?]]]]; subst z; hnf.

Lemma mulpp_tight : forall x0 y0 b c, in_itv x0 b -> in_itv y0 c ->
  bsgn (inf b) <= 0 -> bsgn (inf c) <= 0 -> tight b c (itv_mulpp (N:=exact_num) b c).
Proof.
  intros x0 y0 b c Hx Hy Sb Sc. split; simpl.
  - eapply least_sub; [|apply (mul_least1 x0 y0 _ _ _ _ (upto_sup _ _ Hx) (upto_sup _ _ Hy))].
    + wit. exists x, y; auto.
    + eapply sgn_sup_ge; eauto. eapply inf_le_pos; eauto.
    + eapply sgn_sup_ge; eauto. eapply inf_le_pos; eauto.
  - destruct (inf_fin x0 b Hx Sb) as [p [E1 [E2 E3]]].
    destruct (inf_fin y0 c Hy Sc) as [q [F1 [F2 F3]]]. rewrite E1, F2.
    eapply least_sub; [|apply (mul_least2 (fun x => in_itv (- x) b) (fun y => in_itv y c) p (- q)%Q)]; auto.
    + wit. exists (- x)%R, y. split; auto. split; auto. lra.
    + rewrite <- Q2R_opp. auto.
Qed.
Lemma mulnn_tight : forall x0 y0 b c, in_itv x0 b -> in_itv y0 c ->
  bsgn (sup b) <= 0 -> bsgn (sup c) <= 0 -> tight b c (itv_mulnn (N:=exact_num) b c).
Proof.
  intros x0 y0 b c Hx Hy Sb Sc. split; simpl.
  - eapply least_sub; [|apply (mul_least1 _ _ _ _ _ _ (upto_inf' _ _ Hx) (upto_inf' _ _ Hy))].
    + wit. exists (- x)%R, (- y)%R. split; auto. split; auto. lra.
    + eapply sgn_inf_ge; eauto. eapply sup_le_neg; eauto.
    + eapply sgn_inf_ge; eauto. eapply sup_le_neg; eauto.
  - destruct (sup_fin x0 b Hx Sb) as [p [E1 [E2 E3]]].
    destruct (sup_fin y0 c Hy Sc) as [q [F1 [F2 F3]]]. rewrite E1, F2.
    eapply least_sub; [|apply (mul_least2 (fun x => in_itv x b) (fun y => in_itv (- y) c) p (- q)%Q)]; auto.
    + wit. exists x, (- y)%R. split; auto. split; auto. lra.
    + rewrite Q2R_opp, Ropp_involutive. auto.
Qed.
Lemma mulpn_tight : forall x0 y0 b c, in_itv x0 b -> in_itv y0 c ->
  bsgn (inf b) <= 0 -> bsgn (sup c) <= 0 -> tight b c (itv_mulpn (N:=exact_num) b c).
Proof.
  intros x0 y0 b c Hx Hy Sb Sc. split; simpl.
  - destruct (inf_fin x0 b Hx Sb) as [p [E1 [E2 E3]]].
    destruct (sup_fin y0 c Hy Sc) as [q [F1 [F2 F3]]]. rewrite E2, F1.
    eapply least_sub; [|apply (mul_least2 (fun x => in_itv x b) (fun y => in_itv y c) (- p)%Q q)]; auto.
  - eapply least_sub; [|apply (mul_least1 _ _ _ _ _ _ (upto_sup _ _ Hx) (upto_inf' _ _ Hy))].
    + wit. exists x, (- y)%R. split; auto. split; auto. lra.
    + eapply sgn_sup_ge; eauto. eapply inf_le_pos; eauto.
    + eapply sgn_inf_ge; eauto. eapply sup_le_neg; eauto.
Qed.

Lemma prods_comm : forall b c z, prods b c z <-> prods c b z.
Proof.
  intros b c z; split; intros [x [y [H1 [H2 H3]]]]; exists y, x; repeat split; try apply H1; try apply H2; rewrite H3; ring.
Qed.
Lemma tight_comm : forall b c r, tight b c r -> tight c b r.
Proof.
  intros b c r [H1 H2]; split; (eapply least_ext; [|eassumption]); intros z; apply prods_comm.
Qed.

Lemma mulp_tight : forall x0 y0 b c, in_itv x0 b -> in_itv y0 c ->
  bsgn (inf c) <= 0 -> tight b c (itv_mulp (N:=exact_num) b c).
Proof.
  intros x0 y0 b c Hx Hy Sc. unfold itv_mulp.
  destruct (bsgn (inf b) <=? 0) eqn:E1; zb; [eapply mulpp_tight; eauto|].
  destruct (bsgn (sup b) <=? 0) eqn:E2; zb.
  { apply tight_comm. eapply mulpn_tight; eauto. }
  assert (0 <= bsgn (sup c)) by (eapply sgn_sup_ge; eauto; eapply inf_le_pos; eauto).
  split; simpl.
  - eapply least_sub; [|apply (mul_least1 _ _ _ _ _ _ (upto_sup _ _ Hx) (upto_sup _ _ Hy))]; try lia.
    wit. exists x, y; auto.
  - eapply least_sub; [|apply (mul_least1 _ _ _ _ _ _ (upto_inf' _ _ Hx) (upto_sup _ _ Hy))]; try lia.
    wit. exists (- x)%R, y. split; auto. split; auto. lra.
Qed.
Lemma muln_tight : forall x0 y0 b c, in_itv x0 b -> in_itv y0 c ->
  bsgn (sup c) <= 0 -> tight b c (itv_muln (N:=exact_num) b c).
Proof.
  intros x0 y0 b c Hx Hy Sc. unfold itv_muln.
  destruct (bsgn (inf b) <=? 0) eqn:E1; zb; [eapply mulpn_tight; eauto|].
  destruct (bsgn (sup b) <=? 0) eqn:E2; zb; [eapply mulnn_tight; eauto|].
  assert (0 <= bsgn (inf c)) by (eapply sgn_inf_ge; eauto; eapply sup_le_neg; eauto).
  split; simpl.
  - eapply least_sub; [|apply (mul_least1 _ _ _ _ _ _ (upto_inf' _ _ Hx) (upto_inf' _ _ Hy))]; try lia.
    wit. exists (- x)%R, (- y)%R. split; auto. split; auto. lra.
  - eapply least_sub; [|apply (mul_least1 _ _ _ _ _ _ (upto_sup _ _ Hx) (upto_inf' _ _ Hy))]; try lia.
    wit. exists x, (- y)%R. split; auto. split; auto. lra.
Qed.

Lemma tight_nonbottom : forall b c r x0 y0, in_itv x0 b -> in_itv y0 c -> in_itv (x0 * y0) r ->
  itv_is_canonical_bottom r = false.
Proof.
  intros b c r x0 y0 H1 H2 H3. destruct (itv_is_canonical_bottom r) eqn:E; auto.
  exfalso; eapply canonical_bottom_empty; eauto.
Qed.

Lemma itv_mul_tight : forall x0 y0 b c, in_itv x0 b -> in_itv y0 c ->
  tight b c (itv_mul (N:=exact_num) b c).
Proof.
  intros x0 y0 b c Hx Hy. unfold itv_mul.
  destruct (bsgn (inf c) <=? 0) eqn:E1; zb; [eapply mulp_tight; eauto|].
  destruct (bsgn (sup c) <=? 0) eqn:E2; zb; [eapply muln_tight; eauto|].
  destruct (bsgn (inf b) <=? 0) eqn:E3; zb.
  { apply tight_comm. eapply mulp_tight; eauto. }
  set (cn := mkItv (inf c) (Fin 0)). set (cp := mkItv (Fin 0) (sup c)).
  assert (Z1 : in_itv 0 cn).
  { split; simpl; [|rewrite Q2R_0'; lra]. rewrite Ropp_0. apply bsgn_ge0. lia. }
  assert (Z2 : in_itv 0 cp).
  { split; simpl; [rewrite Q2R_0'; lra|]. apply bsgn_ge0. lia. }
  assert (I1 : forall y, in_itv y cn -> in_itv y c).
  { intros y [A B]; simpl in *. rewrite Q2R_0' in B. split; auto.
    apply le_rb_le with 0%R; [lra|]. apply bsgn_ge0; lia. }
  assert (I2 : forall y, in_itv y cp -> in_itv y c).
  { intros y [A B]; simpl in *. rewrite Q2R_0' in A. split; auto.
    apply le_rb_le with 0%R; [lra|]. apply bsgn_ge0; lia. }
  pose proof (muln_tight x0 0 b cn Hx Z1 ltac:(simpl; lia)) as [T1 T2].
  pose proof (mulp_tight x0 0 b cp Hx Z2 ltac:(simpl; lia)) as [T3 T4].
  unfold itv_join.
  rewrite (tight_nonbottom b cp _ x0 0 Hx Z2) by (apply itv_mulp_sound; auto; simpl; lia).
  rewrite (tight_nonbottom b cn _ x0 0 Hx Z1) by (apply itv_muln_sound; auto; simpl; lia).
  split; simpl.
  - eapply least_sub; [|apply (least_max _ _ _ _ T3 T1)].
    intros z [[x [y [A [B C]]]]|[x [y [A [B C]]]]]; exists x, y; auto.
  - eapply least_sub; [|apply (least_max _ _ _ _ T4 T2)].
    intros z [[x [y [A [B C]]]]|[x [y [A [B C]]]]]; exists x, y; auto.
Qed.

Lemma itv_mul_best : forall b c d x0 y0, in_itv x0 b -> in_itv y0 c ->
  (forall x y, in_itv x b -> in_itv y c -> in_itv (x * y) d) ->
  itv_subset (itv_mul (N:=exact_num) b c) d.
Proof.
  intros b c d x0 y0 Hx Hy H. pose proof (itv_mul_tight x0 y0 b c Hx Hy) as [T1 T2].
  intros z [Z1 Z2]. split.
  - eapply le_rb_mono; eauto. apply T2. intros w [x [y [A [B C]]]].
    replace w with (- (x * y))%R by lra. apply H; auto.
  - eapply le_rb_mono; eauto. apply T1. intros w [x [y [A [B C]]]]. subst. apply H; auto.
Qed.

Lemma itv_add_best : forall b c d x0 y0, in_itv x0 b -> in_itv y0 c ->
  (forall x y, in_itv x b -> in_itv y c -> in_itv (x + y) d) ->
  itv_subset (itv_add (N:=exact_num) b c) d.
Proof.
  intros b c d x0 y0 Hx Hy H z [Z1 Z2]. simpl in *. split.
  - eapply le_rb_mono; eauto.
    apply (add_least _ _ _ _ _ _ (upto_inf' _ _ Hx) (upto_inf' _ _ Hy)).
    intros w [x [y [A [B C]]]]. subst. replace (x + y)%R with (- (- x + - y))%R by lra. apply H; auto.
  - eapply le_rb_mono; eauto.
    apply (add_least _ _ _ _ _ _ (upto_sup _ _ Hx) (upto_sup _ _ Hy)).
    intros w [x [y [A [B C]]]]. subst. apply H; auto.
Qed.
Lemma itv_sub_best : forall b c d x0 y0, in_itv x0 b -> in_itv y0 c ->
  (forall x y, in_itv x b -> in_itv y c -> in_itv (x - y) d) ->
  itv_subset (itv_sub (N:=exact_num) b c) d.
Proof.
  intros b c d x0 y0 Hx Hy H z [Z1 Z2]. simpl in *. split.
  - eapply le_rb_mono; eauto.
    apply (add_least _ _ _ _ _ _ (upto_inf' _ _ Hx) (upto_sup _ _ Hy)).
    intros w [x [y [A [B C]]]]. subst. replace (x + y)%R with (- (- x - y))%R by lra. apply H; auto.
  - eapply le_rb_mono; eauto.
    apply (add_least _ _ _ _ _ _ (upto_sup _ _ Hx) (upto_inf' _ _ Hy)).
    intros w [x [y [A [B C]]]]. subst. replace (x + y)%R with (x - - y)%R by lra. apply H; auto.
Qed.

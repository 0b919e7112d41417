(** Proofs about the interval model. *)
From Coq Require Import ZArith QArith Qround Qreals Reals Lra Lia Psatz Bool List.
From Verif Require Import Bound BoundFacts Itv.
Open Scope Z_scope.

(** ** Products and quotients of bounds *)
Section A.
Context {N : numtype}.
Local Notation badd := (badd (N:=N)).
Local Notation bmul := (bmul (N:=N)).
Local Notation bdiv := (bdiv (N:=N)).

Ltac zb := repeat
  match goal with
  | H : (_ || _)%bool = true |- _ => apply orb_true_iff in H
  | H : (_ || _)%bool = false |- _ => apply orb_false_iff in H; destruct H
  | H : (_ && _)%bool = true |- _ => apply andb_true_iff in H; destruct H
  | H : (_ =? _) = true |- _ => apply Z.eqb_eq in H
  | H : (_ =? _) = false |- _ => apply Z.eqb_neq in H
  | H : (_ <=? _) = true |- _ => apply Z.leb_le in H
  | H : (_ <=? _) = false |- _ => apply Z.leb_gt in H
  | H : (_ <? _) = true |- _ => apply Z.ltb_lt in H
  | H : (_ <? _) = false |- _ => apply Z.ltb_ge in H
  end.

Lemma le_inf_pos : forall x s, 0 < s -> le_rb x (binf_of_sgn s).
Proof. intros x s H. unfold binf_of_sgn. apply Z.ltb_lt in H. rewrite H. exact I. Qed.

Lemma bsgn_nz_le : forall b x, le_rb x b -> bsgn b = 0 -> (x <= 0)%R.
Proof. intros b x H E. apply (bsgn_le0 b); [lia|auto]. Qed.

(** x <= b, b >= 0, 0 <= y <= c  ==>  x*y <= b*c *)
Lemma bmul_case1 : forall x y b c,
  le_rb x b -> 0 <= bsgn b -> (0 <= y)%R -> le_rb y c -> le_rb (x * y) (bmul b c).
Proof.
  intros x y b c Hx Hb Hy Hc. unfold Bound.bmul.
  destruct ((bsgn b =? 0) || (bsgn c =? 0)) eqn:E.
  - zb. simpl. rewrite Q2R_0'. destruct E as [E|E]; zb.
    + pose proof (bsgn_nz_le b x Hx E). nra.
    + pose proof (bsgn_nz_le c y Hc E). assert (y = 0)%R by lra. subst. lra.
  - zb. destruct b as [|p|], c as [|q|]; simpl in *; try tauto; try lia.
    + apply rnd_ge. rewrite Q2R_mult. apply sgn_Q_ge in Hb.
      destruct (Rle_dec 0 x); [|nra]. apply Rmult_le_compat; lra.
    + apply le_inf_pos; lia.
    + assert (0 <= Z.sgn (Qnum q)) by (apply sgn_Q_ge; lra). apply le_inf_pos.
      change (0 < 1 * Z.sgn (Qnum q)). lia.
Qed.

(** x <= b <= 0, 0 <= c <= y  ==>  x*y <= b*c *)
Lemma bmul_case2 : forall x y b c,
  le_rb x b -> bsgn b <= 0 -> ge_rb y c -> 0 <= bsgn c -> le_rb (x * y) (bmul b c).
Proof.
  intros x y b c Hx Hb Hy Hc. unfold Bound.bmul.
  destruct b as [|p|], c as [|q|]; simpl in *; try tauto; try lia.
  apply sgn_Q_le in Hb. apply sgn_Q_ge in Hc.
  destruct ((Z.sgn (Qnum p) =? 0) || (Z.sgn (Qnum q) =? 0)) eqn:E.
  - simpl. rewrite Q2R_0'. nra.
  - apply rnd_ge. rewrite Q2R_mult. nra.
Qed.

Lemma bmul_case2' : forall x y b c,
  le_rb x b -> bsgn b <= 0 -> ge_rb y c -> 0 <= bsgn c -> le_rb (x * y) (bmul c b).
Proof.
  intros x y b c Hx Hb Hy Hc. unfold Bound.bmul.
  destruct b as [|p|], c as [|q|]; simpl in *; try tauto; try lia.
  apply sgn_Q_le in Hb. apply sgn_Q_ge in Hc.
  destruct ((Z.sgn (Qnum q) =? 0) || (Z.sgn (Qnum p) =? 0)) eqn:E.
  - simpl. rewrite Q2R_0'. nra.
  - apply rnd_ge. rewrite Q2R_mult. nra.
Qed.

Lemma Q2R_nz : forall q, Q2R q <> 0%R -> ~ (q == 0)%Q.
Proof. intros q H E. apply H. apply Qeq_Q2R in E. rewrite E. apply Q2R_0'. Qed.

Lemma Rdiv_le_iff : forall x y z, (0 < y)%R -> (x <= z * y)%R -> (x / y <= z)%R.
Proof.
  intros x y z Hy H. apply Rmult_le_reg_r with y; auto.
  unfold Rdiv. rewrite Rmult_assoc, Rinv_l, Rmult_1_r; lra.
Qed.

(** x <= b, b >= 0, 0 < c <= y  ==>  x/y <= b/c *)
Lemma bdiv_case1 : forall x y b c,
  le_rb x b -> 0 <= bsgn b -> ge_rb y c -> 0 < bsgn c -> le_rb (x / y) (bdiv b c).
Proof.
  intros x y b c Hx Hb Hy Hc. unfold Bound.bdiv.
  destruct c as [|q|]; simpl in Hy, Hc; try tauto; try lia.
  apply sgn_Q_pos in Hc. assert (0 < y)%R as Hy0 by lra.
  destruct ((bsgn b =? 0) || binfty (Fin q)) eqn:E.
  - apply orb_true_iff in E. destruct E as [E|E]; [|simpl in E; discriminate].
    apply Z.eqb_eq in E. pose proof (bsgn_nz_le b x Hx E). simpl. rewrite Q2R_0'.
    apply Rdiv_le_iff; lra.
  - zb. simpl bsgn. destruct (Z.sgn (Qnum q) =? 0) eqn:F.
    { zb. apply sgn_Q_zero in F. lra. }
    destruct b as [|p|]; simpl in *; try tauto.
    + apply rnd_ge. rewrite Q2R_div by (apply Q2R_nz; lra). apply sgn_Q_ge in Hb.
      apply Rdiv_le_iff; auto.
      apply Rle_trans with (Q2R p); auto.
      apply Rle_trans with (Q2R p / Q2R q * Q2R q)%R; [right; field; lra|].
      apply Rmult_le_compat_l; auto.
      apply Rmult_le_pos; auto. left. apply Rinv_0_lt_compat; auto.
    + apply sgn_Q_pos in Hc. apply le_inf_pos. change (0 < 1 * Z.sgn (Qnum q)). lia.
Qed.

(** x <= b <= 0, 0 < y <= c  ==>  x/y <= b/c *)
Lemma bdiv_case2 : forall x y b c,
  le_rb x b -> bsgn b <= 0 -> (0 < y)%R -> le_rb y c -> le_rb (x / y) (bdiv b c).
Proof.
  intros x y b c Hx Hb Hy Hc. unfold Bound.bdiv.
  pose proof (bsgn_le0 b Hb x Hx) as Hx0.
  destruct ((bsgn b =? 0) || binfty c) eqn:E.
  - simpl. rewrite Q2R_0'. apply Rdiv_le_iff; auto. lra.
  - zb. destruct c as [|q|]; simpl in *; try tauto; try discriminate.
    assert (0 < Q2R q)%R as Hq by lra.
    destruct (Z.sgn (Qnum q) =? 0) eqn:F.
    { zb. apply sgn_Q_zero in F. lra. }
    destruct b as [|p|]; simpl in *; try tauto; try lia.
    apply rnd_ge. rewrite Q2R_div by (apply Q2R_nz; lra). apply sgn_Q_le in Hb.
    apply Rdiv_le_iff; auto.
    apply Rle_trans with (Q2R p); auto.
    apply Rle_trans with (Q2R p / Q2R q * Q2R q)%R; [right; field; lra|].
    apply Ropp_le_cancel.
    replace (- (Q2R p / Q2R q * y))%R with ((- Q2R p / Q2R q) * y)%R by (field; lra).
    replace (- (Q2R p / Q2R q * Q2R q))%R with ((- Q2R p / Q2R q) * Q2R q)%R by (field; lra).
    apply Rmult_le_compat_l; auto.
    apply Rmult_le_pos; [lra|]. left. apply Rinv_0_lt_compat; auto.
Qed.

(** b <= x, b <= 0, y <= c < 0  ==>  x/y <= b/c *)
Lemma bdiv_case3 : forall x y b c,
  ge_rb x b -> bsgn b <= 0 -> le_rb y c -> bsgn c < 0 -> le_rb (x / y) (bdiv b c).
Proof.
  intros x y b c Hx Hb Hy Hc. unfold Bound.bdiv.
  destruct c as [|q|]; simpl in Hy, Hc; try tauto; try lia.
  apply sgn_Q_neg in Hc. assert (y < 0)%R as Hy0 by lra.
  replace (x / y)%R with ((- x) / (- y))%R by (field; lra).
  destruct ((bsgn b =? 0) || binfty (Fin q)) eqn:E.
  - apply orb_true_iff in E. destruct E as [E|E]; [|simpl in E; discriminate].
    apply Z.eqb_eq in E. destruct b as [|p|]; simpl in *; try lia.
    apply sgn_Q_zero in E. rewrite Q2R_0'. apply Rdiv_le_iff; lra.
  - zb. simpl bsgn. destruct (Z.sgn (Qnum q) =? 0) eqn:F.
    { zb. apply sgn_Q_zero in F. lra. }
    destruct b as [|p|]; simpl in *; try tauto.
    + apply sgn_Q_neg in Hc. apply le_inf_pos. change (0 < (-1) * Z.sgn (Qnum q)). lia.
    + apply rnd_ge. rewrite Q2R_div by (apply Q2R_nz; lra). apply sgn_Q_le in Hb.
      apply Rdiv_le_iff; [lra|].
      apply Rle_trans with (- Q2R p)%R; [lra|].
      apply Rle_trans with ((- Q2R p) / (- Q2R q) * (- Q2R q))%R; [right; field; lra|].
      replace (Q2R p / Q2R q)%R with ((- Q2R p) / (- Q2R q))%R by (field; lra).
      apply Rmult_le_compat_l; [|lra].
      apply Rmult_le_pos; [lra|]. left. apply Rinv_0_lt_compat; lra.
Qed.

(** ** Soundness of the interval operations *)

Lemma in_itv_top : forall x, in_itv x itv_top.
Proof. intros; split; simpl; auto. Qed.

Lemma itv_neg_sound : forall x b, in_itv x b -> in_itv (- x) (itv_neg b).
Proof. intros x b [H1 H2]; split; simpl; auto. rewrite Ropp_involutive; auto. Qed.
Lemma itv_neg_iff : forall x b, in_itv x (itv_neg b) <-> in_itv (- x) b.
Proof.
  intros; split; intro H.
  - apply itv_neg_sound in H. destruct b; exact H.
  - apply itv_neg_sound in H. rewrite Ropp_involutive in H. exact H.
Qed.

Lemma itv_add_sound : forall x y b c,
  in_itv x b -> in_itv y c -> in_itv (x + y) (itv_add (N:=N) b c).
Proof.
  intros x y b c [H1 H2] [H3 H4]; split; simpl.
  - replace (- (x + y))%R with (- x + - y)%R by lra. apply badd_sound; auto.
  - apply badd_sound; auto.
Qed.
Lemma itv_sub_sound : forall x y b c,
  in_itv x b -> in_itv y c -> in_itv (x - y) (itv_sub (N:=N) b c).
Proof.
  intros x y b c [H1 H2] [H3 H4]; split; simpl.
  - replace (- (x - y))%R with (- x + y)%R by lra. apply badd_sound; auto.
  - replace (x - y)%R with (x + - y)%R by lra. apply badd_sound; auto.
Qed.

Lemma ge_bneg : forall x b, le_rb (- x) b -> ge_rb x (bneg b).
Proof. intros. apply bneg_ge. auto. Qed.
Lemma bsgn_bneg : forall b, bsgn (bneg b) = - bsgn b.
Proof. destruct b; simpl; auto. rewrite Z.sgn_opp. reflexivity. Qed.

Lemma itv_mulpp_sound : forall x y b c,
  in_itv x b -> in_itv y c -> bsgn (inf b) <= 0 -> bsgn (inf c) <= 0 ->
  in_itv (x * y) (itv_mulpp (N:=N) b c).
Proof.
  intros x y b c [H1 H2] [H3 H4] Hb Hc.
  pose proof (bsgn_le0 _ Hb _ H1) as X. pose proof (bsgn_le0 _ Hc _ H3) as Y.
  split; simpl.
  - replace (- (x * y))%R with ((- x) * y)%R by lra.
    apply bmul_case2; auto; [apply ge_bneg; auto | rewrite bsgn_bneg; lia].
  - apply bmul_case1; auto; try lra. apply bsgn_ge0_iff. apply le_rb_le with x; auto; lra.
Qed.
Lemma itv_mulnn_sound : forall x y b c,
  in_itv x b -> in_itv y c -> bsgn (sup b) <= 0 -> bsgn (sup c) <= 0 ->
  in_itv (x * y) (itv_mulnn (N:=N) b c).
Proof.
  intros x y b c [H1 H2] [H3 H4] Hb Hc.
  pose proof (bsgn_le0 _ Hb _ H2) as X. pose proof (bsgn_le0 _ Hc _ H4) as Y.
  split; simpl.
  - replace (- (x * y))%R with (x * (- y))%R by lra.
    apply bmul_case2; auto.
    + apply ge_bneg. rewrite Ropp_involutive; auto.
    + rewrite bsgn_bneg; lia.
  - replace (x * y)%R with ((- x) * (- y))%R by lra.
    apply bmul_case1; auto; try lra. apply bsgn_ge0_iff. apply le_rb_le with (- x)%R; auto; lra.
Qed.
Lemma itv_mulpn_sound : forall x y b c,
  in_itv x b -> in_itv y c -> bsgn (inf b) <= 0 -> bsgn (sup c) <= 0 ->
  in_itv (x * y) (itv_mulpn (N:=N) b c).
Proof.
  intros x y b c [H1 H2] [H3 H4] Hb Hc.
  pose proof (bsgn_le0 _ Hb _ H1) as X. pose proof (bsgn_le0 _ Hc _ H4) as Y.
  split; simpl.
  - replace (- (x * y))%R with (x * (- y))%R by lra.
    apply bmul_case1; auto; try lra. apply bsgn_ge0_iff. apply le_rb_le with x; auto; lra.
  - replace (x * y)%R with (y * x)%R by lra.
    apply bmul_case2'; auto; [apply ge_bneg; auto | rewrite bsgn_bneg; lia].
Qed.

Lemma itv_mulp_sound : forall x y b c,
  in_itv x b -> in_itv y c -> bsgn (inf c) <= 0 -> in_itv (x * y) (itv_mulp (N:=N) b c).
Proof.
  intros x y b c Hx Hy Hc. unfold itv_mulp.
  destruct (bsgn (inf b) <=? 0) eqn:E1; zb; [apply itv_mulpp_sound; auto|].
  destruct (bsgn (sup b) <=? 0) eqn:E2; zb.
  { rewrite Rmult_comm. apply itv_mulpn_sound; auto. }
  destruct Hx as [H1 H2], Hy as [H3 H4]. pose proof (bsgn_le0 _ Hc _ H3) as Y.
  split; simpl.
  - replace (- (x * y))%R with ((- x) * y)%R by lra. apply bmul_case1; auto; try lra; lia.
  - apply bmul_case1; auto; try lra; lia.
Qed.
Lemma itv_muln_sound : forall x y b c,
  in_itv x b -> in_itv y c -> bsgn (sup c) <= 0 -> in_itv (x * y) (itv_muln (N:=N) b c).
Proof.
  intros x y b c Hx Hy Hc. unfold itv_muln.
  destruct (bsgn (inf b) <=? 0) eqn:E1; zb; [apply itv_mulpn_sound; auto|].
  destruct (bsgn (sup b) <=? 0) eqn:E2; zb; [apply itv_mulnn_sound; auto|].
  destruct Hx as [H1 H2], Hy as [H3 H4]. pose proof (bsgn_le0 _ Hc _ H4) as Y.
  split; simpl.
  - replace (- (x * y))%R with (x * (- y))%R by lra. apply bmul_case1; auto; try lra; lia.
  - replace (x * y)%R with ((- x) * (- y))%R by lra. apply bmul_case1; auto; try lra; lia.
Qed.

(** canonical bottom is empty *)
Lemma bcmp_int_R : forall b n, bcmp_int b n = 0 <-> (exists q, b = Fin q /\ Q2R q = IZR n).
Proof.
  intros b n. unfold bcmp_int. destruct b as [|q|]; simpl.
  - split; [lia|]. intros [q [E _]]; discriminate.
  - rewrite qcmp_eq, Q2R_inject. split; [eauto|]. intros [p [E H]]. inversion E; subst; auto.
  - split; [lia|]. intros [q [E _]]; discriminate.
Qed.
Lemma canonical_bottom_iff : forall a, itv_is_canonical_bottom a = true <->
  exists p q, inf a = Fin p /\ sup a = Fin q /\ Q2R p = (-1)%R /\ Q2R q = (-1)%R.
Proof.
  intros a. unfold itv_is_canonical_bottom. rewrite andb_true_iff, !Z.eqb_eq, !bcmp_int_R.
  split.
  - intros [[p [E1 H1]] [q [E2 H2]]]. exists p, q; auto.
  - intros [p [q [E1 [E2 [H1 H2]]]]]. split; eauto.
Qed.
Lemma canonical_bottom_empty : forall a, itv_is_canonical_bottom a = true -> forall x, ~ in_itv x a.
Proof.
  intros a H x [H1 H2]. apply canonical_bottom_iff in H.
  destruct H as [p [q [E1 [E2 [E3 E4]]]]]. rewrite E1 in H1. rewrite E2 in H2. simpl in *. lra.
Qed.

Lemma itv_join_sound : forall x b c, in_itv x b \/ in_itv x c -> in_itv x (itv_join b c).
Proof.
  intros x b c H. unfold itv_join.
  destruct (itv_is_canonical_bottom b) eqn:E1.
  { destruct H as [H|H]; auto. exfalso; eapply canonical_bottom_empty; eauto. }
  destruct (itv_is_canonical_bottom c) eqn:E2.
  { destruct H as [H|H]; auto. exfalso; eapply canonical_bottom_empty; eauto. }
  destruct H as [[H1 H2]|[H1 H2]]; split; simpl; apply bmax_spec; auto.
Qed.

Lemma itv_mul_sound : forall x y b c,
  in_itv x b -> in_itv y c -> in_itv (x * y) (itv_mul (N:=N) b c).
Proof.
  intros x y b c Hx Hy. unfold itv_mul.
  destruct (bsgn (inf c) <=? 0) eqn:E1; zb; [apply itv_mulp_sound; auto|].
  destruct (bsgn (sup c) <=? 0) eqn:E2; zb; [apply itv_muln_sound; auto|].
  destruct (bsgn (inf b) <=? 0) eqn:E3; zb.
  { rewrite Rmult_comm. apply itv_mulp_sound; auto. }
  apply itv_join_sound.
  destruct (Rle_dec 0 y) as [L|L]; [left|right].
  - apply itv_mulp_sound; auto; simpl; try lia.
    destruct Hy as [H1 H2]; split; simpl; auto. rewrite Q2R_0'. lra.
  - apply itv_muln_sound; auto; simpl; try lia.
    destruct Hy as [H1 H2]; split; simpl; auto. rewrite Q2R_0'. lra.
Qed.

Lemma itv_mul_bound_sound : forall x c b q,
  in_itv x b -> c = Q2R q -> in_itv (x * c) (itv_mul_bound (N:=N) b (Fin q)).
Proof.
  intros x c b q [H1 H2] E. subst c. unfold itv_mul_bound. simpl bsgn.
  assert (G : forall z d r, le_rb z d -> (0 <= Q2R r)%R -> le_rb (z * Q2R r) (bmul d (Fin r))).
  { intros z d r Hz Hr. unfold Bound.bmul.
    destruct ((bsgn d =? 0) || (bsgn (Fin r) =? 0)) eqn:E.
    - simpl. rewrite Q2R_0'. apply orb_true_iff in E. destruct E as [E|E]; zb.
      + pose proof (bsgn_nz_le d z Hz E). nra.
      + simpl in E. apply sgn_Q_zero in E. rewrite E. lra.
    - zb. simpl in H0. destruct d as [|p|]; simpl in *; try tauto.
      + apply rnd_ge. rewrite Q2R_mult. nra.
      + apply sgn_Q_ge in Hr. apply le_inf_pos. change (0 < 1 * Z.sgn (Qnum r)). lia. }
  destruct (0 <=? Z.sgn (Qnum q)) eqn:E; zb.
  - apply sgn_Q_ge in E. split; simpl.
    + replace (- (x * Q2R q))%R with ((- x) * Q2R q)%R by lra. apply G; auto.
    + apply G; auto.
  - apply sgn_Q_neg in E. split; simpl.
    + replace (- (x * Q2R q))%R with (x * Q2R (- q))%R by (rewrite Q2R_opp; lra).
      apply G; auto. rewrite Q2R_opp; lra.
    + replace (x * Q2R q)%R with ((- x) * Q2R (- q))%R by (rewrite Q2R_opp; lra).
      apply G; auto. rewrite Q2R_opp; lra.
Qed.

Lemma itv_divpp_sound : forall x y b c,
  in_itv x b -> in_itv y c -> bsgn (inf b) <= 0 -> bsgn (inf c) < 0 ->
  in_itv (x / y) (itv_divpp (N:=N) b c).
Proof.
  intros x y b c [H1 H2] [H3 H4] Hb Hc.
  pose proof (bsgn_le0 _ Hb _ H1) as X. pose proof (bsgn_lt0 _ Hc _ H3) as Y.
  split; simpl.
  - replace (- (x / y))%R with ((- x) / y)%R by (field; lra). apply bdiv_case2; auto; lra.
  - apply bdiv_case1; auto.
    + apply bsgn_ge0_iff. apply le_rb_le with x; auto; lra.
    + apply ge_bneg; auto.
    + rewrite bsgn_bneg; lia.
Qed.
Lemma itv_divnn_sound : forall x y b c,
  in_itv x b -> in_itv y c -> bsgn (sup b) <= 0 -> bsgn (sup c) < 0 ->
  in_itv (x / y) (itv_divnn (N:=N) b c).
Proof.
  intros x y b c [H1 H2] [H3 H4] Hb Hc.
  pose proof (bsgn_le0 _ Hb _ H2) as X. pose proof (bsgn_lt0 _ Hc _ H4) as Y.
  split; simpl.
  - replace (- (x / y))%R with (x / (- y))%R by (field; lra). apply bdiv_case2; auto; lra.
  - apply bdiv_case3; auto.
    + apply ge_bneg; auto.
    + rewrite bsgn_bneg. assert (0 <= bsgn (inf b)); [|lia].
      apply bsgn_ge0_iff. apply le_rb_le with (- x)%R; auto; lra.
Qed.
Lemma itv_divpn_sound : forall x y b c,
  in_itv x b -> in_itv y c -> bsgn (inf b) <= 0 -> bsgn (sup c) < 0 ->
  in_itv (x / y) (itv_divpn (N:=N) b c).
Proof.
  intros x y b c [H1 H2] [H3 H4] Hb Hc.
  pose proof (bsgn_le0 _ Hb _ H1) as X. pose proof (bsgn_lt0 _ Hc _ H4) as Y.
  split; simpl.
  - replace (- (x / y))%R with ((- x) / y)%R by (field; lra).
    apply bdiv_case3; auto.
    + apply ge_bneg. rewrite Ropp_involutive; auto.
    + rewrite bsgn_bneg. assert (0 <= bsgn (sup b)); [|lia].
      apply bsgn_ge0_iff. apply le_rb_le with x; auto; lra.
  - replace (x / y)%R with ((- x) / (- y))%R by (field; lra). apply bdiv_case2; auto; lra.
Qed.
Lemma itv_divnp_sound : forall x y b c,
  in_itv x b -> in_itv y c -> bsgn (sup b) <= 0 -> bsgn (inf c) < 0 ->
  in_itv (x / y) (itv_divnp (N:=N) b c).
Proof.
  intros x y b c [H1 H2] [H3 H4] Hb Hc.
  pose proof (bsgn_le0 _ Hb _ H2) as X. pose proof (bsgn_lt0 _ Hc _ H3) as Y.
  split; simpl.
  - replace (- (x / y))%R with (x / (- y))%R by (field; lra).
    apply bdiv_case3; auto.
    + apply ge_bneg; auto.
    + rewrite bsgn_bneg. assert (0 <= bsgn (inf b)); [|lia].
      apply bsgn_ge0_iff. apply le_rb_le with (- x)%R; auto; lra.
  - apply bdiv_case2; auto; lra.
Qed.

Lemma itv_div_sound : forall x y b c,
  in_itv x b -> in_itv y c -> y <> 0%R -> in_itv (x / y) (itv_div (N:=N) b c).
Proof.
  intros x y b c Hx Hy Hnz. unfold itv_div.
  destruct (bsgn (inf c) <? 0) eqn:E1; zb.
  - unfold itv_divp.
    destruct (bsgn (inf b) <=? 0) eqn:E2; zb; [apply itv_divpp_sound; auto|].
    destruct (bsgn (sup b) <=? 0) eqn:E3; zb; [apply itv_divnp_sound; auto|].
    destruct Hx as [H1 H2], Hy as [H3 H4]. pose proof (bsgn_lt0 _ E1 _ H3) as Y.
    split; simpl.
    + replace (- (x / y))%R with ((- x) / y)%R by (field; lra).
      apply bdiv_case1; auto; try lia; [apply ge_bneg; auto | rewrite bsgn_bneg; lia].
    + apply bdiv_case1; auto; try lia; [apply ge_bneg; auto | rewrite bsgn_bneg; lia].
  - destruct (bsgn (sup c) <? 0) eqn:E2; zb.
    + unfold itv_divn.
      destruct (bsgn (inf b) <=? 0) eqn:E3; zb; [apply itv_divpn_sound; auto|].
      destruct (bsgn (sup b) <=? 0) eqn:E4; zb; [apply itv_divnn_sound; auto|].
      destruct Hx as [H1 H2], Hy as [H3 H4]. pose proof (bsgn_lt0 _ E2 _ H4) as Y.
      split; simpl.
      * replace (- (x / y))%R with (x / (- y))%R by (field; lra).
        apply bdiv_case1; auto; try lia;
          [apply ge_bneg; rewrite Ropp_involutive; auto | rewrite bsgn_bneg; lia].
      * replace (x / y)%R with ((- x) / (- y))%R by (field; lra).
        apply bdiv_case1; auto; try lia;
          [apply ge_bneg; rewrite Ropp_involutive; auto | rewrite bsgn_bneg; lia].
    + destruct ((bsgn (inf b) =? 0) && (bsgn (sup b) =? 0)) eqn:E3.
      * zb. assert (x = 0)%R.
        { destruct Hx as [H1 H2].
          pose proof (bsgn_nz_le _ _ H1 H). pose proof (bsgn_nz_le _ _ H2 H0). lra. }
        subst. unfold Rdiv. rewrite Rmult_0_l. auto.
      * apply in_itv_top.
Qed.

(** division by a non-zero number *)
Lemma itv_div_bound_sound : forall x c b q,
  in_itv x b -> c = Q2R q -> c <> 0%R -> in_itv (x / c) (itv_div_bound (N:=N) b (Fin q)).
Proof.
  intros x c b q [H1 H2] E Hc. subst c. unfold itv_div_bound. simpl bsgn.
  assert (G : forall z d r, le_rb z d -> (0 < Q2R r)%R -> le_rb (z / Q2R r) (bdiv d (Fin r))).
  { intros z d r Hz Hr. destruct (Z_le_gt_dec 0 (bsgn d)).
    - apply bdiv_case1; auto; simpl; try lra. apply sgn_Q_pos; auto.
    - apply bdiv_case2; auto; simpl; try lra; try lia. }
  destruct (0 <=? Z.sgn (Qnum q)) eqn:E; zb.
  - apply sgn_Q_ge in E. split; simpl.
    + replace (- (x / Q2R q))%R with ((- x) / Q2R q)%R by (field; lra). apply G; auto; lra.
    + apply G; auto; lra.
  - apply sgn_Q_neg in E. split; simpl.
    + replace (- (x / Q2R q))%R with (x / Q2R (- q))%R by (rewrite Q2R_opp; field; lra).
      apply G; auto. rewrite Q2R_opp; lra.
    + replace (x / Q2R q)%R with ((- x) / Q2R (- q))%R by (rewrite Q2R_opp; field; lra).
      apply G; auto. rewrite Q2R_opp; lra.
Qed.

Lemma itv_conv_sound : forall x a, in_itv x a -> in_itv x (itv_conv (N:=N) a).
Proof. intros x a [H1 H2]; split; simpl; apply bconv_sound; auto. Qed.

End A.

Ltac zb := repeat
  match goal with
  | H : (_ || _)%bool = true |- _ => apply orb_true_iff in H
  | H : (_ || _)%bool = false |- _ => apply orb_false_iff in H; destruct H
  | H : (_ && _)%bool = true |- _ => apply andb_true_iff in H; destruct H
  | H : (_ =? _) = true |- _ => apply Z.eqb_eq in H
  | H : (_ =? _) = false |- _ => apply Z.eqb_neq in H
  | H : (_ <=? _) = true |- _ => apply Z.leb_le in H
  | H : (_ <=? _) = false |- _ => apply Z.leb_gt in H
  | H : (_ <? _) = true |- _ => apply Z.ltb_lt in H
  | H : (_ <? _) = false |- _ => apply Z.ltb_ge in H
  end.

(** ** Lattice *)

Lemma itv_empty_test_iff : forall a, inf a <> MInf -> sup a <> MInf ->
  (itv_empty_test a = true <-> forall x, ~ in_itv x a).
Proof.
  intros [i s] Hi Hs; simpl in *. unfold itv_empty_test, in_itv; simpl.
  destruct i as [|p|]; try congruence; destruct s as [|q|]; try congruence; simpl.
  - rewrite Z.ltb_lt. rewrite qcmp_lt, Q2R_opp. split.
    + intros H x [H1 H2]. lra.
    + intros H. destruct (Rlt_dec (Q2R q) (- Q2R p)) as [L|L]; auto.
      exfalso. apply (H (Q2R q)). lra.
  - split; [discriminate|]. intros H. exfalso. apply (H (- Q2R p)%R). lra.
  - split; [discriminate|]. intros H. exfalso. apply (H (Q2R q)%R). lra.
  - split; [discriminate|]. intros H. exfalso. apply (H 0%R). auto.
Qed.

Lemma itv_empty_test_sound : forall a, itv_empty_test a = true -> forall x, ~ in_itv x a.
Proof.
  intros [i s] H x [H1 H2]. unfold itv_empty_test in H; simpl in *.
  destruct i as [|p|], s as [|q|]; simpl in *; try discriminate; try tauto.
  zb. apply qcmp_lt in H. rewrite Q2R_opp in H. lra.
Qed.

Lemma itv_meet_spec : forall x b c, in_itv x (fst (itv_meet b c)) <-> in_itv x b /\ in_itv x c.
Proof. intros. unfold itv_meet, in_itv; simpl. rewrite !bmin_spec. tauto. Qed.

Lemma bfloor_int : forall z b, le_rb (IZR z) b <-> le_rb (IZR z) (bfloor b).
Proof.
  intros z [|q|]; simpl; try tauto. rewrite Q2R_inject. pose proof (Qfloor_R q). split; intro L.
  - apply IZR_le. assert (IZR z < IZR (Qfloor q) + 1)%R as G by lra.
    rewrite <- plus_IZR in G. apply lt_IZR in G. lia.
  - lra.
Qed.
Lemma itv_floor2_int : forall z a, in_itv (IZR z) a <-> in_itv (IZR z) (itv_floor2 a).
Proof.
  intros. unfold in_itv; simpl. rewrite <- opp_IZR. rewrite <- !bfloor_int. tauto.
Qed.

(** Inclusion through bounds, for non-empty [a]. *)
Lemma itv_subset_bounds : forall a b x0, in_itv x0 a ->
  (itv_subset a b <-> le_bb (sup a) (sup b) /\ le_bb (inf a) (inf b)).
Proof.
  intros a b x0 [N1 N2]. unfold itv_subset, in_itv. split.
  - intros H. split; apply le_bb_rb; intros x Hx.
    + destruct (Rle_dec x0 x) as [L|L].
      * apply H. split; auto. apply le_rb_le with (- x0)%R; auto; lra.
      * apply le_rb_le with x0; [lra|]. apply H; auto.
    + destruct (Rle_dec (- x0) x) as [L|L].
      * rewrite <- (Ropp_involutive x). apply H. rewrite Ropp_involutive. split; auto.
        apply le_rb_le with x0; auto; lra.
      * apply le_rb_le with (- x0)%R; [lra|]. apply H; auto.
  - intros [H1 H2] x [X1 X2]. split; eapply le_rb_mono; eauto.
Qed.

Lemma itv_is_leq_sound : forall a b, itv_is_leq a b = true -> itv_subset a b.
Proof.
  intros a b H x Hx. unfold itv_is_leq in H.
  destruct (itv_is_canonical_bottom a) eqn:E1.
  { exfalso; eapply canonical_bottom_empty; eauto. }
  destruct (itv_is_canonical_bottom b) eqn:E2; [discriminate|].
  zb. apply bcmp_le in H. apply bcmp_le in H0. destruct Hx as [X1 X2].
  split; eapply le_rb_mono; eauto.
Qed.
Lemma itv_is_leq_complete : forall a b x0, in_itv x0 a -> itv_subset a b -> itv_is_leq a b = true.
Proof.
  intros a b x0 Hx H. unfold itv_is_leq.
  destruct (itv_is_canonical_bottom a) eqn:E1; auto.
  destruct (itv_is_canonical_bottom b) eqn:E2.
  { exfalso; eapply canonical_bottom_empty; eauto. }
  apply (itv_subset_bounds a b x0 Hx) in H. destruct H as [H1 H2].
  apply bcmp_le in H1. apply bcmp_le in H2.
  apply andb_true_iff; split; apply Z.leb_le; auto.
Qed.

Lemma itv_is_eq_sound : forall a b, itv_is_eq a b = true -> forall x, in_itv x a <-> in_itv x b.
Proof.
  intros a b H x. unfold itv_is_eq in H. zb.
  apply bequal_le in H. apply bequal_le in H0. destruct H, H0.
  split; intros [X1 X2]; split; eapply le_rb_mono; eauto.
Qed.
Lemma itv_is_eq_complete : forall a b x0, in_itv x0 a ->
  (forall x, in_itv x a <-> in_itv x b) -> itv_is_eq a b = true.
Proof.
  intros a b x0 Hx H. unfold itv_is_eq.
  assert (S1 : itv_subset a b) by (intros x; apply H).
  assert (S2 : itv_subset b a) by (intros x; apply H).
  apply (itv_subset_bounds a b x0 Hx) in S1.
  apply (itv_subset_bounds b a x0) in S2; [|apply H; auto].
  apply andb_true_iff; split; apply bequal_le; tauto.
Qed.

Lemma itv_join_least : forall b c d x0 y0, in_itv x0 b -> in_itv y0 c ->
  itv_subset b d -> itv_subset c d -> itv_subset (itv_join b c) d.
Proof.
  intros b c d x0 y0 Hx Hy H1 H2 x. unfold itv_join.
  destruct (itv_is_canonical_bottom b) eqn:E1.
  { exfalso; eapply canonical_bottom_empty; eauto. }
  destruct (itv_is_canonical_bottom c) eqn:E2.
  { exfalso; eapply canonical_bottom_empty; eauto. }
  apply (itv_subset_bounds b d x0 Hx) in H1.
  apply (itv_subset_bounds c d y0 Hy) in H2.
  intros [X1 X2]; simpl in *. apply bmax_spec in X1. apply bmax_spec in X2.
  split.
  - destruct X1 as [X1|X1]; eapply le_rb_mono; eauto; tauto.
  - destruct X2 as [X2|X2]; eapply le_rb_mono; eauto; tauto.
Qed.

(** ** Widening *)

Lemma bound_widening_l : forall b c, le_bb b (bound_widening b c).
Proof.
  intros. unfold bound_widening. destruct (binfty c || (bcmp b c <? 0)).
  - apply le_bb_PInf.
  - apply le_bb_refl.
Qed.
Lemma bound_widening_r : forall b c, le_bb c (bound_widening b c).
Proof.
  intros. unfold bound_widening. destruct (binfty c || (bcmp b c <? 0)) eqn:E.
  - apply le_bb_PInf.
  - zb. apply bcmp_le. rewrite bcmp_anti. lia.
Qed.
Lemma itv_widening_sound : forall x b c, in_itv x b \/ in_itv x c -> in_itv x (itv_widening b c).
Proof.
  intros x b c H. unfold itv_widening.
  destruct (itv_is_canonical_bottom b) eqn:E1.
  { destruct H as [H|H]; auto. exfalso; eapply canonical_bottom_empty; eauto. }
  destruct (itv_is_canonical_bottom c) eqn:E2.
  { destruct H as [H|H]; auto. exfalso; eapply canonical_bottom_empty; eauto. }
  destruct H as [[H1 H2]|[H1 H2]]; split; simpl; (eapply le_rb_mono; [eassumption|]);
    auto using bound_widening_l, bound_widening_r.
Qed.

(** number of non-(+oo) bounds, 3 for the canonical empty interval *)
Definition bweight (b : bound) : nat := match b with PInf => 0 | _ => 1 end.
Definition itv_weight (a : itv) : nat :=
  if itv_is_canonical_bottom a then 3 else bweight (inf a) + bweight (sup a).

Lemma bound_widening_weight : forall b c,
  bound_widening b c = b \/ (bweight (bound_widening b c) < bweight b)%nat.
Proof.
  intros b c. unfold bound_widening. destruct (binfty c || (bcmp b c <? 0)) eqn:E; auto.
  destruct b; simpl; auto.
Qed.
Lemma bound_widening_weight_le : forall b c, (bweight (bound_widening b c) <= bweight b)%nat.
Proof. intros. destruct (bound_widening_weight b c) as [E|E]; [rewrite E; auto | lia]. Qed.
Lemma canonical_bottom_PInf : forall a, inf a = PInf \/ sup a = PInf -> itv_is_canonical_bottom a = false.
Proof.
  intros a H. destruct (itv_is_canonical_bottom a) eqn:E; auto.
  apply canonical_bottom_iff in E. destruct E as [p [q [E1 [E2 _]]]].
  destruct H; congruence.
Qed.
Lemma bweight_le1 : forall b, (bweight b <= 1)%nat.
Proof. destruct b; simpl; auto. Qed.
Lemma itv_weight_le : forall a, (itv_weight a <= 3)%nat.
Proof.
  intros a. unfold itv_weight. destruct (itv_is_canonical_bottom a); auto.
  pose proof (bweight_le1 (inf a)). pose proof (bweight_le1 (sup a)). lia.
Qed.
Lemma itv_widening_weight : forall b c,
  (itv_widening b c = b \/ (itv_is_canonical_bottom b = true /\ itv_is_canonical_bottom c = true))
  \/ (itv_weight (itv_widening b c) < itv_weight b)%nat.
Proof.
  intros b c. unfold itv_widening, itv_weight at 2.
  destruct (itv_is_canonical_bottom b) eqn:E1.
  - destruct (itv_is_canonical_bottom c) eqn:E2; [auto|].
    right. unfold itv_weight. rewrite E2.
    pose proof (bweight_le1 (inf c)). pose proof (bweight_le1 (sup c)). lia.
  - destruct (itv_is_canonical_bottom c) eqn:E2; [auto|].
    destruct (bound_widening_weight (inf b) (inf c)) as [F1|F1];
    destruct (bound_widening_weight (sup b) (sup c)) as [F2|F2].
    + left; left. rewrite F1, F2. destruct b; reflexivity.
    + right. unfold itv_weight; simpl.
      rewrite canonical_bottom_PInf.
      * rewrite F1. lia.
      * right. simpl. destruct (bound_widening (sup b) (sup c)) eqn:G; simpl in *; auto;
          pose proof (bweight_le1 (sup b)); lia.
    + right. unfold itv_weight; simpl.
      rewrite canonical_bottom_PInf.
      * rewrite F2. lia.
      * left. simpl. destruct (bound_widening (inf b) (inf c)) eqn:G; simpl in *; auto;
          pose proof (bweight_le1 (inf b)); lia.
    + right. unfold itv_weight; simpl.
      rewrite canonical_bottom_PInf.
      * lia.
      * left. simpl. destruct (bound_widening (inf b) (inf c)) eqn:G; simpl in *; auto;
          pose proof (bweight_le1 (inf b)); lia.
Qed.

(** ** Absolute value, rounding, square root *)

Lemma itv_abs_sound : forall x b, in_itv x b -> in_itv (Rabs x) (itv_abs b).
Proof.
  intros x b [H1 H2]. unfold itv_abs.
  destruct (bsgn (inf b) <=? 0) eqn:E1; zb.
  { pose proof (bsgn_le0 _ E1 _ H1). rewrite Rabs_right by lra. split; auto. }
  destruct (bsgn (sup b) <=? 0) eqn:E2; zb.
  { pose proof (bsgn_le0 _ E2 _ H2). rewrite Rabs_left1 by lra.
    apply itv_neg_sound. split; auto. }
  split; simpl.
  - rewrite Q2R_0'. pose proof (Rabs_pos x). lra.
  - apply bmax_spec. unfold Rabs. destruct (Rcase_abs x); auto.
Qed.

(** A floor of a real given by its specification. *)
Definition is_floor (x : R) (z : Z) : Prop := (IZR z <= x < IZR z + 1)%R.
Definition is_ceil (x : R) (z : Z) : Prop := (IZR z - 1 < x <= IZR z)%R.
Definition is_trunc (x : R) (z : Z) : Prop :=
  ((0 <= x)%R -> is_floor x z) /\ ((x <= 0)%R -> is_ceil x z).

Lemma bceil_mono : forall x z b, le_rb x b -> is_ceil x z -> le_rb (IZR z) (bceil b).
Proof.
  intros x z [|q|]; simpl; auto. unfold is_ceil. intros H C. rewrite Q2R_inject.
  pose proof (Qceiling_R q). apply IZR_le.
  assert (IZR z < IZR (Qceiling q) + 1)%R as G by lra.
  rewrite <- plus_IZR in G. apply lt_IZR in G. lia.
Qed.
Lemma bfloor_mono : forall x z b, le_rb x b -> is_floor x z -> le_rb (IZR z) (bfloor b).
Proof.
  intros x z b H F. apply (proj1 (bfloor_int z b)). apply le_rb_le with x; auto. apply F.
Qed.
Lemma is_floor_neg : forall x z, is_floor x z -> is_ceil (- x) (- z).
Proof. unfold is_floor, is_ceil. intros x z H. rewrite opp_IZR. lra. Qed.
Lemma is_ceil_neg : forall x z, is_ceil x z -> is_floor (- x) (- z).
Proof. unfold is_floor, is_ceil. intros x z H. rewrite opp_IZR. lra. Qed.
Lemma is_trunc_neg : forall x z, is_trunc x z -> is_trunc (- x) (- z).
Proof.
  intros x z [H1 H2]. split; intro L.
  - apply is_ceil_neg. apply H2. lra.
  - apply is_floor_neg. apply H1. lra.
Qed.

Lemma itv_ceil_sound : forall x z b, in_itv x b -> is_ceil x z -> in_itv (IZR z) (itv_ceil b).
Proof.
  intros x z b [H1 H2] C. split; simpl.
  - rewrite <- opp_IZR. eapply bfloor_mono; eauto. apply is_ceil_neg; auto.
  - eapply bceil_mono; eauto.
Qed.
Lemma itv_floor_sound : forall x z b, in_itv x b -> is_floor x z -> in_itv (IZR z) (itv_floor b).
Proof.
  intros x z b [H1 H2] C. split; simpl.
  - rewrite <- opp_IZR. eapply bceil_mono; eauto. apply is_floor_neg; auto.
  - eapply bfloor_mono; eauto.
Qed.

Lemma qtrunc_spec : forall q, is_trunc (Q2R q) (qtrunc q).
Proof.
  intros [n d]. unfold qtrunc, is_trunc, is_floor, is_ceil, Q2R; simpl.
  assert (0 < IZR (Z.pos d))%R as D by (apply IZR_lt; lia).
  pose proof (Z.quot_rem' n (Z.pos d)) as E.
  assert (EQ : (IZR n = IZR (Z.pos d) * IZR (Z.quot n (Z.pos d)) + IZR (Z.rem n (Z.pos d)))%R).
  { rewrite <- mult_IZR, <- plus_IZR. f_equal. exact E. }
  set (k := IZR (Z.quot n (Z.pos d))) in *. set (r := IZR (Z.rem n (Z.pos d))) in *.
  assert (V : (IZR n * / IZR (Z.pos d) = k + r * / IZR (Z.pos d))%R).
  { rewrite EQ. field. lra. }
  assert (DI : (0 < / IZR (Z.pos d))%R) by (apply Rinv_0_lt_compat; auto).
  split; intro L.
  - assert (0 <= n)%Z.
    { apply le_IZR. apply Rmult_le_reg_r with (/ IZR (Z.pos d))%R; auto. lra. }
    pose proof (Z.rem_bound_pos n (Z.pos d) H ltac:(lia)) as B.
    assert (0 <= r < IZR (Z.pos d))%R as RB.
    { unfold r. split; [apply IZR_le | apply IZR_lt]; lia. }
    rewrite V. assert (0 <= r * / IZR (Z.pos d) < 1)%R; [|lra].
    split; [nra|]. apply Rmult_lt_reg_r with (IZR (Z.pos d)); auto.
    rewrite Rmult_assoc, Rinv_l; lra.
  - assert (n <= 0)%Z.
    { apply le_IZR. apply Rmult_le_reg_r with (/ IZR (Z.pos d))%R; auto. lra. }
    pose proof (Z.rem_bound_pos_neg n (Z.pos d) ltac:(lia) H) as B.
    assert (- IZR (Z.pos d) < r <= 0)%R as RB.
    { unfold r. rewrite <- opp_IZR. split; [apply IZR_lt | apply IZR_le]; lia. }
    rewrite V. assert (-1 < r * / IZR (Z.pos d) <= 0)%R; [|lra].
    split; [|nra]. apply Rmult_lt_reg_r with (IZR (Z.pos d)); auto.
    rewrite Rmult_assoc, Rinv_l; lra.
Qed.

Lemma is_trunc_mono : forall x y z w, is_trunc x z -> is_trunc y w -> (x <= y)%R -> (z <= w)%Z.
Proof.
  unfold is_trunc, is_floor, is_ceil. intros x y z w [A1 A2] [B1 B2] L.
  destruct (Rle_dec 0 x) as [X|X].
  - specialize (A1 X). specialize (B1 ltac:(lra)).
    assert (IZR z < IZR w + 1)%R as G by lra. rewrite <- plus_IZR in G. apply lt_IZR in G. lia.
  - specialize (A2 ltac:(lra)). destruct (Rle_dec 0 y) as [Y|Y].
    + specialize (B1 Y). assert (IZR z < 1)%R as G1 by lra. apply lt_IZR in G1.
      assert (-1 < IZR w)%R as G2 by lra. apply lt_IZR in G2. lia.
    + specialize (B2 ltac:(lra)). assert (IZR z < IZR w + 1)%R as G by lra.
      rewrite <- plus_IZR in G. apply lt_IZR in G. lia.
Qed.
Lemma btrunc_mono : forall x z b, le_rb x b -> is_trunc x z -> le_rb (IZR z) (btrunc b).
Proof.
  intros x z [|q|]; simpl; auto. intros H T. rewrite Q2R_inject. apply IZR_le.
  eapply is_trunc_mono; eauto. apply qtrunc_spec.
Qed.
Lemma itv_trunc_sound : forall x z b, in_itv x b -> is_trunc x z -> in_itv (IZR z) (itv_trunc b).
Proof.
  intros x z b [H1 H2] C. split; simpl.
  - rewrite <- opp_IZR. eapply btrunc_mono; eauto. apply is_trunc_neg; auto.
  - eapply btrunc_mono; eauto.
Qed.
(** any integer rounding: an integer at distance < 1 *)
Lemma itv_to_int_sound : forall x z b, in_itv x b -> (Rabs (IZR z - x) < 1)%R ->
  in_itv (IZR z) (itv_to_int b).
Proof.
  assert (G : forall x z b, le_rb x b -> (Rabs (IZR z - x) < 1)%R -> le_rb (IZR z) (bceil b)).
  { intros x z [|q|]; simpl; auto. intros H L. rewrite Q2R_inject. apply IZR_le.
    pose proof (Qceiling_R q). apply Rabs_def2 in L.
    assert (IZR z < IZR (Qceiling q) + 1)%R as K by lra. rewrite <- plus_IZR in K.
    apply lt_IZR in K. lia. }
  intros x z b [H1 H2] C. split; simpl.
  - rewrite <- opp_IZR. eapply G; eauto. rewrite opp_IZR.
    replace (- IZR z - - x)%R with (- (IZR z - x))%R by lra. rewrite Rabs_Ropp. auto.
  - eapply G; eauto.
Qed.

Lemma qsqrt_spec : forall q, (0 <= Q2R q)%R ->
  (Q2R (snd (qsqrt q)) <= sqrt (Q2R q) <= Q2R (fst (qsqrt q)))%R.
Proof.
  intros q Hq.
  assert (E : Q2R (Qred q) = Q2R q) by (apply Qeq_Q2R; apply Qred_correct).
  unfold qsqrt. set (r := Qred q) in *. destruct r as [n d]; simpl.
  assert (Hn : (0 <= n)%Z).
  { assert (0 <= Z.sgn n)%Z as S; [|destruct n; simpl in S; lia].
    change n with (Qnum (n # d)). apply sgn_Q_ge. lra. }
  set (t := (n * Z.pos d)%Z). assert (0 <= t)%Z as Ht by (unfold t; nia).
  pose proof (Z.sqrt_spec t Ht) as [S1 S2]. set (s := Z.sqrt t) in *.
  assert (Hs : (0 <= s)%Z) by (apply Z.sqrt_nonneg).
  assert (D : (0 < IZR (Z.pos d))%R) by (apply IZR_lt; lia).
  assert (V : Q2R q = (IZR t / (IZR (Z.pos d) * IZR (Z.pos d)))%R).
  { rewrite <- E. unfold Q2R, t; simpl. rewrite mult_IZR. field. lra. }
  assert (W : forall z, Q2R (z # d) = (IZR z / IZR (Z.pos d))%R) by reflexivity.
  assert (SQ : sqrt (Q2R q) = (sqrt (IZR t) / IZR (Z.pos d))%R).
  { rewrite V. rewrite sqrt_div_alt by nra. rewrite sqrt_square; lra. }
  rewrite SQ.
  assert (T0 : (0 <= IZR t)%R) by (apply IZR_le; auto).
  assert (DI : (0 < / IZR (Z.pos d))%R) by (apply Rinv_0_lt_compat; auto).
  assert (LO : (IZR s <= sqrt (IZR t))%R).
  { rewrite <- (sqrt_square (IZR s)) by (apply IZR_le; auto). apply sqrt_le_1.
    - nra. - auto. - rewrite <- mult_IZR. apply IZR_le. auto. }
  split.
  - rewrite W. apply Rmult_le_compat_r; lra.
  - rewrite W. apply Rmult_le_compat_r; [lra|].
    destruct (s * s =? t) eqn:P; zb.
    + rewrite <- P. rewrite mult_IZR. rewrite sqrt_square; [lra|]. apply IZR_le; auto.
    + rewrite <- (sqrt_square (IZR (s + 1))) by (apply IZR_le; lia). apply sqrt_le_1; auto.
      * pose proof (IZR_le 0 (s+1) ltac:(lia)). nra.
      * rewrite <- mult_IZR. apply IZR_le. unfold Z.succ in S2. lia.
Qed.

Local Opaque qsqrt.
Lemma itv_sqrt_sound : forall x b, in_itv x b -> (0 <= x)%R -> in_itv (sqrt x) (itv_sqrt b).
Proof.
  intros x b [H1 H2] Hx. unfold itv_sqrt.
  destruct (itv_is_bottom b || (bsgn (sup b) <? 0)) eqn:E.
  { exfalso. zb. destruct E as [E|E]; zb.
    - eapply itv_empty_test_sound; [exact E | split; eassumption].
    - pose proof (bsgn_lt0 _ E _ H2). lra. }
  zb. split; simpl.
  - destruct (0 <=? bsgn (inf b)) eqn:F; zb.
    + simpl. rewrite Q2R_0'. pose proof (sqrt_pos x). lra.
    + destruct (inf b) as [|p|] eqn:I; simpl in *; try tauto; try lia.
      apply sgn_Q_neg in F.
      pose proof (qsqrt_spec (- p) ltac:(rewrite Q2R_opp; lra)) as S.
      destruct (qsqrt (- p)) as [u d]; simpl in *. rewrite (Q2R_opp p) in S; rewrite (Q2R_opp d).
      assert (sqrt (- Q2R p) <= sqrt x)%R by (apply sqrt_le_1; lra). lra.
  - destruct (sup b) as [|p|] eqn:I; simpl in *; try tauto.
    pose proof (qsqrt_spec p ltac:(lra)) as S.
    destruct (qsqrt p) as [u d]; simpl in *.
    assert (sqrt x <= sqrt (Q2R p))%R by (apply sqrt_le_1; lra). lra.
Qed.

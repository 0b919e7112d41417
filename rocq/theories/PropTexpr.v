(** Properties C42 (trees), C43, C47 (trees) and C62: tree expressions as data structures. *)
From Coq Require Import Arith ZArith QArith Qreals Reals Lra Lia Bool List Sorted Permutation.
From Verif Require Import Bound BoundFacts Util Itv ItvFacts ItvFacts2 Linexpr LinexprFacts OctResize2 OctResize3 ItvLin ItvLinFacts BoxDims ApCore ApCoreFacts ApCoreEq ApCoreDim ApCheck PropApCore ApTexpr TexprSem.
Import ListNotations.
Open Scope nat_scope.
#[local] Arguments Nat.leb : simpl never.
#[local] Arguments Nat.ltb : simpl never.
#[local] Arguments Nat.eqb : simpl never.
#[local] Arguments Nat.sub : simpl never.

(** ** C43: occurrences and substitution *)
Lemma has_dim_iff : forall a d, texpr_has_dim a d = true <-> occurs d a.
Proof.
  induction a as [c|x|o t r a IH|o t r a IHa b IHb]; intros d; simpl.
  - split; [discriminate|intros H; inversion H].
  - rewrite Nat.eqb_eq. split; [intros ->; constructor|intros H; inversion H; auto].
  - rewrite IH. split; [apply oc_un|intros H; inversion H; auto].
  - rewrite orb_true_iff, IHa, IHb. split; [intros [H|H]; [apply oc_l|apply oc_r]; auto|intros H; inversion H; auto].
Qed.
Lemma mdi : forall a m, m <= max_dim_internal a m /\ (forall d, occurs d a -> d < max_dim_internal a m) /\
  (max_dim_internal a m = m \/ exists d, occurs d a /\ max_dim_internal a m = d + 1).
Proof.
  induction a as [c|x|o t r a IH|o t r a IHa b IHb]; intros m; simpl.
  - split; auto. split; auto. intros d H; inversion H.
  - destruct (Nat.ltb_spec m (x + 1)); (split; [lia|]); (split; [intros d H1; inversion H1; lia|]); auto. right. exists x. split; [constructor|lia].
  - destruct (IH m) as (A & B & C). split; auto. split. intros d H; inversion H; auto. destruct C as [C|(d & C & D)]; auto. right. exists d. split; auto. constructor; auto.
  - destruct (IHa m) as (A & B & C). destruct (IHb (max_dim_internal a m)) as (A' & B' & C'). split; [lia|]. split.
    + intros d H; inversion H; subst; auto. specialize (B d ltac:(auto)). lia.
    + destruct C' as [C'|(d & C' & D)]. rewrite C'. destruct C as [C|(d & C & D)]; auto. right; exists d; split; auto; constructor; auto. right; exists d; split; auto. apply oc_r; auto.
Qed.
(** the answers about dimensions are those of the occurrence relation *)
Theorem C43_dims : forall a,
  (forall d, texpr_has_dim a d = true <-> occurs d a) /\
  (forall d, occurs d a -> d < texpr_max_dim a) /\
  (texpr_max_dim a = 0 \/ exists d, occurs d a /\ texpr_max_dim a = d + 1) /\
  (is_interval_cst a = true <-> forall d, ~ occurs d a).
Proof.
  intros a. split; [apply has_dim_iff|]. destruct (mdi a 0) as (A & B & C). split; auto. split; auto.
  clear. induction a as [c|x|o t r a IH|o t r a IHa b IHb]; simpl.
  - split; auto. intros _ d H; inversion H.
  - split; [discriminate|]. intros H. exfalso. apply (H x). constructor.
  - rewrite IH. split; intros H d O. inversion O; subst. eapply H; eauto. apply (H d). constructor; auto.
  - rewrite andb_true_iff, IHa, IHb. split. intros [H1 H2] d O; inversion O; subst; [eapply H1|eapply H2]; eauto.
    intros H; split; intros d O; apply (H d); [apply oc_l|apply oc_r]; auto.
Qed.
Print Assumptions C43_dims.
Lemma dli : forall a v, (forall d, occurs d a -> d < length v) -> exists w, dimlist_internal a (Some v) = Some w /\ length w = length v /\
  forall i, nth i w false = true <-> (nth i v false = true \/ occurs i a).
Proof.
  induction a as [c|x|o t r a IH|o t r a IHa b IHb]; intros v L; simpl.
  - exists v. split; auto. split; auto. intros i; split; auto. intros [H|H]; auto. inversion H.
  - assert (X : x < length v) by (apply L; constructor). destruct (Nat.ltb_spec x (length v)); [|lia]. exists (set_nth x true v). split; auto. split; [apply set_nth_length|].
    intros i. rewrite set_nth_nth by auto. destruct (Nat.eqb_spec i x) as [->|D]; split; auto. intros _; right; constructor. intros [H1|H1]; auto. inversion H1; congruence.
  - destruct (IH v) as (w & A & B & C). intros d O; apply L; constructor; auto. exists w. split; auto. split; auto. intros i. rewrite C. split; (intros [H|H]; [auto|right]). constructor; auto. inversion H; auto.
  - destruct (IHa v) as (w & A & B & C). intros d O; apply L; apply oc_l; auto. rewrite A. destruct (IHb w) as (w' & A' & B' & C'). intros d O; rewrite B; apply L; apply oc_r; auto.
    exists w'. split; auto. split; [lia|]. intros i. rewrite C', C. split. intros [[H|H]|H]; auto. right; apply oc_l; auto. right; apply oc_r; auto. intros [H|H]; auto. inversion H; subst; auto.
Qed.
(** the list of dimensions is strictly increasing and complete; the occurrence vector is never
    overrun *)
Theorem C43_dimlist : forall a, exists l, texpr_dimlist a = Some l /\ StronglySorted lt l /\ forall d, In d l <-> occurs d a.
Proof.
  intros a. unfold texpr_dimlist. destruct (mdi a 0) as (_ & B & _). fold (texpr_max_dim a) in B.
  destruct (Nat.eqb_spec (texpr_max_dim a) 0) as [E|E].
  - exists []. split; auto. split; [constructor|]. intros d; split; [intros []|]. intros O. specialize (B d O). lia.
  - destruct (dli a (repeat false (texpr_max_dim a))) as (w & W1 & W2 & W3). intros d O. rewrite repeat_length. auto. rewrite W1. exists (filter (fun i => nth i w false) (seq 0 (texpr_max_dim a))).
    split; auto. split.
    + assert (G : forall P n m, StronglySorted lt (filter P (seq n m))).
      { intros P n m. revert n. induction m; intros n; simpl; [constructor|]. destruct (P n); auto. constructor; auto. rewrite Forall_forall. intros x X. apply filter_In in X. destruct X as [X _]. apply in_seq in X. lia. }
      apply G.
    + intros d. rewrite filter_In, in_seq, W3. split; [intros [_ [H|H]]; auto|].
      * exfalso. destruct (Nat.lt_ge_cases d (texpr_max_dim a)) as [L|L]; [rewrite nth_repeat in H|rewrite nth_overflow in H by (rewrite repeat_length; auto)]; discriminate.
      * intros O. specialize (B d O). split; auto. lia.
Qed.
Print Assumptions C43_dimlist.
(** a tree depends only on the dimensions that occur in it *)
Theorem C43_depends : forall F a v w, (forall d, texpr_has_dim a d = true -> v d = w d) -> forall r, xval F v a r <-> xval F w a r.
Proof. intros F a v w H. apply xval_ext. intros d O. apply H. apply has_dim_iff; auto. Qed.
Print Assumptions C43_depends.
Definition upd1 (v : nat -> R) (d : nat) (x : R) : nat -> R := fun i => if Nat.eqb i d then x else v i.
(** substitution: every value with the variable bound to a value of the substituted tree is a
    value of the result; conversely when the substituted tree has one value.  The result is the
    tree itself if the dimension does not occur. *)
Theorem C43_substitute : forall F a d e v,
  (forall x r, xval F v e x -> xval F (upd1 v d x) a r -> xval F v (texpr_substitute a d e) r) /\
  (forall x, (forall y, xval F v e y -> y = x) -> forall r, xval F v (texpr_substitute a d e) r -> xval F (upd1 v d x) a r) /\
  (texpr_has_dim a d = false -> texpr_substitute a d e = a) /\
  (forall i, occurs i (texpr_substitute a d e) <-> (i <> d /\ occurs i a) \/ (occurs d a /\ occurs i e)).
Proof.
  intros F a d e v. split; [|split; [|split]].
  - intros x r E. revert r. induction a as [c|y|o t q a IH|o t q a IHa b IHb]; intros r H; simpl.
    + rewrite xval_cst in *. auto.
    + rewrite xval_dim in H. unfold upd1 in H. destruct (Nat.eqb_spec y d); subst; auto. constructor.
    + rewrite xval_un in *. destruct H as (z & A & B). exists z; auto.
    + rewrite xval_bin in *. destruct H as (z & z' & A & B & C). exists z, z'; auto.
  - intros x U. induction a as [c|y|o t q a IH|o t q a IHa b IHb]; intros r H; simpl in H.
    + rewrite xval_cst in *. auto.
    + rewrite xval_dim. unfold upd1. destruct (Nat.eqb_spec y d); auto. apply xval_dim in H. auto.
    + rewrite xval_un in *. destruct H as (z & A & B). exists z; auto.
    + rewrite xval_bin in *. destruct H as (z & z' & A & B & C). exists z, z'; auto.
  - induction a as [c|y|o t q a IH|o t q a IHa b IHb]; simpl; auto. intros ->; auto. intros H. rewrite IH; auto. intros H. apply orb_false_iff in H. destruct H. rewrite IHa, IHb; auto.
  - intros i. induction a as [c|y|o t q a IH|o t q a IHa b IHb]; simpl.
    + split. intros H; inversion H. intros [[_ H]|[H _]]; inversion H.
    + destruct (Nat.eqb_spec y d) as [->|D]. split. intros H. right. split; auto. constructor. intros [[H1 H2]|[_ H]]; auto. inversion H2; congruence.
      split. intros H. inversion H; subst. left; split; auto. intros [[_ H]|[H _]]; auto. inversion H; congruence.
    + split. intros H; inversion H; subst. apply IH in H1. destruct H1 as [[A B]|[A B]]; [left|right]; split; auto; constructor; auto.
      intros H. constructor. apply IH. destruct H as [[A B]|[A B]]; [left|right]; split; auto. inversion B; auto. inversion A; auto.
    + split. intros H; inversion H; subst; [apply IHa in H1|apply IHb in H1]; destruct H1 as [[A B]|[A B]]; [left|right|left|right]; split; auto; try (apply oc_l; auto; fail); apply oc_r; auto.
      intros [[A B]|[A B]]; [inversion B|inversion A]; subst; [apply oc_l|apply oc_r|apply oc_l|apply oc_r]; (apply IHa || apply IHb); auto.
Qed.
Print Assumptions C43_substitute.
(** hence, in terms of the API: substituting a tree with exactly one value *)
Corollary substitute_exact : forall F a d e v x, xval F v e x -> (forall y, xval F v e y -> y = x) -> forall r, xval F v (texpr_substitute a d e) r <-> xval F (upd1 v d x) a r.
Proof. intros F a d e v x E U r. destruct (C43_substitute F a d e v) as (A & B & _). split; eauto. Qed.
(** with several values the result may have more values than the binding of the variable to one
    of them: x - x with x replaced by [0, 1] *)
Theorem C43_substitute_interval_refuted : forall F, exists a d e v r, xval F v (texpr_substitute a d e) r /\ ~ exists x, xval F v e x /\ xval F (upd1 v d x) a r.
Proof.
  intros F. exists (TBin BSub RReal DRnd (TDim 0) (TDim 0)), 0, (TCst (Intv (Fin 0) (Fin 1))), (fun _ => 0%R), 1%R. split.
  - simpl. apply xval_bin. exists 1%R, 0%R. rewrite !xval_cst. simpl. unfold Q2R; simpl. repeat split; lra.
  - intros (x & _ & H). apply xval_bin in H. destruct H as (a & b & A & B & C). apply xval_dim in A. apply xval_dim in B. simpl in C. subst. unfold upd1 in C. rewrite Nat.eqb_refl in C. lra.
Qed.
Print Assumptions C43_substitute_interval_refuted.
(** from_linexpr0: the tree has the values of the linear expression *)
Theorem C43_from_linexpr : forall F e v r, holes_last (le_terms e) -> (xval F v (texpr_from_linexpr e) r <-> expr_val e v r).
Proof.
  intros F e v r H. unfold texpr_from_linexpr, expr_val.
  assert (G : forall l a r, xval F v (fold_left (fun res p => TBin BAdd RReal DRnd res (TBin BMul RReal DRnd (TCst (snd p)) (TDim (fst p)))) l a) r <-> exists x y, xval F v a x /\ cval v l y /\ r = (x + y)%R).
  { clear. induction l as [|[d c] l IH]; intros a r; simpl.
    - split. intros H. exists r, 0%R. split; auto. split; [constructor|lra]. intros (x & y & A & B & ->). inversion B; subst. rewrite Rplus_0_r. auto.
    - rewrite IH. split.
      + intros (x & y & A & B & ->). apply xval_bin in A. destruct A as (x1 & x2 & A1 & A2 & A3). apply xval_bin in A2. destruct A2 as (k & z & K & Z & M). apply xval_cst in K. apply xval_dim in Z. simpl in *. subst.
        exists x1, (k * v d + y)%R. split; auto. split; [constructor; auto|lra].
      + intros (x & y & A & B & ->). inversion B; subst. exists (x + x0 * v d)%R, r. split; [|split; auto; lra]. apply xval_bin. exists x, (x0 * v d)%R. split; auto. split; [|simpl; auto].
        apply xval_bin. exists x0, (v d). rewrite xval_cst, xval_dim. simpl. auto. }
  rewrite G. split.
  - intros (x & y & A & B & ->). apply xval_cst in A. apply foreach_val in B; auto. exists x, y. auto.
  - intros (c0 & r1 & A & B & ->). apply foreach_val in B; auto. exists c0, r1. rewrite xval_cst. auto.
Qed.
Print Assumptions C43_from_linexpr.
(** equality test *)
Lemma unop_eqb_eq : forall a b, unop_eqb a b = true <-> a = b. Proof. destruct a, b; simpl; split; congruence. Qed.
Lemma binop_eqb_eq : forall a b, binop_eqb a b = true <-> a = b. Proof. destruct a, b; simpl; split; congruence. Qed.
Lemma rtype_eqb_eq : forall a b, rtype_eqb a b = true <-> a = b. Proof. destruct a, b; simpl; split; congruence. Qed.
Lemma rdir_eqb_eq : forall a b, rdir_eqb a b = true <-> a = b. Proof. destruct a, b; simpl; split; congruence. Qed.
Lemma bequal_le_rb : forall a b r, bequal a b = true -> (le_rb r a <-> le_rb r b).
Proof. intros [|p|] [|q|] r; simpl; try tauto; try discriminate. rewrite Qeq_bool_iff. intros H. rewrite (Qeq_eqR _ _ H). tauto. Qed.
Lemma bequal_ge_rb : forall a b r, bequal a b = true -> (ge_rb r a <-> ge_rb r b).
Proof. intros [|p|] [|q|] r; simpl; try tauto; try discriminate. rewrite Qeq_bool_iff. intros H. rewrite (Qeq_eqR _ _ H). tauto. Qed.
Lemma scalar_bequal : forall a b, scalar_equal a b = bequal a b.
Proof. intros [|p|] [|q|]; reflexivity. Qed.
Lemma bottom_no_val : forall l u r, interval_is_bottom (l, u) = true -> ge_rb r l -> le_rb r u -> False.
Proof.
  intros l u r B G H. unfold interval_is_bottom in B. apply Z.ltb_lt in B. assert (~ (scalar_cmp (fst (l, u)) (snd (l, u)) <= 0)%Z) by lia. apply H0. apply scalar_cmp_le. simpl.
  intros x X. destruct l as [|p|], u as [|q|]; simpl in *; auto; try contradiction. lra.
Qed.
Lemma coeff_equal_val : forall a b r, coeff_equal a b = true -> (coeff_in r a <-> coeff_in r b).
Proof.
  intros [x|l u] [y|l' u'] r; unfold coeff_equal; simpl; try discriminate.
  - rewrite scalar_bequal. intros H. destruct x as [|p|], y as [|q|]; simpl in *; try tauto; try discriminate. apply Qeq_bool_iff in H. rewrite (Qeq_eqR _ _ H). tauto.
  - unfold interval_equal. simpl. rewrite !scalar_bequal. destruct (bequal l l') eqn:A; simpl.
    destruct (bequal u u') eqn:B. intros _. rewrite (bequal_ge_rb _ _ r A), (bequal_le_rb _ _ r B). tauto.
    all: rewrite andb_true_iff; intros [E1 E2]; split; intros [G H]; exfalso; [apply (bottom_no_val l u r)|apply (bottom_no_val l' u' r)]; auto.
Qed.
Theorem C43_equal : forall a b,
  texpr_equal a a = true /\
  (texpr_equal a b = true -> (forall F v r, xval F v a r <-> xval F v b r) /\ (forall d, occurs d a <-> occurs d b) /\
     forall hc, (forall c1 c2, coeff_equal c1 c2 = true -> hc c1 = hc c2) -> texpr_hash hc a = texpr_hash hc b).
Proof.
  intros a b. split.
  - induction a as [c|y|o t q a IH|o t q a IHa b' IHb]; simpl.
    + destruct c; unfold coeff_equal, interval_equal; simpl; rewrite ?scalar_bequal, ?bequal_refl; auto.
    + apply Nat.eqb_refl.
    + rewrite (proj2 (unop_eqb_eq o o)), (proj2 (rtype_eqb_eq t t)), (proj2 (rdir_eqb_eq q q)); auto.
    + rewrite (proj2 (binop_eqb_eq o o)), (proj2 (rtype_eqb_eq t t)), (proj2 (rdir_eqb_eq q q)), IHa; auto.
  - revert b. induction a as [c|y|o t q a IH|o t q a IHa a' IHb]; intros [c'|y'|o' t' q' b|o' t' q' b b']; simpl; try discriminate; intros H.
    + split; [|split]. intros. rewrite !xval_cst. apply coeff_equal_val; auto. intros d; split; intros H1; inversion H1. auto.
    + apply Nat.eqb_eq in H. subst. tauto.
    + rewrite !andb_true_iff, unop_eqb_eq, rtype_eqb_eq, rdir_eqb_eq in H. destruct H as (((-> & ->) & ->) & H). destruct (IH _ H) as (A & B & C). split; [|split].
      * intros. rewrite !xval_un. split; intros (x & X & Y); exists x; split; auto; apply A; auto.
      * intros d; split; intros O; inversion O; subst; constructor; apply B; auto.
      * intros hc Hc. rewrite (C hc Hc). auto.
    + rewrite !andb_true_iff, binop_eqb_eq, rtype_eqb_eq, rdir_eqb_eq in H. destruct H as ((((-> & ->) & ->) & H1) & H2). destruct (IHa _ H1) as (A & B & C). destruct (IHb _ H2) as (A' & B' & C'). split; [|split].
      * intros. rewrite !xval_bin. split; intros (x & y & X & Y & Z); exists x, y; split; [apply A; auto| |apply A; auto|]; split; auto; apply A'; auto.
      * intros d; split; intros O; inversion O; subst; [apply oc_l|apply oc_r|apply oc_l|apply oc_r]; (apply B || apply B'); auto.
      * intros hc Hc. rewrite (C hc Hc), (C' hc Hc). auto.
Qed.
Print Assumptions C43_equal.
Example C43_ex : let a := TBin BAdd RReal DRnd (TBin BMul RReal DRnd (TDim 4) (TDim 1)) (TUn UNeg RReal DRnd (TDim 4)) in
  texpr_dimlist a = Some [1; 4] /\ texpr_max_dim a = 5 /\ texpr_has_dim a 3 = false /\ texpr_depth a = 2 /\ texpr_size a = 3 /\
  texpr_substitute a 4 (TBin BPow RReal DRnd (TDim 0) (TCst (Scal (Fin 2)))) =
    TBin BAdd RReal DRnd (TBin BMul RReal DRnd (TBin BPow RReal DRnd (TDim 0) (TCst (Scal (Fin 2)))) (TDim 1)) (TUn UNeg RReal DRnd (TBin BPow RReal DRnd (TDim 0) (TCst (Scal (Fin 2))))) /\
  texpr_from_linexpr (mkLin (Scal (Fin 3)) (Sparse [(Some 1, Scal (Fin 2)); (None, czero)])) =
    TBin BAdd RReal DRnd (TCst (Scal (Fin 3))) (TBin BMul RReal DRnd (TCst (Scal (Fin 2))) (TDim 1)).
Proof. vm_compute. repeat split. Qed.

(** ** C42, trees *)
Lemma xval_rename : forall F g v w a, (forall d, occurs d a -> w (g d) = v d) ->
  forall f, (forall c, f (TCst c) = TCst c) -> (forall d, occurs d a -> f (TDim d) = TDim (g d)) -> (forall o t r x, f (TUn o t r x) = TUn o t r (f x)) ->
  (forall o t r x y, f (TBin o t r x y) = TBin o t r (f x) (f y)) -> forall r, xval F w (f a) r <-> xval F v a r.
Proof.
  intros F g v w a H f F1 F2 F3 F4. induction a as [c|d|o t q a IH|o t q a IHa b IHb]; intros r.
  - rewrite F1, !xval_cst. tauto.
  - rewrite F2 by constructor. rewrite !xval_dim, H by constructor. tauto.
  - rewrite F3, !xval_un. assert (IH' := IH ltac:(intros; apply H; constructor; auto) ltac:(intros; apply F2; constructor; auto)).
    split; intros (x & A & B); exists x; split; auto; apply IH'; auto.
  - rewrite F4, !xval_bin. assert (IHa' := IHa ltac:(intros; apply H; apply oc_l; auto) ltac:(intros; apply F2; apply oc_l; auto)).
    assert (IHb' := IHb ltac:(intros; apply H; apply oc_r; auto) ltac:(intros; apply F2; apply oc_r; auto)).
    split; intros (x & y & A & B & C); exists x, y; split; [apply IHa'; auto| |apply IHa'; auto|]; split; auto; apply IHb'; auto.
Qed.
(** [cle pos d]: number of elements of [pos] that are at most [d] *)
Theorem C42_tree_add : forall F a pos v w, StronglySorted le pos -> (forall d, occurs d a -> w (d + length (filter (fun p => Nat.leb p d) pos)) = v d) ->
  forall r, xval F w (texpr_add_dimensions a pos) r <-> xval F v a r.
Proof.
  intros F a pos v w S H r. apply xval_rename with (g := fun d => d + dim_while (length pos) pos d 0) (f := fun a => texpr_add_dimensions a pos); auto.
  intros d O. rewrite dim_while_ok; auto; try lia. apply H; auto.
Qed.
Print Assumptions C42_tree_add.
Theorem C42_tree_permute : forall F a perm v w, (forall d, occurs d a -> d < length perm) -> (forall d, occurs d a -> w (nth d perm 0) = v d) ->
  exists a', texpr_permute_dimensions a perm = Some a' /\ forall r, xval F w a' r <-> xval F v a r.
Proof.
  intros F a perm v w. induction a as [c|d|o t q a IH|o t q a IHa b IHb]; intros L H; simpl.
  - exists (TCst c). split; auto. intros. rewrite !xval_cst. tauto.
  - assert (D : d < length perm) by (apply L; constructor). rewrite (nth_error_nth' perm 0 D). eexists; split; eauto. intros. rewrite !xval_dim, H by constructor. tauto.
  - destruct IH as (a' & -> & A). intros; apply L; constructor; auto. intros; apply H; constructor; auto. eexists; split; eauto. intros. rewrite !xval_un. split; intros (x & X & Y); exists x; split; auto; apply A; auto.
  - destruct IHa as (a' & -> & A). intros; apply L; apply oc_l; auto. intros; apply H; apply oc_l; auto. destruct IHb as (b' & -> & B). intros; apply L; apply oc_r; auto. intros; apply H; apply oc_r; auto.
    eexists; split; eauto. intros. rewrite !xval_bin. split; intros (x & y & X & Y & Z); exists x, y; split; [apply A; auto| |apply A; auto|]; split; auto; apply B; auto.
Qed.
Print Assumptions C42_tree_permute.
Lemma rem_while_ok : forall pos d, StronglySorted lt pos -> rem_while (length pos) pos d 0 = clt pos d.
Proof.
  intros pos d S.
  assert (CH : forall t, t < length pos -> (nth t pos 0 < d <-> t < clt pos d)).
  { intros t T. revert t T. induction pos as [|p pos IH]; intros t T; simpl in *; [lia|]. inversion S as [|? ? S1 F]; subst. unfold clt in *. simpl. destruct (Nat.ltb_spec p d).
    - destruct t as [|t]; simpl. lia. rewrite IH by (auto; lia). lia.
    - rewrite Forall_forall in F. assert (Z : length (filter (fun p => Nat.ltb p d) pos) = 0).
      { clear - F H. induction pos as [|q pos IH]; simpl; auto. destruct (Nat.ltb_spec q d). specialize (F q (or_introl eq_refl)). lia. apply IH. intros; apply F; simpl; auto. }
      rewrite Z. destruct t as [|t]; [lia|]. assert (TL : t < length pos) by lia. specialize (F (nth t pos 0) (nth_In pos 0 TL)). lia. }
  assert (LE : clt pos d <= length pos). { unfold clt. clear. induction pos; simpl; auto. destruct (Nat.ltb a d); simpl; lia. }
  assert (G : forall fuel i, i <= clt pos d -> length pos <= i + fuel -> rem_while fuel pos d i = clt pos d).
  { induction fuel; intros i I L; simpl. lia. destruct (Nat.ltb_spec i (length pos)); simpl; [|lia]. destruct (Nat.ltb_spec (nth i pos 0) d) as [N|N]; simpl.
    - apply CH in N; auto. apply IHfuel; lia.
    - assert (~ i < clt pos d) by (rewrite <- CH by auto; lia). lia. }
  apply G; lia.
Qed.
Lemma remove_dim : forall pos d, StronglySorted lt pos -> texpr_remove_dimensions (TDim d) pos = if existsb (Nat.eqb d) pos then TCst (Intv MInf PInf) else TDim (d - clt pos d).
Proof.
  intros pos d S. simpl. rewrite rem_while_ok by auto. 
  assert (LE : clt pos d <= length pos). { unfold clt. clear. induction pos; simpl; auto. destruct (Nat.ltb a d); simpl; lia. }
  replace (Nat.ltb (clt pos d) (length pos) && Nat.eqb d (nth (clt pos d) pos 0)) with (existsb (Nat.eqb d) pos); auto.
  clear LE. induction pos as [|p pos IH]; auto. inversion S as [|? ? S1 F]; subst. rewrite Forall_forall in F. unfold clt in *. simpl. destruct (Nat.ltb_spec p d) as [L|L]; simpl.
  - rewrite IH by auto. destruct (Nat.eqb_spec d p); [lia|]. simpl. destruct (Nat.ltb_spec (length (filter (fun p0 => Nat.ltb p0 d) pos)) (length pos)), (Nat.ltb_spec (Datatypes.S (length (filter (fun p0 => Nat.ltb p0 d) pos))) (Datatypes.S (length pos))); auto; lia.
  - assert (Z : filter (fun p => Nat.ltb p d) pos = []).
    { clear - F L. induction pos as [|q pos IH]; simpl; auto. destruct (Nat.ltb_spec q d). specialize (F q (or_introl eq_refl)). lia. apply IH. intros; apply F; simpl; auto. }
    rewrite Z. simpl. replace (Nat.ltb 0 (Datatypes.S (length pos))) with true by (symmetry; apply Nat.ltb_lt; lia). simpl. destruct (Nat.eqb_spec d p); simpl; auto.
    apply Bool.not_true_is_false. intros E. apply existsb_exists in E. destruct E as (q & Q & E). apply Nat.eqb_eq in E. subst. specialize (F q Q). lia.
Qed.
(** removing dimensions: every value is kept; no other value appears if no removed dimension
    occurs *)
Theorem C42_tree_remove : forall F a pos v w, StronglySorted lt pos -> (forall d, occurs d a -> ~ In d pos -> w (d - length (filter (fun p => Nat.ltb p d) pos)) = v d) ->
  (forall r, xval F v a r -> xval F w (texpr_remove_dimensions a pos) r) /\
  ((forall d, occurs d a -> ~ In d pos) -> forall r, xval F w (texpr_remove_dimensions a pos) r -> xval F v a r) /\
  (forall i, occurs i (texpr_remove_dimensions a pos) <-> exists d, occurs d a /\ ~ In d pos /\ i = d - length (filter (fun p => Nat.ltb p d) pos)).
Proof.
  intros F a pos v w S. assert (EX : forall d, existsb (Nat.eqb d) pos = true <-> In d pos). { intros d. rewrite existsb_exists. split. intros (x & X & E). apply Nat.eqb_eq in E. subst; auto. intros I; exists d; split; auto. apply Nat.eqb_refl. }
  induction a as [c|d|o t q a IH|o t q a IHa b IHb]; intros H.
  - simpl. split; [|split]; auto; try (intros; rewrite !xval_cst in *; auto). intros i; split. intros O; inversion O. intros (d & O & _); inversion O.
  - rewrite remove_dim by auto. destruct (existsb (Nat.eqb d) pos) eqn:E.
    + apply EX in E. split; [|split]. intros; rewrite xval_cst; simpl; auto. intros N. exfalso. apply (N d); auto. constructor. intros i; split. intros O; inversion O. intros (d' & O & N & _); inversion O; subst; contradiction.
    + assert (N : ~ In d pos) by (intro X; apply EX in X; congruence). specialize (H d ltac:(constructor) N). split; [|split].
      * intros r X. apply xval_dim in X. subst. rewrite xval_dim. symmetry; auto.
      * intros _ r X. apply xval_dim in X. subst. rewrite xval_dim. auto.
      * intros i; split. intros O; inversion O; subst. exists d; split; [constructor|]. auto. intros (d' & O & _ & ->); inversion O; subst. constructor.
  - destruct IH as (A & B & C). intros; apply H; auto; constructor; auto. simpl. split; [|split].
    + intros r X. rewrite xval_un in *. destruct X as (x & X & Y). eauto.
    + intros N r X. rewrite xval_un in *. destruct X as (x & X & Y). exists x; split; auto. apply B; auto. intros; apply N; constructor; auto.
    + intros i; split. intros O; inversion O; subst. apply C in H1. destruct H1 as (d & D1 & D2). exists d; split; auto; constructor; auto. intros (d & O & D). inversion O; subst. constructor. apply C; eauto.
  - destruct IHa as (A & B & C). intros; apply H; auto; apply oc_l; auto. destruct IHb as (A' & B' & C'). intros; apply H; auto; apply oc_r; auto. simpl. split; [|split].
    + intros r X. rewrite xval_bin in *. destruct X as (x & y & X & Y & Z). eauto 8.
    + intros N r X. rewrite xval_bin in *. destruct X as (x & y & X & Y & Z). exists x, y; split; [|split]; auto. apply B; auto. intros; apply N; apply oc_l; auto. apply B'; auto. intros; apply N; apply oc_r; auto.
    + intros i; split. intros O; inversion O; subst; [apply C in H1|apply C' in H1]; destruct H1 as (d & D1 & D2); exists d; split; auto; [apply oc_l|apply oc_r]; auto.
      intros (d & O & D). inversion O; subst; [apply oc_l; apply C; eauto|apply oc_r; apply C'; eauto].
Qed.
Print Assumptions C42_tree_remove.
(** adding, then removing with the inverted specification, gives back the tree *)
Theorem C42_tree_roundtrip : forall a pos, StronglySorted le pos -> texpr_remove_dimensions (texpr_add_dimensions a pos) (dimchange_add_invert pos) = a.
Proof.
  intros a pos S. induction a as [c|d|o t q a IH|o t q a IHa b IHb]; auto.
  - cbn [texpr_add_dimensions]. rewrite dim_while_ok; auto; try lia. change (d + cle pos d) with (shift pos d). destruct (clt_invert pos d S) as [A B]. rewrite remove_dim by (apply add_invert_sorted; auto).
    rewrite A. destruct (existsb (Nat.eqb (shift pos d)) (dimchange_add_invert pos)) eqn:E.
    + exfalso. apply B. apply existsb_exists in E. destruct E as (x & X & E). apply Nat.eqb_eq in E. rewrite E. auto.
    + f_equal. unfold shift. lia.
  - simpl. rewrite IH; auto.
  - simpl. rewrite IHa, IHb; auto.
Qed.
Print Assumptions C42_tree_roundtrip.
Example C42_tree_ex : let a := TBin BMul RReal DRnd (TDim 0) (TUn USqrt RDouble DUp (TDim 2)) in
  texpr_add_dimensions a [0; 1; 1; 3] = TBin BMul RReal DRnd (TDim 1) (TUn USqrt RDouble DUp (TDim 5)) /\
  texpr_remove_dimensions a [0; 1] = TBin BMul RReal DRnd (TCst (Intv MInf PInf)) (TUn USqrt RDouble DUp (TDim 0)) /\
  texpr_permute_dimensions a [2; 0; 1] = Some (TBin BMul RReal DRnd (TDim 2) (TUn USqrt RDouble DUp (TDim 1))) /\ texpr_permute_dimensions a [1; 0] = None.
Proof. vm_compute. auto. Qed.

(** ** C47, trees: accepted iff every dimension is in range; then permutations of that size never
    read out of bounds *)
Theorem C47_texpr : forall dims l,
  check_texpr_array dims l = true <-> forall e d, In e l -> occurs d e -> d < fst dims + snd dims.
Proof.
  intros dims l. unfold check_texpr_array. rewrite forallb_forall.
  assert (G : forall e, check_texpr dims e = true <-> forall d, occurs d e -> d < fst dims + snd dims).
  { intros e. unfold check_texpr, total. rewrite negb_true_iff, Nat.ltb_ge. destruct (mdi e 0) as (_ & B & C). fold (texpr_max_dim e) in *. split.
    - intros L d O. specialize (B d O). lia.
    - intros H. destruct C as [C|(d & O & C)]; [lia|]. specialize (H d O). lia. }
  split. intros H e d I. apply G. auto. intros H e I. apply G. intros d; apply H; auto.
Qed.
Print Assumptions C47_texpr.
Example C47_texpr_ex : check_texpr_array (1, 2) [TDim 2; TUn UNeg RReal DRnd (TDim 0)] = true /\ check_texpr_array (1, 2) [TDim 2; TBin BAdd RReal DRnd (TDim 3) (TDim 0)] = false.
Proof. vm_compute. auto. Qed.

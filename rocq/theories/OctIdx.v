(** Index arithmetic of half-matrices. *)
From Coq Require Import Arith Lia List ZArith QArith Bool.
From Verif Require Import Bound OctMat.
Import ListNotations.
Open Scope nat_scope.

Lemma par_cases : forall i, exists a, i = 2 * a \/ i = 2 * a + 1.
Proof.
  intros i. exists (i / 2). pose proof (Nat.div_mod i 2 ltac:(lia)).
  pose proof (Nat.mod_upper_bound i 2 ltac:(lia)). lia.
Qed.

Lemma mod2_even : forall a, (2 * a) mod 2 = 0.
Proof. intros. rewrite Nat.mul_comm. apply Nat.mod_mul. lia. Qed.
Lemma mod2_odd : forall a, (2 * a + 1) mod 2 = 1.
Proof. intros. rewrite Nat.add_comm, Nat.mul_comm, Nat.mod_add by lia. reflexivity. Qed.
Lemma div2_even : forall a, (2 * a) / 2 = a.
Proof. intros. rewrite Nat.mul_comm. apply Nat.div_mul. lia. Qed.
Lemma div2_odd : forall a, (2 * a + 1) / 2 = a.
Proof. intros. rewrite Nat.add_comm, Nat.mul_comm, Nat.div_add by lia. reflexivity. Qed.

Lemma xor1_even : forall a, xor1 (2 * a) = 2 * a + 1.
Proof. intros. unfold xor1. rewrite mod2_even. reflexivity. Qed.
Lemma xor1_odd : forall a, xor1 (2 * a + 1) = 2 * a.
Proof. intros. unfold xor1. rewrite mod2_odd. simpl. lia. Qed.
Lemma or1_even : forall a, or1 (2 * a) = 2 * a + 1.
Proof. intros. unfold or1. rewrite mod2_even. reflexivity. Qed.
Lemma or1_odd : forall a, or1 (2 * a + 1) = 2 * a + 1.
Proof. intros. unfold or1. rewrite mod2_odd. reflexivity. Qed.

(** Replace [i] by [2a] or [2a+1] and simplify the index functions. *)
Ltac idx_simpl :=
  repeat (rewrite xor1_even in * || rewrite xor1_odd in * || rewrite or1_even in *
          || rewrite or1_odd in * || rewrite div2_even in * || rewrite div2_odd in * ).
Ltac idx_cases i :=
  let a := fresh "a" in let E := fresh "E" in
  destruct (par_cases i) as [a [E|E]]; try (subst i); try (rewrite E in * ); idx_simpl.

Lemma xor1_invol : forall i, xor1 (xor1 i) = i.
Proof. intros. idx_cases i; lia. Qed.
Lemma xor1_neq : forall i, xor1 i <> i.
Proof. intros. idx_cases i; lia. Qed.
Lemma xor1_lt : forall n i, i < 2 * n -> xor1 i < 2 * n.
Proof. intros. idx_cases i; lia. Qed.
Lemma xor1_inj : forall i j, xor1 i = xor1 j -> i = j.
Proof. intros i j H. rewrite <- (xor1_invol i), <- (xor1_invol j), H. auto. Qed.
Lemma or1_xor1 : forall i, or1 (xor1 i) = or1 i.
Proof. intros. idx_cases i; lia. Qed.
Lemma or1_ge : forall i, i <= or1 i.
Proof. intros. idx_cases i; lia. Qed.
Lemma or1_lt : forall n i, i < 2 * n -> or1 i < 2 * n.
Proof. intros. idx_cases i; lia. Qed.
Lemma xor1_le_or1 : forall i, xor1 i <= or1 i.
Proof. intros. idx_cases i; lia. Qed.
Lemma div2_xor1 : forall i, xor1 i / 2 = i / 2.
Proof. intros. idx_cases i; lia. Qed.
Lemma le_or1_flip : forall i j, j <= or1 i -> ~ i < j -> xor1 j <= or1 i.
Proof. intros. idx_cases i; idx_cases j; lia. Qed.
Lemma half_xor : forall i j, i < j -> xor1 i <= or1 (xor1 j).
Proof. intros. idx_cases i; idx_cases j; lia. Qed.
Lemma half_flip : forall i j, j <= or1 i -> xor1 j <= or1 i.
Proof. intros. idx_cases i; idx_cases j; lia. Qed.
Lemma half_flip_iff : forall i j, xor1 j <= or1 i <-> j <= or1 i.
Proof. intros. split; intro H; [rewrite <- (xor1_invol j)|]; apply half_flip; auto. Qed.
Lemma half_le : forall i j, j <= i -> j <= or1 i.
Proof. intros. pose proof (or1_ge i). lia. Qed.
Lemma half_div : forall i j, j <= or1 i <-> j / 2 <= i / 2.
Proof. intros. idx_cases i; idx_cases j; lia. Qed.

(** ** matpos *)
Lemma matpos_even : forall a j, matpos (2 * a) j = j + 2 * a * (a + 1).
Proof.
  intros. unfold matpos. replace ((2 * a + 1) * (2 * a + 1)) with (2 * (2 * a * (a + 1)) + 1) by ring.
  rewrite div2_odd. reflexivity.
Qed.
Lemma matpos_odd : forall a j, matpos (2 * a + 1) j = j + 2 * (a + 1) * (a + 1).
Proof.
  intros. unfold matpos.
  replace ((2 * a + 1 + 1) * (2 * a + 1 + 1)) with (2 * (2 * (a + 1) * (a + 1))) by ring.
  rewrite div2_even. reflexivity.
Qed.

Lemma matpos_lt : forall n i j, i < 2 * n -> j <= or1 i -> matpos i j < matsize n.
Proof.
  intros n i j Hi Hj. unfold matsize. idx_cases i.
  - rewrite matpos_even. assert (a + 1 <= n) by lia.
    assert (2 * (a+1) * (a + 1 + 1) <= 2 * n * (n + 1)) by (apply Nat.mul_le_mono; lia). nia.
  - rewrite matpos_odd. assert (a + 1 <= n) by lia.
    assert (2 * (a+1) * (a + 1 + 1) <= 2 * n * (n + 1)) by (apply Nat.mul_le_mono; lia). nia.
Qed.

(** the running pointer of row-major traversals *)
Lemma matpos_next_col : forall i j, matpos i (S j) = S (matpos i j).
Proof. reflexivity. Qed.
Lemma matpos_next_row : forall i, matpos (S i) 0 = S (matpos i (or1 i)).
Proof.
  intros. idx_cases i.
  - replace (S (2 * a)) with (2 * a + 1) by lia. rewrite matpos_odd, matpos_even. nia.
  - replace (S (2 * a + 1)) with (2 * (a + 1)) by lia. rewrite matpos_odd, matpos_even. nia.
Qed.
Lemma matpos_first : matpos 0 0 = 0.
Proof. reflexivity. Qed.
Lemma matpos_last : forall n, matpos (2 * n) 0 = matsize n.
Proof. intros. rewrite matpos_even. unfold matsize. lia. Qed.

Lemma matpos_row_mono : forall i i' , i < i' -> matpos i (or1 i) < matpos i' 0.
Proof.
  induction 1 as [|i' H IH].
  - rewrite matpos_next_row. lia.
  - rewrite matpos_next_row. assert (matpos i' 0 <= matpos i' (or1 i')) by (unfold matpos; lia). lia.
Qed.

Lemma matpos_inj : forall i j i' j', j <= or1 i -> j' <= or1 i' ->
  matpos i j = matpos i' j' -> i = i' /\ j = j'.
Proof.
  intros i j i' j' H H' E.
  assert (i = i').
  { destruct (Nat.lt_trichotomy i i') as [L|[L|L]]; auto; exfalso.
    - pose proof (matpos_row_mono _ _ L). unfold matpos in *. lia.
    - pose proof (matpos_row_mono _ _ L). unfold matpos in *. lia. }
  subst. split; auto. unfold matpos in E. lia.
Qed.

(** every cell is the position of some half index *)
Lemma matpos_surj : forall n p, p < matsize n -> exists i j, i < 2 * n /\ j <= or1 i /\ matpos i j = p.
Proof.
  intros n p H. rewrite <- matpos_last in H.
  assert (G : forall m, p < matpos m 0 -> exists i j, i < m /\ j <= or1 i /\ matpos i j = p).
  { induction m; intros Hm.
    - unfold matpos in Hm. simpl in Hm. lia.
    - destruct (le_lt_dec (matpos m 0) p) as [L|L].
      + exists m, (p - matpos m 0). rewrite matpos_next_row in Hm. unfold matpos in *.
        repeat split; lia.
      + destruct (IHm L) as [i [j [? [? ?]]]]. exists i, j. repeat split; auto. }
  destruct (G _ H) as [i [j ?]]. exists i, j. auto.
Qed.

(** ** matpos2 *)
Lemma matpos2_half : forall i j, j <= or1 i -> matpos2 i j = matpos i j.
Proof.
  intros i j H. unfold matpos2. destruct (Nat.ltb_spec i j); auto.
  f_equal; idx_cases i; idx_cases j; lia.
Qed.
(** Coherence.  The diagonal is an exception: (i,i) and (i^1,i^1) are both
    stored. *)
Lemma matpos2_coh : forall i j, i <> j -> matpos2 (xor1 j) (xor1 i) = matpos2 i j.
Proof.
  intros i j D. unfold matpos2. rewrite !xor1_invol.
  destruct (Nat.ltb_spec (xor1 j) (xor1 i)), (Nat.ltb_spec i j); auto;
    f_equal; idx_cases i; idx_cases j; lia.
Qed.
Lemma matpos2_flip : forall i j, i <> j -> j <= or1 i -> matpos2 (xor1 j) (xor1 i) = matpos i j.
Proof. intros. rewrite matpos2_coh; auto. apply matpos2_half; auto. Qed.
Lemma matpos2_diag : forall i, matpos2 i i = matpos i i.
Proof. intros. apply matpos2_half. apply or1_ge. Qed.
Lemma matpos2_cases : forall i j,
  (j <= or1 i /\ matpos2 i j = matpos i j) \/
  (xor1 i <= or1 (xor1 j) /\ matpos2 i j = matpos (xor1 j) (xor1 i)).
Proof.
  intros i j. destruct (Nat.ltb_spec i j) as [H|H].
  - right. split; [apply half_xor; auto|]. unfold matpos2. apply Nat.ltb_lt in H. rewrite H. auto.
  - left. split; [apply half_le; auto|]. apply matpos2_half. apply half_le; auto.
Qed.
Lemma matpos2_lt : forall n i j, i < 2 * n -> j < 2 * n -> matpos2 i j < matsize n.
Proof.
  intros n i j Hi Hj. destruct (matpos2_cases i j) as [[H E]|[H E]]; rewrite E;
    apply matpos_lt; auto using xor1_lt.
Qed.
(** a full index aliases a half cell only as itself or its coherent twin *)
Lemma matpos2_inv : forall i j i' j', j' <= or1 i' -> matpos2 i j = matpos i' j' ->
  (i = i' /\ j = j') \/ (i = xor1 j' /\ j = xor1 i').
Proof.
  intros i j i' j' H E. destruct (matpos2_cases i j) as [[H1 E1]|[H1 E1]]; rewrite E1 in E.
  - left. apply matpos_inj; auto.
  - right. apply matpos_inj in E; auto. destruct E as [E2 E3].
    rewrite <- E2, <- E3, !xor1_invol. auto.
Qed.
Lemma matpos2_inj : forall i j i' j', matpos2 i j = matpos2 i' j' ->
  (i = i' /\ j = j') \/ (i = xor1 j' /\ j = xor1 i').
Proof.
  intros i j i' j' E. destruct (matpos2_cases i' j') as [[H E1]|[H E1]]; rewrite E1 in E.
  - apply matpos2_inv; auto.
  - apply matpos2_inv in E; auto. rewrite !xor1_invol in E. tauto.
Qed.

(** ** Loops *)
Lemma for_ind : forall {A} (I : nat -> A -> Prop) lo hi f (a : A),
  lo <= hi -> I lo a ->
  (forall i x, lo <= i < hi -> I i x -> I (S i) (f i x)) ->
  I hi (for_ lo hi f a).
Proof.
  intros A I lo hi f a L H0 HS. unfold for_.
  remember (hi - lo) as n eqn:En.
  revert lo a L H0 HS En. induction n; intros.
  - simpl. assert (lo = hi) by lia. subst. auto.
  - simpl. apply IHn; try lia.
    + apply HS; auto. lia.
    + intros; apply HS; auto. lia.
Qed.

Lemma for_inv : forall {A} (I : A -> Prop) lo hi f (a : A),
  I a -> (forall i x, lo <= i < hi -> I x -> I (f i x)) -> I (for_ lo hi f a).
Proof.
  intros A I lo hi f a H HS. destruct (le_lt_dec lo hi) as [L|L].
  - apply (for_ind (fun _ => I)); auto.
  - unfold for_. replace (hi - lo) with 0 by lia. auto.
Qed.

Lemma for_empty : forall {A} lo hi f (a : A), hi <= lo -> for_ lo hi f a = a.
Proof. intros. unfold for_. replace (hi - lo) with 0 by lia. reflexivity. Qed.

Lemma for_split : forall {A} lo mid hi f (a : A), lo <= mid <= hi ->
  for_ lo hi f a = for_ mid hi f (for_ lo mid f a).
Proof.
  intros. unfold for_. rewrite <- fold_left_app. f_equal.
  replace (hi - lo) with ((mid - lo) + (hi - mid)) by lia.
  rewrite seq_app. repeat f_equal. lia.
Qed.

Lemma for_step : forall {A} lo hi f (a : A), lo < hi ->
  for_ lo hi f a = for_ (S lo) hi f (f lo a).
Proof.
  intros. rewrite (for_split lo (S lo) hi) by lia.
  f_equal. unfold for_. replace (S lo - lo) with 1 by lia. reflexivity.
Qed.

(** ** Updates *)
Lemma upd_same : forall m p b, upd m p b p = b.
Proof. intros. unfold upd. rewrite Nat.eqb_refl. auto. Qed.
Lemma upd_other : forall m p b q, q <> p -> upd m p b q = m q.
Proof. intros. unfold upd. apply Nat.eqb_neq in H. rewrite H. auto. Qed.

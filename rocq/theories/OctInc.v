(** Exactness of the incremental closure. *)
From Coq Require Import Arith Lia List ZArith QArith Qreals Reals Lra Bool.
From Verif Require Import Bound BoundFacts OctMat OctIdx OctClose OctWalk.
Import ListNotations.
Open Scope nat_scope.

Section Inc.
Variable n v : nat.
Hypothesis Hv : v < n.
Local Notation E := exact_num.

(** signed variable of [v] *)
Definition isv (x : nat) : Prop := x = 2 * v \/ x = 2 * v + 1.
Lemma isv_dec : forall x, {isv x} + {~ isv x}.
Proof.
  intros x. unfold isv. destruct (Nat.eq_dec x (2*v)); [left; auto|].
  destruct (Nat.eq_dec x (2*v+1)); [left; auto|right; intuition].
Qed.
Lemma isv_xor1 : forall x, isv x -> isv (xor1 x).
Proof. unfold isv. intros x [->| ->]; [rewrite xor1_even|rewrite xor1_odd]; auto. Qed.

Definition inc_line (k i : nat) (m : hmat) := inc_col (N:=E) n k i (fw_line (N:=E) k i m).
Definition inc_pass (k : nat) (m : hmat) := for_ (2 * v) (2 * v + 2) (inc_line k) m.

Lemma inc_line_mle : forall k i m, mle (inc_line k i m) m.
Proof. intros. eapply mle_trans; [apply inc_col_mle|apply fw_line_mle]. Qed.
Lemma inc_pass_mle : forall k m, mle (inc_pass k m) m.
Proof. intros. apply for_mle. intros; apply inc_line_mle. Qed.

Lemma inc_pass_line : forall k i m, isv i -> exists m', mle m' m /\ mle (inc_pass k m) (inc_line k i m').
Proof.
  intros k i m Hi. apply for_at; [intros; apply inc_line_mle|]. destruct Hi; lia.
Qed.

Lemma inc_pass_target : forall k i j m r1 r2, k < 2 * n -> i < 2 * n -> j < 2 * n -> nndiag n m ->
  isv i \/ isv j ->
  ge_rb r1 (m (matpos2 i k)) -> ge_rb r2 (m (matpos2 k j)) ->
  ge_rb (r1 + r2) (inc_pass k m (matpos2 i j)).
Proof.
  intros k i j m r1 r2 Hk Hi Hj D V G1 G2.
  destruct (Nat.eq_dec i k) as [->|Dik].
  { pose proof (nndiag_ge n m k r1 D Hk G1).
    eapply ge_rb_bb; [apply inc_pass_mle|]. apply ge_rb_le with r2; auto. lra. }
  destruct (Nat.eq_dec j k) as [->|Djk].
  { pose proof (nndiag_ge n m k r2 D Hk G2).
    eapply ge_rb_bb; [apply inc_pass_mle|]. apply ge_rb_le with r1; auto. lra. }
  assert (Hi' := xor1_lt _ _ Hi). assert (Hj' := xor1_lt _ _ Hj).
  destruct (matpos2_cases i j) as [[H Eq]|[H Eq]]; rewrite Eq.
  - destruct (isv_dec i) as [Vi|Vi].
    + destruct (inc_pass_line k i m Vi) as [m' [L1 L2]].
      eapply ge_rb_bb; [apply L2|]. unfold inc_line.
      eapply ge_rb_bb; [apply inc_col_mle|].
      apply fw_line_target with n; auto; eapply ge_rb_bb; try apply L1; auto.
    + destruct V as [V|Vj]; [contradiction|].
      destruct (inc_pass_line k j m Vj) as [m' [L1 L2]].
      eapply ge_rb_bb; [apply L2|]. unfold inc_line.
      assert (j <= i).
      { clear - H Vi Vj. unfold isv in *. idx_cases i; lia. }
      apply inc_col_target; auto; eapply ge_rb_bb; try apply fw_line_mle; eapply ge_rb_bb; try apply L1; auto.
  - destruct (isv_dec j) as [Vj|Vj].
    + apply isv_xor1 in Vj.
      destruct (inc_pass_line k (xor1 j) m Vj) as [m' [L1 L2]].
      eapply ge_rb_bb; [apply L2|]. unfold inc_line.
      eapply ge_rb_bb; [apply inc_col_mle|]. rewrite Rplus_comm.
      apply fw_line_target2 with n; auto.
      * intro C. apply xor1_inj in C. auto.
      * eapply ge_rb_bb; [apply L1|]. rewrite matpos2_coh; auto.
      * eapply ge_rb_bb; [apply L1|]. rewrite matpos2_coh; auto.
    + destruct V as [Vi|V]; [|contradiction].
      assert (Vi' := isv_xor1 _ Vi).
      destruct (inc_pass_line k (xor1 i) m Vi') as [m' [L1 L2]].
      eapply ge_rb_bb; [apply L2|]. unfold inc_line. rewrite Rplus_comm.
      assert (xor1 i <= xor1 j).
      { clear - H Vi Vj. unfold isv in *. destruct Vi as [->| ->]; idx_cases j; lia. }
      apply inc_col_target2; auto.
      * intro C. apply xor1_inj in C. auto.
      * eapply ge_rb_bb; [apply fw_line_mle|]. eapply ge_rb_bb; [apply L1|]. rewrite matpos2_coh; auto.
      * eapply ge_rb_bb; [apply fw_line_mle|]. eapply ge_rb_bb; [apply L1|]. rewrite matpos2_coh; auto.
Qed.

(** [m] satisfies the triangle inequality away from [v] *)
Definition tri_except (m : hmat) : Prop :=
  forall i k j r1 r2, i < 2 * n -> k < 2 * n -> j < 2 * n -> ~ isv i -> ~ isv k -> ~ isv j ->
    ge_rb r1 (m (matpos2 i k)) -> ge_rb r2 (m (matpos2 k j)) ->
    ge_rb (r1 + r2) (m (matpos2 i j)).

Lemma walk_except : forall m (K : nat -> Prop) i j w, tri_except m -> (forall x, K x -> ~ isv x) ->
  walk n m K i j w -> ~ isv i -> ~ isv j -> ge_rb w (m (matpos2 i j)).
Proof.
  intros m K i j w T HK W. induction W as [i j r Hi Hj Dij G|i k j r r' Hi Hk Dij G W IH]; intros Ni Nj; auto.
  apply walk_lt in W. apply T with k; try tauto; auto.
Qed.

Definition K1 (k x : nat) : Prop := x < k /\ ~ isv x.

Lemma inc1_inv : forall m, tri_except m -> 
  forall k, k <= 2 * n -> nndiag n (for_ 0 k inc_pass m) ->
  inv n m (K1 k) (for_ 0 k inc_pass m).
Proof.
  intros m T. induction k; intros Hk D.
  - rewrite for_empty by lia. intros i j w W.
    destruct W as [i j r Hi Hj Dij G|i k j r r' Hi F]; [auto|unfold K1 in F; lia].
  - rewrite (for_split 0 k (S k)) in * by lia. rewrite for_step in * by lia. rewrite for_empty in * by lia.
    assert (Dk : nndiag n (for_ 0 k inc_pass m)).
    { eapply nndiag_mle; [|exact D]. apply inc_pass_mle. }
    specialize (IHk ltac:(lia) Dk). 
    assert (ML : mle (for_ 0 k inc_pass m) m) by (apply for_mle; intros; apply inc_pass_mle).
    set (mk := for_ 0 k inc_pass m) in *.
    assert (ML2 : mle (inc_pass k mk) mk) by apply inc_pass_mle.
    intros i j w W. destruct (isv_dec k) as [Vk|Vk].
    + eapply ge_rb_bb; [apply ML2|]. apply IHk. eapply walk_mono; [|exact W].
      unfold K1. intros x Lx [H1 H2]. split; auto. destruct (Nat.eq_dec x k); [subst; tauto|lia].
    + assert (S : inv n m (fun x => K1 k x \/ x = k) (inc_pass k mk)).
      { apply inv_step with (m := mk); auto.
        intros i' j' r1 r2 Hi Hj W1 W2.
        destruct (isv_dec i') as [Vi|Vi]; [|destruct (isv_dec j') as [Vj|Vj]].
        - apply inc_pass_target; auto.
        - apply inc_pass_target; auto.
        - eapply ge_rb_bb; [apply ML2|]. eapply ge_rb_bb; [apply ML|].
          apply walk_except with (K := K1 (S k)); auto.
          + unfold K1; tauto.
          + apply walk_app with k; [unfold K1; split; auto| |].
            * eapply walk_mono; [|exact W1]. unfold K1. intros; split; [lia|tauto].
            * eapply walk_mono; [|exact W2]. unfold K1. intros; split; [lia|tauto]. }
      apply S. eapply walk_mono; [|exact W]. unfold K1. intros x Lx [H1 H2].
      destruct (Nat.eq_dec x k); [right; auto|left; split; [lia|auto]].
Qed.

Lemma inc_tri : forall m, wfm n m -> tri_except m ->
  nndiag n (hmat_inc2 (N:=E) (hmat_inc1 (N:=E) m n v) n v) ->
  tri n (hmat_inc2 (N:=E) (hmat_inc1 (N:=E) m n v) n v).
Proof.
  intros m W T D. apply inv_realised_tri with m; auto.
  - change (hmat_inc1 (N:=E) m n v) with (for_ 0 (2 * n) inc_pass m) in *.
    unfold hmat_inc2 in *.
    rewrite for_step in * by lia. rewrite for_step in * by lia. rewrite for_empty in * by lia.
    set (m1 := for_ 0 (2 * n) inc_pass m) in *.
    set (m2 := fw_pass (N:=E) n (2 * v) m1) in *.
    set (m3 := fw_pass (N:=E) n (S (2 * v)) m2) in *.
    assert (D2 : nndiag n m2) by (eapply nndiag_mle; [|exact D]; apply fw_pass_mle).
    assert (D1 : nndiag n m1) by (eapply nndiag_mle; [|exact D2]; apply fw_pass_mle).
    pose proof (inc1_inv m T (2 * n) (le_n _) D1) as I1.
    assert (I2 : inv n m (fun x => K1 (2 * n) x \/ x = 2 * v) m2).
    { apply inv_step with (m := m1); auto; [lia|apply fw_pass_mle|].
      intros. apply fw_pass_target; auto; lia. }
    assert (I3 : inv n m (fun x => (K1 (2 * n) x \/ x = 2 * v) \/ x = S (2 * v)) m3).
    { apply inv_step with (m := m2); auto; [lia|apply fw_pass_mle|].
      intros. apply fw_pass_target; auto; lia. }
    intros i j w Wk. apply I3. eapply walk_mono; [|exact Wk].
    intros x Lx _. unfold K1, isv. 
    destruct (Nat.eq_dec x (2 * v)); [left; right; auto|].
    destruct (Nat.eq_dec x (S (2 * v))); [right; auto|]. left; left. split; auto. lia.
  - apply hmat_inc_ok; auto; [apply pathlike_realised|]. apply realised_start; auto.
    eapply nndiag_mle; [|exact D]. eapply mle_trans; [apply hmat_inc2_mle|apply hmat_inc1_mle].
Qed.

End Inc.

(** hmat_assign: soundness, exactness, closure. *)
From Coq Require Import Arith Lia List ZArith QArith Qreals Reals Lra Bool.
From Verif Require Import Bound BoundFacts Linexpr LinexprFacts OctMat OctIdx OctClose OctWalk OctInc OctStrong OctGeom OctGeom2 Oct OctFacts OctFacts2 OctFacts3 OctForget OctTransfer OctUexpr OctGuard OctGuard2 OctGuard3 OctAssign.
Import ListNotations.
Open Scope nat_scope.
#[local] Arguments Nat.div : simpl never.
#[local] Arguments Nat.modulo : simpl never.
#[local] Arguments Nat.mul : simpl never.
#[local] Arguments Nat.leb : simpl never.
#[local] Arguments Nat.ltb : simpl never.
#[local] Arguments xor1 : simpl never.
#[local] Arguments or1 : simpl never.
#[local] Arguments matpos : simpl never.
#[local] Arguments matpos2 : simpl never.
Local Notation E := exact_num.

Ltac npos := let Z0 := fresh in intros Z0; apply matpos_inj in Z0; rewrite ?or1_even, ?or1_odd in *; lia.
Ltac udiff := repeat first [rewrite upd_same | rewrite upd_other by (unfold row1, row2, col1, col2 in *; auto; npos)].

Section Cells.
Context {N : numtype}.
Variables (n d : nat) (tmp m : hmat).
Hypothesis Hd : d < n.

Lemma row_le : forall k, k < 2 * d -> k <= or1 (2 * d) /\ k <= or1 (2 * d + 1).
Proof. intros. rewrite or1_even, or1_odd. lia. Qed.
Lemma col_le : forall k, 2 * d + 2 <= k -> 2 * d <= or1 k /\ 2 * d + 1 <= or1 k.
Proof. intros k H. pose proof (or1_ge k). lia. Qed.
Lemma un_le : 2 * d + 1 <= or1 (2 * d) /\ 2 * d <= or1 (2 * d + 1).
Proof. rewrite or1_even, or1_odd. lia. Qed.

(** a cell that is neither in row nor in column of [d] *)
Lemma not_row : forall i j k, j <= or1 i -> k < 2 * d -> (i / 2 <> d \/ 2 * d <= j) -> matpos i j <> row1 d k /\ matpos i j <> row2 d k.
Proof.
  intros i j k Hj Hk O. destruct (row_le k Hk). unfold row1, row2. split; intros Z0; apply matpos_inj in Z0; auto; destruct Z0 as [-> ->];
  rewrite ?div2_even, ?div2_odd in O; destruct O; lia || tauto.
Qed.
Lemma not_col : forall i j k, j <= or1 i -> 2 * d + 2 <= k -> (j / 2 <> d \/ i < 2 * d + 2 \/ i <> k) -> matpos i j <> col1 d k /\ matpos i j <> col2 d k.
Proof.
  intros i j k Hj Hk O. destruct (col_le k Hk). unfold col1, col2. split; intros Z0; apply matpos_inj in Z0; auto; destruct Z0 as [-> ->];
  rewrite ?div2_even, ?div2_odd in O; destruct O as [O|O]; lia || tauto.
Qed.
Lemma zero_cells : acells n d m (assign_zero (N:=N) tmp m n d true)
  (fun j => badd (N:=N) (bdiv_2 (N:=N) (m (matpos (xor1 j) j))) (tmp 0))
  (fun j => badd (N:=N) (bdiv_2 (N:=N) (m (matpos j (xor1 j)))) (tmp 1))
  (bmul_2 (N:=N) (tmp 0)) (bmul_2 (N:=N) (tmp 1)).
Proof.
  unfold assign_zero. apply dloops; [exact Hd| | | | |].
  - intros k m1 r Hk N1 N2. unfold row1, row2 in *. rewrite !upd_other; auto.
  - intros k m1 Hk Hm. destruct (row_le k Hk) as [L1 L2]. destruct (xor1_off k d (or_introl Hk)) as [X _]. specialize (X Hk).
    assert (R : m1 (matpos (xor1 k) k) = m (matpos (xor1 k) k)).
    { apply Hm. intros k' Hk'. apply not_row; [rewrite or1_xor1; apply or1_ge|lia|]. left. apply off_var. lia. }
    rewrite R. unfold row1, row2. rewrite xor1_invol. rewrite upd_same, upd_other, upd_same by npos. auto.
  - intros k m1 r Hk N1 N2. unfold col1, col2 in *. rewrite !upd_other; auto.
  - intros k m1 Hk Hm. destruct (col_le k ltac:(lia)) as [L1 L2]. destruct (xor1_off k d (or_intror (proj1 Hk))) as [_ X]. specialize (X (proj1 Hk)).
    assert (R : m1 (matpos k (xor1 k)) = m (matpos k (xor1 k))).
    { apply Hm; intros k' Hk'; [apply not_row|apply not_col]; try apply xor1_le_or1; try lia; left; apply off_var; lia. }
    rewrite R. unfold col1, col2. rewrite xor1_invol. rewrite upd_same, upd_other, upd_same by npos. auto.
  - intros _ _ _. left. auto.
Qed.
Lemma shift_cells : acells n d m (assign_shift (N:=N) tmp m n d)
  (fun j => badd (N:=N) (m (matpos2 (2 * d) j)) (tmp 0))
  (fun j => badd (N:=N) (m (matpos2 j (2 * d))) (tmp 1))
  (badd (N:=N) (m (matpos (2 * d) (2 * d + 1))) (bmul_2 (N:=N) (tmp 0)))
  (badd (N:=N) (m (matpos (2 * d + 1) (2 * d))) (bmul_2 (N:=N) (tmp 1))).
Proof.
  unfold assign_shift. cbv zeta beta. destruct un_le as [UL1 UL2]. apply dloops; [exact Hd| | | | |].
  - intros k m1 r Hk N1 N2. unfold row1, row2 in *. rewrite !upd_other; auto.
  - intros k m1 Hk Hm. destruct (row_le k Hk) as [L1 L2]. unfold row1, row2 in *.
    rewrite <- (matpos2_coh (xor1 k)) by (pose proof (xor1_off k d); lia). rewrite xor1_even, xor1_invol.
    rewrite !matpos2_half by auto. rewrite upd_same.
    rewrite (upd_other (upd m1 (matpos (2 * d) k) _)), upd_same by npos. rewrite (upd_other m1) by npos.
    rewrite !Hm; auto; intros k' Hk'; destruct (row_le k' ltac:(lia)); split; npos.
  - intros k m1 r Hk N1 N2. unfold col1, col2 in *. rewrite !upd_other; auto.
  - intros k m1 Hk Hm. destruct (col_le k ltac:(lia)) as [L1 L2]. unfold col1, col2 in *.
    rewrite <- (matpos2_coh (2 * d)) by (pose proof (xor1_off k d); lia). rewrite xor1_even, xor1_invol.
    rewrite !matpos2_half by auto. rewrite upd_same.
    rewrite (upd_other (upd m1 (matpos k (2 * d)) _)), upd_same by npos. rewrite (upd_other m1) by npos.
    rewrite !Hm; auto; intros k' Hk'; try destruct (row_le k' Hk'); try destruct (col_le k' ltac:(lia)); unfold row1, row2; split; npos.
  - intros mm U1 U2 U3. right. split; [reflexivity|]. split; [reflexivity|]. split; (f_equal; [|reflexivity] || f_equal); [etransitivity; [apply upd_other; auto|exact U1]|exact U2].
Qed.
Lemma opp_cells : acells n d m (assign_opp (N:=N) tmp m n d)
  (fun j => badd (N:=N) (m (matpos2 (2 * d + 1) j)) (tmp 0))
  (fun j => badd (N:=N) (m (matpos2 j (2 * d + 1))) (tmp 1))
  (badd (N:=N) (m (matpos (2 * d + 1) (2 * d))) (bmul_2 (N:=N) (tmp 0)))
  (badd (N:=N) (m (matpos (2 * d) (2 * d + 1))) (bmul_2 (N:=N) (tmp 1))).
Proof.
  unfold assign_opp. cbv zeta beta. destruct un_le as [UL1 UL2]. apply dloops; [exact Hd| | | | |].
  - intros k m1 r Hk N1 N2. unfold row1, row2 in *. rewrite !upd_other; auto.
  - intros k m1 Hk Hm. destruct (row_le k Hk) as [L1 L2]. unfold row1, row2 in *.
    rewrite <- (matpos2_coh (xor1 k)) by (pose proof (xor1_off k d); lia). rewrite xor1_odd, xor1_invol.
    rewrite !matpos2_half by auto. rewrite upd_same.
    rewrite (upd_other (upd m1 (matpos (2 * d) k) _)), upd_same by npos.
    rewrite !Hm; auto; intros k' Hk'; destruct (row_le k' ltac:(lia)); split; npos.
  - intros k m1 r Hk N1 N2. unfold col1, col2 in *. rewrite !upd_other; auto.
  - intros k m1 Hk Hm. destruct (col_le k ltac:(lia)) as [L1 L2]. unfold col1, col2 in *.
    rewrite <- (matpos2_coh (2 * d + 1)) by (pose proof (xor1_off k d); lia). rewrite xor1_odd, xor1_invol.
    rewrite !matpos2_half by auto. rewrite upd_same.
    rewrite (upd_other (upd m1 (matpos k (2 * d)) _)), upd_same by npos.
    rewrite !Hm; auto; intros k' Hk'; try destruct (row_le k' Hk'); try destruct (col_le k' ltac:(lia)); unfold row1, row2; split; npos.
  - intros mm U1 U2 U3. right. split; [reflexivity|]. split; [reflexivity|]. split; f_equal; [exact U2|exact U1].
Qed.
End Cells.

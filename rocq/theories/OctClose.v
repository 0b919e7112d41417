(** Facts on the closure algorithms of octagons. *)
From Coq Require Import Arith Lia List ZArith QArith Qreals Reals Lra Bool.
From Verif Require Import Bound BoundFacts OctMat OctIdx.
Import ListNotations.
Open Scope nat_scope.

(** ** Bounds against reals from above *)
Lemma ge_rb_bb : forall r a b, le_bb a b -> ge_rb r b -> ge_rb r a.
Proof.
  intros r [|p|] [|q|] H G; simpl in *; auto; try tauto. apply Qle_Q2R in H. lra.
Qed.
Lemma bmin_ge : forall r a b, ge_rb r (bmin a b) <-> ge_rb r a \/ ge_rb r b.
Proof.
  intros r [|p|] [|q|]; simpl; try tauto.
  destruct (Qle_bool p q) eqn:E; [apply Qle_bool_R in E|apply Qle_bool_R_false in E]; simpl;
    intuition lra.
Qed.
Lemma bmax_ge : forall r a b, ge_rb r (bmax a b) <-> ge_rb r a /\ ge_rb r b.
Proof.
  intros r [|p|] [|q|]; simpl; try tauto.
  destruct (Qle_bool p q) eqn:E; [apply Qle_bool_R in E|apply Qle_bool_R_false in E]; simpl;
    intuition lra.
Qed.
Lemma badd_ge : forall r1 r2 a b, ge_rb r1 a -> ge_rb r2 b ->
  ge_rb (r1 + r2) (badd (N:=exact_num) a b).
Proof. intros r1 r2 [|p|] [|q|] H1 H2; simpl in *; try tauto. rewrite Q2R_plus. lra. Qed.
Lemma bdiv2_ge : forall r a, ge_rb r a -> ge_rb (r / 2) (bdiv_2 (N:=exact_num) a).
Proof. intros r [|p|] H; simpl in *; try tauto. rewrite Q2R_half. lra. Qed.
Lemma bdiv2_ge_inv : forall r a, ge_rb r (bdiv_2 (N:=exact_num) a) -> ge_rb (2 * r) a.
Proof. intros r [|p|] H; simpl in *; try tauto. rewrite Q2R_half in H. lra. Qed.
Lemma bmul2_ge : forall r a, ge_rb (2 * r) (bmul_2 (N:=exact_num) a) <-> ge_rb r a.
Proof. intros r [|p|]; simpl in *; try tauto. rewrite Q2R_two. intuition lra. Qed.
Lemma le_ge_rb : forall x r b, le_rb x b -> ge_rb r b -> (x <= r)%R.
Proof. intros x r [|p|] H1 H2; simpl in *; try tauto. lra. Qed.
Lemma le_rb_ge : forall x b, b <> MInf -> (forall r, ge_rb r b -> (x <= r)%R) -> le_rb x b.
Proof. intros x [|p|] W H; simpl; auto. apply H; simpl; lra. Qed.
Lemma le_bb_ge : forall a b, le_bb a b <-> (forall r, ge_rb r b -> ge_rb r a).
Proof.
  intros a b; split; [intros; eapply ge_rb_bb; eauto|].
  intros H. destruct a as [|p|], b as [|q|]; simpl in *; auto.
  - specialize (H (Q2R p - 1)%R I). lra.
  - apply Qle_Q2R. apply H. lra.
  - apply (H 0%R I).
  - apply (H (Q2R q)). lra.
Qed.
Lemma bsgn_ge0_ge : forall b, (0 <= bsgn b)%Z <-> (forall r, ge_rb r b -> (0 <= r)%R).
Proof.
  intros [|q|]; simpl.
  - split; [lia|]. intros H. specialize (H (-1)%R I). lra.
  - rewrite sgn_Q_ge. split; [intros; lra|]. intros H. apply H; lra.
  - split; [tauto|lia].
Qed.

(** ** Points *)

(** Value of the signed variable number [i]: x_{i/2} or -x_{i/2}. *)
Definition lit (v : nat -> R) (i : nat) : R :=
  if Nat.eqb (i mod 2) 0 then v (i / 2) else (- v (i / 2)%nat)%R.

Lemma lit_even : forall v a, lit v (2 * a) = v a.
Proof. intros. unfold lit. rewrite mod2_even, div2_even. auto. Qed.
Lemma lit_odd : forall v a, lit v (2 * a + 1) = (- v a)%R.
Proof. intros. unfold lit. rewrite mod2_odd, div2_odd. auto. Qed.
Lemma lit_xor1 : forall v i, lit v (xor1 i) = (- lit v i)%R.
Proof. intros. idx_cases i; rewrite ?lit_even, ?lit_odd; lra. Qed.

(** The points of a half-matrix. *)
Definition gam (n : nat) (m : hmat) (v : nat -> R) : Prop :=
  forall i j, i < 2 * n -> j <= or1 i -> le_rb (lit v j - lit v i) (m (matpos i j)).

(** ** Pointwise order *)
Definition mle (m1 m2 : hmat) : Prop := forall p, le_bb (m1 p) (m2 p).
Lemma mle_refl : forall m, mle m m.
Proof. intros m p. apply le_bb_refl. Qed.
Lemma mle_trans : forall a b c, mle a b -> mle b c -> mle a c.
Proof. intros a b c H1 H2 p. eapply le_bb_trans; eauto. Qed.
Lemma mmin_mle : forall m p b, mle (mmin m p b) m.
Proof.
  intros m p b q. unfold mmin. destruct (Nat.eq_dec q p) as [->|D].
  - rewrite upd_same. apply bmin_le_l.
  - rewrite upd_other by auto. apply le_bb_refl.
Qed.
Lemma mmin_at : forall m p b, le_bb (mmin m p b p) b.
Proof. intros. unfold mmin. rewrite upd_same. apply bmin_le_r. Qed.
Lemma for_mle : forall lo hi f m, (forall i m, lo <= i < hi -> mle (f i m) m) -> mle (for_ lo hi f m) m.
Proof.
  intros lo hi f m H. apply (for_inv (fun x => mle x m)); [apply mle_refl|].
  intros i x Hi Hx. eapply mle_trans; eauto.
Qed.
(** iteration [i] of a decreasing loop *)
Lemma for_at : forall lo hi f m i, (forall i m, lo <= i < hi -> mle (f i m) m) -> lo <= i < hi ->
  exists m', mle m' m /\ mle (for_ lo hi f m) (f i m').
Proof.
  intros lo hi f m i H Hi. exists (for_ lo i f m). split.
  - apply for_mle. intros; apply H; lia.
  - rewrite (for_split lo i hi) by lia. rewrite for_step by lia.
    apply for_mle. intros; apply H; lia.
Qed.

(** ** Predicates preserved by path composition *)
Record pathlike {N : numtype} (n : nat) (P : nat -> nat -> bound -> Prop) : Prop := {
  pl_coh : forall i j b, i < 2 * n -> j < 2 * n -> P i j b -> P (xor1 j) (xor1 i) b;
  pl_min : forall i j a b, P i j a -> P i j b -> P i j (bmin a b);
  pl_add : forall i k j a b, i < 2 * n -> k < 2 * n -> j < 2 * n ->
     P i k a -> P k j b -> P i j (badd (N:=N) a b)
}.

Definition okm (P : nat -> nat -> bound -> Prop) (n : nat) (m : hmat) : Prop :=
  forall i j, i < 2 * n -> j < 2 * n -> P i j (m (matpos2 i j)).

Section Path.
Context {N : numtype}.
Variable n : nat.
Variable P : nat -> nat -> bound -> Prop.
Hypothesis PL : pathlike (N:=N) n P.

Lemma half_lt : forall i j, i < 2 * n -> j <= or1 i -> j < 2 * n.
Proof. intros i j H1 H2. pose proof (or1_lt n i H1). lia. Qed.

Lemma okm_half : forall m i j, okm P n m -> i < 2 * n -> j <= or1 i -> P i j (m (matpos i j)).
Proof.
  intros m i j H Hi Hj. rewrite <- matpos2_half by auto. apply H; auto. apply half_lt with i; auto.
Qed.
Lemma okm_flip : forall m i j, okm P n m -> i < 2 * n -> j <= or1 i ->
  P (xor1 j) (xor1 i) (m (matpos i j)).
Proof.
  intros. apply (pl_coh n P PL); auto. apply half_lt with i; auto. apply okm_half; auto.
Qed.
Lemma okm_upd : forall m i j b, okm P n m -> i < 2 * n -> j <= or1 i -> P i j b ->
  okm P n (upd m (matpos i j) b).
Proof.
  intros m i j b H Hi Hj HP i' j' Hi' Hj'.
  destruct (Nat.eq_dec (matpos2 i' j') (matpos i j)) as [E|D].
  - rewrite E, upd_same. apply matpos2_inv in E; auto.
    destruct E as [[-> ->]|[-> ->]]; auto.
    apply (pl_coh n P PL); auto. apply half_lt with i; auto.
  - rewrite upd_other by auto. auto.
Qed.
Lemma okm_mmin : forall m i j b, okm P n m -> i < 2 * n -> j <= or1 i -> P i j b ->
  okm P n (mmin m (matpos i j) b).
Proof.
  intros. apply okm_upd; auto. apply (pl_min n P PL); auto. apply okm_half; auto.
Qed.

Lemma fw_line_ok : forall k i m, k < 2 * n -> i < 2 * n -> okm P n m ->
  okm P n (fw_line (N:=N) k i m).
Proof.
  intros k i m Hk Hi H. unfold fw_line.
  pose proof (H i k Hi Hk) as Pik.
  pose proof (H i (xor1 k) Hi (xor1_lt _ _ Hk)) as Pik2.
  set (ik := m (matpos2 i k)) in *. set (ik2 := m (matpos2 i (xor1 k))) in *.
  pose proof (or1_lt n i Hi) as Hor.
  assert (Hk2 := xor1_lt _ _ Hk).
  set (br := if k <? or1 i then k else or1 i).
  assert (Hbr : br <= k /\ br <= or1 i /\ (k < or1 i -> br = k) /\ (br = k \/ br = or1 i)).
  { unfold br. destruct (Nat.ltb_spec k (or1 i)); lia. }
  apply (for_inv (okm P n)); [apply (for_inv (okm P n)); auto|].
  - intros j x Hj Hx. apply okm_mmin; auto; [|lia|].
    + apply okm_mmin; auto; [lia|]. apply (pl_add n P PL) with k; auto; [lia|].
      apply okm_half; auto. apply half_le. lia.
    + apply (pl_add n P PL) with (xor1 k); auto; [lia|].
      apply okm_half; auto.
      * apply okm_mmin; auto; [lia|]. apply (pl_add n P PL) with k; auto; [lia|].
        apply okm_half; auto. apply half_le. lia.
      * rewrite or1_xor1. apply half_le. lia.
  - intros j x Hj Hx. 
    assert (j > k) by lia. assert (Hj2 : j < 2 * n) by lia.
    assert (Hj3 := xor1_lt _ _ Hj2).
    assert (Hh : xor1 k <= or1 (xor1 j)) by (rewrite or1_xor1; apply half_flip, half_le; lia).
    assert (Hh2 : k <= or1 (xor1 j)) by (rewrite or1_xor1; apply half_le; lia).
    assert (Q : okm P n (mmin x (matpos i j) (badd (N:=N) ik (x (matpos (xor1 j) (xor1 k)))))).
    { apply okm_mmin; auto; [lia|]. apply (pl_add n P PL) with k; auto.
      rewrite <- (xor1_invol k) at 1. rewrite <- (xor1_invol j) at 1. apply okm_flip; auto. }
    apply okm_mmin; auto; [lia|]. apply (pl_add n P PL) with (xor1 k); auto.
    rewrite <- (xor1_invol j) at 1. apply okm_flip; auto.
Qed.

Lemma fw_pass_ok : forall k m, k < 2 * n -> okm P n m -> okm P n (fw_pass (N:=N) n k m).
Proof.
  intros k m Hk H. unfold fw_pass. apply (for_inv (okm P n)); auto.
  intros; apply fw_line_ok; auto; lia.
Qed.

Lemma hmat_fw_ok : forall m, okm P n m -> okm P n (hmat_fw (N:=N) m n).
Proof.
  intros m H. unfold hmat_fw. apply (for_inv (okm P n)); auto.
  intros; apply fw_pass_ok; auto; lia.
Qed.

Lemma inc_col_ok : forall k i m, k < 2 * n -> i < 2 * n -> okm P n m ->
  okm P n (inc_col (N:=N) n k i m).
Proof.
  intros k i m Hk Hi H. unfold inc_col.
  assert (Hk2 := xor1_lt _ _ Hk).
  pose proof (H k i Hk Hi) as Pik.
  pose proof (H (xor1 k) i Hk2 Hi) as Pik2.
  set (ik := m (matpos2 k i)) in *. set (ik2 := m (matpos2 (xor1 k) i)) in *.
  (* the order of the operands of badd is column value first *)
  assert (PA : forall i0 k0 j0 a b, i0 < 2 * n -> k0 < 2 * n -> j0 < 2 * n ->
     P k0 j0 a -> P i0 k0 b -> P i0 j0 (badd (N:=N) a b)).
  { intros i0 k0 j0 a b L1 L2 L3 Q1 Q2. 
    rewrite <- (xor1_invol i0), <- (xor1_invol j0). apply (pl_coh n P PL); auto using xor1_lt.
    apply (pl_add n P PL) with (xor1 k0); auto using xor1_lt; apply (pl_coh n P PL); auto. }
  apply (for_inv (okm P n)); [apply (for_inv (okm P n)); auto|].
  - intros j x Hj Hx. assert (Hj2 : j < 2 * n) by lia.
    assert (Hh : xor1 j <= or1 (xor1 k)) by (rewrite or1_xor1; apply half_flip, half_le; lia).
    assert (Hh2 : xor1 j <= or1 k) by (apply half_flip, half_le; lia).
    assert (Hij : i <= or1 j) by (apply half_le; lia).
    assert (Q : okm P n (mmin x (matpos j i) (badd (N:=N) ik (x (matpos (xor1 k) (xor1 j)))))).
    { apply okm_mmin; auto. apply PA with k; auto.
      rewrite <- (xor1_invol k) at 1. rewrite <- (xor1_invol j) at 1. apply okm_flip; auto. }
    apply okm_mmin; auto. apply PA with (xor1 k); auto.
    rewrite <- (xor1_invol j) at 1. apply okm_flip; auto.
  - intros j x Hj Hx. assert (Hj2 : j < 2 * n) by lia.
    assert (Hh : k <= or1 j) by (apply half_le; lia).
    assert (Hh2 : xor1 k <= or1 j) by (apply half_flip; auto).
    assert (Hij : i <= or1 j) by (apply half_le; lia).
    assert (Q : okm P n (mmin x (matpos j i) (badd (N:=N) ik (x (matpos j k))))).
    { apply okm_mmin; auto. apply PA with k; auto. apply okm_half; auto. }
    apply okm_mmin; auto. apply PA with (xor1 k); auto. apply okm_half; auto.
Qed.

Lemma hmat_inc_ok : forall m v, v < n -> okm P n m ->
  okm P n (hmat_inc2 (N:=N) (hmat_inc1 (N:=N) m n v) n v).
Proof.
  intros m v Hv H. unfold hmat_inc2, hmat_inc1.
  apply (for_inv (okm P n)); [apply (for_inv (okm P n)); auto|].
  - intros k x Hk Hx. apply (for_inv (okm P n)); auto. intros i y Hi Hy.
    apply inc_col_ok; try lia. apply fw_line_ok; auto; lia.
  - intros k x Hk Hx. apply fw_pass_ok; auto. lia.
Qed.

End Path.

(** ** Decrease *)
Section Decr.
Context {N : numtype}.
Lemma fw_line_mle : forall k i m, mle (fw_line (N:=N) k i m) m.
Proof.
  intros. unfold fw_line.
  eapply mle_trans; apply for_mle; intros; eapply mle_trans; apply mmin_mle.
Qed.
Lemma fw_pass_mle : forall n k m, mle (fw_pass (N:=N) n k m) m.
Proof. intros. apply for_mle. intros; apply fw_line_mle. Qed.
Lemma hmat_fw_mle : forall m n, mle (hmat_fw (N:=N) m n) m.
Proof. intros. apply for_mle. intros; apply fw_pass_mle. Qed.
Lemma inc_col_mle : forall n k i m, mle (inc_col (N:=N) n k i m) m.
Proof.
  intros. unfold inc_col.
  eapply mle_trans; apply for_mle; intros; eapply mle_trans; apply mmin_mle.
Qed.
Lemma hmat_inc1_mle : forall m n v, mle (hmat_inc1 (N:=N) m n v) m.
Proof.
  intros. apply for_mle. intros k x _. apply for_mle. intros i y _.
  eapply mle_trans; [apply inc_col_mle|apply fw_line_mle].
Qed.
Lemma hmat_inc2_mle : forall m n v, mle (hmat_inc2 (N:=N) m n v) m.
Proof. intros. apply for_mle. intros; apply fw_pass_mle. Qed.
Lemma hmat_s_prop_mle : forall m n, mle (hmat_s_prop (N:=N) m n) m.
Proof.
  intros. apply for_mle. intros i x _. apply for_mle. intros j y _. apply mmin_mle.
Qed.
End Decr.

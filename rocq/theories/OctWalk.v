(** Exactness of the closures: with exact numbers, a closed matrix with a
    non-negative diagonal satisfies the triangle inequality.               *)
From Coq Require Import Arith Lia List ZArith QArith Qreals Reals Lra Bool.
From Verif Require Import Bound BoundFacts OctMat OctIdx OctClose.
Import ListNotations.
Open Scope nat_scope.

(** non-negative diagonal *)
Definition nndiag (n : nat) (m : hmat) : Prop :=
  forall x, x < 2 * n -> (0 <= bsgn (m (matpos x x)))%Z.

Lemma nndiag_ge : forall n m x r, nndiag n m -> x < 2 * n -> ge_rb r (m (matpos2 x x)) -> (0 <= r)%R.
Proof.
  intros n m x r H Hx G. rewrite matpos2_diag in G. specialize (H x Hx).
  rewrite bsgn_ge0_ge in H. auto.
Qed.
Lemma nndiag_mle : forall n m m', mle m' m -> nndiag n m' -> nndiag n m.
Proof.
  intros n m m' L H x Hx. apply bsgn_ge0_ge. intros r G. specialize (H x Hx).
  rewrite bsgn_ge0_ge in H. apply H. eapply ge_rb_bb; [apply L|auto].
Qed.

(** ** Walks in the graph of a matrix, weights rounded up *)
Section Walk.
Variable n : nat.
Variable m0 : hmat.

Inductive walk (K : nat -> Prop) : nat -> nat -> R -> Prop :=
| walk_edge : forall i j r, i < 2 * n -> j < 2 * n -> i <> j ->
    ge_rb r (m0 (matpos2 i j)) -> walk K i j r
| walk_cons : forall i k j r r', i < 2 * n -> K k -> i <> k -> ge_rb r (m0 (matpos2 i k)) ->
    walk K k j r' -> walk K i j (r + r').

Lemma walk_lt : forall K i j w, walk K i j w -> i < 2 * n /\ j < 2 * n.
Proof. induction 1; intuition. Qed.

Lemma walk_up : forall K i j w, walk K i j w -> forall w', (w <= w')%R -> walk K i j w'.
Proof.
  induction 1 as [i j r Hi Hj Dij G|i k j r r' Hi Hk Dij G W IH]; intros w' L.
  - apply walk_edge; auto. eapply ge_rb_le; eauto.
  - replace w' with (r + (w' - r))%R by ring. apply walk_cons with k; auto. apply IH. lra.
Qed.

Lemma walk_app : forall (K : nat -> Prop) i k j a b, K k -> walk K i k a -> walk K k j b -> walk K i j (a + b).
Proof.
  intros K i k j a b Hk W1. induction W1 as [i k r Hi Hj Dij G|i k' k r r' Hi Hk' Dij G W IH]; intros W2.
  - apply walk_cons with k; auto.
  - replace (r + r' + b)%R with (r + (r' + b))%R by ring. apply walk_cons with k'; auto.
Qed.

Lemma walk_mono : forall (K K' : nat -> Prop) i j w, (forall x, x < 2 * n -> K x -> K' x) ->
  walk K i j w -> walk K' i j w.
Proof.
  intros K K' i j w HK W. induction W.
  - apply walk_edge; auto.
  - apply walk_cons with k; auto. apply HK; auto. apply walk_lt in W. tauto.
Qed.

Lemma walk_split : forall (K : nat -> Prop) k i j w,
  (forall c, walk K k k c -> (0 <= c)%R) ->
  walk (fun x => K x \/ x = k) i j w ->
  walk K i j w \/ exists w1 w2, walk K i k w1 /\ walk K k j w2 /\ (w1 + w2 <= w)%R.
Proof.
  intros K k i j w C W. induction W as [i j r Hi Hj Dij G|i x j r r' Hi Hx Dij G W IH].
  - left. apply walk_edge; auto.
  - pose proof (proj1 (walk_lt _ _ _ _ W)) as Lx.
    destruct IH as [W1|[w1 [w2 [W1 [W2 L]]]]]; destruct Hx as [Hx|Hx].
    + left. apply walk_cons with x; auto.
    + subst x. right. exists r, r'. split; [apply walk_edge; auto|]. split; auto. lra.
    + right. exists (r + w1)%R, w2. split; [apply walk_cons with x; auto|]. split; auto. lra.
    + subst x. right. exists r, w2. split; [apply walk_edge; auto|]. split; auto.
      specialize (C _ W1). lra.
Qed.

Definition inv (K : nat -> Prop) (m : hmat) : Prop :=
  forall i j w, walk K i j w -> ge_rb w (m (matpos2 i j)).

(** one pass on pivot [k] *)
Lemma inv_step : forall (K : nat -> Prop) k m m',
  k < 2 * n ->
  nndiag n m -> mle m' m ->
  (forall i j r1 r2, i < 2 * n -> j < 2 * n -> 
     walk K i k r1 -> walk K k j r2 -> ge_rb (r1 + r2) (m' (matpos2 i j))) ->
  inv K m -> inv (fun x => K x \/ x = k) m'.
Proof.
  intros K k m m' Hk D L S I i j w W.
  apply walk_split in W.
  - destruct W as [W|[w1 [w2 [W1 [W2 LE]]]]].
    + eapply ge_rb_bb; [apply L|]. apply I; auto.
    + apply ge_rb_le with (w1 + w2)%R; auto.
      apply walk_lt in W1 as W1'. apply walk_lt in W2 as W2'. apply S; tauto.
  - intros c Wc. eapply nndiag_ge; eauto.
Qed.

Definition any (x : nat) : Prop := True.

Lemma walk_coh : forall i j w, walk any i j w -> walk any (xor1 j) (xor1 i) w.
Proof.
  intros i j w W. induction W as [i j r Hi Hj Dij G|i k j r r' Hi Hk Dij G W IH].
  - apply walk_edge; auto using xor1_lt.
    + intro C. apply xor1_inj in C. auto.
    + rewrite matpos2_coh; auto.
  - rewrite Rplus_comm. apply walk_app with (xor1 k); [exact I|auto|].
    apply walk_lt in W. apply walk_edge; try (apply xor1_lt; tauto).
    + intro C. apply xor1_inj in C. auto.
    + rewrite matpos2_coh; auto.
Qed.

(** every entry is the weight of a (possibly empty) walk *)
Definition realised (i j : nat) (b : bound) : Prop :=
  b <> MInf /\ forall r, ge_rb r b -> walk any i j r \/ (i = j /\ (0 <= r)%R).

Lemma badd_ge_inv : forall r a b, a <> MInf -> b <> MInf -> ge_rb r (badd (N:=exact_num) a b) ->
  exists r1 r2, ge_rb r1 a /\ ge_rb r2 b /\ r = (r1 + r2)%R.
Proof.
  intros r [|p|] [|q|] Wa Wb G; simpl in *; try tauto.
  exists (Q2R p), (r - Q2R p)%R. rewrite Q2R_plus in G. repeat split; lra.
Qed.

Lemma pathlike_realised : pathlike (N:=exact_num) n realised.
Proof.
  constructor.
  - intros i j b Hi Hj [W H]. split; auto. intros r G. destruct (H r G) as [K|[E L]].
    + left. apply walk_coh; auto.
    + right. subst. auto.
  - intros i j a b [Wa Ha] [Wb Hb]. split; [apply bmin_not_MInf; auto|].
    intros r G. apply bmin_ge in G. destruct G; auto.
  - intros i k j a b Hi Hk Hj [Wa Ha] [Wb Hb]. split; [apply badd_not_MInf; auto|].
    intros r G. apply badd_ge_inv in G; auto. destruct G as [r1 [r2 [G1 [G2 ->]]]].
    destruct (Ha _ G1) as [K1|[E1 L1]]; destruct (Hb _ G2) as [K2|[E2 L2]].
    + left. apply walk_app with k; auto. exact I.
    + subst. left. eapply walk_up; [exact K1|lra].
    + subst. left. eapply walk_up; [exact K2|lra].
    + subst. right. split; auto. lra.
Qed.

End Walk.

Definition wfm (n : nat) (m : hmat) : Prop :=
  forall i j, i < 2 * n -> j <= or1 i -> m (matpos i j) <> MInf.

Lemma wfm2 : forall n m i j, wfm n m -> i < 2 * n -> j < 2 * n -> m (matpos2 i j) <> MInf.
Proof.
  intros n m i j H Hi Hj. destruct (matpos2_cases i j) as [[H1 E]|[H1 E]]; rewrite E; apply H; auto.
  apply xor1_lt; auto.
Qed.
Lemma wfm_okm : forall n m, wfm n m <-> okm (fun _ _ b => b <> MInf) n m.
Proof.
  intros n m; split; intros H i j Hi Hj.
  - eapply wfm2; eauto.
  - rewrite <- matpos2_half by auto. apply H; auto. eapply half_lt; eauto.
Qed.
Lemma pathlike_wf : forall N n, pathlike (N:=N) n (fun _ _ b => b <> MInf).
Proof.
  intros. constructor; auto using bmin_not_MInf, badd_not_MInf.
Qed.

(** all cells except the diagonal are coherent by construction *)
Lemma cell_coh : forall (m : hmat) i j, i <> j -> m (matpos2 (xor1 j) (xor1 i)) = m (matpos2 i j).
Proof. intros. rewrite matpos2_coh; auto. Qed.

(** ** Progress of the passes with exact numbers *)
Section Progress.
Variable n : nat.

Local Notation E := exact_num.

Lemma fw_line_target : forall k i j m r1 r2, k < 2 * n -> i < 2 * n -> j <= or1 i ->
  ge_rb r1 (m (matpos2 i k)) -> ge_rb r2 (m (matpos2 k j)) ->
  ge_rb (r1 + r2) (fw_line (N:=E) k i m (matpos i j)).
Proof.
  intros k i j m r1 r2 Hk Hi Hj G1 G2. unfold fw_line.
  set (ik := m (matpos2 i k)) in *. set (ik2 := m (matpos2 i (xor1 k))).
  set (br := if k <? or1 i then k else or1 i).
  assert (Hbr : br <= k /\ br <= or1 i /\ (br = k \/ br = or1 i)).
  { unfold br. destruct (Nat.ltb_spec k (or1 i)); lia. }
  match goal with |- context [for_ 0 (br + 1) ?f m] => set (f1 := f) end.
  match goal with |- context [for_ (br + 1) (or1 i + 1) ?f _] => set (f2 := f) end.
  assert (M1 : forall i m, mle (f1 i m) m).
  { intros; unfold f1; eapply mle_trans; apply mmin_mle. }
  assert (M2 : forall i m, mle (f2 i m) m).
  { intros; unfold f2; eapply mle_trans; apply mmin_mle. }
  destruct (le_lt_dec j br) as [L|L].
  - destruct (for_at 0 (br+1) f1 m j) as [m' [L1 L2]]; auto; [lia|].
    eapply ge_rb_bb; [apply for_mle; auto|].
    eapply ge_rb_bb; [apply L2|]. unfold f1.
    eapply ge_rb_bb; [apply mmin_mle|]. eapply ge_rb_bb; [apply mmin_at|].
    apply badd_ge; auto. eapply ge_rb_bb; [apply L1|].
    rewrite matpos2_half in G2; auto. apply half_le. lia.
  - destruct (for_at (br+1) (or1 i+1) f2 (for_ 0 (br + 1) f1 m) j) as [m' [L1 L2]]; auto; [lia|].
    eapply ge_rb_bb; [apply L2|]. unfold f2.
    eapply ge_rb_bb; [apply mmin_mle|]. eapply ge_rb_bb; [apply mmin_at|].
    apply badd_ge; auto. eapply ge_rb_bb; [apply L1|].
    eapply ge_rb_bb; [apply for_mle; auto|].
    rewrite <- (matpos2_coh k j) in G2 by lia.
    rewrite matpos2_half in G2; auto. rewrite or1_xor1. apply half_flip, half_le. lia.
Qed.

Lemma fw_line_target2 : forall k i j m r1 r2, k < 2 * n -> i < 2 * n -> j <= or1 i -> j <> xor1 k ->
  ge_rb r1 (m (matpos2 i (xor1 k))) -> ge_rb r2 (m (matpos2 (xor1 k) j)) ->
  ge_rb (r1 + r2) (fw_line (N:=E) k i m (matpos i j)).
Proof.
  intros k i j m r1 r2 Hk Hi Hj D G1 G2. unfold fw_line.
  set (ik := m (matpos2 i k)) in *. set (ik2 := m (matpos2 i (xor1 k))) in *.
  set (br := if k <? or1 i then k else or1 i).
  assert (Hbr : br <= k /\ br <= or1 i /\ (br = k \/ br = or1 i)).
  { unfold br. destruct (Nat.ltb_spec k (or1 i)); lia. }
  match goal with |- context [for_ 0 (br + 1) ?f m] => set (f1 := f) end.
  match goal with |- context [for_ (br + 1) (or1 i + 1) ?f _] => set (f2 := f) end.
  assert (M1 : forall i m, mle (f1 i m) m).
  { intros; unfold f1; eapply mle_trans; apply mmin_mle. }
  assert (M2 : forall i m, mle (f2 i m) m).
  { intros; unfold f2; eapply mle_trans; apply mmin_mle. }
  destruct (le_lt_dec j br) as [L|L].
  - destruct (for_at 0 (br+1) f1 m j) as [m' [L1 L2]]; auto; [lia|].
    eapply ge_rb_bb; [apply for_mle; auto|].
    eapply ge_rb_bb; [apply L2|]. unfold f1.
    eapply ge_rb_bb; [apply mmin_at|].
    apply badd_ge; auto. eapply ge_rb_bb; [apply mmin_mle|]. eapply ge_rb_bb; [apply L1|].
    rewrite matpos2_half in G2; auto. rewrite or1_xor1. apply half_le. lia.
  - destruct (for_at (br+1) (or1 i+1) f2 (for_ 0 (br + 1) f1 m) j) as [m' [L1 L2]]; auto; [lia|].
    eapply ge_rb_bb; [apply L2|]. unfold f2.
    eapply ge_rb_bb; [apply mmin_at|].
    apply badd_ge; auto. eapply ge_rb_bb; [apply mmin_mle|]. eapply ge_rb_bb; [apply L1|].
    eapply ge_rb_bb; [apply for_mle; auto|].
    rewrite <- (matpos2_coh (xor1 k) j) in G2 by auto. rewrite xor1_invol in G2.
    rewrite matpos2_half in G2; auto. rewrite or1_xor1. apply half_le. lia.
Qed.

(** a whole pass *)
Lemma fw_pass_target : forall k i j m r1 r2, k < 2 * n -> i < 2 * n -> j < 2 * n -> nndiag n m ->
  ge_rb r1 (m (matpos2 i k)) -> ge_rb r2 (m (matpos2 k j)) ->
  ge_rb (r1 + r2) (fw_pass (N:=E) n k m (matpos2 i j)).
Proof.
  intros k i j m r1 r2 Hk Hi Hj D G1 G2.
  destruct (Nat.eq_dec i k) as [->|Dik].
  { pose proof (nndiag_ge n m k r1 D Hk G1).
    eapply ge_rb_bb; [apply fw_pass_mle|]. apply ge_rb_le with r2; auto. lra. }
  destruct (Nat.eq_dec j k) as [->|Djk].
  { pose proof (nndiag_ge n m k r2 D Hk G2).
    eapply ge_rb_bb; [apply fw_pass_mle|]. apply ge_rb_le with r1; auto. lra. }
  unfold fw_pass.
  assert (M1 : forall i m, 0 <= i < 2 * n -> mle (fw_line (N:=E) k i m) m) by (intros; apply fw_line_mle).
  destruct (matpos2_cases i j) as [[H Eq]|[H Eq]]; rewrite Eq.
  - destruct (for_at 0 (2*n) (fw_line (N:=E) k) m i) as [m' [L1 L2]]; auto; [lia|].
    eapply ge_rb_bb; [apply L2|]. apply fw_line_target; auto; eapply ge_rb_bb; try apply L1; auto.
  - destruct (for_at 0 (2*n) (fw_line (N:=E) k) m (xor1 j)) as [m' [L1 L2]]; auto.
    { apply xor1_lt in Hj. lia. }
    eapply ge_rb_bb; [apply L2|]. rewrite Rplus_comm.
    apply fw_line_target2; auto using xor1_lt.
    + intro C. apply xor1_inj in C. auto.
    + eapply ge_rb_bb; [apply L1|]. rewrite matpos2_coh; auto.
    + eapply ge_rb_bb; [apply L1|]. rewrite matpos2_coh; auto.
Qed.

(** Floyd-Warshall *)
Lemma hmat_fw_inv : forall m, nndiag n (hmat_fw (N:=E) m n) -> 
  inv n m (any) (hmat_fw (N:=E) m n).
Proof.
  intros m D.
  assert (G : forall k, k <= 2 * n -> 
     inv n m (fun x => x < k) (for_ 0 k (fw_pass (N:=E) n) m)).
  { induction k; intros Hk.
    - rewrite for_empty by lia. intros i j w W.
      destruct W as [i j r Hi Hj Dij G|i k j r r' Hi F]; [auto|lia].
    - rewrite (for_split 0 k (S k)) by lia. rewrite for_step by lia. rewrite for_empty by lia.
      specialize (IHk ltac:(lia)).
      set (mk := for_ 0 k (fw_pass (N:=E) n) m) in *.
      assert (Dk : nndiag n mk).
      { eapply nndiag_mle; [|exact D]. unfold hmat_fw. rewrite (for_split 0 k (2*n)) by lia.
        apply for_mle. intros; apply fw_pass_mle. }
      intros i j w W. 
      assert (S : inv n m (fun x => x < k \/ x = k) (fw_pass (N:=E) n k mk)).
      { apply inv_step with (m := mk); auto; try lia.
        - apply fw_pass_mle.
        - intros. apply fw_pass_target; auto; try lia. }
      apply S. eapply walk_mono; [|exact W]. simpl. intros; lia. }
  specialize (G (2 * n) (le_n _)). intros i j w W. apply G.
  eapply walk_mono; [|exact W]. simpl. auto.
Qed.

(** triangle inequality *)
Definition tri (m : hmat) : Prop :=
  forall i k j r1 r2, i < 2 * n -> k < 2 * n -> j < 2 * n ->
    ge_rb r1 (m (matpos2 i k)) -> ge_rb r2 (m (matpos2 k j)) ->
    ge_rb (r1 + r2) (m (matpos2 i j)).

Lemma inv_realised_tri : forall m0 m, nndiag n m -> inv n m0 any m ->
  okm (realised n m0) n m -> tri m.
Proof.
  intros m0 m D IV RE i k j r1 r2 Hi Hk Hj G1 G2.
  destruct (Nat.eq_dec i k) as [->|Dik].
  { pose proof (nndiag_ge n m k r1 D Hk G1). apply ge_rb_le with r2; auto. lra. }
  destruct (Nat.eq_dec k j) as [->|Dkj].
  { pose proof (nndiag_ge n m j r2 D Hj G2). apply ge_rb_le with r1; auto. lra. }
  apply IV. apply walk_app with k; [exact I| |].
  - destruct (proj2 (RE i k Hi Hk) r1 G1) as [?|[? ?]]; auto; lia.
  - destruct (proj2 (RE k j Hk Hj) r2 G2) as [?|[? ?]]; auto; lia.
Qed.

Lemma realised_start : forall m, wfm n m -> nndiag n m -> okm (realised n m) n m.
Proof.
  intros m W D i j Hi Hj. split; [eapply wfm2; eauto|]. intros r G.
  destruct (Nat.eq_dec i j) as [->|Dij].
  - right. split; auto. eapply nndiag_ge; eauto.
  - left. apply walk_edge; auto.
Qed.

Lemma hmat_fw_tri : forall m, wfm n m -> nndiag n (hmat_fw (N:=E) m n) -> tri (hmat_fw (N:=E) m n).
Proof.
  intros m W D. apply inv_realised_tri with m; auto.
  - apply hmat_fw_inv; auto.
  - apply hmat_fw_ok; [apply pathlike_realised|]. apply realised_start; auto.
    eapply nndiag_mle; [|exact D]. apply hmat_fw_mle.
Qed.

(** Column part of the incremental closure. *)
Lemma inc_col_target : forall k i j m r1 r2, k < 2 * n -> i < 2 * n -> i <= j < 2 * n ->
  ge_rb r1 (m (matpos2 j k)) -> ge_rb r2 (m (matpos2 k i)) ->
  ge_rb (r1 + r2) (inc_col (N:=E) n k i m (matpos j i)).
Proof.
  intros k i j m r1 r2 Hk Hi Hj G1 G2. unfold inc_col.
  set (ik := m (matpos2 k i)) in *. set (ik2 := m (matpos2 (xor1 k) i)) in *.
  match goal with |- context [for_ i k ?f m] => set (f1 := f) end.
  match goal with |- context [for_ (Nat.max i k) (2 * n) ?f _] => set (f2 := f) end.
  assert (M1 : forall i m, mle (f1 i m) m).
  { intros; unfold f1; eapply mle_trans; apply mmin_mle. }
  assert (M2 : forall i m, mle (f2 i m) m).
  { intros; unfold f2; eapply mle_trans; apply mmin_mle. }
  rewrite Rplus_comm.
  destruct (le_lt_dec k j) as [L|L].
  - destruct (for_at (Nat.max i k) (2*n) f2 (for_ i k f1 m) j) as [m' [L1 L2]]; auto; [lia|].
    eapply ge_rb_bb; [apply L2|]. unfold f2.
    eapply ge_rb_bb; [apply mmin_mle|]. eapply ge_rb_bb; [apply mmin_at|].
    apply badd_ge; auto. eapply ge_rb_bb; [apply L1|].
    eapply ge_rb_bb; [apply for_mle; auto|].
    rewrite matpos2_half in G1; auto. apply half_le. lia.
  - destruct (for_at i k f1 m j) as [m' [L1 L2]]; auto; [lia|].
    eapply ge_rb_bb; [apply for_mle; auto|].
    eapply ge_rb_bb; [apply L2|]. unfold f1.
    eapply ge_rb_bb; [apply mmin_mle|]. eapply ge_rb_bb; [apply mmin_at|].
    apply badd_ge; auto. eapply ge_rb_bb; [apply L1|].
    rewrite <- (matpos2_coh j k) in G1 by lia.
    rewrite matpos2_half in G1; auto. rewrite or1_xor1. apply half_flip, half_le. lia.
Qed.

Lemma inc_col_target2 : forall k i j m r1 r2, k < 2 * n -> i < 2 * n -> i <= j < 2 * n -> j <> xor1 k ->
  ge_rb r1 (m (matpos2 j (xor1 k))) -> ge_rb r2 (m (matpos2 (xor1 k) i)) ->
  ge_rb (r1 + r2) (inc_col (N:=E) n k i m (matpos j i)).
Proof.
  intros k i j m r1 r2 Hk Hi Hj D G1 G2. unfold inc_col.
  set (ik := m (matpos2 k i)) in *. set (ik2 := m (matpos2 (xor1 k) i)) in *.
  match goal with |- context [for_ i k ?f m] => set (f1 := f) end.
  match goal with |- context [for_ (Nat.max i k) (2 * n) ?f _] => set (f2 := f) end.
  assert (M1 : forall i m, mle (f1 i m) m).
  { intros; unfold f1; eapply mle_trans; apply mmin_mle. }
  assert (M2 : forall i m, mle (f2 i m) m).
  { intros; unfold f2; eapply mle_trans; apply mmin_mle. }
  rewrite Rplus_comm.
  destruct (le_lt_dec k j) as [L|L].
  - destruct (for_at (Nat.max i k) (2*n) f2 (for_ i k f1 m) j) as [m' [L1 L2]]; auto; [lia|].
    eapply ge_rb_bb; [apply L2|]. unfold f2.
    eapply ge_rb_bb; [apply mmin_at|].
    apply badd_ge; auto. eapply ge_rb_bb; [apply mmin_mle|]. eapply ge_rb_bb; [apply L1|].
    eapply ge_rb_bb; [apply for_mle; auto|].
    rewrite matpos2_half in G1; auto. apply half_flip, half_le. lia.
  - destruct (for_at i k f1 m j) as [m' [L1 L2]]; auto; [lia|].
    eapply ge_rb_bb; [apply for_mle; auto|].
    eapply ge_rb_bb; [apply L2|]. unfold f1.
    eapply ge_rb_bb; [apply mmin_at|].
    apply badd_ge; auto. eapply ge_rb_bb; [apply mmin_mle|]. eapply ge_rb_bb; [apply L1|].
    rewrite <- (matpos2_coh j (xor1 k)) in G1 by auto. rewrite xor1_invol in G1.
    rewrite matpos2_half in G1; auto. apply half_flip, half_le. lia.
Qed.

End Progress.

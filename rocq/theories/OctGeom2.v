(** Consequences of strong closure used in the property files. *)
From Coq Require Import Arith Lia List ZArith QArith Qreals Reals Lra Bool.
From Verif Require Import Bound BoundFacts OctMat OctIdx OctClose OctWalk OctInc OctStrong OctGeom.
Import ListNotations.
Open Scope nat_scope.

Notation E := exact_num.

Lemma hmat_fw_tri' : forall n m, wfm n m -> nndiag n (hmat_fw (N:=E) m n) -> tri n (hmat_fw (N:=E) m n).
Proof. intros. apply hmat_fw_tri; auto. Qed.

(** emptiness is decided *)
Lemma close_empty_iff : forall n m, wfm n m ->
  (snd (hmat_close (N:=E) m n) = true <-> forall v, ~ gam n m v).
Proof.
  intros n m W. destruct (hmat_close (N:=E) m n) as [m' b] eqn:C. simpl. split.
  - intros -> v G. destruct (close_sound (N:=E) n m v m' true C) as [H _]. specialize (H G). discriminate.
  - intros H. destruct b; auto. exfalso. destruct (sc_nonempty n m' (close_exact n m m' W C)) as [v G].
    apply (H v). apply (close_sound (N:=E) n m v m' false C); auto.
Qed.
Lemma close_inc_empty_iff : forall n m x, x < n -> wfm n m -> tri_except n x m ->
  (snd (hmat_close_incremental (N:=E) m n x) = true <-> forall v, ~ gam n m v).
Proof.
  intros n m x Hx W T. destruct (hmat_close_incremental (N:=E) m n x) as [m' b] eqn:C. simpl. split.
  - intros -> v G. destruct (close_inc_sound (N:=E) n m x v m' true Hx C) as [H _]. specialize (H G). discriminate.
  - intros H. destruct b; auto. exfalso. destruct (sc_nonempty n m' (close_inc_exact n m x m' Hx W T C)) as [v G].
    apply (H v). apply (close_inc_sound (N:=E) n m x v m' false Hx C); auto.
Qed.

(** a strongly closed matrix is determined by its points *)
Lemma sclosed_le : forall n m1 m2, sclosed n m1 ->
  (forall v, gam n m1 v -> gam n m2 v) ->
  forall i j, i < 2 * n -> j < 2 * n -> le_bb (m1 (matpos2 i j)) (m2 (matpos2 i j)).
Proof.
  intros n m1 m2 S H i j Hi Hj. apply (tight_le n m1 S i j); auto.
  intros v G. apply gam_full with n; auto.
Qed.
Lemma gam_mono2 : forall n m1 m2 v,
  (forall i j, i < 2 * n -> j <= or1 i -> le_bb (m1 (matpos i j)) (m2 (matpos i j))) -> gam n m1 v -> gam n m2 v.
Proof. intros n m1 m2 v H G i j Hi Hj. eapply le_rb_mono; [apply G|]; auto. Qed.
Lemma sclosed_uniq : forall n m1 m2, sclosed n m1 -> sclosed n m2 ->
  (forall v, gam n m1 v <-> gam n m2 v) ->
  forall i j, i < 2 * n -> j < 2 * n -> bequal (m1 (matpos2 i j)) (m2 (matpos2 i j)) = true.
Proof.
  intros. apply bequal_le. split; apply sclosed_le with n; auto; intros; apply H1; auto.
Qed.

(** two matrices agree on the cells that do not involve variable [x] *)
Definition agree_except (n x : nat) (m m' : hmat) : Prop :=
  forall i j, i < 2 * n -> j <= or1 i -> i / 2 <> x -> j / 2 <> x -> m' (matpos i j) = m (matpos i j).

Lemma agree_except2 : forall n x m m' i j, agree_except n x m m' -> i < 2 * n -> j < 2 * n ->
  i / 2 <> x -> j / 2 <> x -> m' (matpos2 i j) = m (matpos2 i j).
Proof.
  intros n x m m' i j A Hi Hj Di Dj. destruct (matpos2_cases i j) as [[H ->]|[H ->]].
  - apply A; auto.
  - apply A; auto using xor1_lt; rewrite div2_xor1; auto.
Qed.
Lemma isv_div : forall x i, isv x i <-> i / 2 = x.
Proof. intros. unfold isv. idx_cases i; lia. Qed.
Lemma agree_tri_except : forall n x m m', tri n m -> agree_except n x m m' -> tri_except n x m'.
Proof.
  intros n x m m' T A i k j r1 r2 Hi Hk Hj Ni Nk Nj.
  rewrite isv_div in Ni, Nk, Nj.
  rewrite !(agree_except2 n x m m') by auto. apply T; auto.
Qed.

Lemma close_inc_same : forall n x m0 m m', wfm n m0 -> hmat_close (N:=E) m0 n = (m, false) ->
  x < n -> wfm n m' -> agree_except n x m m' ->
  let '(mi, bi) := hmat_close_incremental (N:=E) m' n x in
  let '(mf, bf) := hmat_close (N:=E) m' n in
  bi = bf /\
  (bi = false -> forall i j, i < 2 * n -> j < 2 * n -> bequal (mi (matpos2 i j)) (mf (matpos2 i j)) = true).
Proof.
  intros n x m0 m m' W0 C0 Hx W A.
  assert (T : tri_except n x m') by (apply agree_tri_except with m; [apply sc_tri; apply close_exact with m0; auto|auto]).
  pose proof (close_inc_empty_iff n m' x Hx W T) as EI. pose proof (close_empty_iff n m' W) as EF.
  destruct (hmat_close_incremental (N:=E) m' n x) as [mi bi] eqn:CI.
  destruct (hmat_close (N:=E) m' n) as [mf bf] eqn:CF. simpl in EI, EF.
  assert (EQ : bi = bf).
  { destruct bi, bf; auto; exfalso.
    - assert (true = true) by auto. rewrite EI in H. rewrite <- EF in H. discriminate.
    - assert (true = true) by auto. rewrite EF in H. rewrite <- EI in H. discriminate. }
  split; auto. intros -> i j Hi Hj. subst bf.
  apply sclosed_uniq with n; auto.
  - apply close_inc_exact with m' x; auto.
  - apply close_exact with m'; auto.
  - intros v. rewrite <- (proj2 (close_inc_sound (N:=E) n m' x v mi false Hx CI) eq_refl).
    apply (proj2 (close_sound (N:=E) n m' v mf false CF) eq_refl).
Qed.

(** the check used by the debugging mode of the library: closed matrices pass *)
Lemma top_gam : forall n v, gam n (hmat_top n) v.
Proof.
  intros n v. unfold hmat_top. apply (for_inv (fun m => gam n m v)).
  - intros i j _ _. exact I.
  - intros k m _ G i j Hi Hj. destruct (Nat.eq_dec (matpos i j) (matpos k k)) as [e|d].
    + rewrite e, upd_same. apply matpos_inj in e; auto using or1_ge. destruct e; subst.
      simpl. rewrite Q2R_0'. lra.
    + rewrite upd_other by auto. auto.
Qed.
Lemma top_cells : forall n i j, i < 2 * n -> j <= or1 i ->
  hmat_top n (matpos i j) = if Nat.eqb i j then Fin 0 else PInf.
Proof.
  intros n i j Hi Hj. unfold hmat_top.
  assert (G : forall k, k <= 2 * n -> forall i j, j <= or1 i ->
     for_ 0 k (fun i m => upd m (matpos i i) (Fin 0)) (fun _ => PInf) (matpos i j) =
     if Nat.eqb i j && Nat.ltb i k then Fin 0 else PInf).
  { induction k; intros Hk i' j' Hj'.
    - rewrite for_empty by lia. rewrite andb_comm. reflexivity.
    - rewrite (for_split 0 k (S k)) by lia. rewrite for_step by lia. rewrite for_empty by lia.
      destruct (Nat.eq_dec (matpos i' j') (matpos k k)) as [e|d].
      + rewrite e, upd_same. apply matpos_inj in e; auto using or1_ge. destruct e; subst.
        rewrite Nat.eqb_refl. destruct (Nat.ltb_spec k (S k)); auto; lia.
      + rewrite upd_other by auto. rewrite IHk by (auto; lia).
        destruct (Nat.eqb_spec i' j'); auto. subst.
        assert (j' <> k) by congruence.
        destruct (Nat.ltb_spec j' k), (Nat.ltb_spec j' (S k)); auto; lia. }
  rewrite G by auto. destruct (Nat.ltb_spec i (2 * n)); try lia. rewrite andb_true_r. auto.
Qed.
Lemma top_wfm : forall n, wfm n (hmat_top n).
Proof. intros n i j Hi Hj. rewrite top_cells by auto. destruct (Nat.eqb i j); discriminate. Qed.
Lemma top_cells2 : forall n i j, i < 2 * n -> j < 2 * n ->
  hmat_top n (matpos2 i j) = if Nat.eqb i j then Fin 0 else PInf.
Proof.
  intros n i j Hi Hj. destruct (matpos2_cases i j) as [[H E]|[H E]]; rewrite E.
  - apply top_cells; auto.
  - rewrite top_cells; auto using xor1_lt.
    destruct (Nat.eqb_spec (xor1 j) (xor1 i)) as [e|d], (Nat.eqb_spec i j); auto.
    + apply xor1_inj in e. congruence.
    + congruence.
Qed.

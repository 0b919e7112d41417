(** Properties C22-C25: octagon half-matrices and their closure.

    The meaning of a half-matrix ([gam]) is the one of oct_internal.h 120-136:
    cell (i,j) bounds  V_j - V_i  where V_2k = x_k and V_2k+1 = - x_k.      *)
From Coq Require Import Arith Lia List ZArith QArith Qreals Reals Lra Bool.
From Verif Require Import Bound BoundFacts OctMat OctIdx OctClose OctWalk OctInc OctStrong OctGeom OctGeom2.
Import ListNotations.
Open Scope nat_scope.

(** C22: every pair of signed variables has a cell in range; two pairs share a
    cell iff they are equal or (off the diagonal) coherent twins; every cell of
    the array is used; and the running pointer used by the loops of the library
    visits the cell of (i,j) when the loop variables are (i,j). *)
Theorem C22_matpos_bijection : forall n : nat,
  (forall i j, i < 2 * n -> j < 2 * n -> matpos2 i j < matsize n) /\
  (forall i j i' j', matpos2 i j = matpos2 i' j' <->
     (i = i' /\ j = j') \/ (i <> j /\ i = xor1 j' /\ j = xor1 i')) /\
  (forall p, p < matsize n -> exists i j, i < 2 * n /\ j <= or1 i /\ matpos i j = p /\ matpos2 i j = p) /\
  (matpos 0 0 = 0 /\ matpos (2 * n) 0 = matsize n /\
   (forall i j, matpos i (S j) = S (matpos i j)) /\
   (forall i, matpos (S i) 0 = S (matpos i (or1 i)))).
Proof.
  intros n. split; [|split; [|split]].
  - intros. apply matpos2_lt; auto.
  - intros. split.
    + intros H. pose proof (matpos2_inj _ _ _ _ H) as [|[E1 E2]]; auto.
      destruct (Nat.eq_dec i j) as [e|d]; auto. subst j.
      left. subst i. apply xor1_inj in e. subst j'. rewrite !matpos2_diag in H.
      apply matpos_inj in H; auto using or1_ge.
    + intros [[-> ->]|(D & -> & ->)]; auto. apply matpos2_coh. intros ->. auto.
  - intros p H. destruct (matpos_surj n p H) as (i & j & Hi & Hj & Hp).
    exists i, j. rewrite matpos2_half; auto.
  - split; [exact matpos_first|]. split; [apply matpos_last|].
    split; [apply matpos_next_col|apply matpos_next_row].
Qed.
Print Assumptions C22_matpos_bijection.

Example C22_example : matpos2 1 4 = matpos 5 0 /\ matpos 5 0 = 18 /\ matsize 3 = 24 /\ matpos2 1 4 = matpos2 5 0.
Proof. repeat split. Qed.

(** C23, any rounding: closing keeps the set of points, and "empty" is only
    answered for the empty set. *)
Theorem C23_closure_sound : forall (N : numtype) (n : nat) (m m' : hmat) (b : bool),
  hmat_close (N:=N) m n = (m', b) ->
  (b = true -> forall v, ~ gam n m v) /\
  (b = false -> forall v, gam n m v <-> gam n m' v).
Proof.
  intros N n m m' b H. split.
  - intros -> v G. destruct (close_sound n m v m' true H) as [F _]. specialize (F G). discriminate.
  - intros -> v. apply (close_sound n m v m' false H). auto.
Qed.
Print Assumptions C23_closure_sound.

(** C23, exact numbers: emptiness is decided (on the reals). *)
Theorem C23_closure_decides_empty : forall (n : nat) (m : hmat), wfm n m ->
  (snd (hmat_close (N:=exact_num) m n) = true <-> forall v, ~ gam n m v).
Proof. exact close_empty_iff. Qed.
Print Assumptions C23_closure_decides_empty.

(** x0 <= -1, x1 - x0 <= 0, -x1 <= 0 : empty, needs a path through x1 *)
Definition ex23 : hmat :=
  upd (upd (upd (hmat_top 2) (matpos 1 0) (Fin (-2))) (matpos2 0 2) (Fin 0)) (matpos 2 3) (Fin 0).
Example C23_example : wfm 2 ex23 /\ snd (hmat_close (N:=exact_num) ex23 2) = true.
Proof.
  split; [|vm_compute; reflexivity].
  intros i j Hi Hj. unfold ex23, upd, wfm.
  repeat (match goal with |- context [Nat.eqb ?a ?b] => destruct (Nat.eqb a b); [discriminate|] end).
  apply top_wfm; auto.
Qed.

(** C24: with exact numbers every finite entry of the closed matrix is the
    value reached by the difference it bounds at some point of the octagon and
    infinite entries are not bounded on the octagon. *)
Theorem C24_closure_tight : forall (n : nat) (m m' : hmat), wfm n m ->
  hmat_close (N:=exact_num) m n = (m', false) ->
  forall i j, i < 2 * n -> j <= or1 i ->
  match m' (matpos i j) with
  | MInf => False
  | Fin q => (exists v, gam n m v /\ (lit v j - lit v i)%R = Q2R q) /\
             (forall v, gam n m v -> (lit v j - lit v i <= Q2R q)%R)
  | PInf => forall B : R, exists v, gam n m v /\ (B <= lit v j - lit v i)%R
  end.
Proof.
  intros n m m' W C i j Hi Hj.
  pose proof (close_exact n m m' W C) as S.
  assert (Hj' : j < 2 * n) by (pose proof (or1_lt n i Hi); lia).
  assert (EQ : forall v, gam n m v <-> gam n m' v) by (intros; apply (close_sound n m v m' false C); auto).
  pose proof (sc_wf n m' S i j Hi Hj) as WF.
  rewrite <- (matpos2_half i j Hj) in *.
  destruct (m' (matpos2 i j)) eqn:Em; [congruence| |].
  - split.
    + destruct (tight_fin n m' S i j q Hi Hj' Em) as (v & G & L). exists v. rewrite EQ. auto.
    + intros v G. apply EQ in G. pose proof (gam_full n m' v i j G Hi Hj') as L. rewrite Em in L. exact L.
  - intros B. destruct (tight_inf n m' S i j B Hi Hj' Em) as (v & G & L). exists v. rewrite EQ. auto.
Qed.
Print Assumptions C24_closure_tight.

(** x0 + x1 <= 3, x0 - x1 <= 2 : closure finds 2 x0 <= 5 *)
Definition ex24 : hmat := upd (upd (hmat_top 2) (matpos 3 0) (Fin 3)) (matpos 2 0) (Fin 2).
Example C24_example : wfm 2 ex24 /\ snd (hmat_close (N:=exact_num) ex24 2) = false /\
  bequal (fst (hmat_close (N:=exact_num) ex24 2) (matpos 1 0)) (Fin 5) = true /\
  ex24 (matpos 1 0) = PInf.
Proof.
  split; [|repeat split; vm_compute; reflexivity].
  intros i j Hi Hj. unfold ex24, upd, wfm.
  repeat (match goal with |- context [Nat.eqb ?a ?b] => destruct (Nat.eqb a b); [discriminate|] end).
  apply top_wfm; auto.
Qed.

(** C25, any rounding: incremental closure never changes the set of points. *)
Theorem C25_incremental_sound : forall (N : numtype) (n x : nat) (m m' : hmat) (b : bool),
  x < n -> hmat_close_incremental (N:=N) m n x = (m', b) ->
  (b = true -> forall v, ~ gam n m v) /\
  (b = false -> forall v, gam n m v <-> gam n m' v).
Proof.
  intros N n x m m' b Hx H. split.
  - intros -> v G. destruct (close_inc_sound n m x v m' true Hx H) as [F _]. specialize (F G). discriminate.
  - intros -> v. apply (close_inc_sound n m x v m' false Hx H). auto.
Qed.
Print Assumptions C25_incremental_sound.

(** C25, exact numbers: on a closed matrix modified arbitrarily on the
    constraints of one variable, it gives the answer and the matrix of the full
    closure. *)
Theorem C25_incremental_equals_full : forall (n x : nat) (m0 m m' : hmat),
  wfm n m0 -> hmat_close (N:=exact_num) m0 n = (m, false) ->
  x < n -> wfm n m' ->
  (forall i j, i < 2 * n -> j <= or1 i -> i / 2 <> x -> j / 2 <> x -> m' (matpos i j) = m (matpos i j)) ->
  let '(mi, bi) := hmat_close_incremental (N:=exact_num) m' n x in
  let '(mf, bf) := hmat_close (N:=exact_num) m' n in
  bi = bf /\
  (bi = false -> forall i j, i < 2 * n -> j < 2 * n -> bequal (mi (matpos2 i j)) (mf (matpos2 i j)) = true).
Proof. exact close_inc_same. Qed.
Print Assumptions C25_incremental_equals_full.

Example C25_example :
  let m := fst (hmat_close (N:=exact_num) ex24 2) in
  let m' := upd m (matpos 0 1) (Fin (-4)) in
  snd (hmat_close (N:=exact_num) ex24 2) = false /\
  snd (hmat_close_incremental (N:=exact_num) m' 2 0) = false /\
  bequal (fst (hmat_close_incremental (N:=exact_num) m' 2 0) (matpos 3 2)) (Fin 2) = true /\
  bequal (m' (matpos 3 2)) PInf = true.
Proof. repeat split; vm_compute; reflexivity. Qed.

(** Properties C30 and C37: adding, removing, permuting, duplicating and folding dimensions. *)
From Coq Require Import Arith Lia List ZArith QArith Qreals Reals Lra Bool Sorted.
From Verif Require Import Bound BoundFacts Util Itv Linexpr OctMat OctIdx OctClose OctGeom OctGeom2 Oct OctFacts OctFacts2 OctFacts3 OctForget OctResize2 OctResize3 OctExpand OctFold PropOctLattice.
Import ListNotations.
Open Scope nat_scope.

Lemma gamo_ext' : forall a v w, (forall x, v x = w x) -> (gamo a v <-> gamo a w).
Proof.
  assert (G : forall a v w, (forall x, v x = w x) -> gamo a v -> gamo a w).
  { intros a v w H (A & B & C). split; auto.
    assert (K : forall m, gam (odim a) m v -> gam (odim a) m w).
    { intros m Gm i j Hi Hj. rewrite (lit_ext w v i), (lit_ext w v j) by auto. apply Gm; auto. }
    split; intros; apply K; auto. }
  intros a v w H. split; apply G; auto.
Qed.
(** ** C30 *)
(** [dimchange_add_ok]: positions are sorted and at most the dimension.  Dimension [x] of the argument is
    dimension [x + number of positions <= x] of the result; the t-th new dimension is at [t + nth t pos]. *)
Theorem C30_add_dimensions_exact : forall (a : oct) (pos : list nat) (intdim : nat) (project : bool),
  wfo a -> dimchange_add_ok (odim a) pos ->
  odim (oct_add_dimensions a pos intdim project) = odim a + length pos /\
  forall w, gamo (oct_add_dimensions a pos intdim project) w <->
    gamo a (fun x => w (x + length (filter (fun p => p <=? x) pos))) /\
    (project = true -> forall t, t < length pos -> w (t + nth t pos 0) = 0%R).
Proof. intros. split; [apply add_dimensions_dim|]. intros. apply add_dimensions_exact; auto. Qed.
Print Assumptions C30_add_dimensions_exact.
(** Dimension [x] kept by a removal becomes [x - number of removed positions < x]. *)
Theorem C30_remove_dimensions_sound : forall (N : numtype) (algo : Z) (a : oct) (pos : list nat) (intdim : nat),
  wfo a -> dimchange_rem_ok (odim a) pos ->
  odim (oct_remove_dimensions (N:=N) algo a pos intdim) = odim a - length pos /\
  forall v w, gamo a v -> (forall x, x < odim a -> ~ In x pos -> w (x - length (filter (fun p => p <? x) pos)) = v x) ->
  gamo (oct_remove_dimensions (N:=N) algo a pos intdim) w.
Proof. intros. split; [apply remove_dimensions_dim|]. intros v w G Hw. apply remove_sound with v; auto. Qed.
Print Assumptions C30_remove_dimensions_sound.
Theorem C30_remove_dimensions_exact : forall (algo : Z) (a : oct) (pos : list nat) (intdim : nat),
  (0 <= algo)%Z -> exo a -> dimchange_rem_ok (odim a) pos ->
  forall w, gamo (oct_remove_dimensions (N:=exact_num) algo a pos intdim) w <->
    exists v, gamo a v /\ forall x, x < odim a -> ~ In x pos -> w (x - length (filter (fun p => p <? x) pos)) = v x.
Proof. intros. apply remove_exact; auto. Qed.
Print Assumptions C30_remove_dimensions_exact.
(** Dimension [x] becomes dimension [perm[x]]. *)
Theorem C30_permute_dimensions_exact : forall (a : oct) (perm : list nat), wfo a ->
  length perm = odim a -> (forall i, i < odim a -> nth i perm 0 < odim a) ->
  (forall i j, i < odim a -> j < odim a -> nth i perm 0 = nth j perm 0 -> i = j) ->
  odim (oct_permute_dimensions a perm) = odim a /\
  forall v w, (forall x, w (nth x perm 0) = v x) -> (gamo (oct_permute_dimensions a perm) w <-> gamo a v).
Proof.
  intros a perm W H1 H2 H3. split; [apply permute_dimensions_dim|]. intros v w Hw.
  assert (P : is_perm (odim a) perm) by (split; auto).
  rewrite (permute_dimensions_exact a perm w W P). apply gamo_ext'. intros; apply Hw.
Qed.
Print Assumptions C30_permute_dimensions_exact.
(** x0 of the triangle becomes x1 after inserting two dimensions at 0 and 1, and is unchanged by removing them *)
Example C30_example : exo exTri /\ dimchange_add_ok 2 [0; 1] /\ dimchange_rem_ok 2 [1] /\
  (match best (oct_add_dimensions exTri [0; 1] 0 true) with
   | Some m => bequal (m (matpos 3 2)) (Fin 2) && bequal (m (matpos2 6 2)) PInf && bequal (m (matpos 7 3)) (Fin (-1 # 2)) && bequal (m (matpos 1 0)) (Fin 0)
   | None => false end) = true /\
  (match best (oct_remove_dimensions (N:=exact_num) 0 exTri [1] 0) with
   | Some m => bequal (m (matpos 0 1)) (Fin (-1)) && bequal (m (matpos 1 0)) (Fin 2)
   | None => false end) = true /\
  (match best (oct_permute_dimensions exTri [1; 0]) with
   | Some m => bequal (m (matpos2 3 1)) PInf && bequal (m (matpos2 1 3)) (Fin (-1 # 2))
   | None => false end) = true.
Proof.
  split; [exact exTri_exo|]. split; [|split].
  - split; [discriminate|]. split; [repeat constructor|]. simpl. intuition.
  - split; [discriminate|]. split; [repeat constructor|]. simpl. intuition.
  - vm_compute. auto.
Qed.

(** ** C37 *)
(** The [n] copies of [d] are inserted after the integer dimensions if [d] is one of them, at the end otherwise.
    A point is in the result iff taking for [d] its own value or the one of any copy gives a point of the argument. *)
Theorem C37_expand_exact : forall (a : oct) (d n : nat), wfo a -> d < odim a ->
  let p := if d <? oint a then oint a else odim a in
  let shift x := if x <? p then x else x + n in
  odim (oct_expand a d n) = odim a + n /\
  forall w, gamo (oct_expand a d n) w <->
    gamo a (fun x => w (shift x)) /\
    forall k, k < n -> gamo a (fun x => if x =? d then w (p + k) else w (shift x)).
Proof. intros. split; [apply expand_dim|]. intros w. apply expand_exact; auto. Qed.
Print Assumptions C37_expand_exact.
(** [folded_point n t0 ts t v w]: [w] is [v] where dimensions [ts] are removed and [t0] takes the value of [t]. *)
Definition folded_point (n t0 : nat) (ts : list nat) (t : nat) (v w : nat -> R) : Prop :=
  w t0 = v t /\ forall x, x < n -> ~ In x ts -> x <> t0 -> w (x - length (filter (fun p => p <? x) ts)) = v x.
Theorem C37_fold_sound : forall (N : numtype) (algo : Z) (a : oct) (t0 : nat) (ts : list nat), wfo a -> fold_ok (odim a) t0 ts ->
  odim (oct_fold (N:=N) algo a t0 ts) = odim a - length ts /\
  forall t v w, In t (t0 :: ts) -> gamo a v -> folded_point (odim a) t0 ts t v w -> gamo (oct_fold (N:=N) algo a t0 ts) w.
Proof. intros. split; [apply fold_dim|]. intros t v w It G F. apply fold_sound with t v; auto. Qed.
Print Assumptions C37_fold_sound.
(** With exact numbers it is the smallest octagon with these points. *)
Theorem C37_fold_best : forall (algo : Z) (a : oct) (t0 : nat) (ts : list nat) (c : oct), (0 <= algo)%Z -> exo a ->
  fold_ok (odim a) t0 ts -> wfo c -> odim c = odim a - length ts ->
  (forall t v w, In t (t0 :: ts) -> gamo a v -> folded_point (odim a) t0 ts t v w -> gamo c w) ->
  forall w, gamo (oct_fold (N:=exact_num) algo a t0 ts) w -> gamo c w.
Proof. intros. eapply fold_best; eauto. Qed.
Print Assumptions C37_fold_best.
Example C37_example : exo exTri /\ fold_ok 2 0 [1] /\
  (match best (oct_expand exTri 1 2) with
   | Some m => bequal (m (matpos2 5 1)) (Fin (-1 # 2)) && bequal (m (matpos2 7 6)) (Fin 2) && bequal (m (matpos2 7 5)) PInf
   | None => false end) = true /\
  (match best (oct_fold (N:=exact_num) 0 exTri 0 [1]) with
   | Some m => bequal (m (matpos 0 1)) (Fin 0) && bequal (m (matpos 1 0)) (Fin 2) && bequal (m (matpos 0 0)) (Fin 0)
   | None => false end) = true.
Proof.
  split; [exact exTri_exo|]. split; [|vm_compute; auto].
  split; [discriminate|]. split; [repeat constructor|]. simpl. intuition.
Qed.

(** Properties C29, C35, C36 and the variable-bound part of C34. *)
From Coq Require Import Arith Lia List ZArith QArith Qreals Reals Lra Bool.
From Verif Require Import Bound BoundFacts Util Itv Linexpr OctMat OctIdx OctClose OctGeom OctGeom2 Oct OctFacts OctFacts2 OctFacts3 OctForget PropOctLattice.
Import ListNotations.
Open Scope nat_scope.

(** ** C29 *)
Theorem C29_forget_sound : forall (N : numtype) (algo : Z) (a : oct) (l : list nat) (project : bool),
  wfo a -> (forall d, In d l -> d < odim a) ->
  forall v w, gamo a w -> (forall x, ~ In x l -> v x = w x) -> (project = true -> forall x, In x l -> v x = 0%R) ->
  gamo (oct_forget_array (N:=N) algo a l project) v.
Proof. intros. apply forget_sound with w; auto. Qed.
Print Assumptions C29_forget_sound.
Theorem C29_forget_exact : forall (algo : Z) (a : oct) (l : list nat) (project : bool),
  (0 <= algo)%Z -> exo a -> (forall d, In d l -> d < odim a) ->
  forall v, gamo (oct_forget_array (N:=exact_num) algo a l project) v <->
   (exists w, gamo a w /\ forall x, ~ In x l -> v x = w x) /\ (project = true -> forall x, In x l -> v x = 0%R).
Proof. intros. apply forget_exact; auto. Qed.
Print Assumptions C29_forget_exact.
(** forgetting x1 in the triangle keeps 1/2 <= x0 <= 1, a consequence of constraints on x1 *)
Example C29_example : exo exTri /\
  (match best (oct_forget_array (N:=exact_num) 0 exTri [1] false) with
   | Some m => bequal (m (matpos 0 1)) (Fin (-1)) && bequal (m (matpos 1 0)) (Fin 2) && bequal (m (matpos 3 2)) PInf
   | None => false end) = true.
Proof. split; [exact exTri_exo|vm_compute; reflexivity]. Qed.

(** ** C34, variables *)
(** Any number types (of the matrices and of the scalars given to the user). *)
Theorem C34_bound_dimension_sound : forall (N U : numtype) (algo : Z) (a : oct) (d : nat) (i : uitv), wfo a -> d < odim a ->
  (forall v, gamo a v -> in_u (v d) (oct_bound_dimension (N:=N) (U:=U) algo a d)) /\
  (oct_sat_interval (N:=N) (U:=U) algo a d i = true -> forall v, gamo a v -> in_u (v d) i) /\
  (oct_is_dimension_unconstrained a d = true -> forall v r, gamo a v -> gamo a (vset v d r)).
Proof.
  intros N U z a d i W D. split; [|split]; intros.
  - apply bound_dimension_sound; auto.
  - apply (sat_interval_sound (N:=N) (U:=U) z a d i v); auto.
  - apply unconstrained_sound; auto.
Qed.
Print Assumptions C34_bound_dimension_sound.
Theorem C34_bound_dimension_exact : forall (algo : Z) (a : oct) (d : nat) (i : uitv), (0 <= algo)%Z -> exo a -> d < odim a ->
  (forall r, in_u r (oct_bound_dimension (N:=exact_num) (U:=exact_num) algo a d) <-> exists v, gamo a v /\ v d = r) /\
  (oct_sat_interval (N:=exact_num) (U:=exact_num) algo a d i = true <-> forall v, gamo a v -> in_u (v d) i) /\
  (forall v, gamo a v -> (oct_is_dimension_unconstrained a d = true <-> forall r, gamo a (vset v d r))).
Proof.
  intros z a d i Hz X D. split; [|split].
  - intros. apply bound_dimension_exact; auto.
  - apply sat_interval_exact; auto.
  - intros v G. split.
    + intros U r. apply unconstrained_sound; auto. apply X.
    + intros H. apply unconstrained_complete with v; auto. apply X.
Qed.
Print Assumptions C34_bound_dimension_exact.
Example C34_example : exo exTri /\
  (let b := oct_bound_dimension (N:=exact_num) (U:=exact_num) 0 exTri 0 in
   bequal (fst b) (Fin (1 # 2)) && bequal (snd b) (Fin 1)) = true /\
  oct_sat_interval (N:=exact_num) (U:=exact_num) 0 exTri 1 (Fin 0, Fin (1 # 2)) = true /\
  oct_sat_interval (N:=exact_num) (U:=exact_num) 0 exTri 1 (Fin 0, Fin (1 # 3)) = false.
Proof. split; [exact exTri_exo|vm_compute; auto]. Qed.

(** ** C35 *)
Theorem C35_to_lincons_exact : forall (a : oct) v, wfo a ->
  (gamo a v <-> forall c, In c (oct_to_lincons_array (U:=exact_num) a) -> sat_cons c v).
Proof. intros. apply to_lincons_exact; auto. Qed.
Print Assumptions C35_to_lincons_exact.
(** scalars rounded when exported (no overflow to infinity): no point is lost *)
Theorem C35_to_lincons_sound : forall (U : numtype) (a : oct) v, (forall p, rnd U p <> PInf) -> wfo a -> gamo a v ->
  forall c, In c (oct_to_lincons_array (U:=U) a) -> sat_cons c v.
Proof. intros U a v H W G c I. apply (to_lincons_sound U a); auto. Qed.
Print Assumptions C35_to_lincons_sound.
(** five constraints; the one of the oblique side is x0 - x1 - 1/2 >= 0 *)
Example C35_example : exo exTri /\ length (oct_to_lincons_array (U:=exact_num) exTri) = 5 /\
  (match nth 3 (oct_to_lincons_array (U:=exact_num) exTri) lincons_unsat with
   | mkCons CSupEq (mkLin (Scal (Fin k)) (Sparse [(Some 0, Scal (Fin c0)); (Some 1, Scal (Fin c1))])) None =>
       Qeq_bool k (-1 # 2) && Qeq_bool c0 1 && Qeq_bool c1 (-1)
   | _ => false end) = true.
Proof. split; [exact exTri_exo|vm_compute; auto]. Qed.

(** ** C36 *)
Theorem C36_of_box_exact : forall (intdim realdim : nat) (t : option (list uitv)), wf_box (intdim + realdim) t ->
  forall v, gamo (oct_of_box (N:=exact_num) intdim realdim t) v <-> box_pts (intdim + realdim) t v.
Proof. intros. apply of_box_exact; auto. Qed.
Print Assumptions C36_of_box_exact.
Theorem C36_of_box_sound : forall (N : numtype) (intdim realdim : nat) (t : option (list uitv)), wf_box (intdim + realdim) t ->
  forall v, box_pts (intdim + realdim) t v -> gamo (oct_of_box (N:=N) intdim realdim t) v.
Proof. intros. apply of_box_sound; auto. Qed.
Print Assumptions C36_of_box_sound.
(** each interval of to_box is exactly the set of values of its variable *)
Theorem C36_to_box_smallest : forall (algo : Z) (a : oct), (0 <= algo)%Z -> exo a ->
  length (oct_to_box (N:=exact_num) (U:=exact_num) algo a) = odim a /\
  forall d r, d < odim a ->
    (in_u r (nth d (oct_to_box (N:=exact_num) (U:=exact_num) algo a) (MInf, PInf)) <-> exists v, gamo a v /\ v d = r).
Proof.
  intros z a Hz X. split; [apply to_box_length|]. intros d r D. rewrite to_box_nth by auto.
  apply bound_dimension_exact; auto.
Qed.
Print Assumptions C36_to_box_smallest.
Theorem C36_to_box_sound : forall (N U : numtype) (algo : Z) (a : oct) v d, wfo a -> gamo a v -> d < odim a ->
  in_u (v d) (nth d (oct_to_box (N:=N) (U:=U) algo a) (MInf, PInf)).
Proof. intros N U z a v d W G D. rewrite to_box_nth by auto. apply bound_dimension_sound; auto. Qed.
Print Assumptions C36_to_box_sound.
Example C36_example : wf_box (0 + 2) (Some [(Fin (1 # 2), Fin 1); (Fin 0, PInf)]) /\
  oct_is_bottom (N:=exact_num) 0 (oct_of_box (N:=exact_num) 0 2 (Some [(Fin (1 # 2), Fin 1); (Fin 0, PInf)])) = false /\
  oct_is_bottom (N:=exact_num) 0 (oct_of_box (N:=exact_num) 0 2 (Some [(Fin 2, Fin 1); (Fin 0, PInf)])) = true.
Proof. split; [split; [reflexivity|]; simpl; intros b [<-|[<-|[]]]; split; discriminate|vm_compute; auto]. Qed.

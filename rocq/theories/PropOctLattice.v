(** Properties C26-C28, C52-C54: predicates and lattice operations of octagons.

    [gamo a v] says that the point [v] belongs to octagon [a] (OctFacts.v);
    [wfo] and [exo] are the representation invariants, established by the
    constructors and kept by every operation (see C55). *)
From Coq Require Import Arith Lia List ZArith QArith Qreals Reals Lra Bool.
From Verif Require Import Bound BoundFacts Util Itv Linexpr OctMat OctIdx OctClose OctGeom OctGeom2 Oct OctFacts OctFacts2 OctFacts3.
Import ListNotations.
Open Scope nat_scope.

(** Literal octagons for the examples: [lmat l] is the half-matrix of entries [l]. *)
Definition lmat (l : list bound) : hmat := fun p => nth p l PInf.
Definition okb (n : nat) (l : list bound) : bool :=
  forallb (fun p => match lmat l p with MInf => false | _ => true end) (seq 0 (matsize n)) &&
  forallb (fun i => (0 <=? bsgn (lmat l (matpos i i)))%Z) (seq 0 (2 * n)).
Lemma okb_exo : forall n k l, okb n l = true -> k <= n -> exo (mkOct (Some (lmat l)) None n k).
Proof.
  intros n k l H Hk. unfold okb in H. apply andb_prop in H. destruct H as [H1 H2].
  rewrite forallb_forall in H1, H2. apply exo_single_m; auto.
  - intros i j Hi Hj. specialize (H1 (matpos i j)). intros Ez. rewrite Ez in H1.
    assert (X : false = true); [|discriminate]. apply H1. apply in_seq. split; [lia|].
    rewrite <- (matpos2_half i j Hj). apply matpos2_lt; auto. pose proof (or1_lt n i Hi). lia.
  - intros x Hx. apply Z.leb_le. apply H2. apply in_seq. lia.
Qed.
Notation "'oo'" := PInf (only parsing).
(** a triangle: 0<=x0<=1, 0<=x1<=1,  x1 - x0 <= -1/2 (not closed) *)
Definition exTri : oct := mkOct (Some (lmat
  [Fin 0; Fin 0;
   Fin 2; Fin 0;
   oo; oo; Fin 0; Fin 0;
   oo; Fin (-1 # 2); Fin 2; Fin 0])) None 2 0.
(** the box [l0,u0]x[l1,u1] *)
Definition lbox (l0 u0 l1 u1 : Q) : oct := mkOct (Some (lmat
  [Fin 0; Fin (-2 * l0); Fin (2 * u0); Fin 0; oo; oo; Fin 0; Fin (-2 * l1); oo; oo; Fin (2 * u1); Fin 0])) None 2 0.
Lemma exTri_exo : exo exTri.
Proof. apply okb_exo; auto. Qed.
Lemma lbox_exo : forall l0 u0 l1 u1, exo (lbox l0 u0 l1 u1).
Proof. intros. apply okb_exo; auto. Qed.

(** ** C26 *)
(** Any number type: a positive answer is right. *)
Theorem C26_predicates_sound : forall (N : numtype) (algo : Z) (a b : oct), wfo a -> wfo b -> odim a = odim b ->
  (oct_is_bottom (N:=N) algo a = true -> forall v, ~ gamo a v) /\
  (oct_is_top a = true -> forall v, gamo a v) /\
  (oct_is_leq (N:=N) algo a b = true -> forall v, gamo a v -> gamo b v) /\
  (oct_is_eq (N:=N) algo a b = true -> forall v, gamo a v <-> gamo b v).
Proof.
  intros N z a b Wa Wb D. split; [|split; [|split]]; intros H.
  - intros v. apply (is_bottom_sound (N:=N) z); auto.
  - apply is_top_spec; auto.
  - intros v. apply (is_leq_sound (N:=N) z); auto.
  - intros v. apply (is_eq_sound (N:=N) z a b); auto.
Qed.
Print Assumptions C26_predicates_sound.
(** Exact numbers: the answers are decisions. *)
Theorem C26_predicates_exact : forall (algo : Z) (a b : oct), (0 <= algo)%Z -> exo a -> exo b -> odim a = odim b ->
  (oct_is_bottom (N:=exact_num) algo a = true <-> forall v, ~ gamo a v) /\
  (oct_is_top a = true <-> forall v, gamo a v) /\
  (oct_is_leq (N:=exact_num) algo a b = true <-> forall v, gamo a v -> gamo b v) /\
  (oct_is_eq (N:=exact_num) algo a b = true <-> forall v, gamo a v <-> gamo b v).
Proof.
  intros z a b Hz Xa Xb D. split; [|split; [|split]].
  - apply is_bottom_exact; auto.
  - apply is_top_spec. apply Xa.
  - apply is_leq_exact; auto. apply Xb.
  - apply is_eq_exact; auto.
Qed.
Print Assumptions C26_predicates_exact.
(** The triangle is in the box [1/2,1]x[0,1/2]: found only through closure. *)
Example C26_example : exo exTri /\
  oct_is_bottom (N:=exact_num) 0 exTri = false /\ oct_is_leq (N:=exact_num) 0 exTri (lbox (1 # 2) 1 0 (1 # 2)) = true /\
  oct_is_leq (N:=exact_num) 0 (lbox (1 # 2) 1 0 (1 # 2)) exTri = false /\
  oct_is_leq (N:=exact_num) (-1) exTri (lbox (1 # 2) 1 0 (1 # 2)) = false /\
  oct_is_eq (N:=exact_num) 0 exTri (lbox 0 1 0 1) = false.
Proof. split; [exact exTri_exo|]. vm_compute. auto. Qed.

(** ** C27 *)
Theorem C27_meet_exact : forall (a b : oct), wfo a -> wfo b -> odim a = odim b ->
  forall v, gamo (oct_meet a b) v <-> gamo a v /\ gamo b v.
Proof. intros. apply meet_exact; auto. Qed.
Print Assumptions C27_meet_exact.
Theorem C27_meet_array_exact : forall (a : oct) (l : list oct),
  (forall x, In x (a :: l) -> wfo x /\ odim x = odim a) ->
  forall v, gamo (oct_meet_array a l) v <-> (forall x, In x (a :: l) -> gamo x v).
Proof. intros. apply meet_array_exact; auto. Qed.
Print Assumptions C27_meet_array_exact.
Theorem C27_join_sound : forall (N : numtype) (algo : Z) (a : oct) (l : list oct),
  (forall x, In x (a :: l) -> wfo x /\ odim x = odim a) ->
  (forall b v, In b l -> (gamo a v \/ gamo b v) -> gamo (oct_join (N:=N) algo a b) v) /\
  (forall x v, In x (a :: l) -> gamo x v -> gamo (oct_join_array (N:=N) algo a l) v).
Proof.
  intros N z a l H. split.
  - intros b v I G. apply join_sound; auto; [apply H; left; auto| |symmetry]; apply H; right; auto.
  - intros x v I G. apply join_array_sound; eauto.
Qed.
Print Assumptions C27_join_sound.
Theorem C27_join_best : forall (algo : Z) (a b c : oct), (0 <= algo)%Z ->
  exo a -> exo b -> wfo c -> odim a = odim b -> odim a = odim c ->
  (forall v, gamo a v -> gamo c v) -> (forall v, gamo b v -> gamo c v) ->
  forall v, gamo (oct_join (N:=exact_num) algo a b) v -> gamo c v.
Proof. exact join_best. Qed.
Print Assumptions C27_join_best.
Theorem C27_join_array_best : forall (algo : Z) (a : oct) (l : list oct) (c : oct), (0 <= algo)%Z ->
  (forall x, In x (a :: l) -> exo x /\ odim x = odim a) -> wfo c -> odim c = odim a ->
  (forall x v, In x (a :: l) -> gamo x v -> gamo c v) ->
  forall v, gamo (oct_join_array (N:=exact_num) algo a l) v -> gamo c v.
Proof. exact join_array_best. Qed.
Print Assumptions C27_join_array_best.
(** join of the triangle with a point outside it; the best octagon keeps x1 <= x0 *)
Example C27_example : exo exTri /\ exo (lbox 2 2 2 2) /\
  (match best (oct_join (N:=exact_num) 0 exTri (lbox 2 2 2 2)) with
   | Some m => bequal (m (matpos2 0 2)) (Fin 0) && bequal (m (matpos 1 0)) (Fin 4) && bequal (m (matpos 0 1)) (Fin (-1))
   | None => false end) = true.
Proof. split; [exact exTri_exo|]. split; [apply lbox_exo|vm_compute; reflexivity]. Qed.

(** ** C28 *)
Theorem C28_widening_sound : forall (N : numtype) (algo : Z) (a b : oct), wfo a -> wfo b -> odim a = odim b ->
  forall v, gamo a v \/ gamo b v -> gamo (oct_widening (N:=N) algo a b) v.
Proof. intros. apply widening_sound; auto. Qed.
Print Assumptions C28_widening_sound.
(** [r k]: iterates; [q k]: the iterate after queries that may have cached its
    closure; [a k]: arbitrary right arguments.  Among any number [t] of steps at
    most 1 + matsize n change the set of points. *)
Theorem C28_widening_terminates : forall (N : numtype) (n : nat) (algo : nat -> Z) (r q a : nat -> oct),
  wfo (r 0) -> odim (r 0) = n -> (forall k, wfo (a k) /\ odim (a k) = n) ->
  (forall k, algo k <> oct_pre_widening /\ algo k <> (- oct_pre_widening)%Z) ->
  (forall k, q k = r k \/ q k = oct_cache_closure (N:=N) (r k)) ->
  (forall k, r (S k) = oct_widening (N:=N) (algo k) (q k) (a k)) ->
  forall t, exists changing : list nat, length changing <= 1 + 2 * n * (n + 1) /\
    forall k, k < t -> ~ In k changing -> forall v, gamo (r (S k)) v <-> gamo (r k) v.
Proof.
  intros N n z r q a W D A Z Q S t. destruct (widening_terminates N n z r q a W D A Z Q S t) as (s & L & K).
  exists s. split; [unfold matsize in L; lia|auto].
Qed.
Print Assumptions C28_widening_terminates.
(** a growing sequence: x0 in [0,k]; one step to infinity, then stationary,
    although the iterate is closed between steps *)
Definition exGrow (k : Z) : oct := mkOct (Some (lmat [Fin 0; Fin 0; Fin (2 * k # 1); Fin 0])) None 1 0.
Example C28_example : forall k, exo (exGrow k) /\ odim (exGrow k) = 1.
Proof. intros k. split; [|reflexivity]. apply okb_exo; auto. Qed.
Example C28_example' :
  let w := oct_widening (N:=exact_num) 0 (exGrow 1) (exGrow 2) in
  oct_is_eq (N:=exact_num) 0 w (exGrow 1) = false /\
  oct_is_eq (N:=exact_num) 0 (oct_widening (N:=exact_num) 0 (oct_cache_closure (N:=exact_num) w) (exGrow 3)) w = true.
Proof. vm_compute. auto. Qed.

(** ** C52 narrowing *)
Theorem C52_narrowing_between : forall (N : numtype) (algo : Z) (a b : oct) v, wfo a -> wfo b -> odim a = odim b ->
  (gamo a v /\ gamo b v -> gamo (oct_narrowing (N:=N) algo a b) v) /\
  (gamo (oct_narrowing (N:=N) algo a b) v -> gamo a v).
Proof. intros. apply narrowing_bounds; auto. Qed.
Print Assumptions C52_narrowing_between.
Theorem C52_narrowing_terminates : forall (N : numtype) (n : nat) (algo : nat -> Z) (r a : nat -> oct),
  wfo (r 0) -> odim (r 0) = n -> (forall k, wfo (a k) /\ odim (a k) = n) ->
  (forall k, r (S k) = oct_narrowing (N:=N) (algo k) (r k) (a k)) ->
  forall t, exists changing : list nat, length changing <= 1 + 2 * n * (n + 1) /\
    forall k, k < t -> ~ In k changing -> forall v, gamo (r (S k)) v <-> gamo (r k) v.
Proof.
  intros N n z r a W D A S t. destruct (narrowing_terminates (N:=N) n z r a W D A S t) as (s & L & K).
  exists s. split; [unfold matsize in L; lia|auto].
Qed.
Print Assumptions C52_narrowing_terminates.
(** narrowing x0 >= 0 by [0,2] recovers the bound 2, a further step to [0,1] keeps it *)
Example C52_example :
  let w := oct_of_box (N:=exact_num) 0 1 (Some [(Fin 0, PInf)]) in
  let r := oct_narrowing (N:=exact_num) 0 w (exGrow 2) in
  oct_is_eq (N:=exact_num) 0 r (exGrow 2) = true /\
  oct_is_eq (N:=exact_num) 0 (oct_narrowing (N:=exact_num) 0 r (exGrow 1)) (exGrow 2) = true.
Proof. vm_compute. auto. Qed.

(** ** C53 widening with thresholds *)
Theorem C53_widening_thresholds_sound : forall (N : numtype) (algo : Z) (a b : oct) (ts : list bound),
  wfo a -> wfo b -> odim a = odim b ->
  forall v, gamo a v \/ gamo b v -> gamo (oct_widening_thresholds (N:=N) algo a b ts) v.
Proof. intros. apply widening_thr_sound; auto. Qed.
Print Assumptions C53_widening_thresholds_sound.
Theorem C53_widening_thresholds_terminates : forall (N : numtype) (n : nat) (ts : list bound) (algo : nat -> Z) (r q a : nat -> oct),
  wfo (r 0) -> odim (r 0) = n -> (forall k, wfo (a k) /\ odim (a k) = n) ->
  (forall k, q k = r k \/ q k = oct_cache_closure (N:=N) (r k)) ->
  (forall k, r (S k) = oct_widening_thresholds (N:=N) (algo k) (q k) (a k) ts) ->
  forall t, exists changing : list nat, length changing <= 1 + 2 * n * (n + 1) * (length ts + 1) /\
    forall k, k < t -> ~ In k changing -> forall v, gamo (r (S k)) v <-> gamo (r k) v.
Proof.
  intros N n ts z r q a W D A Q S t. destruct (widening_thr_terminates N n ts z r q a W D A Q S t) as (s & L & K).
  exists s. split; [unfold matsize in L; lia|auto].
Qed.
Print Assumptions C53_widening_thresholds_terminates.
(** thresholds bound the matrix entries, i.e. twice the variable: 2*x0 <= 10 *)
Example C53_example :
  oct_is_eq (N:=exact_num) 0 (oct_widening_thresholds (N:=exact_num) 0 (exGrow 1) (exGrow 2) [Fin 3; Fin 10]) (exGrow 5) = true.
Proof. vm_compute. auto. Qed.

(** ** C54 epsilon-enlargement *)
Theorem C54_add_epsilon_sound : forall (N : numtype) (a b : oct) (eps : bound) v, wfo a -> wfo b -> odim a = odim b ->
  le_rb 0 eps ->
  (gamo a v -> gamo (oct_add_epsilon (N:=N) a eps) v) /\
  (gamo a v \/ gamo b v -> gamo (oct_add_epsilon_bin (N:=N) a b eps) v).
Proof. intros. split; intros; [apply add_epsilon_sound|apply add_epsilon_bin_sound]; auto. Qed.
Print Assumptions C54_add_epsilon_sound.
Example C54_example :
  oct_is_eq (N:=exact_num) 0 (oct_add_epsilon (N:=exact_num) (exGrow 2) (Fin (1 # 2)))
    (oct_of_box (N:=exact_num) 0 1 (Some [(Fin (-1), Fin 3)])) = true.
Proof. vm_compute. auto. Qed.

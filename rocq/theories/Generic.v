(** Generic operations: /repo/apron/ap_generic.c (arrays of values, parallel assignment and
    substitution of linear expressions) and the widening with thresholds of
    /repo/apron/ap_abstract0.c.

    A domain is given by the entries of the manager's table these functions call.  An operation
    returns its result and the flag "exact" it leaves in the manager; the flag "best" and the
    ownership of the arguments (destructive, free) are not modelled.  Functions on expression trees
    (sat_tcons, bound_texpr, meet_intlinearize_tcons_array, asssub_texpr_array) are not in this
    file. *)
From Coq Require Import Arith ZArith QArith Qreals Reals Lra Lia Bool List Sorted.
From Verif Require Import Bound Linexpr ApCore.
Import ListNotations.
Open Scope nat_scope.

Record gdom : Type := mkGdom {
  gd : Type;
  gd_int : gd -> nat;                                            (* dimension: integer ones *)
  gd_real : gd -> nat;                                           (* dimension: real ones *)
  gd_is_bottom : gd -> bool;
  gd_add : gd -> list nat -> nat -> gd * bool;                   (* add_dimensions, project = false; positions, number of integer ones *)
  gd_permute : gd -> list nat -> gd * bool;
  gd_remove : gd -> list nat -> nat -> gd * bool;
  gd_meet : gd -> gd -> gd * bool;
  gd_meet_lincons : gd -> list lincons -> option (gd * bool);    (* None: abort *)
}.

(** ap_generic_meetjoin_array, ap_generic.c 116-141.  [None]: an empty array is read outside its
    bounds. *)
Definition meetjoin_array {D : Type} (op : D -> D -> D * bool) (copy_exact : bool) (tab : list D) : option (D * bool) :=
  match tab with
  | [] => None
  | [a] => Some (a, copy_exact)
  | a :: b :: tab =>
    Some (fold_left (fun s c => let '(res, exact) := s in let '(r, x) := op res c in (r, exact && x)) tab (op a b))
  end.

(** steps 1 and 2 of ap_generic_asssub_linexpr_array, 268-285 *)
Definition count_int (ni : nat) (tdim : list nat) : nat := length (filter (fun d => Nat.ltb d ni) tdim).
Definition primed_positions (ni nr : nat) (tdim : list nat) : list nat :=
  let si := count_int ni tdim in repeat ni si ++ repeat (ni + nr) (length tdim - si).
(** step 3, 287-309: the pairs (dim, dimp) exchanged, in the order of the loop *)
Fixpoint primed_pairs (ni nr si : nat) (index_int index_real : nat) (tdim : list nat) : list (nat * nat) :=
  match tdim with
  | [] => []
  | dim :: tdim =>
    if Nat.ltb dim ni then (dim, ni + index_int) :: primed_pairs ni nr si (S index_int) index_real tdim
    else (dim + si, ni + si + nr + index_real) :: primed_pairs ni nr si index_int (S index_real) tdim
  end.
Definition swap_pairs (ps : list (nat * nat)) (perm : list nat) : list nat :=
  fold_left (fun perm p => set_nth (snd p) (fst p) (set_nth (fst p) (snd p) perm)) ps perm.
Definition primed_perm (ni nr : nat) (tdim : list nat) : list nat :=
  swap_pairs (primed_pairs ni nr (count_int ni tdim) 0 0 tdim) (dimperm_id (ni + nr + length tdim)).
(** step 5, 315-330.  The result of ap_linexpr0_set_coeff_scalar_double is ignored: outside a dense
    expression nothing is written. *)
Definition primed_cons (ni : nat) (pos perm : list nat) (tdim : list nat) (t : nat * linexpr) : lincons :=
  let dim := if Nat.leb ni (fst t) then fst t + count_int ni tdim else fst t in
  let dimp := nth dim perm 0 in
  let e := linexpr_add_dimensions (snd t) pos in
  mkCons CEq (match linexpr_set_coeff e dimp (Scal (Fin (-1))) with Some e' => e' | None => e end) None.

(** ap_generic_asssub_linexpr_array, 247-372 *)
Definition asssub_linexpr_array (G : gdom) (assign : bool) (abs : gd G) (asn : list (nat * linexpr)) (dest : option (gd G)) : option (gd G * bool) :=
  if gd_is_bottom G abs then Some (abs, true)
  else
    let ni := gd_int G abs in
    let nr := gd_real G abs in
    let tdim := map fst asn in
    let si := count_int ni tdim in
    let pos := primed_positions ni nr tdim in
    let perm := primed_perm ni nr tdim in
    let '(abs2, exact) := gd_add G abs pos si in
    let array := map (primed_cons ni pos perm tdim) asn in
    let '(abs2, exact) := if assign then (abs2, exact) else let '(a, x) := gd_permute G abs2 perm in (a, exact && x) in
    let '(abs2, exact) :=
      match dest with
      | None => (abs2, exact)
      | Some dest =>
        let '(dest2, x1) := gd_add G dest pos si in
        let '(dest2, x2) := if assign then gd_permute G dest2 perm else (dest2, true) in
        let '(a, x3) := gd_meet G abs2 dest2 in
        (a, exact && x1 && x2 && x3)
      end in
    match gd_meet_lincons G abs2 array with
    | None => None
    | Some (abs2, x) =>
      let exact := exact && x in
      let '(abs2, exact) := if assign then let '(a, x) := gd_permute G abs2 perm in (a, exact && x) else (abs2, exact) in
      let '(abs2, x) := gd_remove G abs2 (dimchange_add_invert pos) si in
      Some (abs2, exact && x)
    end.

(** ap_abstract0_widening_threshold, ap_abstract0.c 1535-1561: the loop moves the constraints that
    are not satisfied to the end of the array. [fuel]: at most [size] rounds. *)
Fixpoint threshold_loop (sat : lincons -> bool) (fuel : nat) (p : list lincons) (i j : nat) : list lincons * nat :=
  match fuel with
  | O => (p, i)
  | S fuel =>
    let size := length p in
    if Nat.ltb i (size - j) then
      let c := nth i p (mkCons CEq (mkLin czero (Sparse [])) None) in
      if sat c then threshold_loop sat fuel p (S i) j
      else
        let j := S j in
        let d := nth (size - j) p (mkCons CEq (mkLin czero (Sparse [])) None) in
        threshold_loop sat fuel (set_nth (size - j) c (set_nth i d p)) i j
    else (p, i)
  end.
(** the value returned and the array as it is left *)
Definition widening_threshold {D : Type} (widening : D -> D -> option D) (sat_lincons : D -> lincons -> bool) (meet_lincons : D -> list lincons -> option D)
    (a1 a2 : D) (array : list lincons) : option D * list lincons :=
  let '(p, i) := threshold_loop (sat_lincons a2) (length array) array 0 0 in
  match widening a1 a2 with
  | None => (None, p)
  | Some value => (if Nat.ltb 0 i then meet_lincons value (firstn i p) else Some value, p)
  end.

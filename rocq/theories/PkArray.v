(** Model of the meet and of the join of an array of polyhedra (newpolka): pk_meetjoin.c 315-480 (poly_meet_array),
    506-515 (pk_meet_array), 621-676 (pk_join_array).

    The arrays are arrays of pointers, and the same polyhedron may occur several times: the polyhedra are in a heap
    (addresses are natural numbers, which are ordered as the pointers are), the array is a list of addresses.
    [None] stands for the dereference of a null pointer.  Same simplifications as in PkPoly.v; the empty array raises an exception, the model has only
    the returned polyhedron. *)
From Coq Require Import ZArith Bool List Lia.
Import ListNotations.
From Verif Require Import PkCone PkVec PkCherni PkSimplify PkMinimize PkPoly.
Open Scope nat_scope.

Definition heap : Type := nat -> poly.
Definition upd (h : heap) (a : nat) (p : poly) : heap := fun b => if Nat.eqb b a then p else h b.
(** 370-374 *)
Definition conv (meet lazy : bool) (p : poly) : poly := if lazy then poly_obtain_C_dual meet p else poly_chernikova_dual meet p.
(** 363-399: the conversion of the arguments.  [done] is po[0..i-1], [todo] is po[i..size-1].  An empty polyhedron ends the meet (None), and is exchanged with the last one for the join, [size] being decremented. *)
Definition last_first (q : list nat) : list nat := match rev q with [] => [] | b :: r => b :: rev r end.
Fixpoint scan (fuel : nat) (meet lazy : bool) (h : heap) (done todo : list nat) : option (list nat) * heap :=
  match fuel, todo with
  | S fuel, a :: q =>
    let h := upd h a (conv meet lazy (h a)) in
    if has (pC (h a)) then scan fuel meet lazy h (done ++ [a]) q
    else if meet then (None, h)
    else scan fuel meet lazy h done (last_first q)
  | _, _ => (Some done, h)
  end.
(** poly_meet (182-312) for two pointers, into a new polyhedron; 190-196: the same pointer *)
Definition meet2 (meet lazy exw algleq : bool) (h : heap) (a b : nat) : option (poly * heap) :=
  if Nat.eqb a b then let p := poly_meet_same meet lazy (h a) in Some (p, upd h a p)
  else match poly_meet meet lazy exw algleq false (h a) (h b) with None => None | Some (po, pa, pb) => Some (po, upd (upd h a pa) b pb) end.
(** 419-424 and 445-450: merge of the sorted matrices.  The tests of 420 on the matrix never fails after [scan]. *)
Fixpoint merge_all (h : heap) (C : list pvec) (l : list nat) : list pvec * heap :=
  match l with
  | [] => (C, h)
  | a :: l => let h := upd h a (poly_obtain_sorted_C (h a)) in merge_all h (match pC (h a) with Some B => matrix_merge C B | None => C end) l
  end.
(** 430-440: the selected start polyhedron *)
Definition better (b a : poly) : bool :=
  Nat.ltb (pnbeq a) (pnbeq b) || (Nat.eqb (pnbeq b) (pnbeq a) && (Nat.ltb (pnbline b) (pnbline a) ||
    match pC b, pC a with Some B, Some A => Nat.ltb (length A) (length B) | _, _ => false end)).
Fixpoint select (h : heap) (q : list nat) (i j : nat) (a : nat) : nat :=
  match q with [] => j | b :: q => if better (h b) (h a) then select h q (S i) i b else select h q (S i) j a end.
(** 412-470: at least three polyhedra which are not empty *)
Definition general (meet lazy : bool) (i r : nat) (h : heap) (l : list nat) : option (poly * heap) :=
  if lazy then let (C, h) := merge_all h [] l in Some (mkPoly i r (Some C) true None false None None 0 0 false false, h)
  else
    let j := select h (tl l) 1 0 (hd 0 l) in
    let a := nth j l 0 in
    let (C, h) := merge_all h [] (firstn j l ++ skipn (S j) l) in
    match poly_obtain_satC (h a) with
    | None => None
    | Some pa => match poly_meet_matrix meet false false pa C with None => None | Some (po, _) => Some (po, upd h a pa) end
    end.
Definition poly_meet_array (meet lazy exw algleq : bool) (h : heap) (l : list nat) : option (poly * heap) :=
  match l with
  | [] => Some (if meet then poly_top 0 1 else poly_dual (poly_top 0 1), h)
  | [a] => let p := if lazy then h a else poly_chernikova_dual meet (h a) in Some (p, upd h a p)
  | [a; b] => meet2 meet lazy exw algleq h a b
  | a :: _ =>
    let i := pint (h a) in let r := preal (h a) in
    match scan (length l) meet lazy h [] l with
    | (None, h) => Some (pbottom i r, h)
    | (Some [], h) => Some (poly_dual (pbottom i r), h)
    | (Some [a], h) => Some (h a, h)
    | (Some [a; b], h) => meet2 meet lazy exw algleq h a b
    | (Some l, h) => general meet lazy i r h l
    end
  end.
(** pk_meet_array *)
Definition pk_meet_array (lazy : bool) (h : heap) (l : list nat) : option (poly * heap) := poly_meet_array true lazy false false h l.
(** 650-652: qsort of the pointers *)
Fixpoint ninsert (x : nat) (l : list nat) : list nat := match l with [] => [x] | y :: q => if Nat.leb x y then x :: l else y :: ninsert x q end.
Definition nsort (l : list nat) : list nat := fold_right ninsert [] l.
(** 654-662: the loop which removes the duplicates.  After tpoly[i+1] has been removed, the index is incremented all the same. *)
Fixpoint remove_doublons (fuel : nat) (l : list nat) : list nat :=
  match fuel, l with
  | S fuel, x :: y :: q => if Nat.eqb x y then x :: remove_doublons fuel q else x :: remove_doublons fuel (y :: q)
  | _, _ => l
  end.
(** 664-665, 669-671 *)
Definition dual_all (h : heap) (l : list nat) : heap := fold_left (fun h a => upd h a (poly_dual (h a))) l h.
(** pk_join_array (629-676) *)
Definition pk_join_array (lazy exw algleq : bool) (h : heap) (l : list nat) : option (poly * heap) :=
  match l with
  | [] => Some (poly_top 0 1, h)
  | [a] => Some (h a, h)
  | _ =>
    let t := remove_doublons (length l) (nsort l) in
    match poly_meet_array false lazy exw algleq (dual_all h t) t with
    | None => None
    | Some (po, h) => Some (poly_dual po, dual_all h t)
    end
  end.

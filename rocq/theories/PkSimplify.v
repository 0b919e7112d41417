(** Model of the simplification of the matrix which has been converted: /repo/newpolka/pk_cherni.c, 400-640.

    A row is a constraint with its saturation row: bit [j] is set when generator [j] does not saturate the
    constraint.  Rows beyond the current number of rows stay in the list until the end, as they stay in the
    arrays of the code.  Simplifications: as in PkCherni.v. *)
From Coq Require Import ZArith Bool List Lia.
Import ListNotations.
From Verif Require Import PkCone PkVec PkCherni.
Open Scope Z_scope.

(** * cherni_gauss, 414-447.  Only the vectors are exchanged *)
Fixpoint find_nz (fuel i j : nat) (rows : list row) : nat :=
  match fuel with O => i | S fuel => if zn j (fst (nth i rows row0)) =? 0 then find_nz fuel (S i) j rows else i end.
Definition combine_at (p : pvec) (j : nat) (r : row) : row :=
  if zn j (fst r) =? 0 then r else setvec (vector_combine (fst r) p (zn 0 (fst r)) j) r.
Fixpoint gauss (j nbeq rank : nat) (intp : list nat) (rows : list row) : nat * list nat * list row :=
  match j with
  | O => (rank, intp, rows)
  | S j' =>
    let i := find_nz (nbeq - rank) rank j rows in
    if Nat.ltb i nbeq then
      let s := zn j (fst (nth i rows row0)) in
      let rows := if Nat.ltb rank i then exch_vec i rank rows else rows in
      let p := fst (nth rank rows row0) in
      let p := setsign 0 (if s <? 0 then vector_neg_from 1 p else p) in
      let rows := lset rank (setvec p (nth rank rows row0)) rows in
      let rows := mapi (fun k r => if Nat.ltb i k && Nat.ltb k nbeq then combine_at p j r else r) rows in
      gauss j' nbeq (S rank) (intp ++ [j]) rows
    else gauss j' nbeq rank intp rows
  end.
(** * cherni_backsubstitute, 457-470 *)
Fixpoint backsubstitute (rank : nat) (intp : list nat) (rows : list row) : list row :=
  match rank with
  | O => rows
  | S k => let j := nth k intp O in let p := fst (nth k rows row0) in
           backsubstitute k intp (mapi (fun i r => if Nat.eqb i k then r else combine_at p j r) rows)
  end.
(** * cherni_simplify, 487-640 *)
(** 508-511 *)
Fixpoint first_ineq (rows : list row) : nat := match rows with [] => O | r :: q => if is_ineq (fst r) then O else S (first_ineq q) end.
(** 534-541: the number of rays which saturate the constraint *)
Definition nbsat (b : list bool) : Z := Z.of_nat (length (filter negb b)).
(** 517-545 *)
Fixpoint simp_eq (fuel i nbeq : nat) (rows : list row) : nat * list row :=
  match fuel with
  | O => (nbeq, rows)
  | S fuel =>
    let r := nth i rows row0 in
    if negb (is_ineq (fst r)) || forallb negb (snd r) then
      simp_eq fuel (S i) (S nbeq) (exch row0 i nbeq (lset i (setvec (setsign 0 (fst r)) r) rows))
    else simp_eq fuel (S i) nbeq (lset i (setvec (setsign (nbsat (snd r)) (fst r)) r) rows)
  end.
(** 551-562: null equations, rows [rank] to [nbeq], are exchanged with the last inequalities *)
Fixpoint move_eqs (fuel i j nbeq : nat) (rows : list row) : list row :=
  match fuel with
  | O => rows
  | S fuel => if Nat.ltb j nbeq && Nat.ltb nbeq i then move_eqs fuel (i - 1) (S j) nbeq (exch row0 j (i - 1) rows) else rows
  end.
(** 563-574 *)
Fixpoint remove_few (fuel i : nat) (nmin : Z) (nbcons : nat) (rows : list row) : nat * list row :=
  match fuel with
  | O => (nbcons, rows)
  | S fuel => if Nat.ltb i nbcons then
      if zn 0 (fst (nth i rows row0)) <? nmin then remove_few fuel i nmin (nbcons - 1) (exch row0 i (nbcons - 1) rows)
      else remove_few fuel (S i) nmin nbcons rows
    else (nbcons, rows)
  end.
Definition bit_sub (a b : list bool) : bool := forallb (fun j => negb (nth j a false) || nth j b false) (seq 0 (length a)).
Definition bit_eq (a b : list bool) : bool := forallb (fun j => Bool.eqb (nth j a false) (nth j b false)) (seq 0 (length a)).
(** 581-615 *)
Fixpoint red_inner (fuel : nat) (nb : Z) (i j nbcons : nat) (rows : list row) : bool * nat * list row :=
  match fuel with
  | O => (false, nbcons, rows)
  | S fuel => if Nat.ltb j nbcons then
      let nbj := zn 0 (fst (nth j rows row0)) in
      if nb <? nbj then
        if bit_sub (snd (nth j rows row0)) (snd (nth i rows row0)) then (true, nbcons, rows) else red_inner fuel nb i (S j) nbcons rows
      else if (nbj =? nb) && negb (Nat.eqb j i) then
        if bit_eq (snd (nth i rows row0)) (snd (nth j rows row0)) then red_inner fuel nb i j (nbcons - 1) (exch row0 j (nbcons - 1) rows)
        else red_inner fuel nb i (S j) nbcons rows
      else red_inner fuel nb i (S j) nbcons rows
    else (false, nbcons, rows)
  end.
(** 576-623 *)
Fixpoint red_outer (fuel i nbeq nbcons : nat) (rows : list row) : nat * list row :=
  match fuel with
  | O => (nbcons, rows)
  | S fuel => if Nat.ltb i nbcons then
      let '(redundant, nbcons, rows) := red_inner nbcons (zn 0 (fst (nth i rows row0))) i nbeq nbcons rows in
      if redundant then red_outer fuel i nbeq (nbcons - 1) (exch row0 i (nbcons - 1) rows)
      else red_outer fuel (S i) nbeq nbcons rows
    else (nbcons, rows)
  end.
Definition cherni_simplify (nbcols : nat) (rows : list row) : list row * nat :=
  let nbcons := length rows in
  let nbeq := first_ineq rows in
  let (nbeq, rows) := simp_eq (nbcons - nbeq) nbeq nbeq rows in
  let '(rank, intp, rows) := gauss (nbcols - 1) nbeq 0 [] rows in
  let rows := if Nat.ltb rank nbeq then move_eqs nbcons nbcons rank nbeq rows else rows in
  let nbcons := (nbcons - (nbeq - rank))%nat in
  let nbeq := rank in
  let (nbcons, rows) := remove_few nbcons nbeq (Z.of_nat nbcols - Z.of_nat nbeq - 2) nbcons rows in
  let (nbcons, rows) := red_outer nbcons nbeq nbeq nbcons rows in
  let rows := firstn nbcons rows in
  let rows := mapi (fun i r => if Nat.leb nbeq i then setvec (setsign 1 (fst r)) r else r) rows in
  (backsubstitute nbeq intp rows, nbeq).
(** satmat_transpose, pk_satmat.c 145-165 *)
Definition transpose (nb : nat) (rows : list (list bool)) : list (list bool) := map (fun j => map (fun b => nth j b false) rows) (seq 0 nb).

Example simplify_square : (* x >= 0, y >= 0, x <= 1, y <= 1, x + y <= 2, x - y <= 1, x = z, 2 z = x + z *)
  let '(con, rows, nb) := cherni_conversion [[0;0;1;0;-1];[0;0;1;0;-1];[1;0;1;0;0];[1;0;0;1;0];[1;1;-1;0;0];[1;1;0;-1;0];[1;2;-1;-1;0];[1;1;-1;1;0]] 0 (init_rows 5 8) 4 in
  let rows := cherni_simplify 5 (combine con (transpose (length con) (map snd rows))) in
  (map fst (fst rows), snd rows) = ([[0; 0; -1; 0; 1]; [1; 1; 0; -1; 0]; [1; 0; 1; 0; 0]; [1; 0; 0; 1; 0]; [1; 1; -1; 0; 0]], 1%nat).
Proof. vm_compute. reflexivity. Qed.

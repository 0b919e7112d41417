(** Model of the conversion from constraints to generators: /repo/newpolka/pk_cherni.c, 167-395.

    The matrix of generators and its saturation matrix are a list of rows (vector, saturation row).
    Bit [j] of the saturation row of a generator is set when the generator does not saturate
    constraint [j]; the bits are a list of booleans instead of an array of machine words.

    Simplifications: the exceptions (out of space, overflow of [max_coeff_size]) and the
    reallocations are not modelled; a for loop whose iterations are independent is a map. *)
From Coq Require Import ZArith Bool List Lia.
Import ListNotations.
From Verif Require Import PkCone PkVec.
Open Scope Z_scope.

Definition row : Type := (pvec * list bool)%type.
Definition row0 : row := ([], []).
Fixpoint lset {A : Type} (i : nat) (x : A) (l : list A) : list A :=
  match l, i with [], _ => [] | _ :: q, O => x :: q | y :: q, S i => y :: lset i x q end.
(** pk_matrix_exch_rows, pk_matrix.c 205-210; satmat_exch_rows, pk_satmat.c 189-194 *)
Definition exch {A : Type} (d : A) (i j : nat) (l : list A) : list A := lset i (nth j l d) (lset j (nth i l d) l).
Definition mapi {A B : Type} (f : nat -> A -> B) (l : list A) : list B := map (fun p => f (fst p) (snd p)) (combine (seq 0 (length l)) l).
Definition setvec (v : pvec) (r : row) : row := (v, snd r).
(** exchange of the rows of the matrix of generators only *)
Definition exch_vec (i j : nat) (l : list row) : list row := let vi := fst (nth i l row0) in let vj := fst (nth j l row0) in lset i (setvec vj (nth i l row0)) (lset j (setvec vi (nth j l row0)) l).
Definition setsign (s : Z) (v : pvec) : pvec := s :: tl v.

Definition is_ineq (c : pvec) : bool := negb (zn 0 c =? 0).
(** lines 195-211: the scalar products in the coefficients 0, the first row which does not saturate *)
Definition products (c : pvec) (rows : list row) : list row := map (fun r => setvec (setsign (vector_product (fst r) c) (fst r)) r) rows.
Fixpoint first_nonzero (rows : list row) : nat := match rows with [] => O | r :: q => if zn 0 (fst r) =? 0 then S (first_nonzero q) else O end.

(** lines 213-253: a line becomes a ray *)
Definition combine_if (cond : bool) (p : pvec) (r : row) : row :=
  if cond && negb (zn 0 (fst r) =? 0) then setvec (vector_combine (fst r) p (zn 0 (fst r)) 0) r else r.
Definition line_case (ineq : bool) (k inz nbline : nat) (rows : list row) : list row * nat :=
  let nb := (nbline - 1)%nat in
  let rows := if Nat.eqb inz nb then rows else exch_vec inz nb rows in
  let p := fst (nth nb rows row0) in
  let rows := mapi (fun i r => combine_if (Nat.leb inz i && Nat.ltb i nb) p r) rows in
  let p := if zn 0 p <? 0 then vector_neg_from 0 p else p in
  let rows := lset nb (setvec p (nth nb rows row0)) rows in
  let rows := mapi (fun i r => combine_if (Nat.ltb nb i) p r) rows in
  if ineq then (lset nb (fst (nth nb rows row0), lset k true (snd (nth nb rows row0))) rows, nb)
  else (firstn (length rows - 1) (exch row0 nb (length rows - 1) rows), nb).

(** lines 267-285: sort the rays according to the sign of the product *)
Fixpoint sort_rays (fuel : nat) (eqb supb infb : nat) (rows : list row) : nat * nat * list row :=
  match fuel with
  | O => (eqb, supb, rows)
  | S fuel => if Nat.ltb supb infb then
      let s := zn 0 (fst (nth supb rows row0)) in
      if s =? 0 then sort_rays fuel (S eqb) (S supb) infb (exch row0 supb eqb rows)
      else if s <? 0 then sort_rays fuel eqb supb (infb - 1) (exch row0 supb (infb - 1) rows)
      else sort_rays fuel eqb (S supb) infb rows
    else (eqb, supb, rows)
  end.
Definition bor (a b : list bool) : list bool := map (fun j => nth j a false || nth j b false) (seq 0 (length a)).
(** lines 304-316: the number of constraints saturated by both *)
Definition nbcommon (k : nat) (b : list bool) : nat := length (filter (fun j => negb (nth j b false)) (seq 0 k)).
(** lines 317-331: the pair is combined; [nbcols - 3] is a size_t *)
Definition sat_incl (k : nat) (bl b : list bool) : bool := forallb (fun j => negb (nth j bl false) || nth j b false) (seq 0 (S k)).
Definition adjacent (k nbcols nbline i j : nat) (rows : list row) : bool :=
  let b := bor (snd (nth i rows row0)) (snd (nth j rows row0)) in
  Nat.leb 3 nbcols && Nat.leb (nbcols - 3) (nbcommon k b + nbline) &&
  negb (existsb (fun l => negb (Nat.eqb l i) && negb (Nat.eqb l j) && sat_incl k (snd (nth l rows row0)) b) (seq nbline (length rows - nbline))).
(** lines 295-357: the new rays *)
Definition new_ray (rows : list row) (ij : nat * nat) : row :=
  let ri := nth (fst ij) rows row0 in let rj := nth (snd ij) rows row0 in
  (vector_combine (fst rj) (fst ri) 0 0, bor (snd ri) (snd rj)).
Definition ray_pairs (k nbcols nbline eqb supb : nat) (rows : list row) : list (nat * nat) :=
  filter (fun ij => adjacent k nbcols nbline (fst ij) (snd ij) rows) (list_prod (seq eqb (supb - eqb)) (seq supb (length rows - supb))).
(** lines 360-380: the added rays replace those which do not verify the constraint *)
Fixpoint replace_rays (fuel i j bound : nat) (rows : list row) : nat * nat * list row :=
  match fuel with
  | O => (i, j, rows)
  | S fuel => if Nat.ltb j bound && Nat.ltb bound i then replace_rays fuel (i - 1) (S j) bound (exch row0 (i - 1) j rows) else (i, j, rows)
  end.
Definition ray_case (ineq : bool) (k nbcols nbline eqb supb : nat) (rows : list row) : list row :=
  let bound := length rows in
  if Nat.eqb supb nbline then firstn nbline rows else
  let rows := rows ++ map (new_ray rows) (ray_pairs k nbcols nbline eqb supb rows) in
  let j := if ineq then supb else eqb in
  let rows := if ineq then mapi (fun l r => if Nat.leb eqb l && Nat.ltb l supb then (fst r, lset k true (snd r)) else r) rows else rows in
  let '(i, j, rows) := replace_rays (length rows) (length rows) j bound rows in
  firstn (if Nat.eqb j bound then i else j) rows.

(** cherni_conversion, 167-395: the loop over the constraints; each iteration either takes
    constraint [k] into account or removes it *)
Fixpoint conv_loop (fuel k : nat) (con : list pvec) (rows : list row) (nbline : nat) : list pvec * list row * nat :=
  match fuel with
  | O => (con, rows, nbline)
  | S fuel =>
    let c := nth k con [] in
    let nbcols := length c in
    let rows := products c rows in
    let inz := first_nonzero rows in
    if Nat.ltb inz nbline then
      let (rows, nbline) := line_case (is_ineq c) k inz nbline rows in conv_loop fuel (S k) con rows nbline
    else
      let '(eqb, supb, rows) := sort_rays (length rows - nbline) nbline nbline (length rows) rows in
      if is_ineq c && Nat.eqb supb (length rows) then conv_loop fuel k (firstn (length con - 1) (exch [] k (length con - 1) con)) rows nbline
      else conv_loop fuel (S k) con (ray_case (is_ineq c) k nbcols nbline eqb supb rows) nbline
  end.
(** lines 384-389: the status coefficients *)
Definition set_status (nbline : nat) (rows : list row) : list row := mapi (fun i r => setvec (setsign (if Nat.ltb i nbline then 0 else 1) (fst r)) r) rows.
Definition cherni_conversion (con : list pvec) (start : nat) (rows : list row) (nbline : nat) : list pvec * list row * nat :=
  let '(con, rows, nbline) := conv_loop (length con - start) start con rows nbline in (con, set_status nbline rows, nbline).
(** the initial generators of cherni_minimize, 685-691: the lines of the canonical basis *)
Definition unit_vec (nbcols i : nat) : pvec := map (fun j => if Nat.eqb j (S i) then 1 else 0) (seq 0 nbcols).
Definition init_rows (nbcols nbcons : nat) : list row := map (fun i => (unit_vec nbcols i, repeat false nbcons)) (seq 0 (nbcols - 1)).

Example conv_square : (* x >= 0, y >= 0, x <= 1, y <= 1, xi >= 0 *)
  let '(con, rows, nb) := cherni_conversion [[1;0;1;0];[1;0;0;1];[1;1;-1;0];[1;1;0;-1];[1;1;0;0]] 0 (init_rows 4 5) 3 in
  (length con, map fst rows, nb) = (4%nat, [[1; 1; 0; 0]; [1; 1; 1; 0]; [1; 1; 1; 1]; [1; 1; 0; 1]], 0%nat).
Proof. vm_compute. reflexivity. Qed.

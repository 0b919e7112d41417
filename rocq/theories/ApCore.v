(** Core data structures of the library: scalars, intervals, coefficients, linear expressions,
    dimension changes and permutations.

    /repo/apron/ap_scalar.c, ap_interval.c, ap_coeff.c, ap_linexpr0.c, ap_dimension.c.
    The conversions between the three representations of a scalar are exact and not modelled,
    except in the hash function. *)
From Coq Require Import Arith ZArith QArith Qround Bool List.
From Verif Require Import Bound Itv Linexpr Box.
Import ListNotations.
Open Scope nat_scope.

(** ** Scalars and intervals *)
(** ap_scalar_cmp, ap_scalar.c 286-338: first the infinities, then the values.
    (mpq_cmp and mpfr_cmp return any integer of the right sign; -1, 0, 1 here) *)
Definition scalar_infty (a : bound) : Z := match a with MInf => -1 | PInf => 1 | Fin _ => 0 end%Z.
Definition scalar_cmp (a b : bound) : Z :=
  (let s1 := scalar_infty a in let s2 := scalar_infty b in
   if s2 <? s1 then 1 else if s1 <? s2 then -1 else if negb (s1 =? 0) then 0 else
   match a, b with Fin p, Fin q => qcmp p q | _, _ => 0 end)%Z.
(** ap_scalar_equal 360-379 *)
Definition scalar_equal (a b : bound) : bool :=
  (let s1 := scalar_infty a in let s2 := scalar_infty b in
   if negb (s1 =? s2) then false else if negb (s1 =? 0) then true else
   match a, b with Fin p, Fin q => Qeq_bool p q | _, _ => false end)%Z.
(** ap_scalar_sgn, ap_scalar.c ~395-430 *)
Definition scalar_sgn (a : bound) : Z := bsgn a.
(** an interval is the pair of its bounds; ap_interval.c 119-165 *)
Definition uitv : Type := (bound * bound)%type.
Definition interval_is_top (i : uitv) : bool := (scalar_infty (fst i) <? 0)%Z && (0 <? scalar_infty (snd i))%Z.
Definition interval_is_bottom (i : uitv) : bool := (0 <? scalar_cmp (fst i) (snd i))%Z.
Definition interval_is_leq (i j : uitv) : bool :=
  ((0 <=? scalar_cmp (fst i) (fst j))%Z && (scalar_cmp (snd i) (snd j) <=? 0)%Z) || interval_is_bottom i.
Definition interval_cmp (i j : uitv) : Z :=
  (let sinf := scalar_cmp (fst i) (fst j) in let ssup := scalar_cmp (snd i) (snd j) in
   if (sinf =? 0) && (ssup =? 0) then 0
   else if (0 <=? sinf) && (ssup <=? 0) then -1
   else if (sinf <=? 0) && (0 <=? ssup) then 1
   else let b1 := interval_is_bottom i in let b2 := interval_is_bottom j in
     if b1 && b2 then 0 else if b1 then -1 else if b2 then 1
     else if 0 <? sinf then 2 else -2)%Z.
Definition interval_equal (i j : uitv) : bool :=
  if scalar_equal (fst i) (fst j) && scalar_equal (snd i) (snd j) then true
  else interval_is_bottom i && interval_is_bottom j.
(** ap_scalar_hash, ap_scalar.c 457-474 (finite values).  MPQ: a signed by an unsigned long,
    hence an unsigned division; double: conversion to int; MPFR: rounded upwards *)
Inductive sdiscr := SMpq | SDouble | SMpfr.
Definition scalar_hash (s : sdiscr) (q : Q) : Z :=
  (match s with
   | SMpq => let r := Qred q in let u := (Qnum r mod 2 ^ 64) / Zpos (Qden r) in if u <? 2 ^ 63 then u else u - 2 ^ 64
   | SDouble => Z.quot (Qnum q) (Zpos (Qden q))
   | SMpfr => Qceiling q
   end)%Z.

(** ** Coefficients, ap_coeff.c 258-300 *)
Definition coeff_cmp (c1 c2 : coeff) : Z :=
  (match c1, c2 with
   | Scal a, Scal b => scalar_cmp a b
   | Intv a b, Intv c d => interval_cmp (a, b) (c, d)
   | Scal _, _ => -3
   | _, _ => 3
   end)%Z.
Definition coeff_equal (c1 c2 : coeff) : bool :=
  match c1, c2 with
  | Scal a, Scal b => scalar_equal a b
  | Intv a b, Intv c d => interval_equal (a, b) (c, d)
  | _, _ => false
  end.
Definition coeff_zero (c : coeff) : bool :=
  match c with
  | Scal a => (scalar_sgn a =? 0)%Z
  | Intv a b => (scalar_sgn a =? 0)%Z && (scalar_sgn b =? 0)%Z
  end.
(** ap_coeff_equal_int 301-311: tests ap_scalar_equal_int(..)==0 *)
Definition scalar_equal_int (a : bound) (n : Z) : bool := match a with Fin q => Qeq_bool q (inject_Z n) | _ => false end.
Definition coeff_equal_int (c : coeff) (n : Z) : bool :=
  match c with
  | Scal a => negb (scalar_equal_int a n)
  | Intv a b => negb (scalar_equal_int a n) && negb (scalar_equal_int b n)
  end.
Definition czero : coeff := Scal (Fin 0).

(** ** Access to coefficients, ap_linexpr0.c *)
Notation term := (option nat * coeff)%type.
(** AP_DIM_MAX is larger than every dimension *)
Definition odim_le (d : nat) (o : option nat) : bool := match o with Some x => Nat.leb d x | None => true end.
Definition odim_lt (d : nat) (o : option nat) : bool := match o with Some x => Nat.ltb d x | None => true end.
Definition odim_eq (d : nat) (o : option nat) : bool := match o with Some x => Nat.eqb d x | None => false end.
Definition hole : term := (None, czero).
(** index_of_or_after_dim, 379-398: linear search up to 10 terms, then binary search *)
Fixpoint index_lin (dim : nat) (ts : list term) : nat :=
  match ts with
  | [] => O
  | t :: ts => if odim_le dim (fst t) then O else S (index_lin dim ts)
  end.
Fixpoint index_of_or_after (fuel dim : nat) (ts : list term) : nat :=
  if Nat.leb (length ts) 10 then index_lin dim ts else
  match fuel with
  | O => O
  | S fuel =>
    let mid := Nat.div (length ts) 2 in
    if odim_eq dim (fst (nth mid ts hole)) then mid
    else if odim_lt dim (fst (nth mid ts hole)) then index_of_or_after fuel dim (firstn mid ts)
    else mid + 1 + index_of_or_after fuel dim (skipn (mid + 1) ts)
  end.
Definition index_of (dim : nat) (ts : list term) : nat := index_of_or_after (length ts) dim ts.
Fixpoint set_nth {A : Type} (i : nat) (x : A) (l : list A) : list A :=
  match l, i with
  | [], _ => []
  | _ :: l, O => x :: l
  | y :: l, S i => y :: set_nth i x l
  end.
Definition set_dim (i d : nat) (ts : list term) : list term := set_nth i (Some d, snd (nth i ts hole)) ts.
(** ap_linexpr0_coeffref, 400-432, sparse case: the modified array and the index of the term *)
Definition coeffref_sparse (dim : nat) (ts : list term) : list term * nat :=
  let index := index_of dim ts in
  if Nat.leb (length ts) index || negb (odim_eq dim (fst (nth index ts hole))) then
    if Nat.ltb index (length ts) && (match fst (nth index ts hole) with None => true | _ => false end) then
      (set_dim index dim ts, index)
    else
      let ts1 := if Nat.eqb (length ts) 0 || (match fst (nth (length ts - 1) ts hole) with None => false | _ => true end)
                 then ts ++ [hole] else ts in
      let ts2 := if Nat.ltb index (length ts1 - 1)
                 then firstn index ts1 ++ [nth (length ts1 - 1) ts1 hole] ++ firstn (length ts1 - index - 1) (skipn index ts1)
                 else ts1 in
      (set_dim index dim ts2, index)
  else (ts, index).
(** ap_linexpr0_set_coeff, ap_linexpr0.h 367-368; [None]: the error is reported, nothing is set *)
Definition linexpr_set_coeff (e : linexpr) (dim : nat) (c : coeff) : option linexpr :=
  match le_terms e with
  | Dense l => if Nat.ltb dim (length l) then Some (mkLin (le_cst e) (Dense (set_nth dim c l))) else None
  | Sparse ts =>
    let '(ts, i) := coeffref_sparse dim ts in
    Some (mkLin (le_cst e) (Sparse (set_nth i (fst (nth i ts hole), c) ts)))
  end.
(** ap_linexpr0_get_coeff, 436-464 *)
Definition linexpr_get_coeff (e : linexpr) (dim : nat) : option coeff :=
  match le_terms e with
  | Dense l => if Nat.ltb dim (length l) then Some (nth dim l czero) else None
  | Sparse ts =>
    let index := index_of dim ts in
    if Nat.ltb index (length ts) && odim_eq dim (fst (nth index ts hole)) then Some (snd (nth index ts hole)) else Some czero
  end.
(** ap_linexpr0_minimize, 85-119 *)
Definition linexpr_minimize (e : linexpr) : linexpr :=
  mkLin (le_cst e)
    (match le_terms e with
     | Dense l => Dense (map coeff_reduce l)
     | Sparse ts =>
       Sparse (filter (fun t => negb (coeff_zero (snd t)) && (match fst t with None => false | _ => true end))
                 (map (fun t => (fst t, coeff_reduce (snd t))) ts))
     end).
(** ap_linexpr0_realloc, 44-83 *)
Definition linexpr_realloc (e : linexpr) (size : nat) : linexpr :=
  mkLin (le_cst e)
    (match le_terms e with
     | Dense l => Dense (firstn size l ++ repeat czero (size - length l))
     | Sparse ts => Sparse (firstn size ts ++ repeat hole (size - length ts))
     end).

(** ** Equality, comparison and hashing, 750-883 *)
(** the next term of an expression: [None] after the last one *)
Definition term_at (t : linterms) (i : nat) : option term :=
  match t with
  | Dense l => match nth_error l i with Some c => Some (Some i, c) | None => None end
  | Sparse ts => nth_error ts i
  end.
Definition terms_size (t : linterms) : nat := match t with Dense l => length l | Sparse ts => length ts end.
(** AP_DIM_MAX for the end of the array as well as for the holes *)
Definition next_dim (o : option term) : option nat := match o with Some t => fst t | None => None end.
Definition odim_cmp (a b : option nat) : comparison :=
  match a, b with
  | None, None => Eq | None, _ => Gt | _, None => Lt
  | Some x, Some y => Nat.compare x y
  end.
(** ap_linexpr0_equal, 770-825; [None]: ap_coeff_equal is called on a null pointer *)
Fixpoint equal_loop (fuel : nat) (t1 t2 : linterms) (i1 i2 : nat) : option bool :=
  match fuel with
  | O => Some true
  | S fuel =>
    if Nat.ltb i1 (terms_size t1) || Nat.ltb i2 (terms_size t2) then
      let o1 := term_at t1 i1 in let o2 := term_at t2 i2 in
      match odim_cmp (next_dim o1) (next_dim o2) with
      | Eq => match o1, o2 with
              | Some x, Some y => if coeff_equal (coeff_reduce (snd x)) (coeff_reduce (snd y))
                                  then equal_loop fuel t1 t2 (S i1) (S i2) else Some false
              | _, _ => None
              end
      | Lt => match o1 with Some x => if coeff_zero (coeff_reduce (snd x)) then equal_loop fuel t1 t2 (S i1) i2 else Some false | None => None end
      | Gt => match o2 with Some y => if coeff_zero (coeff_reduce (snd y)) then equal_loop fuel t1 t2 i1 (S i2) else Some false | None => None end
      end
    else Some true
  end.
Definition linexpr_equal (e1 e2 : linexpr) : option bool :=
  if coeff_equal (coeff_reduce (le_cst e1)) (coeff_reduce (le_cst e2)) then
    equal_loop (terms_size (le_terms e1) + terms_size (le_terms e2)) (le_terms e1) (le_terms e2) 0 0
  else Some false.
(** ap_linexpr0_compare, 826-883.  The result is kept in a variable of type bool: every
    non-zero value becomes 1. *)
Definition to_bool (z : Z) : Z := if (z =? 0)%Z then 0%Z else 1%Z.
Fixpoint compare_loop (fuel : nat) (t1 t2 : linterms) (i1 i2 : nat) : option Z :=
  match fuel with
  | O => Some 0%Z
  | S fuel =>
    if Nat.ltb i1 (terms_size t1) || Nat.ltb i2 (terms_size t2) then
      let o1 := term_at t1 i1 in let o2 := term_at t2 i2 in
      let continue (z : Z) (j1 j2 : nat) := if (to_bool z =? 0)%Z then compare_loop fuel t1 t2 j1 j2 else Some (to_bool z) in
      match odim_cmp (next_dim o1) (next_dim o2) with
      | Eq => match o1, o2 with
              | Some x, Some y => continue (coeff_cmp (coeff_reduce (snd x)) (coeff_reduce (snd y))) (S i1) (S i2)
              | _, _ => None
              end
      | Lt => match o1 with Some x => continue (coeff_cmp (coeff_reduce (snd x)) czero) (S i1) i2 | None => None end
      | Gt => match o2 with Some y => continue (coeff_cmp czero (coeff_reduce (snd y))) i1 (S i2) | None => None end
      end
    else Some 0%Z
  end.
Definition linexpr_compare (e1 e2 : linexpr) : option Z :=
  match compare_loop (terms_size (le_terms e1) + terms_size (le_terms e2)) (le_terms e1) (le_terms e2) 0 0 with
  | None => None
  | Some z => if (z =? 0)%Z then Some (to_bool (coeff_cmp (coeff_reduce (le_cst e1)) (coeff_reduce (le_cst e2)))) else Some z
  end.
(** ap_linexpr0_hash, 750-769: reads the coefficients with ap_linexpr0_coeffref, which inserts
    the missing terms.  [hc]: the hash of a coefficient.  Returns the hash and the expression. *)
Definition linexpr_coeffref (e : linexpr) (dim : nat) : linexpr * option coeff :=
  match le_terms e with
  | Dense l => (e, if Nat.ltb dim (length l) then Some (nth dim l czero) else None)
  | Sparse ts => let '(ts, i) := coeffref_sparse dim ts in (mkLin (le_cst e) (Sparse ts), Some (snd (nth i ts hole)))
  end.
Section Hash.
Variable hc : coeff -> Z.
Fixpoint hash_loop (fuel i : nat) (dec res : Z) (e : linexpr) : Z * linexpr :=
  match fuel with
  | O => (res, e)
  | S fuel =>
    if Nat.ltb i (terms_size (le_terms e)) then
      let '(e, pc) := linexpr_coeffref e i in
      let res1 := match pc with None => 0%Z | Some c => hc c end in
      hash_loop fuel (i + Nat.div (terms_size (le_terms e) + 7) 8) (dec + 1) (res + Z.shiftl res1 dec)%Z e
    else (res, e)
  end.
Definition linexpr_hash (fuel : nat) (e : linexpr) : Z * linexpr :=
  if Nat.eqb (terms_size (le_terms e)) 0 then (hc (le_cst e), e)
  else hash_loop fuel 0 0 (Z.shiftl (Z.of_nat (terms_size (le_terms e))) 8) e.
End Hash.

(** ** Dimension changes and permutations, ap_dimension.c *)
(** ap_dimchange_add_invert, 49-55 *)
Fixpoint add_invert_from (i : nat) (pos : list nat) : list nat :=
  match pos with [] => [] | p :: pos => (p + i)%nat :: add_invert_from (S i) pos end.
Definition dimchange_add_invert (pos : list nat) : list nat := add_invert_from 0 pos.
(** ap_dimperm_set_id 124-128, ap_dimperm_compose 131-139, ap_dimperm_invert 141-149 *)
Definition dimperm_id (n : nat) : list nat := seq 0 n.
Definition dimperm_compose (perm1 perm2 : list nat) : list nat := map (fun i => nth (nth i perm1 O) perm2 O) (seq 0 (length perm1)).
Definition dimperm_invert (nperm perm : list nat) : list nat :=
  fold_left (fun r i => set_nth (nth i perm O) i r) (seq 0 (length perm)) nperm.

(** ap_linexpr0_add_dimensions_with, 642-690.  Sparse: [k] positions are at most the current
    dimension; the loop stops at the first hole. *)
Fixpoint dim_while (fuel : nat) (pos : list nat) (d k : nat) : nat :=
  match fuel with
  | O => k
  | S fuel => if Nat.ltb k (length pos) && Nat.leb (nth k pos O) d then dim_while fuel pos d (S k) else k
  end.
Fixpoint add_sparse (pos : list nat) (k : nat) (ts : list term) : list term :=
  match ts with
  | [] => []
  | (None, c) :: ts => (None, c) :: ts
  | (Some d, c) :: ts => let k := dim_while (length pos) pos d k in (Some (d + k)%nat, c) :: add_sparse pos k ts
  end.
(** Dense: the loop of box_add_dimensions ([add_loop]) on the reallocated array *)
Definition add_dense (pos : list nat) (l : list coeff) : list coeff :=
  let size := length l in
  let src := fun i => nth i (l ++ repeat czero (length pos)) czero in
  let res := add_loop true src pos czero size size (length pos) src in
  map res (seq 0 (size + length pos)).
Definition linexpr_add_dimensions (e : linexpr) (pos : list nat) : linexpr :=
  mkLin (le_cst e) (match le_terms e with Dense l => Dense (add_dense pos l) | Sparse ts => Sparse (add_sparse pos 0 ts) end).
(** ap_linexpr0_permute_dimensions(_with), 690-744.  qsort by dimension: insertion sort (terms
    with the same dimension, i.e. holes, may come in any order).  Dense: [None] is a write
    outside the array. *)
Definition term_le (a b : term) : bool := match odim_cmp (fst a) (fst b) with Gt => false | _ => true end.
Fixpoint insert_term (t : term) (ts : list term) : list term :=
  match ts with
  | [] => [t]
  | u :: ts => if term_le t u then t :: u :: ts else u :: insert_term t ts
  end.
Fixpoint sort_terms (ts : list term) : list term :=
  match ts with [] => [] | t :: ts => insert_term t (sort_terms ts) end.
Definition permute_term (perm : list nat) (t : term) : term :=
  match fst t with None => t | Some d => (Some (nth d perm O), snd t) end.
Definition permute_dense (perm : list nat) (l : list coeff) : option (list coeff) :=
  fold_left (fun r i => match r with
                        | Some r => if Nat.ltb (nth i perm O) (length r) then Some (set_nth (nth i perm O) (nth i l czero) r) else None
                        | None => None
                        end) (seq 0 (length l)) (Some l).
Definition linexpr_permute_dimensions (e : linexpr) (perm : list nat) : option linexpr :=
  match le_terms e with
  | Dense l => match permute_dense perm l with Some l => Some (mkLin (le_cst e) (Dense l)) | None => None end
  | Sparse ts => Some (mkLin (le_cst e) (Sparse (sort_terms (map (permute_term perm) ts))))
  end.

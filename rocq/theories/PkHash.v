(** Model of the hash code of polyhedra: pk_hash (/repo/newpolka/pk_representation.c 361-381) and vector_hash
    (/repo/newpolka/pk_vector.c 591-603), in non strict mode (pk->dec = 2).

    - int has 32 bits and long 64 bits, their operations wrap (in C a signed overflow is undefined).
    - [hz] is the conversion of an integer coefficient to a long (int_set_numint).
    - the exceptions of the conversion to the canonical form (poly_chernikova3) are not modelled. *)
From Coq Require Import Arith Lia List ZArith Bool.
From Verif Require Import PkVec PkPoly PkCanon Hash.
Import ListNotations.
Open Scope nat_scope.

(** long, 64 bits *)
Definition w64 (z : Z) : Z := ((z + 9223372036854775808) mod 18446744073709551616 - 9223372036854775808)%Z.

(** for (; i<size; i += step) r = f i r *)
Fixpoint stride (fuel i size step : nat) (f : nat -> Z -> Z) (r : Z) : Z :=
  match fuel with
  | O => r
  | Datatypes.S fuel => if i <? size then stride fuel (i + step) size step f (f i r) else r
  end.

Section PkHash.
Variable hz : Z -> Z.
(** vector_hash, pk_vector.c 591-603; polka_cst = 1 *)
Definition vector_hash (size : nat) (q : list Z) : Z :=
  stride (size + 1) 2 size ((size - 2 + 2) / 3) (fun i r => w64 (r * 3 + hz (nth i q 0%Z))) (hz (nth 1 q 0%Z)).
(** the loops of pk_hash, 372-378 *)
Definition rows_hash (cols : nat) (M : list (list Z)) (r : Z) : Z :=
  stride (length M + 1) 0 (length M) ((length M + 3) / 4) (fun i r => w32 (r * 3 + vector_hash cols (nth i M []))) r.
(** pk_hash, pk_representation.c 361-381: the code, and the argument in its new representation *)
Definition pk_hash (po : poly) : Z * poly :=
  let po := poly_chernikova3 po in
  let res := w32 (5 * Z.of_nat (pint po) + 7 * Z.of_nat (preal po)) in
  (match pC po, pF po with
   | Some C, Some F =>
     let res := w32 (res + Z.of_nat (length C) * 11 + Z.of_nat (length F) * 13) in
     rows_hash (pcols po) F (rows_hash (pcols po) C res)
   | _, _ => res
   end, po).
End PkHash.

(** Model of the hash codes of octagons and boxes: oct_hash (/repo/octagons/oct_representation.c 285-300), box_hash
    (/repo/box/box_representation.c 137-152), itv_hash (/repo/itv/itv.h 462-465), bound_hash (/repo/num/bound_def.h 527-535).

    - The type int has 32 bits and its operations wrap ([w32]); in C a signed overflow is undefined.
    - [hn] is the conversion of a number to an integer (int_set_num), which depends on the number type.
    - In oct_hash the running pointer is not advanced (the third part of the inner loop is [j++,m]): every cell read is the
      first one.  This is modelled as it is. *)
From Coq Require Import Arith Lia List ZArith QArith Bool.
From Verif Require Import Bound Itv OctMat Oct Box.
Import ListNotations.
Open Scope nat_scope.

(** int, 32 bits *)
Definition w32 (z : Z) : Z := ((z + 2147483648) mod 4294967296 - 2147483648)%Z.

Section Hash.
Variable hn : Q -> Z.
(** bound_hash, bound_def.h 527-535 *)
Definition bound_hash (b : bound) : Z :=
  match b with PInf => 2147483647 | MInf => -2147483648 | Fin q => w32 (hn q) end%Z.
(** itv_hash, itv.h 462-465 *)
Definition itv_hash (a : itv) : Z := w32 (5 * bound_hash (inf a) + 7 * bound_hash (sup a)).

(** oct_hash, oct_representation.c 285-300 *)
Definition oct_hash {N : numtype} (algo : Z) (a : oct) : Z :=
  let a := cached (N:=N) algo a in
  match best a with
  | Some m =>
    for_ 0 (2 * odim a) (fun i r => for_ 0 (or1 i + 1) (fun _ r => w32 (r * 37 + bound_hash (m 0))) r) 0%Z
  | None => 0%Z
  end.

(** box_hash, box_representation.c 137-152: the loop of 143-145, [step] is (size+4)/5 *)
Fixpoint box_hash_loop (fuel i size step : nat) (p : nat -> itv) (res : Z) : Z :=
  match fuel with
  | O => res
  | Datatypes.S fuel => if i <? size then box_hash_loop fuel (i + step) size step p (w32 (3 * res + itv_hash (p i))) else res
  end.
Definition box_hash (a : box) : Z :=
  let size := bx_dim a in
  let res := w32 (Z.of_nat size * 2999) in
  match bx_p a with
  | None => res
  | Some p => box_hash_loop (size + 1) 0 size ((size + 4) / 5) p res
  end.
End Hash.

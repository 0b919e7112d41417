(** Model of the extended numbers of APRON ("bounds").

    Models /repo/num/bound_def.h (the generic, non NUM_NUMFLT branch, i.e. the
    one used by the MPQ instances; the float branch differs only in letting
    the hardware propagate infinities).

    A number is a rational.  Every arithmetic macro of num.h computes the
    exact result and rounds it towards +oo; this is the [rnd] field of
    [numtype].  [exact_num] is the rational (MPQ) instance.               *)

From Coq Require Import ZArith QArith Qreals Reals Lra Lia Bool Qround Qabs.
Open Scope Z_scope.

(** bound_t: /repo/num/bound_def.h 14-60 (number plus infinity flag, the
    sign of an infinite bound is the sign of the number). *)
Inductive bound : Type :=
| MInf : bound
| Fin : Q -> bound
| PInf : bound.

(** Order on bounds used to specify rounding (not part of the code). *)
Definition le_bb (a b : bound) : Prop :=
  match a, b with
  | MInf, _ => True
  | _, PInf => True
  | Fin p, Fin q => (p <= q)%Q
  | _, _ => False
  end.

(** A number type: rounding towards +oo of an exact rational result. *)
Record numtype : Type := mkNum {
  rnd : Q -> bound;
  rnd_up : forall q, le_bb (Fin q) (rnd q)
}.

(** NUM_MPQ: no rounding at all. *)
Definition exact_num : numtype :=
  mkNum Fin (fun q => Qle_refl q).

(** bound_sgn, bound_def.h 87-88. *)
Definition bsgn (a : bound) : Z :=
  match a with MInf => -1 | Fin q => Z.sgn (Qnum q) | PInf => 1 end.

(** bound_infty, bound_def.h 14-60. *)
Definition binfty (a : bound) : bool :=
  match a with Fin _ => false | _ => true end.

(** bound_set_infty(a,sgn), bound_def.h 50-70. *)
Definition binf_of_sgn (s : Z) : bound := if 0 <? s then PInf else MInf.

(** bound_neg, bound_def.h 231-235 (num_neg is exact for every number type). *)
Definition bneg (b : bound) : bound :=
  match b with MInf => PInf | Fin q => Fin (- q) | PInf => MInf end.

(** num_cmp / bound_cmp, bound_def.h 491-500. *)
Definition qcmp (p q : Q) : Z :=
  match (p ?= q)%Q with Lt => -1 | Eq => 0 | Gt => 1 end.
Definition bcmp (a b : bound) : Z :=
  match a, b with
  | MInf, MInf => 0 | MInf, _ => -1
  | PInf, PInf => 0 | PInf, _ => 1
  | Fin _, MInf => 1 | Fin _, PInf => -1
  | Fin p, Fin q => qcmp p q
  end.

(** bound_cmp_int, bound_def.h 501-505. *)
Definition bcmp_int (a : bound) (n : Z) : Z := bcmp a (Fin (inject_Z n)).

(** bound_equal, bound_def.h 511-519. *)
Definition bequal (a b : bound) : bool :=
  match a, b with
  | MInf, MInf => true | PInf, PInf => true
  | Fin p, Fin q => Qeq_bool p q
  | _, _ => false
  end.

(** bound_min / bound_max, bound_def.h 328-345. *)
Definition bmin (b c : bound) : bound :=
  match b, c with
  | PInf, _ => c
  | MInf, _ => MInf
  | Fin _, PInf => b
  | Fin _, MInf => MInf
  | Fin p, Fin q => if Qle_bool p q then Fin p else Fin q
  end.
Definition bmax (b c : bound) : bound :=
  match b, c with
  | PInf, _ => PInf
  | MInf, _ => c
  | Fin _, PInf => PInf
  | Fin _, MInf => b
  | Fin p, Fin q => if Qle_bool p q then Fin q else Fin p
  end.

(** bound_floor / ceil / trunc, bound_def.h 349-363 (exact for every type).
    trunc is numrat_trunc (/repo/num/numrat_mpq.h 153-157): division rounding
    towards zero. *)
Definition qtrunc (q : Q) : Z := Z.quot (Qnum q) (Zpos (Qden q)).
Definition bfloor (b : bound) : bound :=
  match b with Fin q => Fin (inject_Z (Qfloor q)) | _ => b end.
Definition bceil (b : bound) : bound :=
  match b with Fin q => Fin (inject_Z (Qceiling q)) | _ => b end.
Definition btrunc (b : bound) : bound :=
  match b with Fin q => Fin (inject_Z (qtrunc q)) | _ => b end.

Section Arith.
Context {N : numtype}.

(** bound_add, bound_def.h 238-243. *)
Definition badd (b c : bound) : bound :=
  match b, c with
  | MInf, _ | PInf, _ => b
  | _, MInf | _, PInf => c
  | Fin p, Fin q => rnd N (p + q)%Q
  end.

(** bound_sub, bound_def.h 254-259. *)
Definition bsub (b c : bound) : bound :=
  match b, c with
  | MInf, _ | PInf, _ => b
  | _, MInf => PInf | _, PInf => MInf
  | Fin p, Fin q => rnd N (p - q)%Q
  end.

(** bound_mul, bound_def.h 271-276. *)
Definition bmul (b c : bound) : bound :=
  if (bsgn b =? 0) || (bsgn c =? 0) then Fin 0 else
  match b, c with
  | Fin p, Fin q => rnd N (p * q)%Q
  | _, _ => binf_of_sgn (bsgn b * bsgn c)
  end.

(** bound_div, bound_def.h 288-294. *)
Definition bdiv (b c : bound) : bound :=
  if (bsgn b =? 0) || binfty c then Fin 0 else
  if bsgn c =? 0 then binf_of_sgn (bsgn b) else
  match b, c with
  | Fin p, Fin q => rnd N (p / q)%Q
  | _, _ => binf_of_sgn (bsgn b * bsgn c)
  end.

(** bound_mul_2 / bound_div_2, bound_def.h 283-287 and 302-306. *)
Definition bmul_2 (b : bound) : bound :=
  match b with Fin q => rnd N (2 * q)%Q | _ => b end.
Definition bdiv_2 (b : bound) : bound :=
  match b with Fin q => rnd N (q / 2)%Q | _ => b end.

(** bound_add_uint / bound_sub_uint, bound_def.h 244-248, 260-264. *)
Definition badd_uint (b : bound) (n : Z) : bound :=
  match b with Fin q => rnd N (q + inject_Z n)%Q | _ => b end.
Definition bsub_uint (b : bound) (n : Z) : bound :=
  match b with Fin q => rnd N (q - inject_Z n)%Q | _ => b end.

(** bound_set_ap_scalar and friends: conversion of a number, rounding up. *)
Definition bconv (b : bound) : bound :=
  match b with Fin q => rnd N q | _ => b end.

End Arith.

(** ** Meaning of bounds (specification side) *)

(** [x] is below the bound. *)
Definition le_rb (x : R) (b : bound) : Prop :=
  match b with MInf => False | Fin q => (x <= Q2R q)%R | PInf => True end.

(** [x] is above the bound. *)
Definition ge_rb (x : R) (b : bound) : Prop :=
  match b with MInf => True | Fin q => (Q2R q <= x)%R | PInf => False end.

(** Model of one-dimensional intervals: /repo/itv/itv.h and /repo/itv/itv.c.

    An interval [l,u] is stored as the pair (inf,sup) = (-l,u), so that both
    components are upper bounds and rounding up is always safe.
    The C functions take an output parameter that may alias an input; the
    aliasing variants compute the same value and are merged here.          *)

From Coq Require Import ZArith QArith Qround Reals Bool List.
From Verif Require Import Bound.
Import ListNotations.
Open Scope Z_scope.

(** itv_t, itv.h 24-45. *)
Record itv : Type := mkItv { inf : bound; sup : bound }.

(** itv_set_top / itv_set_bottom, itv.h 411-420. *)
Definition itv_top : itv := mkItv PInf PInf.
Definition itv_bottom : itv := mkItv (Fin (-1)) (Fin (-1)).

(** itv_set_int / itv_set_int2 / itv_set_num, itv.h 372-376, 401-410. *)
Definition itv_of_num (q : Q) : itv := mkItv (Fin (- q)) (Fin q).
Definition itv_of_int (n : Z) : itv := itv_of_num (inject_Z n).
Definition itv_of_num2 (p q : Q) : itv := mkItv (Fin (- p)) (Fin q).

(** itv_canonicalize, itv.c 131-150: new interval and "is bottom". *)
Definition itv_floor2 (a : itv) : itv := mkItv (bfloor (inf a)) (bfloor (sup a)).
Definition itv_empty_test (a : itv) : bool :=
  if binfty (inf a) || binfty (sup a) then false
  else bcmp (sup a) (bneg (inf a)) <? 0.
Definition itv_canonicalize (integer : bool) (a : itv) : itv * bool :=
  let a' := if integer then itv_floor2 a else a in (a', itv_empty_test a').

(** itv_is_top .. itv_is_eq, itv.h 424-470. *)
Definition itv_is_top (a : itv) : bool := binfty (inf a) && binfty (sup a).
Definition itv_is_bottom (a : itv) : bool := itv_empty_test a.
Definition itv_is_canonical_bottom (a : itv) : bool :=
  (bcmp_int (inf a) (-1) =? 0) && (bcmp_int (sup a) (-1) =? 0).
Definition itv_is_point (a : itv) : bool :=
  match inf a, sup a with
  | Fin p, Fin q => Qeq_bool (- p) q
  | _, _ => false
  end.
Definition itv_is_zero (a : itv) : bool := (bsgn (inf a) =? 0) && (bsgn (sup a) =? 0).
Definition itv_is_pos (a : itv) : bool := bsgn (inf a) <=? 0.
Definition itv_is_neg (a : itv) : bool := bsgn (sup a) <=? 0.
Definition itv_is_leq (a b : itv) : bool :=
  if itv_is_canonical_bottom a then true
  else if itv_is_canonical_bottom b then false
  else (bcmp (sup a) (sup b) <=? 0) && (bcmp (inf a) (inf b) <=? 0).
Definition itv_is_eq (a b : itv) : bool :=
  bequal (sup a) (sup b) && bequal (inf a) (inf b).

(** itv_meet, itv.h 475-480: new interval and "is bottom". *)
Definition itv_meet (b c : itv) : itv * bool :=
  let a := mkItv (bmin (inf b) (inf c)) (bmin (sup b) (sup c)) in
  (a, itv_empty_test a).

(** itv_join, itv.h 481-493. *)
Definition itv_join (b c : itv) : itv :=
  if itv_is_canonical_bottom b then c
  else if itv_is_canonical_bottom c then b
  else mkItv (bmax (inf b) (inf c)) (bmax (sup b) (sup c)).

(** bound_widening and itv_widening, itv.h 494-516. *)
Definition bound_widening (b c : bound) : bound :=
  if binfty c || (bcmp b c <? 0) then PInf else b.
Definition itv_widening (b c : itv) : itv :=
  if itv_is_canonical_bottom b then c
  else if itv_is_canonical_bottom c then b
  else mkItv (bound_widening (inf b) (inf c)) (bound_widening (sup b) (sup c)).

(** itv_neg, itv.c 222-230. *)
Definition itv_neg (b : itv) : itv := mkItv (sup b) (inf b).

(** itv_abs, itv.c 258-270. *)
Definition itv_abs (b : itv) : itv :=
  if bsgn (inf b) <=? 0 then b
  else if bsgn (sup b) <=? 0 then itv_neg b
  else mkItv (Fin 0) (bmax (inf b) (sup b)).

(** itv_ceil, itv_floor, itv_trunc, itv_to_int, itv.h 553-563. *)
Definition itv_ceil (b : itv) : itv := mkItv (bfloor (inf b)) (bceil (sup b)).
Definition itv_floor (b : itv) : itv := mkItv (bceil (inf b)) (bfloor (sup b)).
Definition itv_trunc (b : itv) : itv := mkItv (btrunc (inf b)) (btrunc (sup b)).
Definition itv_to_int (b : itv) : itv := mkItv (bceil (inf b)) (bceil (sup b)).

(** itv_magnitude, itv.h 579-584. *)
Definition itv_magnitude (b : itv) : bound :=
  if bsgn (inf b) <=? 0 then sup b
  else if bsgn (sup b) <=? 0 then inf b
  else bmax (inf b) (sup b).

(** itv_is_int, itv.h 599-605. *)
Definition itv_is_int (a : itv) : bool :=
  (bcmp (btrunc (sup a)) (sup a) =? 0) && (bcmp (btrunc (inf a)) (inf a) =? 0).

Section Arith.
Context {N : numtype}.
Local Notation badd := (badd (N:=N)).
Local Notation bmul := (bmul (N:=N)).
Local Notation bdiv := (bdiv (N:=N)).

(** itv_add, itv.h 517-521; itv_sub, itv.c 208-221. *)
Definition itv_add (b c : itv) : itv :=
  mkItv (badd (inf b) (inf c)) (badd (sup b) (sup c)).
Definition itv_sub (b c : itv) : itv :=
  mkItv (badd (inf b) (sup c)) (badd (sup b) (inf c)).

(** itv_add_bound / itv_sub_bound, itv.h 532-541. *)
Definition itv_add_bound (b : itv) (c : bound) : itv :=
  mkItv (bsub (N:=N) (inf b) c) (badd (sup b) c).
Definition itv_sub_bound (b : itv) (c : bound) : itv :=
  mkItv (badd (inf b) c) (bsub (N:=N) (sup b) c).

(** itv_enlarge_bound, itv.h 396-400. *)
Definition itv_enlarge_bound (b : itv) (c : bound) : itv :=
  mkItv (badd (inf b) c) (badd (sup b) c).

(** itv_mul_num / itv_mul_bound, itv.c 161-190.  (The num version is the bound
    version at a finite bound: bound_mul_num, bound_def.h 277-282.) *)
Definition itv_mul_bound (b : itv) (c : bound) : itv :=
  if 0 <=? bsgn c then mkItv (bmul (inf b) c) (bmul (sup b) c)
  else let c' := bneg c in mkItv (bmul (sup b) c') (bmul (inf b) c').
Definition itv_mul_num (b : itv) (c : Q) : itv := itv_mul_bound b (Fin c).

(** itv_div_num / itv_div_bound, itv.c 192-207. *)
Definition itv_div_bound (b : itv) (c : bound) : itv :=
  if 0 <=? bsgn c then mkItv (bdiv (inf b) c) (bdiv (sup b) c)
  else let c' := bneg c in mkItv (bdiv (sup b) c') (bdiv (inf b) c').
Definition itv_div_num (b : itv) (c : Q) : itv := itv_div_bound b (Fin c).

(** Multiplication, itv.c 304-418. *)
Definition itv_mulpp (b c : itv) : itv :=                       (* 304-315 *)
  mkItv (bmul (inf b) (bneg (inf c))) (bmul (sup b) (sup c)).
Definition itv_mulnn (b c : itv) : itv :=                       (* 317-330 *)
  mkItv (bmul (sup b) (bneg (sup c))) (bmul (inf b) (inf c)).
Definition itv_mulpn (b c : itv) : itv :=                       (* 332-343 *)
  mkItv (bmul (sup b) (inf c)) (bmul (bneg (inf b)) (sup c)).
Definition itv_mulp (b c : itv) : itv :=                        (* 345-366 *)
  if bsgn (inf b) <=? 0 then itv_mulpp b c
  else if bsgn (sup b) <=? 0 then itv_mulpn c b
  else mkItv (bmul (inf b) (sup c)) (bmul (sup b) (sup c)).
Definition itv_muln (b c : itv) : itv :=                        (* 368-390 *)
  if bsgn (inf b) <=? 0 then itv_mulpn b c
  else if bsgn (sup b) <=? 0 then itv_mulnn b c
  else mkItv (bmul (sup b) (inf c)) (bmul (inf b) (inf c)).
Definition itv_mul (b c : itv) : itv :=                         (* 392-420 *)
  if bsgn (inf c) <=? 0 then itv_mulp b c
  else if bsgn (sup c) <=? 0 then itv_muln b c
  else if bsgn (inf b) <=? 0 then itv_mulp c b
  else if bsgn (sup c) <=? 0 then itv_muln c b  (* sic: tests c again *)
  else
    let n := itv_muln b (mkItv (inf c) (Fin 0)) in
    let p := itv_mulp b (mkItv (Fin 0) (sup c)) in
    itv_join p n.

(** Division, itv.c 426-552. *)
Definition itv_divpp (b c : itv) : itv :=                       (* 426-437 *)
  mkItv (bdiv (inf b) (sup c)) (bdiv (sup b) (bneg (inf c))).
Definition itv_divnn (b c : itv) : itv :=                       (* 438-449 *)
  mkItv (bdiv (sup b) (inf c)) (bdiv (bneg (inf b)) (sup c)).
Definition itv_divpn (b c : itv) : itv :=                       (* 450-462 *)
  mkItv (bdiv (bneg (sup b)) (sup c)) (bdiv (inf b) (inf c)).
Definition itv_divnp (b c : itv) : itv :=                       (* 463-474 *)
  mkItv (bdiv (bneg (inf b)) (inf c)) (bdiv (sup b) (sup c)).
Definition itv_divp (b c : itv) : itv :=                        (* 476-499 *)
  if bsgn (inf b) <=? 0 then itv_divpp b c
  else if bsgn (sup b) <=? 0 then itv_divnp b c
  else mkItv (bdiv (inf b) (bneg (inf c))) (bdiv (sup b) (bneg (inf c))).
Definition itv_divn (b c : itv) : itv :=                        (* 500-532 *)
  if bsgn (inf b) <=? 0 then itv_divpn b c
  else if bsgn (sup b) <=? 0 then itv_divnn b c
  else mkItv (bdiv (sup b) (bneg (sup c))) (bdiv (inf b) (bneg (sup c))).
Definition itv_div (b c : itv) : itv :=                         (* 534-552 *)
  if bsgn (inf c) <? 0 then itv_divp b c
  else if bsgn (sup c) <? 0 then itv_divn b c
  else if (bsgn (inf b) =? 0) && (bsgn (sup b) =? 0) then b
  else itv_top.

(** itv_mod, itv.c 272-300. *)
Definition itv_mod (is_int : bool) (b c : itv) : itv :=
  let e := itv_abs c in
  if bsgn (inf e) =? 0 then itv_top
  else
    let d := itv_trunc (itv_div b e) in
    let d := itv_mul d e in
    let m := if is_int then bsub_uint (N:=N) (sup e) 1 else sup e in
    let e' :=
      if bsgn (sup b) <? 0 then mkItv m (Fin 0)
      else if 0 <? bsgn (inf b) then mkItv m m
      else mkItv (Fin 0) m in
    fst (itv_meet (itv_sub b d) e').

(** Conversion of user intervals, itv_set_ap_interval, itv.c 690-697. *)
Definition itv_conv (a : itv) : itv := mkItv (bconv (N:=N) (inf a)) (bconv (N:=N) (sup a)).

End Arith.

(** numrat_sqrt, /repo/num/numrat_mpq.h 158-175: (up,down); bound_sqrt,
    bound_def.h 364-375.  MPQ instance only. *)
Definition qsqrt (q : Q) : Q * Q :=
  let r := Qred q in
  let t := (Qnum r * Zpos (Qden r))%Z in
  let s := Z.sqrt t in
  let perfect := s * s =? t in
  ((if perfect then s else s + 1) # Qden r, s # Qden r).
Definition bsqrt (b : bound) : bound * bound :=
  match b with
  | Fin q => let (u, d) := qsqrt q in (Fin u, Fin d)
  | _ => (PInf, PInf)
  end.

(** itv_sqrt, itv.c 232-256. *)
Definition itv_sqrt (b : itv) : itv :=
  if itv_is_bottom b || (bsgn (sup b) <? 0) then itv_bottom
  else
    mkItv (if 0 <=? bsgn (inf b) then Fin 0
           else bneg (snd (bsqrt (bneg (inf b)))))
          (fst (bsqrt (sup b))).

(** numrat_pow, numrat_mpq.h 177-185 (never overflows); bound_pow,
    bound_def.h 376-394: (up,down).  MPQ instance only. *)
Fixpoint qpow (q : Q) (n : nat) : Q :=
  match n with O => 1%Q | S n => (q * qpow q n)%Q end.
Definition bpow (b : bound) (n : nat) : bound * bound :=
  match b with
  | Fin q => let p := qpow q n in (Fin p, Fin p)
  | _ => (PInf, PInf)
  end.

(** The exponent test of itv_pow and itv_inv_pow, itv.c 563-580: singleton,
    integer, non-negative (overflow of [long] not modelled). *)
Definition itv_exponent (n : itv) : option nat :=
  match inf n, sup n with
  | Fin p, Fin q =>
      if negb (Qeq_bool (- p) q) then None
      else let x := Qceiling q in
           if negb (Qeq_bool (inject_Z x) q) || (x <? 0) then None
           else Some (Z.to_nat x)
  | _, _ => None
  end.

(** itv_pow, itv.c 559-586. *)
Definition itv_pow (b n : itv) : itv :=
  if itv_is_bottom b || itv_is_bottom n then itv_bottom
  else match itv_exponent n with
  | None => itv_top
  | Some x =>
      let m := if Nat.odd x then b else itv_abs b in
      mkItv (bneg (snd (bpow (bneg (inf m)) x))) (fst (bpow (sup m) x))
  end.

(** ** Meaning *)

(** Membership of a real in an interval: -x <= inf and x <= sup. *)
Definition in_itv (x : R) (a : itv) : Prop := le_rb (- x) (inf a) /\ le_rb x (sup a).

(** Set inclusion. *)
Definition itv_subset (a b : itv) : Prop := forall x, in_itv x a -> in_itv x b.

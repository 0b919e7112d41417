(** Model of octagon half-matrices and of their closure algorithms.

    Models /repo/octagons/oct_internal.h 138-161, oct_hmat.c 60-98,
    oct_closure.c 32-197.

    A half-matrix is the content of its C array: a map from flat positions to
    bounds; only the positions below [matsize dim] exist.  Loops over flat
    cells with a running pointer are written with the explicit position
    [matpos i j] of the cell; [Prop C22] shows that the running pointer and
    [matpos] agree.                                                        *)
From Coq Require Import Arith Lia List ZArith QArith Bool.
From Verif Require Import Bound.
Import ListNotations.
Open Scope nat_scope.

(** C's [i^1] and [i|1] on unsigned integers. *)
Definition xor1 (i : nat) : nat := if Nat.eqb (i mod 2) 0 then i + 1 else i - 1.
Definition or1 (i : nat) : nat := if Nat.eqb (i mod 2) 0 then i + 1 else i.

(** matsize, oct_internal.h 138-141. *)
Definition matsize (dim : nat) : nat := 2 * dim * (dim + 1).
(** matpos, oct_internal.h 144-147. *)
Definition matpos (i j : nat) : nat := j + ((i + 1) * (i + 1)) / 2.
(** matpos2, oct_internal.h 150-154. *)
Definition matpos2 (i j : nat) : nat :=
  if Nat.ltb i j then matpos (xor1 j) (xor1 i) else matpos i j.

Definition hmat := nat -> bound.

(** [for (i=lo;i<hi;i++) a = f i a] *)
Definition for_ {A} (lo hi : nat) (f : nat -> A -> A) (a : A) : A :=
  fold_left (fun a i => f i a) (seq lo (hi - lo)) a.

(** [m[p] = b] *)
Definition upd (m : hmat) (p : nat) (b : bound) : hmat :=
  fun q => if Nat.eqb q p then b else m q.

(** [bound_bmin(m[p],b)], oct_internal.h 206-207. *)
Definition mmin (m : hmat) (p : nat) (b : bound) : hmat := upd m p (bmin (m p) b).

(** hmat_alloc_top, oct_hmat.c 79-87. *)
Definition hmat_top (dim : nat) : hmat :=
  for_ 0 (2 * dim) (fun i m => upd m (matpos i i) (Fin 0)) (fun _ => PInf).

Section Closure.
Context {N : numtype}.

(** hmat_s_step, oct_closure.c 32-60: propagation of unary constraints ... *)
Definition hmat_s_prop (m : hmat) (dim : nat) : hmat :=
  for_ 0 (2 * dim) (fun i m =>
    let ij := bdiv_2 (N:=N) (m (matpos i (xor1 i))) in
    for_ 0 (or1 i + 1) (fun j m =>
      let ik := badd (N:=N) (bdiv_2 (N:=N) (m (matpos (xor1 j) j))) ij in
      mmin m (matpos i j) ik) m) m.

(** ... then emptiness check, clearing the diagonal up to the first negative
    element.  Result: matrix and "is empty" answer. *)
Fixpoint hmat_diag (count i : nat) (m : hmat) : hmat * bool :=
  match count with
  | O => (m, false)
  | S count =>
    if (bsgn (m (matpos i i)) <? 0)%Z then (m, true)
    else hmat_diag count (S i) (upd m (matpos i i) (Fin 0))
  end.

Definition hmat_s_step (m : hmat) (dim : nat) : hmat * bool :=
  hmat_diag (2 * dim) 0 (hmat_s_prop m dim).

(** body of the Floyd-Warshall passes: line [i], pivots [k] and [k^1];
    oct_closure.c 82-100 and 174-190. *)
Definition fw_line (k i : nat) (m : hmat) : hmat :=
  let k2 := xor1 k in
  let i2 := or1 i in
  let br := if Nat.ltb k i2 then k else i2 in
  let ik := m (matpos2 i k) in
  let ik2 := m (matpos2 i k2) in
  let m := for_ 0 (br + 1) (fun j m =>
    let m := mmin m (matpos i j) (badd (N:=N) ik (m (matpos k j))) in
    mmin m (matpos i j) (badd (N:=N) ik2 (m (matpos k2 j)))) m in
  for_ (br + 1) (i2 + 1) (fun j m =>
    let m := mmin m (matpos i j) (badd (N:=N) ik (m (matpos (xor1 j) k2))) in
    mmin m (matpos i j) (badd (N:=N) ik2 (m (matpos (xor1 j) k)))) m.

Definition fw_pass (dim k : nat) (m : hmat) : hmat :=
  for_ 0 (2 * dim) (fw_line k) m.

(** hmat_close, oct_closure.c 72-107. *)
Definition hmat_fw (m : hmat) (dim : nat) : hmat :=
  for_ 0 (2 * dim) (fw_pass dim) m.

Definition hmat_close (m : hmat) (dim : nat) : hmat * bool :=
  hmat_s_step (hmat_fw m dim) dim.

(** hmat_close_incremental, oct_closure.c 120-197.  First phase, oct_closure.c
    129-167: column part of the update of line/column [i]. *)
Definition inc_col (dim k i : nat) (m : hmat) : hmat :=
  let kk := xor1 k in
  let ik := m (matpos2 k i) in
  let ik2 := m (matpos2 kk i) in
  let m := for_ i k (fun j m =>
    let m := mmin m (matpos j i) (badd (N:=N) ik (m (matpos kk (xor1 j)))) in
    mmin m (matpos j i) (badd (N:=N) ik2 (m (matpos k (xor1 j))))) m in
  for_ (Nat.max i k) (2 * dim) (fun j m =>
    let m := mmin m (matpos j i) (badd (N:=N) ik (m (matpos j k))) in
    mmin m (matpos j i) (badd (N:=N) ik2 (m (matpos j kk)))) m.

Definition hmat_inc1 (m : hmat) (dim v : nat) : hmat :=
  for_ 0 (2 * dim) (fun k m =>
    for_ (2 * v) (2 * v + 2) (fun i m => inc_col dim k i (fw_line k i m)) m) m.

(** second phase, oct_closure.c 169-191. *)
Definition hmat_inc2 (m : hmat) (dim v : nat) : hmat :=
  for_ (2 * v) (2 * v + 2) (fw_pass dim) m.

Definition hmat_close_incremental (m : hmat) (dim v : nat) : hmat * bool :=
  hmat_s_step (hmat_inc2 (hmat_inc1 m dim v) dim v) dim.

(** hmat_check_closed, oct_closure.c 206-234. *)
Definition hmat_check_closed (m : hmat) (dim : nat) : bool :=
  let l := seq 0 (2 * dim) in
  forallb (fun i => forallb (fun j => forallb (fun k =>
    negb (0 <? bcmp (m (matpos2 i j)) (badd (N:=N) (m (matpos2 i k)) (m (matpos2 k j))))%Z) l) l) l &&
  forallb (fun i => forallb (fun j =>
    negb (0 <? bcmp (m (matpos2 i j)) (m (matpos2 (xor1 j) (xor1 i))))%Z) l) l &&
  forallb (fun i => forallb (fun j =>
    negb (0 <? bcmp (m (matpos2 i j))
      (bdiv_2 (N:=N) (badd (N:=N) (m (matpos2 i (xor1 i))) (m (matpos2 (xor1 j) j)))))%Z) l) l.

End Closure.

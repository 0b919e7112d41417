(** Argument checks of the generic front-end and syntactic tests on linear
    expressions and constraints.

    /repo/apron/ap_abstract0.c 95-546, 1320-1385; ap_lincons0.c 40-268;
    ap_linexpr0.c 250-372.  The manager's exception is the answer [false].
    Sizes and dimensions are unbounded naturals (the C code uses size_t, unsigned int and,
    in check_linexpr_check, an int index). *)
From Coq Require Import Arith ZArith QArith Bool List.
From Verif Require Import Bound Itv Linexpr ItvLin ApCore.
Import ListNotations.
Open Scope nat_scope.

(** ** Trivial constraints *)
(** the loop common to is_sat and is_unsat, ap_lincons0.c 57-63, 115-121: nbcoeffs stays 0 iff
    each coefficient visited is zero *)
Definition no_coeff (e : linexpr) : bool := forallb (fun p => coeff_zero (snd p)) (foreach (le_terms e)).
(** ap_lincons0_make_unsat 40-47 *)
Definition lincons_make_unsat : lincons := mkCons CSupEq (mkLin (Scal (Fin (-1))) (Sparse [])) None.
(** ap_lincons0_is_unsat 49-106 *)
Definition lincons_is_unsat (c : lincons) : bool :=
  if no_coeff (lc_expr c) then
    match le_cst (lc_expr c) with
    | Scal s =>
        let sgn := scalar_sgn s in
        match lc_typ c with
        | CEq | CEqMod => negb (sgn =? 0)
        | CDisEq => sgn =? 0
        | CSupEq => sgn <? 0
        | CSup => sgn <=? 0
        end%Z
    | Intv inf sup =>
        let sgn := scalar_sgn sup in
        match lc_typ c with
        | CEq | CEqMod => (sgn <? 0) || (0 <? scalar_sgn inf)
        | CDisEq => (0 <=? sgn) && (scalar_sgn inf <=? 0)
        | CSupEq => sgn <? 0
        | CSup => sgn <=? 0
        end%Z
    end
  else false.
(** ap_lincons0_is_sat 108-166 *)
Definition lincons_is_sat (c : lincons) : bool :=
  if no_coeff (lc_expr c) then
    match le_cst (lc_expr c) with
    | Scal s =>
        match lc_typ c with
        | CEq | CEqMod => scalar_sgn s =? 0
        | CDisEq => negb (scalar_sgn s =? 0)
        | CSupEq => 0 <=? scalar_sgn s
        | CSup => 0 <? scalar_sgn s
        end%Z
    | Intv inf sup =>
        if interval_is_bottom (inf, sup) then true else
        match lc_typ c with
        | CEq | CEqMod => (scalar_sgn inf =? 0) && (scalar_sgn sup =? 0)
        | CDisEq => (scalar_sgn inf <? 0) || (0 <? scalar_sgn sup)
        | CSupEq => 0 <=? scalar_sgn inf
        | CSup => 0 <? scalar_sgn inf
        end%Z
    end
  else false.

(** ** Classification of linear expressions *)
(** ap_linexpr_type_t, ap_linexpr0.h 76-80, in increasing order *)
Inductive ltype := TIntlinear | TQuasilinear | TLinear.
Definition ltype_num (t : ltype) : nat := match t with TIntlinear => 0 | TQuasilinear => 1 | TLinear => 2 end.
(** ap_linexpr0_type, ap_linexpr0.c 291-310 *)
Definition linexpr_type (e : linexpr) : ltype :=
  if forallb (fun p => is_scal (snd p)) (foreach (le_terms e)) then
    if is_scal (le_cst e) then TLinear else TQuasilinear
  else TIntlinear.
(** ap_linexpr0_is_linear 311-327, ap_linexpr0_is_quasilinear 328-343 *)
Definition linexpr_is_linear (e : linexpr) : bool :=
  if is_scal (le_cst e) then forallb (fun p => is_scal (snd p)) (foreach (le_terms e)) else false.
Definition linexpr_is_quasilinear (e : linexpr) : bool := forallb (fun p => is_scal (snd p)) (foreach (le_terms e)).
(** ap_linexpr0_is_real 254-264 *)
Fixpoint is_real_loop (intdim : nat) (l : list (nat * coeff)) : bool :=
  match l with
  | [] => true
  | (d, c) :: l => if Nat.leb intdim d then true else if negb (coeff_zero c) then false else is_real_loop intdim l
  end.
Definition linexpr_is_real (e : linexpr) (intdim : nat) : bool := is_real_loop intdim (foreach (le_terms e)).
(** ap_linexpr0_is_integer 267-289 *)
Definition linexpr_is_integer (e : linexpr) (intdim : nat) : bool :=
  match le_terms e with
  | Dense l => forallb coeff_zero (skipn intdim l)
  | Sparse ts => forallb (fun p => negb (Nat.leb intdim (fst p) && negb (coeff_zero (snd p)))) (sparse_terms ts)
  end.
(** ap_linexpr0_array_type 344-354 *)
Fixpoint type_loop (res : ltype) (l : list linexpr) : ltype :=
  match l with
  | [] => res
  | e :: l =>
      let type := linexpr_type e in
      let res := if Nat.ltb (ltype_num type) (ltype_num res) then type else res in
      match res with TIntlinear => res | _ => type_loop res l end
  end.
Definition linexpr_array_type (l : list linexpr) : ltype := type_loop TLinear l.
(** ap_lincons0_array_type, ap_lincons0.c 232-244: the assignment of the loop goes to [type], not to [res] *)
Fixpoint ctype_loop (res : ltype) (l : list lincons) : ltype :=
  match l with
  | [] => res
  | c :: l =>
      let type := linexpr_type (lc_expr c) in
      let type := if Nat.ltb (ltype_num type) (ltype_num res) then res else type in
      match res with TIntlinear => res | _ => ctype_loop res l end
  end.
Definition lincons_array_type (l : list lincons) : ltype := ctype_loop TLinear l.
(** ap_linexpr0_array_is_linear/_is_quasilinear 355-372, ap_lincons0_array_is_quasilinear/_is_linear 245-268 *)
Definition linexpr_array_is_linear (l : list linexpr) : bool := forallb linexpr_is_linear l.
Definition linexpr_array_is_quasilinear (l : list linexpr) : bool := forallb linexpr_is_quasilinear l.
Definition lincons_array_is_quasilinear (l : list lincons) : bool := forallb (fun c => linexpr_is_quasilinear (lc_expr c)) l.
Definition lincons_array_is_linear (l : list lincons) : bool := forallb (fun c => linexpr_is_linear (lc_expr c)) l.

(** ** Checks of the arguments, ap_abstract0.c *)
Definition dimension : Type := (nat * nat)%type.
Definition total (d : dimension) : nat := fst d + snd d.
(** ap_abstract0_check_abstract2 98-121, ap_abstract0_check_abstract_array 124-170: on the dimensionalities *)
Definition check_abstract2 (d1 d2 : dimension) : bool :=
  if negb (Nat.eqb (fst d1) (fst d2)) || negb (Nat.eqb (snd d1) (snd d2)) then false else true.
Definition check_abstract_array (l : list dimension) : bool :=
  match l with
  | [] => false
  | d0 :: l => forallb (fun d => negb (negb (Nat.eqb (fst d) (fst d0)) || negb (Nat.eqb (snd d) (snd d0)))) l
  end.
(** ap_abstract0_check_dim_array 198-213 *)
Definition check_dim_array (d : dimension) (tdim : list nat) : bool := forallb (fun x => negb (Nat.leb (total d) x)) tdim.
(** ap_abstract0_check_linexpr_check 237-272: [None] is AP_DIM_MAX, i.e. accepted.  The sparse loop
    goes down from the last term; [dim] is 0 before the loop and, at each hole, AP_DIM_MAX *)
Fixpoint check_loop (nbdims : nat) (rts : list term) (dim : option nat) : option nat :=
  match rts with
  | [] => dim
  | (None, _) :: rts => check_loop nbdims rts None
  | (Some x, _) :: _ => if Nat.ltb x nbdims then None else Some x
  end.
Definition check_linexpr_check (d : dimension) (e : linexpr) : option nat :=
  match le_terms e with
  | Dense l => if Nat.ltb (total d) (length l) then Some (length l - 1) else None
  | Sparse ts =>
      match check_loop (total d) (rev ts) (Some 0) with
      | Some 0 => None
      | r => r
      end
  end.
Definition check_linexpr (d : dimension) (e : linexpr) : bool :=
  match check_linexpr_check d e with None => true | Some _ => false end.
(** ap_abstract0_check_linexpr_array 320-344, _lincons_array 346-369, _generator_array 372-394 (the NULL
    expression is [None]) *)
Definition check_linexpr_array (d : dimension) (l : list (option linexpr)) : bool :=
  forallb (fun o => match o with None => false | Some e => check_linexpr d e end) l.
(** ap_abstract0_check_ap_dimchange_add 456-489; the positions are dim[0 .. intdim+realdim-1], the first
    [ni] of which are integer.  The sortedness loop starts at index 1 with the bound 0 *)
Fixpoint sorted_loop (lt : nat -> nat -> bool) (dim : nat) (l : list nat) : bool :=
  match l with
  | [] => true
  | x :: l => if negb (lt dim x) then false else sorted_loop lt x l
  end.
Definition check_dimchange_add (d : dimension) (ni : nat) (pos : list nat) : bool :=
  let res := forallb (fun x => negb (Nat.ltb (fst d) x)) (firstn ni pos) in
  if res && Nat.ltb 0 (length pos) then sorted_loop Nat.leb 0 (tl pos) && Nat.leb (last pos 0) (total d) else res.
(** ap_abstract0_check_ap_dimchange_remove 491-523 *)
Definition check_dimchange_remove (d : dimension) (ni : nat) (pos : list nat) : bool :=
  let res := forallb (fun x => negb (Nat.leb (fst d) x)) (firstn ni pos) in
  if res && Nat.ltb 0 (length pos) then sorted_loop Nat.ltb 0 (tl pos) && Nat.ltb (last pos 0) (total d) else res.
(** ap_abstract0_check_dimperm 525-546 *)
Definition check_dimperm (d : dimension) (perm : list nat) : bool :=
  if Nat.eqb (total d) (length perm) then forallb (fun x => negb (Nat.leb (total d) x)) perm else false.
(** the checks of ap_abstract0_fold 1327-1360 *)
Definition check_fold (d : dimension) (tdim : list nat) : bool :=
  check_dim_array d tdim &&
  match tdim with
  | [] => false
  | x :: l => if negb (sorted_loop Nat.ltb x l) then false
              else if Nat.ltb x (fst d) && Nat.leb (fst d) (last tdim 0) then false else true
  end.
(** dimensionality of the top value returned by ap_abstract0_fold after an exception, 1377-1384
    (size_t arithmetic, 64 bits) *)
Definition sub64 (a b : Z) : Z := ((a - b) mod 2 ^ 64)%Z.
Definition fold_exc_dims (d : dimension) (tdim : list nat) : Z * Z :=
  let size := Z.of_nat (length tdim) in
  let int := match tdim with x :: _ => Nat.ltb x (fst d) | [] => false end in
  (sub64 (Z.of_nat (fst d)) (if int then sub64 size 1 else 0%Z),
   sub64 (Z.of_nat (snd d)) (if int then 0%Z else sub64 size 1)).

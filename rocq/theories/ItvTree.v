(** Interval evaluation and linearisation of tree expressions.

    /repo/itv/itv_linearize.c 748-882 (evaluation), 889-1052 (interval linear trees), 1056-1645
    (linearisation of any tree); /repo/itv/itv.h 553-581; /repo/num/bound_def.h 388-430.

    [N] is the number type of the intervals, [F] the floating-point formats of the machine.
    The evaluation functions write their result through a pointer; here they return it.  The
    type [eq0] is the value found in the field [equality] of the linear form when a variable is
    linearised: the code does not set it there. *)
From Coq Require Import Arith ZArith QArith Qreals Reals Bool List.
From Verif Require Import Bound Itv Linexpr ItvLin ApTexpr TexprSem.
Import ListNotations.
Open Scope Z_scope.

Section Tree.
Context {N : numtype} {F : fmts}.

(** bound_to_float, bound_to_double, bound_def.h 388-430: conversion upwards, +oo on overflow *)
Definition bto (f : ffmt) (b : bound) : bound := match b with Fin q => f_up f q | _ => b end.
(** itv_to_float, itv_to_double, itv.h 553-557 *)
Definition itv_to_fmt (f : ffmt) (a : itv) : itv := mkItv (bto f (inf a)) (bto f (sup a)).
(** itv_round, itv_linearize.c 749-793.  Extended and quadruple precision use the conversion to
    double. *)
Definition itv_round (t : rtype) (d : rdir) (a : itv) : itv :=
  match t with
  | RReal => a
  | RInt => match d with
            | DZero => itv_trunc a
            | DUp => itv_ceil a
            | DDown => itv_floor a
            | DRnd | DNearest => itv_to_int a
            end
  | RSingle => itv_to_fmt (fm_single F) a
  | RDouble | RExtended | RQuad => itv_to_fmt (fm_double F) a
  end.
(** itv_eval_ap_texpr0_node, 798-835 *)
Definition eval_un (o : unop) (t : rtype) (d : rdir) (a : itv) : itv :=
  match o with
  | UNeg => itv_neg a
  | UCast => itv_round t d a
  | USqrt => itv_round t d (itv_sqrt a)
  end.
Definition eval_bin (o : binop) (t : rtype) (d : rdir) (a b : itv) : itv :=
  match o with
  | BAdd => itv_round t d (itv_add (N:=N) a b)
  | BSub => itv_round t d (itv_sub (N:=N) a b)
  | BMul => itv_round t d (itv_mul (N:=N) a b)
  | BDiv => itv_round t d (itv_div (N:=N) a b)
  | BPow => itv_round t d (itv_pow a b)
  | BMod => itv_mod (N:=N) (rtype_eqb t RInt) a b
  end.
(** itv_eval_ap_texpr0, 839-882 *)
Fixpoint eval_texpr (env : nat -> itv) (e : texpr) : itv :=
  match e with
  | TCst c => fst (itv_set_coeff (N:=N) c)
  | TDim d => env d
  | TUn o t d a => let x := eval_texpr env a in if itv_is_bottom x then x else eval_un o t d x
  | TBin o t d a b =>
      let x := eval_texpr env a in let y := eval_texpr env b in
      if itv_is_bottom x || itv_is_bottom y then itv_bottom else eval_bin o t d x y
  end.

(** ** Interval linear trees *)
Definition cst_form (i : itv) : ilin := mkIL [] i (itv_is_point i).
Definition dim_form (eq0 : bool) (d : nat) : ilin := mkIL [mkT (itv_of_int 1) true d] (itv_of_int 0) eq0.
Definition no_env : nat -> itv := fun _ => itv_top.
(** itv_intlinearize_ap_texpr0_intlinear and ap_texpr0_node_intlinearize_linear, 889-1004.
    [None]: the code answers that the tree is not interval linear.  The null environment is
    never read: the trees evaluated in it have no variable. *)
Fixpoint intlinear_texpr (eq0 : bool) (e : texpr) : option ilin :=
  match e with
  | TCst c => Some (cst_form (fst (itv_set_coeff (N:=N) c)))
  | TDim d => Some (dim_form eq0 d)
  | TUn o t d a =>
      if is_interval_cst e then Some (cst_form (eval_texpr no_env e)) else
      if negb (rtype_eqb t RReal) && negb (unop_eqb o UNeg) then None else
      match o with
      | UNeg => match intlinear_texpr eq0 a with Some l => Some (ilin_neg l) | None => None end
      | UCast => intlinear_texpr eq0 a
      | USqrt => None
      end
  | TBin o t d a b =>
      if is_interval_cst e then Some (cst_form (eval_texpr no_env e)) else
      if negb (rtype_eqb t RReal) then None else
      match o with
      | BMod | BPow => None
      | BAdd => match intlinear_texpr eq0 a, intlinear_texpr eq0 b with Some la, Some lb => Some (ilin_add (N:=N) la lb) | _, _ => None end
      | BSub => match intlinear_texpr eq0 a, intlinear_texpr eq0 b with Some la, Some lb => Some (ilin_sub (N:=N) la lb) | _, _ => None end
      | BMul =>
          if is_interval_cst b then
            match intlinear_texpr eq0 a with Some l => Some (ilin_scale (N:=N) l (eval_texpr no_env b)) | None => None end
          else if is_interval_cst a then
            match intlinear_texpr eq0 b with Some l => Some (ilin_scale (N:=N) l (eval_texpr no_env a)) | None => None end
          else None
      | BDiv =>
          if is_interval_cst b then
            match intlinear_texpr eq0 a with Some l => Some (ilin_scale (N:=N) l (itv_div (N:=N) (itv_of_int 1) (eval_texpr no_env b))) | None => None end
          else None
      end
  end.

(** ** Linearisation of any tree *)
(** itv_linexpr_round_float_lin, 1068-1090 *)
Definition round_float_lin (f : ffmt) (l : ilin) : ilin :=
  let m := badd (N:=N) (bmul (N:=N) (itv_magnitude (il_cst l)) (Fin (f_ulp f))) (Fin (f_min f)) in
  mkIL (map (fun t => let i := t_itv t in
                      mkT (itv_enlarge_bound (N:=N) i (bmul (N:=N) (itv_magnitude i) (Fin (f_ulp f)))) false (t_dim t)) (il_terms l))
       (itv_enlarge_bound (N:=N) (il_cst l) m) false.
Definition half : Q := 1 # 2.
(** bound_add_uint(.., 1) *)
Definition badd1 (b : bound) : bound := badd (N:=N) b (Fin 1).
(** ap_texpr0_to_int, 1127-1162 *)
Definition lin_to_int (l : ilin) (i : itv) (d : rdir) : ilin :=
  let c := il_cst l in
  let c' := match d with
    | DUp => mkItv (inf c) (badd1 (sup c))
    | DDown => mkItv (badd1 (inf c)) (sup c)
    | DRnd => mkItv (badd1 (inf c)) (badd1 (sup c))
    | DZero => mkItv (if 0 <? bsgn (sup i) then badd1 (inf c) else inf c) (if 0 <? bsgn (inf i) then badd1 (sup c) else sup c)
    | DNearest => itv_add (N:=N) c (mkItv (Fin half) (Fin half))
    end in
  mkIL (il_terms l) c' false.
(** ap_texpr0_round, 1165-1201; the type it returns is not used *)
Definition float_of (t : rtype) : bool := match t with RReal | RInt => false | _ => true end.
Definition lin_round (l : ilin) (i : itv) (org dst : rtype) (d : rdir) : ilin * itv :=
  match dst with
  | RReal => (l, i)
  | RInt => if rtype_eqb org RInt then (l, i) else (lin_to_int l i d, itv_round dst d i)
  | RSingle => if rtype_eqb org RSingle then (l, i) else (round_float_lin (fm_single F) l, itv_round dst d i)
  | RDouble => if rtype_eqb org RSingle || rtype_eqb org RDouble then (l, i) else (round_float_lin (fm_double F) l, itv_round dst d i)
  | RExtended => if rtype_eqb org RSingle || rtype_eqb org RDouble || rtype_eqb org RExtended then (l, i)
                 else (round_float_lin (fm_extended F) l, itv_round dst d i)
  | RQuad => if float_of org then (l, i) else (round_float_lin (fm_quad F) l, itv_round dst d i)
  end.
(** ap_texpr0_reduce, 1209-1228 *)
Definition lin_reduce (env : nat -> itv) (l : ilin) (i : itv) : ilin * itv :=
  let i := fst (itv_meet i (itv_eval_linexpr (N:=N) env l)) in
  if itv_is_bottom i || itv_is_bottom (il_cst l) then (mkIL [] itv_bottom (il_eq l), itv_bottom)
  else match il_terms l with
       | [] => (cst_form i, i)
       | _ => (l, i)
       end.
(** itv_range_rel, itv.h 573-581 *)
Definition range_rel (a : itv) : bound :=
  let r := badd (N:=N) (sup a) (inf a) in
  if binfty r then r else bdiv (N:=N) r (bdiv_2 (N:=N) (itv_magnitude a)).
(** ap_texpr0_cmp_range, 1231-1249 *)
Definition is_nil {A} (l : list A) : bool := match l with [] => true | _ => false end.
Definition cmp_range (la : ilin) (ia : itv) (lb : ilin) (ib : itv) : bool :=
  if is_nil (il_terms la) then false else
  if is_nil (il_terms lb) then true else
  let sa := itv_is_pos ia || itv_is_neg ia in
  let sb := itv_is_pos ib || itv_is_neg ib in
  if xorb sa sb then negb sa else
  negb (bcmp (range_rel ia) (range_rel ib) <? 0).
Definition both_int (t1 t2 : rtype) : rtype := if rtype_eqb t1 RInt && rtype_eqb t2 RInt then RInt else RReal.
(** itv_intlinearize_texpr0_rec and ap_texpr0_node_intlinearize, 1271-1509 *)
Fixpoint intlin_rec (eq0 : bool) (env : nat -> itv) (intdim : nat) (e : texpr) : rtype * ilin * itv :=
  match e with
  | TCst c =>
      let i := fst (itv_set_coeff (N:=N) c) in
      (if itv_is_int i then RInt else RReal, cst_form i, i)
  | TDim d => (if Nat.ltb d intdim then RInt else RReal, dim_form eq0 d, env d)
  | TUn UNeg t d a =>
      let '(t1, l, i) := intlin_rec eq0 env intdim a in (t1, ilin_neg l, itv_neg i)
  | TUn UCast t d a =>
      let '(t1, l, i) := intlin_rec eq0 env intdim a in
      let '(l, i) := lin_round l i t1 t d in
      let '(l, i) := lin_reduce env l i in (t, l, i)
  | TUn USqrt t d a =>
      let '(_, _, i) := intlin_rec eq0 env intdim a in
      let i := itv_round t d (itv_sqrt i) in (t, cst_form i, i)
  | TBin o t d a b =>
      let '(t1, l1, i1) := intlin_rec eq0 env intdim a in
      let '(t2, l2, i2) := intlin_rec eq0 env intdim b in
      if itv_is_bottom i1 || itv_is_bottom i2 then
        (t, mkIL [] itv_bottom (match o with BAdd | BSub | BMul => il_eq l2 | _ => il_eq l1 end), itv_bottom)
      else
      match o with
      | BAdd =>
          let '(l, i) := lin_round (ilin_add (N:=N) l1 l2) (itv_add (N:=N) i1 i2) (both_int t1 t2) t d in
          let '(l, i) := lin_reduce env l i in (t, l, i)
      | BSub =>
          let '(l, i) := lin_round (ilin_sub (N:=N) l1 l2) (itv_sub (N:=N) i1 i2) (both_int t1 t2) t d in
          let '(l, i) := lin_reduce env l i in (t, l, i)
      | BMul =>
          let l := if cmp_range l1 i1 l2 i2 then ilin_scale (N:=N) l1 i2 else ilin_scale (N:=N) l2 i1 in
          let '(l, i) := lin_round l (itv_mul (N:=N) i1 i2) (both_int t1 t2) t d in
          let '(l, i) := lin_reduce env l i in (t, l, i)
      | BDiv =>
          let '(l, i) := lin_round (ilin_div (N:=N) l1 i2) (itv_div (N:=N) i1 i2) RReal t d in
          let '(l, i) := lin_reduce env l i in (t, l, i)
      | BMod => let i := itv_mod (N:=N) (rtype_eqb t RInt) i1 i2 in (t, cst_form i, i)
      | BPow => let i := itv_pow i1 i2 in (t, cst_form i, i)
      end
  end.
(** itv_intlinearize_ap_texpr0, 1511-1534: [None] is the answer "no value" *)
Definition intlin_texpr (eq0 : bool) (env : nat -> itv) (intdim : nat) (e : texpr) : option ilin :=
  let '(_, l, i) := intlin_rec eq0 env intdim e in
  if negb (itv_is_bottom i) && negb (itv_is_bottom (il_cst l)) then
    Some (match il_terms l with [] => cst_form (fst (itv_meet (il_cst l) i)) | _ => l end)
  else None.

(** ap_tcons0_t, ap_tcons0.h 24-50 *)
Record tcons : Type := mkTC { tc_typ : constyp; tc_expr : texpr; tc_mod : option bound }.
(** num_set_ap_scalar on the modulus, or 0, as in icons_of_lincons *)
Definition mod_num (m : option bound) : Q := match m with Some (Fin q) => match rnd N q with Fin r => r | _ => 0%Q end | _ => 0%Q end.
(** satisfiability test of itv_intlinearize_ap_tcons0(_array), 1549-1563, 1611-1625.  For the
    other constraint types the interval tested is the initial one, or the one left by a previous
    constraint that was not found empty: never empty *)
Definition tcons_bound_bottom (t : constyp) (i : itv) : bool :=
  match t with
  | CEq => itv_is_bottom (fst (itv_meet i (itv_of_int 0)))
  | CSupEq | CSup => itv_is_bottom (fst (itv_meet i (mkItv (Fin 0) PInf)))
  | _ => false
  end.
(** itv_intlinearize_ap_tcons0, 1536-1585: the constraint and the answer "unsatisfiable" *)
Definition intlin_tcons (eq0 : bool) (env : nat -> itv) (intdim : nat) (c : tcons) : icons * bool :=
  let '(_, l, i) := intlin_rec eq0 env intdim (tc_expr c) in
  if negb (tcons_bound_bottom (tc_typ c) i) && negb (itv_is_bottom (il_cst l)) then
    (mkIC (match il_terms l with [] => cst_form (fst (itv_meet (il_cst l) i)) | _ => l end) (tc_typ c) (mod_num (tc_mod c)), false)
  else (icons_bool (mkIC l (tc_typ c) 0%Q) false, true).
(** itv_intlinearize_ap_tcons0_array, 1587-1645 *)
Fixpoint intlin_tcons_loop (eq0 : bool) (env : nat -> itv) (intdim : nat) (l : list tcons) : option (list icons) :=
  match l with
  | [] => Some []
  | c :: cs =>
      let '(_, e, i) := intlin_rec eq0 env intdim (tc_expr c) in
      let ic := mkIC e (tc_typ c) (mod_num (tc_mod c)) in
      if tcons_bound_bottom (tc_typ c) i || itv_is_bottom (il_cst e) || (is_nil (il_terms e) && tfalse (eval_cst ic)) then None
      else match intlin_tcons_loop eq0 env intdim cs with Some r => Some (ic :: r) | None => None end
  end.
Definition intlin_tcons_array (eq0 : bool) (env : nat -> itv) (intdim : nat) (l : list tcons) : list icons * bool :=
  match intlin_tcons_loop eq0 env intdim l with
  | Some r => (r, false)
  | None => ([icons_bool (mkIC (mkIL [] itv_bottom true) CEq 0%Q) false], true)
  end.
(** itv_intlinearize_ap_tcons0_array_intlinear, 1026-1052.  The boolean is the answer of the
    function: the flag set in the loop is a local variable that hides the one returned. *)
Fixpoint intlinear_loop (eq0 : bool) (l : list tcons) : option (list icons) :=
  match l with
  | [] => Some []
  | c :: cs =>
      match intlinear_texpr eq0 (tc_expr c) with
      | None => None
      | Some e => match intlinear_loop eq0 cs with Some r => Some (mkIC e (tc_typ c) (mod_num (tc_mod c)) :: r) | None => None end
      end
  end.
Definition intlinear_tcons_array (eq0 : bool) (l : list tcons) : list icons * bool :=
  match intlinear_loop eq0 l with
  | Some r => (r, false)
  | None => ([icons_bool (mkIC (mkIL [] itv_bottom true) CEq 0%Q) false], false)
  end.
(** itv_intlinearize_ap_tcons0_intlinear, 1006-1024 *)
Definition intlinear_tcons (eq0 : bool) (c : tcons) : icons * bool :=
  match intlinear_texpr eq0 (tc_expr c) with
  | None => (icons_bool (mkIC (mkIL [] itv_bottom true) (tc_typ c) 0%Q) false, true)
  | Some e => (mkIC e (tc_typ c) (mod_num (tc_mod c)), false)
  end.
End Tree.

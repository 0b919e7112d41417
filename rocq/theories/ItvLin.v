(** Model of interval linear expressions and constraints: /repo/itv/itv_linexpr.h,
    /repo/itv/itv_linexpr.c and /repo/itv/itv_linearize.c 1-725.

    The arrays of terms are lists.  Holes (terms of dimension AP_DIM_MAX) only
    appear between itv_linexpr_reinit and the filling of the new cells; they are
    not modelled.  In-place functions return the new value.                   *)
From Coq Require Import ZArith QArith Qround Qreals Reals Bool List.
From Verif Require Import Bound Itv Linexpr.
Import ListNotations.
Open Scope Z_scope.

(** itv_linterm_t, itv_linexpr_t, itv_lincons_t: itv_linexpr.h 20-45. *)
Record iterm : Type := mkT { t_itv : itv; t_eq : bool; t_dim : nat }.
Record ilin : Type := mkIL { il_terms : list iterm; il_cst : itv; il_eq : bool }.
Record icons : Type := mkIC { ic_expr : ilin; ic_typ : constyp; ic_num : Q }.

(** tbool_t, /repo/apron/ap_coeff.h / itv.h, plus the outcome of a division by
    zero inside the arithmetic library. *)
Inductive tbool := TFalse | TTrue | TTop | TCrash.
Definition tfalse (t : tbool) : bool := match t with TFalse => true | _ => false end.
Definition ttrue (t : tbool) : bool := match t with TTrue => true | _ => false end.

Section Lin.
Context {N : numtype}.

(** itv_set_ap_scalar / itv_set_ap_interval / itv_set_ap_coeff, itv.c 668-710:
    interval and "the conversion is exact". *)
Definition bexact (b : bound) : bool := bequal (bconv (N:=N) b) b.
Definition itv_set_coeff (c : coeff) : itv * bool :=
  match c with
  | Scal b =>
    if bexact b then (mkItv (bneg (bconv (N:=N) b)) (bconv (N:=N) b), true)
    else (mkItv (bconv (N:=N) (bneg b)) (bconv (N:=N) b), false)
  | Intv l u =>
    (mkItv (bconv (N:=N) (bneg l)) (bconv (N:=N) u), bexact (bneg l) && bexact u)
  end.
Definition is_scal (c : coeff) : bool := match c with Scal _ => true | _ => false end.

(** ap_linexpr0_ForeachLinterm, ap_linexpr0.h 245-265: the terms in order, holes
    skipped (the sparse iteration stops at the first hole; holes are at the end) *)
Fixpoint dense_terms (i : nat) (l : list coeff) : list (nat * coeff) :=
  match l with [] => [] | c :: l => (i, c) :: dense_terms (S i) l end.
Fixpoint sparse_terms (l : list (option nat * coeff)) : list (nat * coeff) :=
  match l with
  | [] => []
  | (Some d, c) :: l => (d, c) :: sparse_terms l
  | (None, _) :: _ => []
  end.
Definition foreach (t : linterms) : list (nat * coeff) :=
  match t with Dense l => dense_terms 0 l | Sparse l => sparse_terms l end.

(** itv_linexpr_set_ap_linexpr0, itv_linexpr.c 184-218 *)
Fixpoint set_terms (l : list (nat * coeff)) : list iterm * bool :=
  match l with
  | [] => ([], true)
  | (d, c) :: l =>
    let '(i, ex) := itv_set_coeff c in
    let '(ts, res) := set_terms l in
    if itv_is_zero i then (ts, res)
    else (mkT i (ex && is_scal c) d :: ts, ex && res)
  end.
Definition ilin_of_linexpr (e : linexpr) : ilin * bool :=
  let '(c, ex) := itv_set_coeff (le_cst e) in
  let '(ts, res) := set_terms (foreach (le_terms e)) in
  (mkIL ts c (ex && is_scal (le_cst e)), ex && res).
(** itv_lincons_set_ap_lincons0, itv_linexpr.c 220-237 *)
Definition icons_of_lincons (c : lincons) : icons :=
  mkIC (fst (ilin_of_linexpr (lc_expr c))) (lc_typ c)
       (match lc_mod c with Some (Fin q) => match rnd N q with Fin r => r | _ => 0%Q end | _ => 0%Q end).

(** itv_linexpr_neg, itv_linexpr.c 306-320 *)
Definition ilin_neg (e : ilin) : ilin :=
  mkIL (map (fun t => mkT (itv_neg (t_itv t)) (t_eq t) (t_dim t)) (il_terms e))
       (itv_neg (il_cst e)) (il_eq e).
(** itv_linexpr_scale, itv_linexpr.c 321-349 (the flag of the constant is left as it was) *)
Definition ilin_scale (e : ilin) (c : itv) : ilin :=
  if itv_is_zero c then mkIL [] c (il_eq e) else
  let k := itv_mul (N:=N) (il_cst e) c in
  if itv_is_top k then mkIL [] k (il_eq e) else
  mkIL (map (fun t => let i := itv_mul (N:=N) (t_itv t) c in
                      mkT i (t_eq t && itv_is_point i) (t_dim t)) (il_terms e))
       k (il_eq e).
(** itv_linexpr_div, itv_linexpr.c 350-366 *)
Definition ilin_div (e : ilin) (c : itv) : ilin :=
  mkIL (map (fun t => let i := itv_div (N:=N) (t_itv t) c in
                      mkT i (t_eq t && itv_is_point i) (t_dim t)) (il_terms e))
       (itv_div (N:=N) (il_cst e) c) (il_eq e).
(** itv_linexpr_add, itv_linexpr.c 368-428: merge of the two arrays *)
Fixpoint add_terms (la lb : list iterm) {struct la} : list iterm :=
  let fix aux (lb : list iterm) : list iterm :=
    match la, lb with
    | [], _ => lb
    | _, [] => la
    | a :: la', b :: lb' =>
      if Nat.ltb (t_dim b) (t_dim a) then b :: aux lb'
      else if Nat.ltb (t_dim a) (t_dim b) then a :: add_terms la' lb
      else
        let i := itv_add (N:=N) (t_itv a) (t_itv b) in
        let t := mkT i (t_eq a && t_eq b && itv_is_point i) (t_dim a) in
        if itv_is_zero i then add_terms la' lb' else t :: add_terms la' lb'
    end in
  aux lb.
Definition ilin_add (a b : ilin) : ilin :=
  let k := itv_add (N:=N) (il_cst a) (il_cst b) in
  let eq := il_eq a && il_eq b && itv_is_point k in
  if itv_is_top k then mkIL [] k eq else mkIL (add_terms (il_terms a) (il_terms b)) k eq.
(** itv_linexpr_sub, itv_linexpr.c 429-449 *)
Definition ilin_sub (a b : ilin) : ilin := ilin_add a (ilin_neg b).

(** itv_linexpr_is_quasilinear / is_scalar / is_integer, itv_linexpr.c 452-511 *)
Definition is_quasilinear (e : ilin) : bool := forallb t_eq (il_terms e).
Definition is_scalar (e : ilin) : bool := il_eq e && forallb t_eq (il_terms e).
Definition ilin_is_integer (e : ilin) (intdim : nat) : bool :=
  forallb (fun t => Nat.ltb (t_dim t) intdim) (il_terms e).

(** itv_eval_linexpr, itv_linearize.c 14-46 (stops as soon as the sum is top) *)
Fixpoint eval_terms (env : nat -> itv) (ts : list iterm) (acc : itv) : itv :=
  match ts with
  | [] => acc
  | t :: ts =>
    let acc :=
      if t_eq t then
        if bsgn (sup (t_itv t)) =? 0 then acc
        else itv_add (N:=N) acc (itv_mul_bound (N:=N) (env (t_dim t)) (sup (t_itv t)))
      else itv_add (N:=N) acc (itv_mul (N:=N) (env (t_dim t)) (t_itv t)) in
    if itv_is_top acc then acc else eval_terms env ts acc
  end.
Definition itv_eval_linexpr (env : nat -> itv) (e : ilin) : itv :=
  eval_terms env (il_terms e) (il_cst e).
(** itv_eval_ap_linexpr0, itv_linearize.c 48-86: the same on the user's expression,
    converting one coefficient at a time *)
Fixpoint eval_ap_terms (env : nat -> itv) (ts : list (nat * coeff)) (acc : itv) : itv :=
  match ts with
  | [] => acc
  | (d, c) :: ts =>
    let '(i, ex) := itv_set_coeff c in
    let acc :=
      if ex && is_scal c then
        if bsgn (sup i) =? 0 then acc
        else itv_add (N:=N) acc (itv_mul_bound (N:=N) (env d) (sup i))
      else itv_add (N:=N) acc (itv_mul (N:=N) (env d) i) in
    if itv_is_top acc then acc else eval_ap_terms env ts acc
  end.
Definition itv_eval_ap_linexpr0 (env : nat -> itv) (e : linexpr) : itv :=
  eval_ap_terms env (foreach (le_terms e)) (fst (itv_set_coeff (le_cst e))).

(** itv_eval_cstlincons, itv_linexpr.c 512-604, on an expression without terms.
    Equality modulo: the NUM_NUMRAT branch; numrat_div by a zero modulus aborts. *)
Definition eval_cst (c : icons) : tbool :=
  let cst := il_cst (ic_expr c) in
  let equality := il_eq (ic_expr c) in
  if itv_is_bottom cst then TFalse else
  match ic_typ c with
  | CEq =>
    if equality then (if bsgn (sup cst) =? 0 then TTrue else TFalse)
    else if (bsgn (sup cst) <? 0) || (bsgn (inf cst) <? 0) then TFalse else TTop
  | CDisEq => if (bsgn (inf cst) <? 0) || (bsgn (sup cst) <? 0) then TTrue else TTop
  | CSupEq => if bsgn (inf cst) <=? 0 then TTrue
              else if bsgn (sup cst) <? 0 then TFalse else TTop
  | CSup => if bsgn (inf cst) <? 0 then TTrue
            else if bsgn (sup cst) <=? 0 then TFalse else TTop
  | CEqMod =>
    if equality then
      if bsgn (sup cst) =? 0 then TTrue
      else if negb (Qeq_bool (ic_num c) 0) then
        (if bsgn (sup cst) =? 0 then TTrue else TTop)
      else TCrash
    else TTop
  end.

(** itv_lincons_set_bool, itv_linexpr.c 93-100: 0=0 or 1=0 *)
Definition icons_bool (c : icons) (b : bool) : icons :=
  mkIC (mkIL [] (itv_of_int (if b then 0 else 1)) true) CEq (ic_num c).

(** itv_sat_lincons_is_false, itv_linexpr.c 606-636 *)
Definition sat_is_false (c : icons) : bool :=
  let e := ic_expr c in
  let i := binfty (inf (il_cst e)) in
  let res := match ic_typ c with
    | CEq | CEqMod => negb (il_eq e)
    | CDisEq => i && binfty (sup (il_cst e))
    | CSupEq | CSup => i
    end in
  res || (match il_terms e with [] => tfalse (eval_cst c) | _ => false end).
(** itv_lincons_is_useless_for_meet, itv_linexpr.c 638-670 *)
Definition useless_for_meet (c : icons) : bool :=
  let e := ic_expr c in
  match il_terms e with
  | [] => negb (tfalse (eval_cst c))
  | _ =>
    if il_eq e then false else
    let s := binfty (sup (il_cst e)) in
    match ic_typ c with
    | CEq | CDisEq | CEqMod => binfty (inf (il_cst e)) && s
    | CSupEq | CSup => s
    end
  end.

(** removal of the first element of the unprocessed part of an array by exchange
    with its last one: itv_linexpr.c 829-831, itv_linearize.c 546-549 *)
Definition swap_out {A} (rest : list A) : list A :=
  match rev rest with [] => [] | z :: r => z :: rev r end.

(** itv_lincons_array_reduce, itv_linexpr.c 812-850: [None] when an evaluation aborts;
    otherwise the new array and the tbool_t returned *)
Fixpoint reduce_loop (fuel : nat) (meet : bool) (acc todo : list icons) : option (list icons * bool) :=
  match fuel, todo with
  | _, [] => Some (rev acc, false)
  | O, _ => None
  | S fuel, c :: rest =>
    let sat := match il_terms (ic_expr c) with [] => eval_cst c | _ => TTop end in
    match sat with
    | TCrash => None
    | TTrue => reduce_loop fuel meet acc (swap_out rest)
    | TFalse => Some ([icons_bool c false], true)
    | TTop =>
      if meet && useless_for_meet c then reduce_loop fuel meet acc (swap_out rest)
      else if negb meet && sat_is_false c then Some ([icons_bool c false], true)
      else reduce_loop fuel meet (c :: acc) rest
    end
  end.
Definition array_reduce (meet : bool) (l : list icons) : option (list icons * tbool) :=
  match reduce_loop (length l) meet [] l with
  | None => None
  | Some (r, true) => Some (r, TFalse)
  | Some (r, false) =>
    Some (r, match r with
             | [] => TTrue
             | [c] => match il_terms (ic_expr c) with [] => eval_cst c | _ => TTop end
             | _ => TTop
             end)
  end.

(** itv_quasilinearize_choose_middle, itv_linearize.c 464-519 (a middle that
    overflows the number type is not modelled: 0 is chosen) *)
Definition bfinq (b : bound) : Q := match b with Fin q => q | _ => 0%Q end.
Definition middle_default (c : itv) : Q :=
  bfinq (bdiv_2 (N:=N) (bsub (N:=N) (sup c) (inf c))).
Definition choose_middle (c var : itv) (for_meet_ineq : bool) : Q :=
  match inf c, sup c with
  | Fin i, Fin s =>
    if for_meet_ineq then
      if binfty (inf var) then (- i)%Q
      else if binfty (sup var) then s
      else middle_default c
    else if xorb (binfty (inf var)) (binfty (sup var)) then
      if bsgn (inf c) <=? 0 then (- i)%Q
      else if bsgn (sup c) <=? 0 then s
      else middle_default c
    else middle_default c
  | Fin i, _ => (- i)%Q
  | _, Fin s => s
  | _, _ => 0%Q
  end.

(** itv_quasilinearize_linexpr, itv_linearize.c 521-597.  [acc]: the k terms
    already produced, in reverse; the constant and its flag; [todo]: terms i.. *)
Fixpoint ql_loop (fuel : nat) (env : nat -> itv) (fmi : bool)
    (acc : list iterm) (cst : itv) (eq : bool) (todo : list iterm) : ilin :=
  match fuel, todo with
  | _, [] => mkIL (rev acc) cst eq
  | O, _ => mkIL (rev acc) cst eq
  | S fuel, t :: rest =>
    let r := env (t_dim t) in
    if itv_is_point r then
      let cst := itv_add (N:=N) cst (itv_mul_num (N:=N) (t_itv t) (bfinq (sup r))) in
      ql_loop fuel env fmi acc cst eq (swap_out rest)
    else if t_eq t then ql_loop fuel env fmi (t :: acc) cst eq rest
    else
      let m := choose_middle (t_itv t) r fmi in
      let d := itv_sub_bound (N:=N) (t_itv t) (Fin m) in
      let cst := itv_add (N:=N) cst (itv_mul (N:=N) d r) in
      let eq := eq && itv_is_point cst in
      if itv_is_top cst then mkIL [] cst eq
      else if Qeq_bool m 0 then ql_loop fuel env fmi acc cst eq rest
      else ql_loop fuel env fmi (mkT (itv_of_num m) true (t_dim t) :: acc) cst eq rest
  end.
Definition quasilinearize (env : nat -> itv) (fmi : bool) (e : ilin) : ilin :=
  ql_loop (length (il_terms e)) env fmi [] (il_cst e) (il_eq e) (il_terms e).

(** itv_quasilinearize_lincons, itv_linearize.c 599-615 ([None]: abort) *)
Definition quasilinearize_lincons (env : nat -> itv) (meet : bool) (c : icons) : option icons :=
  match il_terms (ic_expr c) with
  | [] =>
    match eval_cst c with
    | TTrue => Some (icons_bool c true)
    | TFalse => Some (icons_bool c false)
    | TTop => Some c
    | TCrash => None
    end
  | _ =>
    let fmi := meet && match ic_typ c with CSup | CSupEq => true | _ => false end in
    Some (mkIC (quasilinearize env fmi (ic_expr c)) (ic_typ c) (ic_num c))
  end.

(** itv_quasilinearize_lincons_array, itv_linearize.c 618-650; [todo] is the part
    i..size-1 of the array, split equalities are appended to it *)
Fixpoint qla_loop (fuel : nat) (env : nat -> itv) (meet : bool) (acc todo : list icons) : option (list icons) :=
  match fuel, todo with
  | _, [] => Some (rev acc)
  | O, _ => None
  | S fuel, c :: rest =>
    let split := meet && match ic_typ c with CEq => negb (is_quasilinear (ic_expr c)) | _ => false end in
    let '(c, rest) :=
      if split then
        (mkIC (ic_expr c) CSupEq (ic_num c), rest ++ [mkIC (ilin_neg (ic_expr c)) CSupEq (ic_num c)])
      else (c, rest) in
    match quasilinearize_lincons env meet c with
    | None => None
    | Some c =>
      match il_terms (ic_expr c) with
      | [] =>
        match eval_cst c with
        | TCrash => None
        | TFalse => Some [icons_bool c false]
        | _ => qla_loop fuel env meet (c :: acc) rest
        end
      | _ => qla_loop fuel env meet (c :: acc) rest
      end
    end
  end.
Definition quasilinearize_array (env : nat -> itv) (meet : bool) (l : list icons) : option (list icons) :=
  match array_reduce meet l with
  | None => None
  | Some (l, _) => qla_loop (2 * length l) env meet [] l
  end.

(** itv_lincons_select_sup / select_inf, itv_linearize.c 661-675 *)
Definition select_sup (c : icons) : icons :=
  let e := ic_expr c in
  mkIC (mkIL (il_terms e) (mkItv (bneg (sup (il_cst e))) (sup (il_cst e))) true) (ic_typ c) (ic_num c).
Definition select_inf (c : icons) : icons :=
  let e := ic_expr c in
  mkIC (mkIL (map (fun t => mkT (itv_neg (t_itv t)) (t_eq t) (t_dim t)) (il_terms e))
             (mkItv (bneg (inf (il_cst e))) (bneg (bneg (inf (il_cst e))))) true) (ic_typ c) (ic_num c).
Definition with_typ (c : icons) (t : constyp) : icons := mkIC (ic_expr c) t (ic_num c).
(** itv_linearize_lincons_array, itv_linearize.c 677-741: the loop over the original
    constraints gives the constraint left in place and the one appended, if any.
    The asserts hold after array_reduce. *)
Definition linearize1 (meet : bool) (c : icons) : icons * list icons :=
  let cst := il_cst (ic_expr c) in
  if il_eq (ic_expr c) then (c, []) else
  let s := negb (binfty (sup cst)) in
  let i := negb (binfty (inf cst)) in
  match ic_typ c with
  | CEq =>
    if i && s then (select_sup (with_typ c CSupEq), [select_inf (with_typ c CSupEq)])
    else if i then (select_inf (with_typ c CSupEq), [])
    else (select_sup (with_typ c CSupEq), [])
  | CSupEq | CSup =>
    if meet then (select_sup c, [])
    else (mkIC (mkIL (il_terms (ic_expr c)) (mkItv (inf cst) (bneg (inf cst))) true) (ic_typ c) (ic_num c), [])
  | _ => (c, [])
  end.
Definition linearize_array (meet : bool) (l : list icons) : option (list icons) :=
  match array_reduce meet l with
  | None => None
  | Some (l, TTop) =>
    let r := map (linearize1 meet) l in
    Some (map fst r ++ concat (map snd r))
  | Some (l, TCrash) => None
  | Some (l, _) => Some l
  end.

(** ap_quasilinearize_lincons0_array, /repo/apron/ap_linearize_aux.c 216-246, before the
    conversion back to user constraints *)
Definition quasilinearize_lincons0_array (env : nat -> itv) (linearize meet : bool) (l : list icons) : option (list icons) :=
  match quasilinearize_array env meet l with
  | None => None
  | Some l => if linearize then linearize_array meet l else Some l
  end.

(** ap_coeff_set_itv, /repo/itv/itv.c 740-764 (the numbers of the result are exact) *)
Definition coeff_of_itv (i : itv) : coeff :=
  if itv_is_point i then Scal (sup i) else Intv (bneg (inf i)) (sup i).
(** ap_linexpr0_set_itv_linexpr and ap_lincons0_set_itv_lincons, itv_linexpr.c 252-300 *)
Definition linexpr_of_ilin (e : ilin) : linexpr :=
  mkLin (coeff_of_itv (il_cst e)) (Sparse (map (fun t => (Some (t_dim t), coeff_of_itv (t_itv t))) (il_terms e))).
Definition lincons_of_icons (c : icons) : lincons :=
  mkCons (ic_typ c) (linexpr_of_ilin (ic_expr c)) (if Qeq_bool (ic_num c) 0 then None else Some (Fin (ic_num c))).
(** ap_quasilinearize_linexpr0, ap_linearize_aux.c 127-159: [env] is the box of the
    abstract value *)
Definition ap_quasilinearize_linexpr0 (env : nat -> itv) (e : linexpr) : linexpr :=
  linexpr_of_ilin (quasilinearize env false (fst (ilin_of_linexpr e))).
(** ap_quasilinearize_lincons0, 161-186 *)
Definition ap_quasilinearize_lincons0 (env : nat -> itv) (meet : bool) (c : lincons) : option lincons :=
  option_map lincons_of_icons (quasilinearize_lincons env meet (icons_of_lincons c)).
(** ap_quasilinearize_lincons0_array, 216-246 *)
Definition ap_quasilinearize_lincons0_array (env : nat -> itv) (linearize meet : bool) (l : list lincons) : option (list lincons) :=
  option_map (map lincons_of_icons) (quasilinearize_lincons0_array env linearize meet (map icons_of_lincons l)).

End Lin.

(** itv_lincons_reduce_integer, itv_linexpr.c 672-810, NUM_NUMRAT branch.  Rationals
    are kept reduced in the code, hence [Qred]. *)
Definition coef (t : iterm) : Q := Qred (bfinq (sup (t_itv t))).
Definition red_lcm (ts : list iterm) : Z := fold_left (fun l t => Z.lcm l (Zpos (Qden (coef t)))) ts 1.
Definition red_gcd (ts : list iterm) : Z := fold_left (fun g t => Z.gcd g (Qnum (coef t))) ts 0.
Definition red_term (g l : Z) (t : iterm) : iterm :=
  let n := (Qnum (coef t) / g * l / Zpos (Qden (coef t)))%Z in
  mkT (mkItv (bneg (Fin (inject_Z n))) (Fin (inject_Z n))) (t_eq t) (t_dim t).
Definition qisint (q : Q) : bool := Qeq_bool (inject_Z (Qfloor q)) q.
Definition reduce_integer (intdim : nat) (c : icons) : icons :=
  let e := ic_expr c in
  let ts := il_terms e in
  match ic_typ c with
  | CEq | CSupEq | CSup =>
    if negb (ilin_is_integer e intdim) then c else
    if negb (forallb t_eq ts) then c else
    let l := red_lcm ts in
    let g := red_gcd ts in
    if g =? 0 then c else
    let ts := map (red_term g l) ts in
    let cst := itv_mul_num (N:=exact_num) (il_cst e) (inject_Z l / inject_Z g) in
    let '(s, ty) :=
      match sup cst with
      | Fin q =>
        match ic_typ c with
        | CSup => ((if qisint q then bsub_uint (N:=exact_num) (Fin q) 1 else bfloor (Fin q)), CSupEq)
        | ty => (bfloor (Fin q), ty)
        end
      | b => (b, ic_typ c)
      end in
    match ty with
    | CEq =>
      let i := match inf cst with
        | Fin p => if il_eq e then bneg s else bfloor (Fin p)
        | b => b
        end in
      if itv_is_bottom (mkItv i s) then icons_bool c false
      else mkIC (mkIL ts (mkItv i s) (il_eq e)) CEq (ic_num c)
    | _ =>
      if binfty s then mkIC (mkIL ts (mkItv (inf cst) s) (il_eq e)) ty (ic_num c)
      else mkIC (mkIL ts (mkItv (bneg s) s) true) ty (ic_num c)
    end
  | _ => c
  end.
(** itv_lincons_array_reduce_integer, itv_linexpr.c 852-862 *)
Definition array_reduce_integer (intdim : nat) (l : list icons) : option (list icons * tbool) :=
  array_reduce true (map (reduce_integer intdim) l).

(** Linearisation of tree expressions and constraints as offered to the domains:
    /repo/apron/ap_linearize_aux.c 250-530, and its soundness. *)
From Coq Require Import Arith ZArith QArith Qround Qreals Reals Bool List Lra Lia Psatz.
From Verif Require Import Bound BoundFacts Itv ItvFacts ItvFacts2 Linexpr ItvLin ItvLinFacts ItvLinCons ItvLinApi ItvLinInt ApCheck ApTexpr TexprSem ItvTree ItvTreeFacts Box BoxizeFacts.
Import ListNotations.
Open Scope Z_scope.

Section Api.
Context {N : numtype} {F : fmts}.

(** ap_eval_texpr0, 250-277.  [env] is the box of the abstract value; the null environment used for
    a constant is never read *)
Definition ap_eval_texpr0 (env : nat -> itv) (e : texpr) : itv :=
  if is_interval_cst e then eval_texpr (N:=N) (F:=F) no_env e else eval_texpr (N:=N) (F:=F) env e.

(** the form left by itv_intlinearize_ap_texpr0, whatever it answers *)
Definition intlin_form (eq0 : bool) (env : nat -> itv) (intdim : nat) (e : texpr) : ilin :=
  let '(_, l, i) := intlin_rec (N:=N) (F:=F) eq0 env intdim e in
  if negb (itv_is_bottom i) && negb (itv_is_bottom (il_cst l)) then
    match il_terms l with [] => cst_form (fst (itv_meet (il_cst l) i)) | _ => l end
  else l.
(** ap_intlinearize_texpr0, 317-346 (and 348-382 for arrays).  [None]: the tree announced as linear
    is refused by the linearisation, which then leaves an unspecified form. *)
Definition intlin_any (eq0 : bool) (env : nat -> itv) (intdim : nat) (e : texpr) : option ilin :=
  if is_interval_linear e then intlinear_texpr (N:=N) (F:=F) eq0 e else Some (intlin_form eq0 env intdim e).
Definition ap_intlinearize_texpr0 (eq0 : bool) (env : nat -> itv) (intdim : nat) (quasi : bool) (e : texpr) : option linexpr :=
  match intlin_any eq0 env intdim e with
  | None => None
  | Some l =>
    Some (linexpr_of_ilin (if quasi && negb (is_quasilinear l) then quasilinearize (N:=N) env false l else l))
  end.
(** ap_intlinearize_tcons0, 384-419; [None]: abort *)
Definition ap_intlinearize_tcons0 (eq0 : bool) (env : nat -> itv) (intdim : nat) (quasi meet : bool) (c : tcons) : option lincons :=
  let k := fst (if is_interval_linear (tc_expr c) then intlinear_tcons (N:=N) (F:=F) eq0 c else intlin_tcons (N:=N) (F:=F) eq0 env intdim c) in
  option_map lincons_of_icons (if quasi && negb (is_quasilinear (ic_expr k)) then quasilinearize_lincons (N:=N) env meet k else Some k).

(** the rows added for the bounds found by the boxing, 467-517; [tch] is the array tchange: it is left
    arbitrary here, the code sets an entry when it improves the bound.  [None]: assertion failure *)
Definition bound_row (d : nat) (coef : Z) (cst : itv) (ty : constyp) : icons :=
  mkIC (mkIL [mkT (itv_of_int coef) true d] cst true) ty 0%Q.
Definition rows_of (tch : nat -> bool * bool) (env : nat -> itv) (d : nat) : option (list icons) :=
  let '(ci, cs) := tch d in
  if (ci || cs) && itv_is_point (env d) then Some [bound_row d (-1) (env d) CEq] else
  match (if ci then match inf (env d) with Fin q => Some [bound_row d 1 (itv_of_num q) CSupEq] | _ => None end else Some []),
        (if cs then match sup (env d) with Fin q => Some [bound_row d (-1) (itv_of_num q) CSupEq] | _ => None end else Some []) with
  | Some a, Some b => Some (a ++ b)
  | _, _ => None
  end.
Fixpoint all_rows (tch : nat -> bool * bool) (env : nat -> itv) (ds : list nat) : option (list icons) :=
  match ds with
  | [] => Some []
  | d :: ds => match rows_of tch env d, all_rows tch env ds with Some a, Some b => Some (a ++ b) | _, _ => None end
  end.
Definition single_cst (l : list icons) : bool := match l with [c] => is_nil (il_terms (ic_expr c)) | _ => false end.
Definition single_false (l : list icons) : bool := match l with [c] => is_nil (il_terms (ic_expr c)) && tfalse (eval_cst c) | _ => false end.
(** ap_intlinearize_tcons0_array, 421-530; [n] is the number of dimensions *)
Definition ap_intlinearize_tcons0_array (eq0 : bool) (env : nat -> itv) (intdim n : nat) (lt : ltype) (meet boxize : bool)
    (kmax : nat) (ionly : bool) (tch : nat -> bool * bool) (l : list tcons) : option (list lincons) :=
  let t := fst (intlin_tcons_array (N:=N) (F:=F) eq0 env intdim l) in
  option_map (map lincons_of_icons)
  (if single_cst t then Some t else
   let '(env', change, empty) :=
     if meet && boxize && (if ionly then negb (forallb (fun c => is_quasilinear (ic_expr c)) t) else true)
     then boxize_lincons_array (N:=N) true intdim kmax ionly t env env
     else (env, false, false) in
   match (match lt with
          | TIntlinear => Some t
          | TQuasilinear => quasilinearize_lincons0_array (N:=N) env' false meet t
          | TLinear => quasilinearize_lincons0_array (N:=N) env' true meet t
          end) with
   | None => None
   | Some t =>
     if single_false t then Some t else
     if change then
       if empty then Some [icons_bool (mkIC (mkIL [] itv_bottom true) CEq 0%Q) false]
       else match all_rows tch env' (seq 0 n) with Some r => Some (t ++ r) | None => None end
     else Some t
   end).
End Api.

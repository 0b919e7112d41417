(** Model of abstract values with named variables: /repo/apron/ap_abstract1.c, and of the functions of
    /repo/apron/ap_abstract0.c which it calls (checks of the arguments, then the function of the domain).

    An abstract value of level 1 is an environment with a value of the domain.  The record [dom0] holds the
    functions of a domain (the array funptr of the manager).  Results are [Some (x, (env, value))], x = true iff the
    exception AP_EXC_INVALID_ARGUMENT has been raised, or [None] for abort or a write outside of an array.
    Left out: the check that the values belong to the manager (checkman), the flag "destructive" (with it the first
    argument is given back or freed) and reference counts; the functions of the domain are without side effects and
    raise no exception. *)
From Coq Require Import Arith ZArith Bool List.
From Verif Require Import Linexpr ApCore ApEnv ApCheck.
Import ListNotations.
Local Open Scope nat_scope.

Record dom0 : Type := mkD0 {
  dv : Type;
  d_int : dv -> nat;
  d_real : dv -> nat;
  d_top : nat -> nat -> dv;
  d_meet : dv -> dv -> dv;
  d_join : dv -> dv -> dv;
  d_cons : dv -> list lincons -> dv;
  d_assign : dv -> list (nat * linexpr) -> option dv -> dv;
  d_subst : dv -> list (nat * linexpr) -> option dv -> dv;
  d_forget : dv -> list nat -> bool -> dv;
  d_add : dv -> list nat -> nat -> bool -> dv;
  d_remove : dv -> list nat -> nat -> dv;
  d_permute : dv -> list nat -> dv;
  d_expand : dv -> nat -> nat -> dv;
  d_fold : dv -> nat -> list nat -> dv;
  d_widening : dv -> dv -> dv;
  d_uncon : dv -> nat -> bool }.

(** ** Level 0: ap_abstract0.c *)
Section Level0.
Context (D : dom0).
Definition d_dim (a : dv D) : dimension := (d_int D a, d_real D a).
(** ap_abstract0_meetjoin 940-957, ap_abstract0_widening 1389-1405 *)
Definition a0_binary (op : dv D -> dv D -> dv D) (a1 a2 : dv D) : bool * dv D :=
  if check_abstract2 (d_dim a1) (d_dim a2) then (false, op a1 a2) else (true, d_top D (d_int D a1) (d_real D a1)).
(** ap_abstract0_meet_lincons_array 991-1010 *)
Definition a0_cons (a : dv D) (l : list lincons) : bool * dv D :=
  if check_linexpr_array (d_dim a) (map (fun c => Some (lc_expr c)) l) then (false, d_cons D a l) else (true, d_top D (d_int D a) (d_real D a)).
(** ap_abstract0_asssub_linexpr_array 1055-1092; [op] is the assignment or the substitution *)
Definition a0_asssub (op : dv D -> list (nat * linexpr) -> option (dv D) -> dv D) (a : dv D) (l : list (nat * linexpr)) (dest : option (dv D)) : bool * dv D :=
  match l with
  | [] => match dest with Some d => a0_binary (d_meet D) a d | None => (false, a) end
  | _ =>
      if match dest with Some d => check_abstract2 (d_dim a) (d_dim d) | None => true end && check_dim_array (d_dim a) (map fst l) && check_linexpr_array (d_dim a) (map (fun p => Some (snd p)) l)
      then (false, op a l dest) else (true, d_top D (d_int D a) (d_real D a))
  end.
(** ap_abstract0_forget_array 1180-1207 *)
Definition a0_forget (a : dv D) (tdim : list nat) (project : bool) : bool * dv D :=
  match tdim with
  | [] => (false, a)
  | _ => if check_dim_array (d_dim a) tdim then (false, d_forget D a tdim project) else (true, d_top D (d_int D a) (d_real D a))
  end.
(** ap_abstract0_add_dimensions 1215-1243 *)
Definition a0_add (a : dv D) (c : dchange) (project : bool) : bool * dv D :=
  match dc_pos c with
  | [] => (false, a)
  | pos => if check_dimchange_add (d_dim a) (dc_int c) pos then (false, d_add D a pos (dc_int c) project)
           else (true, d_top D (d_int D a + dc_int c) (d_real D a + (length pos - dc_int c)))
  end.
(** ap_abstract0_remove_dimensions 1245-1273 *)
Definition a0_remove (a : dv D) (c : dchange) : bool * dv D :=
  match dc_pos c with
  | [] => (false, a)
  | pos => if check_dimchange_remove (d_dim a) (dc_int c) pos then (false, d_remove D a pos (dc_int c))
           else (true, d_top D (d_int D a - dc_int c) (d_real D a - (length pos - dc_int c)))
  end.
(** ap_abstract0_permute_dimensions 1274-1291 *)
Definition a0_permute (a : dv D) (perm : list nat) : bool * dv D :=
  if check_dimperm (d_dim a) perm then (false, d_permute D a perm) else (true, d_top D (d_int D a) (d_real D a)).
(** ap_abstract0_expand 1297-1326 *)
Definition a0_expand (a : dv D) (d n : nat) : bool * dv D :=
  match n with
  | 0 => (false, a)
  | _ => if check_dim_array (d_dim a) [d] then (false, d_expand D a d n)
         else (true, if Nat.ltb d (d_int D a) then d_top D (d_int D a + n) (d_real D a) else d_top D (d_int D a) (d_real D a + n))
  end.
(** ap_abstract0_fold 1327-1385; the dimensions of the top value with the arithmetic of size_t *)
Definition a0_fold (a : dv D) (tdim : list nat) : bool * dv D :=
  if check_fold (d_dim a) tdim then
    match tdim with
    | t0 :: ((_ :: _) as ts) => (false, d_fold D a t0 ts)
    | _ => (false, a)
    end
  else (true, d_top D (Z.to_nat (fst (fold_exc_dims (d_dim a) tdim))) (Z.to_nat (snd (fold_exc_dims (d_dim a) tdim)))).
(** ap_abstract0_apply_dimchange2 1497-1515 *)
Definition a0_dimchange2 (a : dv D) (add rem : option dchange) (project : bool) : bool * dv D :=
  match add, rem with
  | Some c, Some r => let '(x, b) := a0_add a c project in let '(y, b') := a0_remove b r in (x || y, b')
  | Some c, None => a0_add a c project
  | None, Some r => a0_remove a r
  | None, None => (false, a)
  end.
End Level0.

(** ** Level 1: ap_abstract1.c *)
Section Level1.
Context {V : Type} (ops : vops V) (D : dom0).
Definition abs1 : Type := (environment V * dv D)%type.
(** ap_abstract1_top, 280-286 *)
Definition top1 (e : environment V) : abs1 := (e, d_top D (length (e_int e)) (length (e_real e))).
Definition ret (e : environment V) (r : bool * dv D) : option (bool * abs1) := Some (fst r, (e, snd r)).
Definition fail1 (e : environment V) : option (bool * abs1) := Some (true, top1 e).
(** ap_abstract1_check_env2 96-109; ap_abstract1_meetjoin 646-658, ap_abstract1_widening 1263-1275 *)
Definition binary1 (op : dv D -> dv D -> dv D) (a1 a2 : abs1) : option (bool * abs1) :=
  if environment_is_eq ops (fst a1) (fst a2) then ret (fst a1) (a0_binary D op (snd a1) (snd a2)) else fail1 (fst a1).
Definition meet1 := binary1 (d_meet D).
Definition join1 := binary1 (d_join D).
Definition widening1 := binary1 (d_widening D).
(** ap_abstract1_change_environment 1004-1027; a dimension change [Some None] is a write outside of an array *)
Definition change_environment (a : abs1) (nenv : environment V) (project : bool) : option (bool * abs1) :=
  match environment_dimchange2 ops (fst a) nenv with
  | None => fail1 nenv
  | Some (Some None, _) | Some (_, Some None) => None
  | Some (add, rem) =>
      ret nenv (a0_dimchange2 D (snd a) (match add with Some c => c | None => None end) (match rem with Some c => c | None => None end) project)
  end.
(** ap_abstract1_minimize_environment 1029-1065: var_of_dim on all the dimensions which are found unconstrained.  [None]: abort *)
Definition uncon_vars (a : abs1) : list V :=
  concat (map (fun i => if d_uncon D (snd a) i then match nth_error (e_vars (fst a)) i with Some v => [v] | None => [] end else []) (seq 0 (d_int D (snd a) + d_real D (snd a)))).
Definition minimize_environment (a : abs1) : option (bool * abs1) :=
  match uncon_vars a with
  | [] => Some (false, a)
  | tvar => match environment_remove ops (fst a) tvar with
            | Some (Some env) => change_environment a env false
            | _ => None
            end
  end.
(** ap_abstract1_rename_array 1067-1092 *)
Definition rename_array (a : abs1) (l : list (V * V)) : option (bool * abs1) :=
  match environment_rename ops (fst a) l with
  | None => fail1 (fst a)
  | Some (env, perm) => ret env (a0_permute D (snd a) perm)
  end.
(** the dimensions of the variables; [None]: one of them is unknown *)
Fixpoint dims_of (e : environment V) (tvar : list V) : option (list nat) :=
  match tvar with
  | [] => Some []
  | x :: q => match dim_of_var ops e x, dims_of e q with Some d, Some l => Some (d :: l) | _, _ => None end
  end.
(** ap_abstract1_forget_array 974-1001 *)
Definition forget1 (a : abs1) (tvar : list V) (project : bool) : option (bool * abs1) :=
  match dims_of (fst a) tvar with
  | None => fail1 (fst a)
  | Some tdim => ret (fst a) (a0_forget D (snd a) tdim project)
  end.
(** ap_abstract1_expand 1098-1145 *)
Definition expand1 (a : abs1) (var : V) (tvar : list V) : option (bool * abs1) :=
  match tvar with
  | [] => Some (false, a)
  | _ =>
      match dim_of_var ops (fst a) var with
      | None => fail1 (fst a)
      | Some dim =>
          let '(x, value) := a0_expand D (snd a) dim (length tvar) in
          match (if Nat.ltb dim (length (e_int (fst a))) then environment_add_perm ops (fst a) tvar [] else environment_add_perm ops (fst a) [] tvar) with
          | None => fail1 (fst a)
          | Some (nenv, perm) => let '(y, value) := a0_permute D value perm in ret nenv (x || y, value)
          end
      end
  end.
(** ap_abstract1_fold 1153-1256.  qsort: insertion sort, with the order of the integers (compar_dim converts to int).
    bsearch in the sorted array: the first position.  The permutation: 1224-1231 *)
Fixpoint ninsert (x : nat) (l : list nat) : list nat :=
  match l with [] => [x] | y :: q => if Nat.leb x y then x :: l else y :: ninsert x q end.
Fixpoint nsort (l : list nat) : list nat := match l with [] => [] | x :: q => ninsert x (nsort q) end.
Fixpoint index_of (x : nat) (l : list nat) : nat := match l with [] => 0 | y :: q => if Nat.eqb x y then 0 else S (index_of x q) end.
Definition rotation (m t0 last : nat) : list nat :=
  map (fun r => if Nat.eqb r t0 then last else if Nat.ltb t0 r && Nat.leb r last then r - 1 else r) (seq 0 m).
Definition fold1 (a : abs1) (tvar : list V) : option (bool * abs1) :=
  match tvar with
  | [] => fail1 (fst a)
  | [_] => Some (false, a)
  | x0 :: rest =>
      match dim_of_var ops (fst a) x0 with
      | None => fail1 (fst a)
      | Some dim =>
          match environment_remove ops (fst a) rest with
          | None => None
          | Some None => fail1 (fst a)
          | Some (Some nenv) =>
              match dims_of (fst a) rest with
              | None => fail1 (fst a)
              | Some l =>
                  let tdim := nsort (dim :: l) in
                  let t0 := hd 0 tdim in
                  let '(x, value) := a0_fold D (snd a) tdim in
                  if Nat.eqb dim t0 then ret nenv (x, value)
                  else
                    let index := S (index_of dim (tl tdim)) in
                    let '(y, value) := a0_permute D value (rotation (e_dim nenv) t0 (dim - index)) in
                    ret nenv (x || y, value)
              end
          end
      end
  end.
(** ap_abstract1_unify 1384-1431 *)
Definition unify1 (a1 a2 : abs1) : option (bool * abs1) :=
  if environment_is_eq ops (fst a1) (fst a2) then meet1 a1 a2
  else
    match environment_lce ops (fst a1) (fst a2) with
    | None => Some (true, a1)
    | Some (_, Some None, _) | Some (_, _, Some None) => None
    | Some (env, c1, c2) =>
        let '(x1, v1) := match c1 with Some (Some c) => a0_add D (snd a1) c false | _ => (false, snd a1) end in
        let '(x2, v2) := match c2 with Some (Some c) => a0_add D (snd a2) c false | _ => (false, snd a2) end in
        let '(x, v) := a0_binary D (d_meet D) v1 v2 in
        ret env (x1 || x2 || x, v)
    end.
(** expressions and constraints with their environment: ap_linexpr1_t, ap_lincons1_array_t.  To the environment of the
    value: 702-718, 833-848.  [None]: write outside of an array; [Some None]: exception *)
Definition to_env (e env : environment V) : option (option (list nat)) :=
  if environment_is_eq ops env e then Some (Some [])
  else match environment_dimchange ops e env with
       | None => None
       | Some None => Some None
       | Some (Some c) => Some (Some (dc_pos c))
       end.
Definition add_expr (same : bool) (pos : list nat) (e : linexpr) : linexpr := if same then e else linexpr_add_dimensions e pos.
Definition add_cons (same : bool) (pos : list nat) (c : lincons) : lincons := mkCons (lc_typ c) (add_expr same pos (lc_expr c)) (lc_mod c).
(** ap_abstract1_meet_lincons_array 694-726 *)
Definition meet_lincons1 (a : abs1) (cenv : environment V) (l : list lincons) : option (bool * abs1) :=
  match to_env cenv (fst a) with
  | None => None
  | Some None => Some (true, a)
  | Some (Some pos) => ret (fst a) (a0_cons D (snd a) (map (add_cons (environment_is_eq ops (fst a) cenv) pos) l))
  end.
(** ap_abstract1_asssub_linexpr_array 798-870 *)
Fixpoint asssub_args (e : environment V) (l : list (V * (environment V * linexpr))) : option (option (list (nat * linexpr))) :=
  match l with
  | [] => Some (Some [])
  | (x, (env, u)) :: q =>
      match dim_of_var ops e x with
      | None => Some None
      | Some d =>
          match to_env env e with
          | None => None
          | Some None => Some None
          | Some (Some pos) =>
              match asssub_args e q with
              | Some (Some r) => Some (Some ((d, add_expr (environment_is_eq ops e env) pos u) :: r))
              | r => r
              end
          end
      end
  end.
Definition asssub1 (op : dv D -> list (nat * linexpr) -> option (dv D) -> dv D) (a : abs1) (l : list (V * (environment V * linexpr))) (dest : option abs1) : option (bool * abs1) :=
  match l with
  | [] => match dest with Some d => meet1 a d | None => Some (false, a) end
  | _ =>
      if match dest with Some d => environment_is_eq ops (fst a) (fst d) | None => true end then
        match asssub_args (fst a) l with
        | None => None
        | Some None => fail1 (fst a)
        | Some (Some r) => ret (fst a) (a0_asssub D op (snd a) r (option_map snd dest))
        end
      else fail1 (fst a)
  end.
End Level1.

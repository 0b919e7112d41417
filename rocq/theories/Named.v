(** Expressions, constraints and trees over named variables: an object of level 0 with its environment.

    /repo/apron/ap_linexpr1.c 64-147, ap_linexpr1.h 286-287, ap_lincons1.c 91-114 and 176-202, ap_texpr1.c 104-260,
    ap_tcons1.c 56-79.  The pairs f (copying) and f_with (in place) have one model.  Reference counts, printing and the
    null pointer as an argument are not modelled.  The dimension of an undeclared variable is AP_DIM_MAX in C, [None]
    here: the accesses of level 0 report an error for it (ap_linexpr0.c 406, 408, 442, 448). *)
From Coq Require Import Arith ZArith Bool List.
From Verif Require Import Linexpr ApCore ApTexpr ApEnv.
Import ListNotations.

Section Named.
Context {V : Type} (ops : vops V).
Notation env := (environment V).

(** ap_linexpr1_t, ap_lincons1_t, ap_lincons1_array_t, ap_texpr1_t *)
Definition lin1 : Type := (env * linexpr)%type.
Definition cons1 : Type := (env * lincons)%type.
Definition conss1 : Type := (env * list lincons)%type.
Definition tree1 : Type := (env * texpr)%type.

(** ap_linexpr1_get_coeff, ap_linexpr1.c 74-80; [None]: true is returned *)
Definition lin1_get (u : lin1) (x : V) : option coeff :=
  match dim_of_var ops (fst u) x with Some d => linexpr_get_coeff (snd u) d | None => None end.
(** ap_linexpr1_coeffref 65-71 and ap_linexpr1_set_coeff, ap_linexpr1.h 286-287; [None]: true is returned *)
Definition lin1_set (u : lin1) (x : V) (c : coeff) : option lin1 :=
  match dim_of_var ops (fst u) x with Some d => option_map (pair (fst u)) (linexpr_set_coeff (snd u) d c) | None => None end.

(** the common part of the functions extend_environment.  [None]: write outside of an array (see ApEnv);
    [Some None]: the error is returned *)
Definition extend {A : Type} (add : A -> list nat -> A) (u : env * A) (nenv : env) : option (option (env * A)) :=
  match environment_dimchange ops (fst u) nenv with
  | None => None
  | Some None => Some None
  | Some (Some c) => Some (Some (nenv, add (snd u) (dc_pos c)))
  end.
(** ap_lincons0_add_dimensions, ap_lincons0.h 190-196 *)
Definition lincons_add (c : lincons) (pos : list nat) : lincons := mkCons (lc_typ c) (linexpr_add_dimensions (lc_expr c) pos) (lc_mod c).
(** ap_linexpr1_extend_environment(_with), ap_linexpr1.c 109-147 *)
Definition lin1_extend : lin1 -> env -> option (option lin1) := extend linexpr_add_dimensions.
(** ap_lincons1_extend_environment(_with), ap_lincons1.c 91-114 *)
Definition cons1_extend : cons1 -> env -> option (option cons1) := extend lincons_add.
(** ap_lincons1_array_extend_environment(_with), ap_lincons1.c 176-202: one change of dimensions for the array *)
Definition conss1_extend : conss1 -> env -> option (option conss1) := extend (fun l pos => map (fun c => lincons_add c pos) l).
(** ap_texpr1_extend_environment(_with), ap_texpr1.c 215-250; of the tree of a constraint, ap_tcons1.c 56-79 *)
Definition tree1_extend : tree1 -> env -> option (option tree1) := extend texpr_add_dimensions.

(** ap_texpr1_var 104-111 *)
Definition tree1_var (e : env) (x : V) : option tree1 := option_map (fun d => (e, TDim d)) (dim_of_var ops e x).
(** ap_texpr1_unop, ap_texpr1_binop 113-135 *)
Definition tree1_un (o : unop) (t : rtype) (d : rdir) (a : tree1) : option tree1 := Some (fst a, TUn o t d (snd a)).
Definition tree1_bin (o : binop) (t : rtype) (d : rdir) (a b : tree1) : option tree1 :=
  if environment_is_eq ops (fst a) (fst b) then Some (fst a, TBin o t d (snd a) (snd b)) else None.
(** ap_texpr1_from_linexpr1 149-152 *)
Definition tree1_of_lin (u : lin1) : tree1 := (fst u, texpr_from_linexpr (snd u)).
(** ap_texpr1_has_var 174-182 *)
Definition tree1_has_var (a : tree1) (x : V) : bool :=
  match dim_of_var ops (fst a) x with Some d => texpr_has_dim (snd a) d | None => false end.
(** ap_texpr1_substitute(_with) 188-209 *)
Definition tree1_substitute (a : tree1) (x : V) (b : tree1) : option tree1 :=
  if environment_is_eq ops (fst a) (fst b) then
    match dim_of_var ops (fst a) x with Some d => Some (fst a, texpr_substitute (snd a) d (snd b)) | None => None end
  else None.
(** ap_texpr1_equal 252-260 *)
Definition tree1_equal (a b : tree1) : bool := environment_is_eq ops (fst a) (fst b) && texpr_equal (snd a) (snd b).
End Named.

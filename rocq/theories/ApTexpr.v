(** Tree expressions as data structures.

    /repo/apron/ap_texpr0.h 30-120 (types), ap_texpr0.c 232-247 (from_linexpr0), 268-273
    (node_exact), 335-672 (tests), 674-702 (substitute), 708-815 (dimensions), 816-860 (hash,
    equality); ap_abstract0.c 286-337 (check of an argument tree).  The pairs of functions f
    (copying) and f_with (in place) have one model.  The null pointer, an empty expression for
    which every test of the file is trivially true, is only modelled as the missing second
    argument of a unary node.  Dimensions are unbounded naturals. *)
From Coq Require Import Arith ZArith QArith Bool List.
From Verif Require Import Bound Itv Linexpr ItvLin ApCore ApCheck.
Import ListNotations.
Open Scope nat_scope.

(** ap_texpr_op_t, split by arity *)
Inductive unop := UNeg | UCast | USqrt.
Inductive binop := BAdd | BSub | BMul | BDiv | BMod | BPow.
(** ap_texpr_rtype_t: type of the result of a node *)
Inductive rtype := RReal | RInt | RSingle | RDouble | RExtended | RQuad.
(** ap_texpr_rdir_t: rounding direction *)
Inductive rdir := DNearest | DZero | DUp | DDown | DRnd.
(** ap_texpr0_t *)
Inductive texpr : Type :=
| TCst : coeff -> texpr
| TDim : nat -> texpr
| TUn : unop -> rtype -> rdir -> texpr -> texpr
| TBin : binop -> rtype -> rdir -> texpr -> texpr -> texpr.

Definition unop_eqb (a b : unop) : bool := match a, b with UNeg, UNeg | UCast, UCast | USqrt, USqrt => true | _, _ => false end.
Definition binop_eqb (a b : binop) : bool :=
  match a, b with BAdd, BAdd | BSub, BSub | BMul, BMul | BDiv, BDiv | BMod, BMod | BPow, BPow => true | _, _ => false end.
Definition rtype_eqb (a b : rtype) : bool :=
  match a, b with RReal, RReal | RInt, RInt | RSingle, RSingle | RDouble, RDouble | RExtended, RExtended | RQuad, RQuad => true | _, _ => false end.
Definition rdir_eqb (a b : rdir) : bool :=
  match a, b with DNearest, DNearest | DZero, DZero | DUp, DUp | DDown, DDown | DRnd, DRnd => true | _, _ => false end.

(** ap_texpr0_from_linexpr0, 232-247 *)
Definition texpr_from_linexpr (e : linexpr) : texpr :=
  fold_left (fun res p => TBin BAdd RReal DRnd res (TBin BMul RReal DRnd (TCst (snd p)) (TDim (fst p))))
    (foreach (le_terms e)) (TCst (le_cst e)).
(** ap_texpr0_node_exact, 268-273 *)
Definition un_exact (o : unop) (t : rtype) : bool := unop_eqb o UNeg || rtype_eqb t RReal.
Definition bin_exact (o : binop) (t : rtype) : bool := binop_eqb o BMod || rtype_eqb t RReal.

(** ** Tests *)
(** ap_texpr0_depth, 341-356 *)
Fixpoint texpr_depth (a : texpr) : nat :=
  match a with
  | TCst _ | TDim _ => 0
  | TUn _ _ _ a => 1 + (let l := texpr_depth a in if Nat.ltb 0 l then l else 0)
  | TBin _ _ _ a b => 1 + (let l := texpr_depth a in let r := texpr_depth b in if Nat.ltb r l then l else r)
  end.
(** ap_texpr0_size, 358-371 *)
Fixpoint texpr_size (a : texpr) : nat :=
  match a with
  | TCst _ | TDim _ => 0
  | TUn _ _ _ a => 1 + texpr_size a + 0
  | TBin _ _ _ a b => 1 + texpr_size a + texpr_size b
  end.
(** ap_texpr0_max_dim(_internal), 374-395 *)
Fixpoint max_dim_internal (a : texpr) (max : nat) : nat :=
  match a with
  | TCst _ => max
  | TDim d => if Nat.ltb max (d + 1) then d + 1 else max
  | TUn _ _ _ a => max_dim_internal a max
  | TBin _ _ _ a b => max_dim_internal b (max_dim_internal a max)
  end.
Definition texpr_max_dim (a : texpr) : nat := max_dim_internal a 0.
(** ap_texpr0_has_dim, 397-412 *)
Fixpoint texpr_has_dim (a : texpr) (d : nat) : bool :=
  match a with
  | TCst _ => false
  | TDim x => Nat.eqb x d
  | TUn _ _ _ a => texpr_has_dim a d
  | TBin _ _ _ a b => texpr_has_dim a d || texpr_has_dim b d
  end.
(** ap_texpr0_dimlist, 414-463: the terminator AP_DIM_MAX is not represented; [None] is a write
    outside the occurrence vector *)
Fixpoint dimlist_internal (a : texpr) (v : option (list bool)) : option (list bool) :=
  match a with
  | TCst _ => v
  | TDim d => match v with Some v => if Nat.ltb d (length v) then Some (set_nth d true v) else None | None => None end
  | TUn _ _ _ a => dimlist_internal a v
  | TBin _ _ _ a b => dimlist_internal b (dimlist_internal a v)
  end.
Definition texpr_dimlist (a : texpr) : option (list nat) :=
  let max := texpr_max_dim a in
  if Nat.eqb max 0 then Some []
  else match dimlist_internal a (Some (repeat false max)) with
       | Some v => Some (filter (fun i => nth i v false) (seq 0 max))
       | None => None
       end.
(** ap_texpr0_is_interval_cst, 465-480 *)
Fixpoint is_interval_cst (a : texpr) : bool :=
  match a with
  | TCst _ => true
  | TDim _ => false
  | TUn _ _ _ a => is_interval_cst a
  | TBin _ _ _ a b => is_interval_cst a && is_interval_cst b
  end.
(** ap_texpr0_is_scalar, 484-502 *)
Fixpoint texpr_is_scalar (a : texpr) : bool :=
  match a with
  | TCst (Scal _) => true
  | TCst (Intv l u) => scalar_equal l u
  | TDim _ => true
  | TUn _ _ _ a => texpr_is_scalar a
  | TBin _ _ _ a b => texpr_is_scalar a && texpr_is_scalar b
  end.
(** ap_texpr0_is_interval_linear, 504-545 *)
Fixpoint is_interval_linear (a : texpr) : bool :=
  match a with
  | TCst _ | TDim _ => true
  | TUn UNeg _ _ a => is_interval_linear a
  | TUn UCast t _ a => un_exact UCast t && is_interval_linear a
  | TUn USqrt _ _ _ => false
  | TBin ((BAdd | BSub) as o) t _ a b => bin_exact o t && is_interval_linear a && is_interval_linear b
  | TBin BMul t _ a b => bin_exact BMul t && ((is_interval_linear a && is_interval_cst b) || (is_interval_linear b && is_interval_cst a))
  | TBin BDiv t _ a b => bin_exact BDiv t && is_interval_linear a && is_interval_cst b
  | TBin (BMod | BPow) _ _ _ _ => false
  end.
(** ap_texpr0_is_interval_polynomial, 547-593 *)
Fixpoint is_interval_polynomial (a : texpr) : bool :=
  match a with
  | TCst _ | TDim _ => true
  | TUn UNeg _ _ a => is_interval_polynomial a
  | TUn UCast t _ a => un_exact UCast t && is_interval_polynomial a
  | TUn USqrt _ _ _ => false
  | TBin ((BAdd | BSub | BMul) as o) t _ a b => bin_exact o t && is_interval_polynomial a && is_interval_polynomial b
  | TBin ((BDiv | BPow) as o) t _ a b => bin_exact o t && is_interval_polynomial a && is_interval_cst b
  | TBin BMod _ _ _ _ => false
  end.
(** ap_texpr0_is_interval_polyfrac, 595-635 *)
Fixpoint is_interval_polyfrac (a : texpr) : bool :=
  match a with
  | TCst _ | TDim _ => true
  | TUn UNeg _ _ a => is_interval_polyfrac a
  | TUn UCast t _ a => un_exact UCast t && is_interval_polyfrac a
  | TUn USqrt _ _ _ => false
  | TBin ((BAdd | BSub | BMul | BDiv) as o) t _ a b => bin_exact o t && is_interval_polyfrac a && is_interval_polyfrac b
  | TBin BPow t _ a b => bin_exact BPow t && is_interval_polyfrac a && is_interval_cst b
  | TBin BMod _ _ _ _ => false
  end.
(** ap_texpr0_array_is_template, 637-646 *)
Fixpoint texpr_array_is (is_template : texpr -> bool) (l : list texpr) : bool :=
  match l with [] => true | e :: l => if is_template e then texpr_array_is is_template l else false end.

(** ** Operations *)
(** ap_texpr0_substitute(_with), 674-702 *)
Fixpoint texpr_substitute (a : texpr) (dim : nat) (dst : texpr) : texpr :=
  match a with
  | TCst c => TCst c
  | TDim d => if Nat.eqb d dim then dst else TDim d
  | TUn o t r a => TUn o t r (texpr_substitute a dim dst)
  | TBin o t r a b => TBin o t r (texpr_substitute a dim dst) (texpr_substitute b dim dst)
  end.
(** ap_texpr0_add_dimensions(_with), 708-742; [dim_while] is the loop on k *)
Fixpoint texpr_add_dimensions (a : texpr) (pos : list nat) : texpr :=
  match a with
  | TCst c => TCst c
  | TDim d => TDim (d + dim_while (length pos) pos d 0)
  | TUn o t r a => TUn o t r (texpr_add_dimensions a pos)
  | TBin o t r a b => TBin o t r (texpr_add_dimensions a pos) (texpr_add_dimensions b pos)
  end.
(** loop of ap_texpr0_remove_dimensions_with, 764 *)
Fixpoint rem_while (fuel : nat) (pos : list nat) (d i : nat) : nat :=
  match fuel with
  | O => i
  | S fuel => if Nat.ltb i (length pos) && Nat.ltb (nth i pos 0) d then rem_while fuel pos d (S i) else i
  end.
(** ap_texpr0_remove_dimensions(_with), 743-781 *)
Fixpoint texpr_remove_dimensions (a : texpr) (pos : list nat) : texpr :=
  match a with
  | TCst c => TCst c
  | TDim d =>
      let i := rem_while (length pos) pos d 0 in
      if Nat.ltb i (length pos) && Nat.eqb d (nth i pos 0) then TCst (Intv MInf PInf) else TDim (d - i)
  | TUn o t r a => TUn o t r (texpr_remove_dimensions a pos)
  | TBin o t r a b => TBin o t r (texpr_remove_dimensions a pos) (texpr_remove_dimensions b pos)
  end.
(** ap_texpr0_permute_dimensions(_with), 782-810; [None] is a read outside the permutation *)
Fixpoint texpr_permute_dimensions (a : texpr) (perm : list nat) : option texpr :=
  match a with
  | TCst c => Some (TCst c)
  | TDim d => match nth_error perm d with Some d' => Some (TDim d') | None => None end
  | TUn o t r a => match texpr_permute_dimensions a perm with Some a => Some (TUn o t r a) | None => None end
  | TBin o t r a b =>
      match texpr_permute_dimensions a perm, texpr_permute_dimensions b perm with
      | Some a, Some b => Some (TBin o t r a b)
      | _, _ => None
      end
  end.
(** ap_texpr0_equal, 836-860 *)
Fixpoint texpr_equal (a b : texpr) : bool :=
  match a, b with
  | TCst c1, TCst c2 => coeff_equal c1 c2
  | TDim d1, TDim d2 => Nat.eqb d1 d2
  | TUn o1 t1 r1 a1, TUn o2 t2 r2 a2 => unop_eqb o1 o2 && rtype_eqb t1 t2 && rdir_eqb r1 r2 && texpr_equal a1 a2
  | TBin o1 t1 r1 a1 b1, TBin o2 t2 r2 a2 b2 =>
      binop_eqb o1 o2 && rtype_eqb t1 t2 && rdir_eqb r1 r2 && texpr_equal a1 a2 && texpr_equal b1 b2
  | _, _ => false
  end.
(** ap_texpr0_hash, 816-834, in Z (overflow of long is not modelled); [hc]: the hash of a
    coefficient.  The codes are the positions in the enumerations of ap_texpr0.h 30-75. *)
Definition unop_code (o : unop) : Z := match o with UNeg => 6 | UCast => 7 | USqrt => 8 end.
Definition binop_code (o : binop) : Z := match o with BAdd => 0 | BSub => 1 | BMul => 2 | BDiv => 3 | BMod => 4 | BPow => 5 end.
Definition rtype_code (t : rtype) : Z := match t with RReal => 0 | RInt => 1 | RSingle => 2 | RDouble => 3 | RExtended => 4 | RQuad => 5 end.
Definition rdir_code (d : rdir) : Z := match d with DNearest => 0 | DZero => 1 | DUp => 2 | DDown => 3 | DRnd => 4 end.
Fixpoint texpr_hash (hc : coeff -> Z) (a : texpr) : Z :=
  match a with
  | TCst c => hc c
  | TDim d => Z.of_nat d
  | TUn o t r a => (unop_code o * 17 + rtype_code t * 23 + rdir_code r * 4801 + texpr_hash hc a * 17053 + 0)%Z
  | TBin o t r a b => (binop_code o * 17 + rtype_code t * 23 + rdir_code r * 4801 + texpr_hash hc a * 17053 + texpr_hash hc b)%Z
  end.
(** ap_abstract0_check_texpr_check / ap_abstract0_check_texpr, ap_abstract0.c 286-337: [true] is
    accepted *)
Definition check_texpr (dims : dimension) (e : texpr) : bool :=
  negb (Nat.ltb (total dims) (texpr_max_dim e)).
(** ap_abstract0_check_texpr_array: stops at the first rejected expression *)
Definition check_texpr_array (dims : dimension) (l : list texpr) : bool := forallb (check_texpr dims) l.

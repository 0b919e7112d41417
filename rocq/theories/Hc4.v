(** Forward-backward refinement of boxes by tree constraints (HC4).

    /repo/itv/itv_linearize.c 1660-2165; /repo/itv/itv.h 598-645; /repo/itv/itv.c 587-642;
    /repo/num/numrat_mpq.h 187-193, numint_mpz.h 131-160, bound_def.h 380-391, 434-470.

    The environment, an array of intervals updated in place, is a function here.  [nx] stands for
    nextafterf(d, d+1) and nextafter(d, d+1): any function.  Square roots, powers and roots are
    those of rational numbers. *)
From Coq Require Import Arith ZArith QArith Qround Bool List.
From Verif Require Import Bound Itv Linexpr ItvLin ApTexpr TexprSem ItvTree.
Import ListNotations.
Open Scope Z_scope.

(** ** Roots *)
(** mpz_root: the integer part of the n-th root of b >= 0, found by search *)
Fixpoint root_from (k : nat) (b : Z) (n : nat) : Z :=
  match k with
  | O => 0
  | S k' => if Z.of_nat k ^ Z.of_nat n <=? b then Z.of_nat k else root_from k' b n
  end.
Definition zroot (b : Z) (n : nat) : Z := root_from (Z.to_nat b) b n.
(** numint_root, numint_mpz.h 131-156: (up, down) *)
Definition iroot (b : Z) (n : nat) : Z * Z :=
  if b <? 0 then
    let u := - zroot (- b) n in if zroot (- b) n ^ Z.of_nat n =? - b then (u, u) else (u, u - 1)
  else
    let d := zroot b n in if d ^ Z.of_nat n =? b then (d, d) else (d + 1, d).
(** numrat_root, numrat_mpq.h 187-193: up and down swapped for the denominators *)
Definition qroot (q : Q) (n : nat) : Q * Q :=
  let r := Qred q in
  let (un, dn) := iroot (Qnum r) n in
  let (dd, ud) := iroot (Zpos (Qden r)) n in
  (Qmake un (Z.to_pos ud), Qmake dn (Z.to_pos dd)).
(** bound_root, bound_def.h 380-391 *)
Definition broot (b : bound) (n : nat) : bound * bound :=
  match b with
  | Fin q => let (u, d) := qroot q n in (Fin u, Fin d)
  | _ => (PInf, PInf)
  end.
(** itv_inv_pow, itv.c 588-642 *)
Definition itv_inv_pow (orga b n : itv) : itv :=
  if itv_is_bottom b || itv_is_bottom orga || itv_is_bottom n then itv_bottom else
  match itv_exponent n with
  | None => itv_top
  | Some O => itv_top
  | Some x =>
      if negb (Nat.odd x || (bsgn (inf b) <=? 0)) && (bsgn (sup b) <? 0) then itv_bottom else
      let lo := if Nat.odd x || (bsgn (inf b) <=? 0) then bneg (inf b) else Fin 0 in
      let a := mkItv (bneg (snd (broot lo x))) (fst (broot (sup b) x)) in
      if Nat.odd x then a
      else if bsgn (sup orga) <=? 0 then mkItv (sup a) (inf a)
      else if 0 <=? bsgn (inf orga) then mkItv (sup a) (sup a)
      else a
  end.

Section Hc4.
Context {N : numtype} {F : fmts} (nx : rtype -> Q -> bound).

(** ** Preimages of roundings, itv.h 598-645 *)
Definition itv_unceil (b : itv) : itv := mkItv (badd_uint (N:=N) (bfloor (inf b)) 1) (bfloor (sup b)).
Definition itv_unfloor (b : itv) : itv := mkItv (bfloor (inf b)) (badd_uint (N:=N) (bfloor (sup b)) 1).
Definition itv_untrunc (b : itv) : itv :=
  let i := bfloor (inf b) in let s := bfloor (sup b) in
  mkItv (if 0 <? bsgn i then badd_uint (N:=N) i 1 else i) (if 0 <? bsgn s then badd_uint (N:=N) s 1 else s).
Definition itv_from_int (b : itv) : itv := mkItv (bceil (inf b)) (bceil (sup b)).
(** bound_next_float, bound_next_double, bound_def.h 434-470 *)
Definition bnext (t : rtype) (b : bound) : bound := match b with Fin q => nx t q | _ => PInf end.
(** itv_from_float, itv_from_double *)
Definition from_bound (t : rtype) (b : bound) : bound := if bsgn b =? 0 then b else bnext t b.
Definition itv_from_fmt (t : rtype) (b : itv) : itv := mkItv (from_bound t (inf b)) (from_bound t (sup b)).
(** itv_unround, itv_linearize.c 1793-1831 *)
Definition itv_unround (t : rtype) (d : rdir) (a : itv) : itv :=
  match t with
  | RReal => a
  | RInt => match d with
            | DZero => itv_untrunc a
            | DUp => itv_unceil a
            | DDown => itv_unfloor a
            | DRnd | DNearest => itv_from_int a
            end
  | RSingle => itv_from_fmt RSingle a
  | RQuad | RExtended | RDouble => itv_from_fmt RDouble a
  end.

(** ** Annotated trees: itv_expr_t, 1666-1672 *)
Inductive atree : Type :=
| ACst (c : coeff) (i : itv)
| ADim (d : nat) (i : itv)
| AUn (o : unop) (t : rtype) (d : rdir) (a : atree) (i : itv)
| ABin (o : binop) (t : rtype) (d : rdir) (a b : atree) (i : itv).
Definition aitv (x : atree) : itv := match x with ACst _ i | ADim _ i | AUn _ _ _ _ i | ABin _ _ _ _ _ i => i end.
Definition aset (x : atree) (i : itv) : atree :=
  match x with
  | ACst c _ => ACst c i | ADim d _ => ADim d i | AUn o t d a _ => AUn o t d a i | ABin o t d a b _ => ABin o t d a b i
  end.
(** itv_expr_build, 1685-1730 *)
Fixpoint abuild (env : nat -> itv) (e : texpr) : atree :=
  match e with
  | TCst c => ACst c (fst (itv_set_coeff (N:=N) c))
  | TDim d => ADim d (env d)
  | TUn o t d a =>
      let a := abuild env a in
      AUn o t d a (if itv_is_bottom (aitv a) then itv_bottom else eval_un (F:=F) o t d (aitv a))
  | TBin o t d a b =>
      let a := abuild env a in let b := abuild env b in
      ABin o t d a b (if itv_is_bottom (aitv a) || itv_is_bottom (aitv b) then itv_bottom else eval_bin (N:=N) (F:=F) o t d (aitv a) (aitv b))
  end.
(** itv_mod, itv.c 276-305, when its result is the buffer eval_itv that it also uses for the
    absolute value of the divisor: the final intersection is one of the result with itself *)
Definition itv_mod_eval (b c : itv) : itv :=
  let e := itv_abs c in
  if bsgn (inf e) =? 0 then itv_top else itv_sub (N:=N) b (itv_mul (N:=N) (itv_trunc (itv_div (N:=N) b e)) e).
Definition re_eval_bin (o : binop) (t : rtype) (d : rdir) (a b : itv) : itv :=
  match o with BMod => itv_mod_eval a b | _ => eval_bin (N:=N) (F:=F) o t d a b end.
(** itv_expr_bottom_up, 1737-1787: the tree and "changed" *)
Fixpoint bottom_up (env : nat -> itv) (x : atree) : atree * bool :=
  match x with
  | ACst _ _ => (x, false)
  | ADim d i => let j := fst (itv_meet i (env d)) in if itv_is_eq j i then (x, false) else (ADim d j, true)
  | AUn o t d a i =>
      let '(a, r1) := bottom_up env a in
      let j := if itv_is_bottom (aitv a) then itv_bottom else fst (itv_meet (eval_un (F:=F) o t d (aitv a)) i) in
      if itv_is_eq j i then (AUn o t d a i, r1) else (AUn o t d a j, true)
  | ABin o t d a b i =>
      let '(a, r1) := bottom_up env a in
      let '(b, r2) := bottom_up env b in
      let j := if itv_is_bottom (aitv a) || itv_is_bottom (aitv b) then itv_bottom
               else fst (itv_meet (re_eval_bin o t d (aitv a) (aitv b)) i) in
      if itv_is_eq j i then (ABin o t d a b i, r1 || r2) else (ABin o t d a b j, true)
  end.
(** itv_refine_ap_texpr0_node, 1839-1936 *)
Definition has_zero (a : itv) : bool := (0 <=? bsgn (inf a)) && (0 <=? bsgn (sup a)).
Definition refine_un (o : unop) (t : rtype) (d : rdir) (res a : itv) : itv :=
  match o with
  | UNeg => fst (itv_meet (itv_neg res) a)
  | UCast => fst (itv_meet (itv_unround t d res) a)
  | USqrt => let u := itv_unround t d res in fst (itv_meet (itv_mul (N:=N) u u) a)
  end.
Definition refine_bin (o : binop) (t : rtype) (d : rdir) (res a b : itv) : itv * itv :=
  let u := itv_unround t d res in
  match o with
  | BAdd => (fst (itv_meet (itv_sub (N:=N) u b) a), fst (itv_meet (itv_sub (N:=N) u a) b))
  | BSub => (fst (itv_meet (itv_add (N:=N) b u) a), fst (itv_meet (itv_sub (N:=N) a u) b))
  | BMul => (if has_zero b then a else fst (itv_meet (itv_div (N:=N) u b) a), if has_zero a then b else fst (itv_meet (itv_div (N:=N) u a) b))
  | BDiv => (fst (itv_meet (itv_mul (N:=N) u b) a), if has_zero u then b else fst (itv_meet (itv_div (N:=N) a u) b))
  | BPow => (fst (itv_meet (itv_inv_pow a res b) a), b)
  | BMod => (a, b)
  end.
Definition upd (env : nat -> itv) (d : nat) (i : itv) : nat -> itv := fun k => if Nat.eqb k d then i else env k.
(** itv_expr_top_down, 1944-1999: the tree, the environment, "changed".  [i] is the value that the
    caller has just stored in the root of [x]. *)
Fixpoint top_down (intdim : nat) (x : atree) (i : itv) (env : nat -> itv) : atree * (nat -> itv) * bool :=
  if itv_is_bottom i then (aset x i, env, true) else
  match x with
  | ACst c _ => (ACst c i, env, false)
  | ADim d _ =>
      let j := fst (itv_canonicalize (Nat.ltb d intdim) (fst (itv_meet (env d) i))) in
      if itv_is_eq j (env d) then (ADim d j, env, false) else (ADim d j, upd env d j, true)
  | AUn o t d a _ =>
      let ja := refine_un o t d i (aitv a) in
      let '(a, env, r) := if itv_is_eq ja (aitv a) then (a, env, false) else top_down intdim a ja env in
      (AUn o t d a i, env, r)
  | ABin o t d a b _ =>
      let '(ja, jb) := refine_bin o t d i (aitv a) (aitv b) in
      let '(a, env, r1) := if itv_is_eq ja (aitv a) then (a, env, false) else top_down intdim a ja env in
      let '(b, env, r2) := if itv_is_eq jb (aitv b) then (b, env, false) else top_down intdim b jb env in
      (ABin o t d a b i, env, r1 || r2)
  end.
(** itv_refine_cons, 2000-2033 *)
Definition refine_cons (intdim : nat) (ty : constyp) (x : atree) (env : nat -> itv) : atree * (nat -> itv) * bool :=
  match ty with
  | CEq => if itv_is_zero (aitv x) then (x, env, false)
           else top_down intdim x (fst (itv_meet (aitv x) (itv_of_int 0))) env
  | CSupEq | CSup => if itv_is_pos (aitv x) then (x, env, false)
                     else top_down intdim x (fst (itv_meet (aitv x) (mkItv (Fin 0) PInf))) env
  | CEqMod | CDisEq => (x, env, false)
  end.
(** the two inner loops of itv_meet_ap_tcons0_array, 2072-2090 *)
Fixpoint refine_all (intdim : nat) (tab : list (constyp * atree)) (env : nat -> itv) : list (constyp * atree) * (nat -> itv) * bool :=
  match tab with
  | [] => ([], env, false)
  | (ty, x) :: q =>
      let '(x, env, r) := refine_cons intdim ty x env in
      let '(q, env, r') := refine_all intdim q env in ((ty, x) :: q, env, r || r')
  end.
(** ... the second one stops at an empty value: the list, "changed", "empty" *)
Fixpoint bottom_up_all (env : nat -> itv) (tab : list (constyp * atree)) : list (constyp * atree) * bool * bool :=
  match tab with
  | [] => ([], false, false)
  | (ty, x) :: q =>
      let '(x, r) := bottom_up env x in
      if itv_is_bottom (aitv x) then ((ty, x) :: q, r, true)
      else let '(q, r', e) := bottom_up_all env q in ((ty, x) :: q, r || r', e)
  end.
Fixpoint hc4_loop (k intdim : nat) (tab : list (constyp * atree)) (env : nat -> itv) : (nat -> itv) * bool :=
  match k with
  | O => (env, false)
  | S k =>
      let '(tab, env, r) := refine_all intdim tab env in
      if negb r then (env, false) else
      let '(tab, r, e) := bottom_up_all env tab in
      if e then (env, true) else if negb r then (env, false) else hc4_loop k intdim tab env
  end.
(** itv_meet_ap_tcons0_array, 2056-2097: the refined environment and the answer "empty" *)
Definition hc4_meet (kmax intdim : nat) (l : list tcons) (env : nat -> itv) : (nat -> itv) * bool :=
  hc4_loop kmax intdim (map (fun c => (tc_typ c, abuild env (tc_expr c))) l) env.

(** ** itv_subst_ap_texpr0_array, 2106-2165 *)
(** itv_refine_expr, 2039-2048 *)
Definition refine_expr (intdim : nat) (x : atree) (i : itv) (env : nat -> itv) : atree * (nat -> itv) * bool :=
  let j := fst (itv_meet (aitv x) i) in
  if itv_is_eq j (aitv x) then (x, env, false) else top_down intdim x j env.
Fixpoint refine_exprs (intdim : nat) (arg : nat -> itv) (i : nat) (tab : list atree) (env : nat -> itv) : list atree * (nat -> itv) * bool :=
  match tab with
  | [] => ([], env, false)
  | x :: q =>
      let '(x, env, r) := refine_expr intdim x (arg i) env in
      let '(q, env, r') := refine_exprs intdim arg (S i) q env in (x :: q, env, r || r')
  end.
Fixpoint bottom_ups (env : nat -> itv) (tab : list atree) : list atree * bool * bool :=
  match tab with
  | [] => ([], false, false)
  | x :: q =>
      let '(x, r) := bottom_up env x in
      if itv_is_bottom (aitv x) then (x :: q, r, true)
      else let '(q, r', e) := bottom_ups env q in (x :: q, r || r', e)
  end.
Fixpoint subst_loop (k intdim : nat) (arg : nat -> itv) (tab : list atree) (env : nat -> itv) : (nat -> itv) * bool :=
  match k with
  | O => (env, false)
  | S k =>
      let '(tab, env, r) := refine_exprs intdim arg 0 tab env in
      if negb r then (env, false) else
      let '(tab, r, e) := bottom_ups env tab in
      if e then (env, true) else if negb r then (env, false) else subst_loop k intdim arg tab env
  end.
(** the marks are read at dim[i] instead of i: [None] when this leaves the array dim *)
Definition subst_marks (dims : list nat) (n : nat) : option (list bool) :=
  if Nat.ltb (length dims) n then None
  else Some (map (fun i => existsb (Nat.eqb (nth i dims 0%nat)) dims) (seq 0 n)).
Definition itv_subst (k intdim n : nat) (dims : list nat) (es : list texpr) (arg res : nat -> itv) : option ((nat -> itv) * bool) :=
  match subst_marks dims n with
  | None => None
  | Some ms =>
      let res := fun i => if Nat.ltb i n && negb (nth i ms true) then fst (itv_meet (res i) (arg i)) else res i in
      Some (subst_loop k intdim arg (map (abuild res) es) res)
  end.
End Hc4.

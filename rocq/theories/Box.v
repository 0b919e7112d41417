(** Model of the box domain: /repo/box/*.c, and of the propagation of bounds through
    linear constraints: /repo/itv/itv_linearize.c 88-414.

    An array of intervals is a function from indices; only the indices below the number of
    dimensions are meaningful.  In-place functions return the new array.                  *)
From Coq Require Import ZArith QArith Qround Qreals Reals Bool List.
From Verif Require Import Bound Itv Linexpr ItvLin.
Import ListNotations.
Open Scope Z_scope.

(** itv_set on one cell of an array *)
Definition eset {A : Type} (e : nat -> A) (d : nat) (i : A) : nat -> A :=
  fun j => if Nat.eqb j d then i else e j.

Section Boxize.
Context {N : numtype}.
Local Notation bdiv := (bdiv (N:=N)).

(** itv_boxize_lincons, itv_linearize.c 92-361, in pieces.
    144-155 (same code at 174-185, 260-271, 303-314): tightening for an integer dimension *)
Definition is_ceq (ty : constyp) : bool := match ty with CEq => true | _ => false end.
Definition bz_int (ty : constyp) (isint : bool) (b : bound) : bound :=
  match b with
  | Fin q =>
    if isint then
      match ty with
      | CSup => if qisint q then bsub_uint (N:=N) (Fin q) 1 else bfloor (Fin q)
      | _ => bfloor (Fin q)
      end
    else b
  | _ => b
  end.
(** 121-195: scalar coefficient [a]; candidate values of the two bounds of the dimension *)
Definition bz_scal (ty : constyp) (a ev : itv) : option bound * option bound :=
  let sgn := bsgn (sup a) in
  if sgn =? 0 then (None, None) else
  ((if (0 <? sgn) || is_ceq ty then
      Some (if 0 <? sgn then bdiv (sup ev) (sup a) else bdiv (inf ev) (inf a))
    else None),
   (if (sgn <? 0) || is_ceq ty then
      Some (if sgn <? 0 then bdiv (sup ev) (inf a) else bdiv (inf ev) (sup a))
    else None)).
(** 196-323: interval coefficient *)
Definition bz_itv (ty : constyp) (a ev : itv) : option bound * option bound :=
  let sg := if bsgn (inf a) <? 0 then 1 else if bsgn (sup a) <? 0 then -1 else 0 in
  if sg =? 0 then (None, None) else
  let sgne := bsgn (inf ev) in
  let sgnE := bsgn (sup ev) in
  ((if (0 <? sg) || (is_ceq ty && (sg <? 0)) then
      Some (if 0 <? sg then
              if sgnE <=? 0 then bdiv (sup ev) (sup a)              (* 1A *)
              else bneg (bdiv (sup ev) (inf a))                     (* 1B *)
            else
              if sgne <=? 0 then bdiv (inf ev) (inf a)              (* 4A *)
              else bneg (bdiv (inf ev) (sup a)))                    (* 4B *)
    else None),
   (if (sg <? 0) || (is_ceq ty && (0 <? sg)) then
      Some (if sg <? 0 then
              if 0 <=? sgnE then bneg (bdiv (sup ev) (sup a))       (* 2B *)
              else bdiv (sup ev) (inf a)                            (* 2A *)
            else
              if 0 <=? sgne then bneg (bdiv (inf ev) (inf a))       (* 3B *)
              else bdiv (inf ev) (sup a))                           (* 3A *)
    else None)).
(** 156-161 and the like: the bound replaces the old one if it is smaller *)
Definition bz_upd (ty : constyp) (isint : bool) (b : option bound) (old : bound) : bound * bool :=
  match b with
  | None => (old, false)
  | Some b => let b := bz_int ty isint b in if bcmp b old <? 0 then (b, true) else (old, false)
  end.
(** 108-351: loop over the terms.  [pre] are the terms already treated, [same] tells that
    the arrays res and env are the same one.  Result: res, "some bound changed", "empty". *)
Fixpoint bz_loop (same : bool) (intdim : nat) (ionly : bool) (ty : constyp) (cst : itv) (ceq : bool)
    (env : nat -> itv) (pre rest : list iterm) (res : nat -> itv) (gch : bool) : (nat -> itv) * bool * bool :=
  match rest with
  | [] => (res, gch, false)
  | t :: post =>
    let d := t_dim t in
    let ev := itv_eval_linexpr (N:=N) (if same then res else env)
                (mkIL (pre ++ mkT (itv_of_int 0) true d :: post) cst ceq) in
    let '(bi, bs) :=
      if itv_is_top ev then (None, None)
      else if t_eq t then (if ionly then (None, None) else bz_scal ty (t_itv t) ev)
      else bz_itv ty (t_itv t) ev in
    let isint := Nat.ltb d intdim in
    let '(i1, c1) := bz_upd ty isint bi (inf (res d)) in
    let '(s1, c2) := bz_upd ty isint bs (sup (res d)) in
    if c1 || c2 then
      let '(i, exc) := itv_canonicalize isint (mkItv i1 s1) in
      let res := eset res d i in
      if exc then (res, true, true)
      else bz_loop same intdim ionly ty cst ceq env (pre ++ [t]) post res true
    else bz_loop same intdim ionly ty cst ceq env (pre ++ [t]) post res gch
  end.
Definition boxize_lincons (same : bool) (intdim : nat) (ionly : bool) (c : icons)
    (env res : nat -> itv) : (nat -> itv) * bool * bool :=
  let e := ic_expr c in
  let '(res, ch, empty) := bz_loop same intdim ionly (ic_typ c) (il_cst e) (il_eq e) env [] (il_terms e) res false in
  match il_terms e with
  | [] => if tfalse (eval_cst c) then (res, true, true) else (res, ch, empty)
  | _ => (res, ch, empty)
  end.
(** itv_boxize_lincons_array, itv_linearize.c 377-414: one pass over the constraints ... *)
Definition boxable (ty : constyp) : bool := match ty with CEq | CSupEq | CSup => true | _ => false end.
Fixpoint bz_pass (same : bool) (intdim : nat) (ionly : bool) (l : list icons)
    (env res : nat -> itv) (ch : bool) : (nat -> itv) * bool * bool :=
  match l with
  | [] => (res, ch, false)
  | c :: l =>
    if boxable (ic_typ c) then
      let '(res, c1, empty) := boxize_lincons same intdim ionly c env res in
      if empty then (res, true, true)
      else bz_pass same intdim ionly l env res (c1 || ch)
    else bz_pass same intdim ionly l env res ch
  end.
(** ... repeated at most [kmax] times when res is env *)
Fixpoint bz_iter (k : nat) (same : bool) (intdim : nat) (ionly : bool) (l : list icons)
    (env res : nat -> itv) (gch : bool) : (nat -> itv) * bool * bool :=
  match k with
  | O => (res, gch, false)
  | S k =>
    let '(res, ch, empty) := bz_pass same intdim ionly l env res false in
    if empty then (res, true, true)
    else if ch then bz_iter k same intdim ionly l env res true
    else (res, gch, false)
  end.
Definition boxize_lincons_array (same : bool) (intdim kmax : nat) (ionly : bool) (l : list icons)
    (env res : nat -> itv) : (nat -> itv) * bool * bool :=
  bz_iter (if same then Nat.max kmax 1 else 1) same intdim ionly l env res false.
End Boxize.

(** ** Boxes *)
(** box_t, box_internal.h 18-22: [None] is the NULL pointer *)
Record box : Type := mkBox { bx_int : nat; bx_real : nat; bx_p : option (nat -> itv) }.
Definition bx_dim (a : box) : nat := (bx_int a + bx_real a)%nat.
Definition set_p (a : box) (p : option (nat -> itv)) : box := mkBox (bx_int a) (bx_real a) p.

(** box_bottom, box_top, box_constructor.c 22-42 *)
Definition box_bottom (i r : nat) : box := mkBox i r None.
Definition box_top (i r : nat) : box := mkBox i r (Some (fun _ => itv_top)).
(** loops over the dimensions which stop at the first failure *)
Definition all_dims (n : nat) (f : nat -> bool) : bool := forallb f (seq 0 n).

(** Tests, box_constructor.c 78-158 *)
Definition box_is_bottom (a : box) : bool := match bx_p a with None => true | _ => false end.
Definition box_is_top (a : box) : bool :=
  match bx_p a with None => false | Some p => all_dims (bx_dim a) (fun i => itv_is_top (p i)) end.
Definition box_is_leq (a b : box) : bool :=
  match bx_p a, bx_p b with
  | None, _ => true
  | _, None => false
  | Some p, Some q => all_dims (bx_dim a) (fun i => itv_is_leq (p i) (q i))
  end.
Definition box_is_eq (a b : box) : bool :=
  match bx_p a, bx_p b with
  | None, None => true
  | None, _ | _, None => false
  | Some p, Some q => all_dims (bx_dim a) (fun i => itv_is_eq (p i) (q i))
  end.
Definition box_is_dimension_unconstrained (a : box) (d : nat) : bool :=
  match bx_p a with None => false | Some p => itv_is_top (p d) end.

(** User intervals are pairs of bounds (true bounds).  ap_interval_set_itv (itv.c 712-738) is
    exact; ap_interval_is_bottom / is_leq, /repo/apron/ap_interval.c 119-138 *)
Definition user_of_itv (i : itv) : bound * bound := (bneg (inf i), sup i).
Definition uitv_bottom : bound * bound := (Fin 1, Fin (-1)).
Definition uitv_is_bottom (i : bound * bound) : bool := 0 <? bcmp (fst i) (snd i).
Definition uitv_is_leq (i j : bound * bound) : bool :=
  ((0 <=? bcmp (fst i) (fst j)) && (bcmp (snd i) (snd j) <=? 0)) || uitv_is_bottom i.
(** box_sat_interval, box_constructor.c 160-173 *)
Definition box_sat_interval (a : box) (d : nat) (i : bound * bound) : bool :=
  match bx_p a with None => true | Some p => uitv_is_leq (user_of_itv (p d)) i end.
(** box_bound_dimension 245-263, box_to_box 500-517 *)
Definition box_bound_dimension (a : box) (d : nat) : bound * bound :=
  match bx_p a with None => uitv_bottom | Some p => user_of_itv (p d) end.
Definition box_to_box (a : box) : nat -> bound * bound := box_bound_dimension a.

(** box_to_lincons_array, box_constructor.c 315-374 *)
Definition point_flag (i : itv) : bool := itv_is_point i.
Definition x_cons (ty : constyp) (d : nat) (k : Q) (b : bound) : lincons :=
  mkCons ty (mkLin (Scal b) (Sparse [(Some d, Scal (Fin k))])) None.
Definition itv_lincons (d : nat) (i : itv) : list lincons :=
  let lo := if binfty (inf i) then [] else [x_cons (if itv_is_point i then CEq else CSupEq) d 1 (inf i)] in
  let point := if binfty (inf i) then false else itv_is_point i in
  let hi := if negb point && negb (binfty (sup i)) then [x_cons CSupEq d (-1) (sup i)] else [] in
  lo ++ hi.
Definition unsat_cons : lincons := mkCons CSupEq (mkLin (Scal (Fin (-1))) (Sparse [])) None.
Definition box_to_lincons_array (a : box) : list lincons :=
  match bx_p a with
  | None => [unsat_cons]
  | Some p => flat_map (fun d => itv_lincons d (p d)) (seq 0 (bx_dim a))
  end.

(** Generators (ap_generator0.h): the coefficients of the expression as a function *)
Inductive gentyp := GLine | GRay | GVertex.
Record generator : Type := mkGen { g_typ : gentyp; g_coef : nat -> Q }.
Definition cset (f : nat -> Q) (d : nat) (q : Q) : nat -> Q := fun j => if Nat.eqb j d then q else f j.
(** box_to_generator_array, box_constructor.c 381-495.  434-453: the vertices (array cells
    nblines+nbrays...), doubled for each bounded dimension *)
Definition qof (b : bound) : Q := match b with Fin q => q | _ => 0%Q end.
Definition gen_vertices (p : nat -> itv) (n : nat) : list (nat -> Q) :=
  fold_left (fun l d =>
    if negb (binfty (inf (p d))) && negb (binfty (sup (p d))) then
      map (fun f => cset f d (- qof (inf (p d)))) l ++ map (fun f => cset f d (qof (sup (p d)))) l
    else l) (seq 0 n) [fun _ => 0%Q].
(** 455-489: lines and rays.  For a half-bounded dimension the loop over the vertices sets
    the coefficient of the ray [expr], not the one of the vertices. *)
Definition gen_line (p : nat -> itv) (d : nat) : list generator :=
  if binfty (inf (p d)) && binfty (sup (p d)) then [mkGen GLine (cset (fun _ => 0%Q) d 1)] else [].
Definition gen_ray (p : nat -> itv) (d : nat) : list generator :=
  if binfty (inf (p d)) && binfty (sup (p d)) then []
  else if binfty (sup (p d)) then [mkGen GRay (cset (cset (fun _ => 0%Q) d 1) d (- qof (inf (p d))))]
  else if binfty (inf (p d)) then [mkGen GRay (cset (cset (fun _ => 0%Q) d (-1)) d (qof (sup (p d))))]
  else [].
Definition box_to_generator_array (a : box) : list generator :=
  match bx_p a with
  | None => []
  | Some p =>
    flat_map (gen_line p) (seq 0 (bx_dim a)) ++ flat_map (gen_ray p) (seq 0 (bx_dim a)) ++
    map (mkGen GVertex) (gen_vertices p (bx_dim a))
  end.

(** Meet and join, box_meetjoin.c 20-101 (destructive or not: same value).  box_set with a
    NULL source leaves the destination, freshly allocated, at NULL. *)
Definition box_meet (a b : box) : box :=
  match bx_p a, bx_p b with
  | Some p, Some q =>
    let r := fun i => fst (itv_meet (p i) (q i)) in
    if all_dims (bx_dim a) (fun i => negb (snd (itv_meet (p i) (q i)))) then set_p a (Some r) else set_p a None
  | _, _ => set_p a None
  end.
Definition box_join (a b : box) : box :=
  match bx_p a, bx_p b with
  | None, None => set_p a None
  | None, Some q => set_p a (Some q)
  | Some p, None => a
  | Some p, Some q =>
    set_p a (Some (fun i => if Nat.ltb i (bx_int a + bx_real b) then itv_join (p i) (q i) else p i))
  end.
(** box_meet_array / box_join_array, 79-101; the array is not empty *)
Fixpoint box_meet_list (a : box) (l : list box) : box :=
  match l with
  | [] => a
  | b :: l => let r := box_meet a b in if box_is_bottom r then r else box_meet_list r l
  end.
Definition box_meet_array (a : box) (l : list box) : box := box_meet_list a l.
Definition box_join_array (a : box) (l : list box) : box := fold_left box_join l a.

(** box_add_ray, box_meetjoin.c 109-141; the coefficients are scalars (assert) *)
Definition add_ray1 (line : bool) (p : nat -> itv) (t : nat * coeff) : nat -> itv :=
  match snd t with
  | Scal b =>
    let sgn := bsgn b in
    let i := p (fst t) in
    if sgn =? 0 then p else
    eset p (fst t) (mkItv (if (sgn <? 0) || line then PInf else inf i)
                          (if (0 <? sgn) || line then PInf else sup i))
  | _ => p
  end.
Definition add_ray (p : nat -> itv) (g : bool * linexpr) : nat -> itv :=
  fold_left (add_ray1 (fst g)) (foreach (le_terms (snd g))) p.
(** box_add_ray_array 143-164: each generator is (is a line, expression) *)
Definition box_add_ray_array (a : box) (l : list (bool * linexpr)) : box :=
  match bx_p a with None => a | Some p => set_p a (Some (fold_left add_ray l p)) end.

(** box_forget_array, box_otherops.c 8-41 *)
Definition box_forget_array (a : box) (tdim : list nat) (project : bool) : box :=
  match bx_p a with
  | None => a
  | Some p => set_p a (Some (fold_left (fun p d => eset p d (if project then itv_of_int 0 else itv_top)) tdim p))
  end.
(** box_widening, box_otherops.c 128-146; [None]: the assertion that a2 is not empty fails *)
Definition box_widening (a b : box) : option box :=
  match bx_p a, bx_p b with
  | None, _ => Some b
  | Some _, None => None
  | Some p, Some q => Some (set_p a (Some (fun i => if Nat.ltb i (bx_dim a) then itv_widening (p i) (q i) else p i)))
  end.

(** box_add_dimensions, box_resize.c 8-49.  [inplace]: the arrays of the argument and of the
    result are the same one.  [add_loop] treats i, i-1, ..., 0. *)
Fixpoint add_while {A : Type} (pos : list nat) (fresh : A) (i k : nat) (res : nat -> A) : (nat -> A) * nat :=
  match k with
  | O => (res, O)
  | S k' => if Nat.eqb (nth k' pos O) i then add_while pos fresh i k' (eset res (i + k') fresh) else (res, k)
  end.
Fixpoint add_loop {A : Type} (inplace : bool) (src : nat -> A) (pos : list nat) (fresh : A) (size i k : nat) (res : nat -> A) : nat -> A :=
  let res := if Nat.ltb i size then eset res (i + k) ((if inplace then res else src) i) else res in
  let '(res, k) := add_while pos fresh i k res in
  match i with
  | O => res
  | S i => add_loop inplace src pos fresh size i k res
  end.
Definition box_add_dimensions (inplace : bool) (a : box) (pos : list nat) (ni : nat) (project : bool) : box :=
  mkBox (bx_int a + ni) (bx_real a + (length pos - ni))
    (match bx_p a with
     | None => None
     | Some p => Some (add_loop inplace p pos (if project then itv_of_int 0 else itv_top) (bx_dim a) (bx_dim a) (length pos) p)
     end).
(** box_remove_dimensions, box_resize.c 51-88; the cells beyond the new size are freed *)
Fixpoint rem_while (pos : list nat) (i k todo : nat) : nat :=
  match todo with
  | O => k
  | S todo => if Nat.ltb k (length pos) && Nat.eqb (nth k pos O) (i + k) then rem_while pos i (S k) todo else k
  end.
Fixpoint rem_loop {A : Type} (inplace : bool) (src : nat -> A) (pos : list nat) (todo i k : nat) (res : nat -> A) : nat -> A :=
  match todo with
  | O => res
  | S todo =>
    let k := rem_while pos i k (length pos) in
    rem_loop inplace src pos todo (S i) k (eset res i ((if inplace then res else src) (i + k)%nat))
  end.
Definition box_remove_dimensions (inplace : bool) (a : box) (pos : list nat) (ni : nat) : box :=
  mkBox (bx_int a - ni) (bx_real a - (length pos - ni))
    (match bx_p a with
     | None => None
     | Some p => Some (rem_loop inplace p pos (bx_dim a - length pos) 0 0 p)
     end).
(** box_permute_dimensions, box_resize.c 90-109 *)
Definition box_permute_dimensions (a : box) (perm : list nat) : box :=
  match bx_p a with
  | None => a
  | Some p => set_p a (Some (fold_left (fun r i => eset r (nth i perm O) (p i)) (seq 0 (bx_dim a)) p))
  end.
(** box_expand, box_otherops.c 43-80 *)
Definition box_expand (inplace : bool) (a : box) (d n : nat) : box :=
  let isint := Nat.ltb d (bx_int a) in
  let offset := if isint then bx_int a else bx_dim a in
  match bx_p a, n with
  | None, _ | _, O => mkBox (bx_int a + (if isint then n else O)) (bx_real a + (if isint then O else n)) (bx_p a)
  | _, _ =>
    let r := box_add_dimensions inplace a (repeat offset n) (if isint then n else O) false in
    match bx_p r with
    | None => r
    | Some q => set_p r (Some (fold_left (fun q i => eset q i (q d)) (seq offset n) q))
    end
  end.
(** box_fold, box_otherops.c 82-126 *)
Definition box_fold (a : box) (t0 : nat) (ts : list nat) : box :=
  let n := length ts in
  let ni := if Nat.ltb t0 (bx_int a) then n else O in
  match bx_p a, ts with
  | None, _ | _, [] => mkBox (bx_int a - ni) (bx_real a - (n - ni)) (bx_p a)
  | Some p, _ =>
    let q := fold_left (fun q t => eset q t0 (itv_join (q t0) (q t))) ts p in
    box_remove_dimensions true (set_p a (Some q)) ts ni
  end.

Section BoxN.
Context {N : numtype}.
(** box_of_box, box_constructor.c 44-66: itv_set_ap_interval then itv_canonicalize *)
Definition uitv_conv (i : bound * bound) : itv := mkItv (bconv (N:=N) (bneg (fst i))) (bconv (N:=N) (snd i)).
Definition box_of_box (i r : nat) (t : nat -> bound * bound) : box :=
  let c := fun d => itv_canonicalize (Nat.ltb d i) (uitv_conv (t d)) in
  mkBox i r (if all_dims (i + r) (fun d => negb (snd (c d))) then Some (fun d => fst (c d)) else None).
(** box_sat_lincons, box_constructor.c 175-207; [None]: abort inside itv_eval_cstlincons *)
Definition box_sat_lincons (a : box) (c : lincons) : option bool :=
  match bx_p a with
  | None => Some true
  | Some p =>
    let cst := itv_eval_ap_linexpr0 (N:=N) p (lc_expr c) in
    match eval_cst (mkIC (mkIL [] cst (itv_is_point cst)) (lc_typ c) (ic_num (icons_of_lincons (N:=N) c))) with
    | TCrash => None
    | t => Some (ttrue t)
    end
  end.
(** box_bound_linexpr 265-287 *)
Definition box_bound_linexpr (a : box) (e : linexpr) : bound * bound :=
  match bx_p a with
  | None => uitv_bottom
  | Some p => user_of_itv (itv_eval_ap_linexpr0 (N:=N) p e)
  end.
(** box_assign_linexpr_array, box_assign.c 14-54: parallel assignment, then meet with [dest] *)
Definition box_assign_linexpr_array (a : box) (asn : list (nat * linexpr)) (dest : option box) : box :=
  match bx_p a, (match dest with Some b => box_is_bottom b | None => false end) with
  | None, _ | _, true => a
  | Some p, false =>
    let r := set_p a (Some (fold_left (fun r t => eset r (fst t) (itv_eval_ap_linexpr0 (N:=N) p (snd t))) asn p)) in
    match dest with None => r | Some b => box_meet r b end
  end.
Definition meet_rounds (algo : Z) : nat :=
  let size := algo mod 2 ^ 64 in if size <? 1 then 2%nat else Z.to_nat size.
(** box_meet_lincons_array, box_meetjoin.c 171-209: [algo] is the option "algorithm",
    converted to an unsigned number of 64 bits; [None]: abort.  The integer strengthening is the one of the rational instance; for the
    floating-point instances it also is the identity when there is no integer dimension. *)
Definition box_meet_lincons_array (algo : Z) (a : box) (l : list lincons) : option box :=
  match bx_p a with
  | None => Some a
  | Some p =>
    match array_reduce_integer (bx_int a) (map (icons_of_lincons (N:=N)) l) with
    | None | Some (_, TCrash) => None
    | Some (_, TFalse) => Some (set_p a None)
    | Some (l, _) =>
      let '(res, _, empty) := boxize_lincons_array (N:=N) true (bx_int a) (meet_rounds algo) false l p p in
      Some (set_p a (if empty then None else Some res))
    end
  end.
End BoxN.

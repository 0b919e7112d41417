(** Model of octagons and of their operations.

    Models /repo/octagons/oct_representation.c, oct_predicate.c, oct_nary.c,
    oct_resize.c, oct_transfer.c and the inline functions of oct_internal.h.

    - Matrices are values: the sharing, copying and freeing done by
      [oct_set_mat], [hmat_copy], ... and the [destructive] flag, which only
      select the buffer that receives the result, are not modelled.
    - The effect of the lazy closure on the *arguments* (field [closed]) is
      modelled: [oct_cache_closure] is a function from octagons to octagons.
    - [algo] is pr->funopt->algorithm; the library closes when it is >= 0.
    - argument checks ([arg_assert]) are preconditions of the theorems.
    - the exactness flags of the manager are not modelled here.
    - [N] is the number type of the matrices, [U] the rounding of the
      conversions towards user scalars.                                    *)
From Coq Require Import Arith Lia List ZArith QArith Bool.
From Verif Require Import Bound Itv Linexpr OctMat.
Import ListNotations.
Open Scope nat_scope.

(** struct _oct_t, oct_internal.h 545-562. *)
Record oct : Type := mkOct {
  om : option hmat;      (* field m *)
  ocl : option hmat;     (* field closed *)
  odim : nat;            (* field dim *)
  oint : nat             (* field intdim *)
}.

(** [a->closed ? a->closed : a->m] and [a->m ? a->m : a->closed] *)
Definition best (a : oct) : option hmat := match ocl a with Some c => Some c | None => om a end.
Definition orig (a : oct) : option hmat := match om a with Some m => Some m | None => ocl a end.
(** oct_set_mat, oct_representation.c 87-112. *)
Definition set_mat (a : oct) (m c : option hmat) : oct := mkOct m c (odim a) (oint a).
Definition is_some {A} (o : option A) : bool := match o with Some _ => true | None => false end.

(** user intervals (ap_interval_t): true lower and upper bounds *)
Definition uitv : Type := (bound * bound)%type.
(** ap_interval_set_bottom, ap_interval.c 93-107. *)
Definition uitv_bottom : uitv := (Fin 1, Fin (-1)).

Section Oct.
Context {N U : numtype}.

(** ** Conversions, oct_internal.h 264-430 *)
(** bound_of_scalar 264-275. *)
Definition bound_of_scalar (s : bound) (neg mul2 : bool) : bound :=
  let s := if neg then bneg s else s in
  let r := bconv (N:=N) s in
  if mul2 then bmul_2 (N:=N) r else r.
(** bounds_of_coeff 295-313: -inf, sup, "is empty". *)
Definition bounds_of_coeff (c : coeff) (mul2 : bool) : bound * bound * bool :=
  match c with
  | Scal s => (bound_of_scalar s true mul2, bound_of_scalar s false mul2, false)
  | Intv l u => (bound_of_scalar l true mul2, bound_of_scalar u false mul2, (0 <? bcmp l u)%Z)
  end.
(** scalar_of_upper_bound / scalar_of_lower_bound / interval_of_bounds 350-430. *)
Definition scalar_of_upper (b : bound) (div2 : bool) : bound :=
  if binfty b then PInf else if div2 then bdiv_2 (N:=U) b else bconv (N:=U) b.
Definition scalar_of_lower (b : bound) (div2 : bool) : bound :=
  if binfty b then MInf else bneg (if div2 then bdiv_2 (N:=U) b else bconv (N:=U) b).
Definition interval_of_bounds (minf sup : bound) (div2 : bool) : uitv :=
  (scalar_of_lower minf div2, scalar_of_upper sup div2).

(** bounds_mul, oct_internal.h 446-470; the 8 scratch cells start at position [p] of [tmp].
    Result: tmp, r_inf, r_sup. *)
Definition bounds_mul (tmp : hmat) (p : nat) (a_inf a_sup b_inf b_sup : bound) : hmat * bound * bound :=
  let t0 := bmul (N:=N) a_sup b_sup in
  let t4 := bmul (N:=N) (bneg a_sup) b_sup in
  let t1 := bmul (N:=N) a_inf b_inf in
  let t5 := bmul (N:=N) (bneg a_inf) b_inf in
  let t6 := bmul (N:=N) a_sup b_inf in
  let t2 := bmul (N:=N) (bneg a_sup) b_inf in
  let t7 := bmul (N:=N) a_inf b_sup in
  let t3 := bmul (N:=N) (bneg a_inf) b_sup in
  let r_sup := bmax (bmax (bmax t0 t1) t2) t3 in
  let r_inf := bmax (bmax (bmax t4 t5) t6) t7 in
  let tmp := upd (upd (upd (upd tmp p t0) (p + 1) t1) (p + 2) t2) (p + 3) t3 in
  let tmp := upd (upd (upd (upd tmp (p + 4) t4) (p + 5) t5) (p + 6) t6) (p + 7) t7 in
  (tmp, r_inf, r_sup).

(** ** Representation *)
(** oct_bottom, oct_top, oct_representation.c 119-134. *)
Definition oct_bottom (intdim realdim : nat) : oct := mkOct None None (intdim + realdim) intdim.
Definition oct_top (intdim realdim : nat) : oct :=
  mkOct None (Some (hmat_top (intdim + realdim))) (intdim + realdim) intdim.

(** oct_of_box, oct_representation.c 136-167 (the emptiness test is done twice
    in the code on the same data; modelled once). *)
Definition box_matrix (dim : nat) (t : list uitv) : hmat :=
  for_ 0 dim (fun i m =>
    let b := nth i t (MInf, PInf) in
    upd (upd m (matpos (2 * i) (2 * i + 1)) (bound_of_scalar (fst b) true true))
        (matpos (2 * i + 1) (2 * i)) (bound_of_scalar (snd b) false true)) (hmat_top dim).
Definition oct_of_box (intdim realdim : nat) (t : option (list uitv)) : oct :=
  let r := oct_bottom intdim realdim in
  match t with
  | None => r
  | Some t =>
    if existsb (fun b => (0 <? bcmp (fst b) (snd b))%Z) (firstn (odim r) t) then r else
    let '(m, empty) := hmat_s_step (N:=N) (box_matrix (odim r) t) (odim r) in
    if empty then r else set_mat r None (Some m)
  end.

(** oct_cache_closure, oct_representation.c 231-241. *)
Definition oct_cache_closure (a : oct) : oct :=
  match ocl a, om a with
  | Some _, _ => a
  | None, None => a
  | None, Some m =>
    let '(c, empty) := hmat_close (N:=N) m (odim a) in
    if empty then set_mat a None None else set_mat a (Some m) (Some c)
  end.
(** the test [if (pr->funopt->algorithm>=0) oct_cache_closure(pr,a)] *)
Definition cached (algo : Z) (a : oct) : oct :=
  if (0 <=? algo)%Z then oct_cache_closure a else a.

(** oct_close, oct_representation.c 248-262. *)
Definition oct_close (a : oct) : oct :=
  match om a with
  | None => a
  | Some m =>
    match ocl a with
    | Some c => set_mat a None (Some c)
    | None => let '(c, empty) := hmat_close (N:=N) m (odim a) in
              set_mat a None (if empty then None else Some c)
    end
  end.

(** ** Predicates, oct_predicate.c *)
(** oct_is_bottom 29-47. *)
Definition oct_is_bottom (algo : Z) (a : oct) : bool :=
  let a := cached algo a in
  if is_some (ocl a) then false else negb (is_some (om a)).

(** cell-wise loops with running pointers over the whole half-matrix *)
Definition forall_cells (dim : nat) (f : nat -> nat -> bool) : bool :=
  forallb (fun i => forallb (f i) (seq 0 (or1 i + 1))) (seq 0 (2 * dim)).

(** oct_is_top 49-61. *)
Definition oct_is_top (a : oct) : bool :=
  match orig a with
  | None => false
  | Some m => forall_cells (odim a) (fun i j => binfty (m (matpos i j)) || (Nat.eqb i j))
  end.

(** oct_is_leq 63-98. *)
Definition oct_is_leq (algo : Z) (a1 a2 : oct) : bool :=
  let a1 := cached algo a1 in
  match best a1, best a2 with
  | None, _ => true
  | Some _, None => false
  | Some x, Some y => forall_cells (odim a1) (fun i j => negb (0 <? bcmp (x (matpos i j)) (y (matpos i j)))%Z)
  end.

(** oct_is_eq 101-143. *)
Definition oct_is_eq (algo : Z) (a1 a2 : oct) : bool :=
  let a1 := cached algo a1 in
  let a2 := cached algo a2 in
  match best a1, best a2 with
  | None, None => true
  | None, Some _ => false
  | Some _, None => false
  | Some x, Some y => forall_cells (odim a1) (fun i j => (bcmp (x (matpos i j)) (y (matpos i j)) =? 0)%Z)
  end.

(** oct_sat_interval 146-176. *)
Definition oct_sat_interval (algo : Z) (a : oct) (d : nat) (i : uitv) : bool :=
  let a := cached algo a in
  match best a with
  | None => true
  | Some m =>
    let b := interval_of_bounds (m (matpos (2 * d) (2 * d + 1))) (m (matpos (2 * d + 1) (2 * d))) true in
    (0 <=? bcmp (fst b) (fst i))%Z && (bcmp (snd b) (snd i) <=? 0)%Z
  end.

(** oct_is_dimension_unconstrained 179-199. *)
Definition oct_is_dimension_unconstrained (a : oct) (d : nat) : bool :=
  match best a with
  | None => false
  | Some b =>
    forallb (fun i =>
      (binfty (b (matpos2 i (2 * d))) || Nat.eqb i (2 * d)) &&
      (binfty (b (matpos2 i (2 * d + 1))) || Nat.eqb i (2 * d + 1))) (seq 0 (2 * odim a))
  end.

(** oct_bound_dimension 422-452. *)
Definition oct_bound_dimension (algo : Z) (a : oct) (d : nat) : uitv :=
  let a := cached algo a in
  match best a with
  | None => uitv_bottom
  | Some m => interval_of_bounds (m (matpos (2 * d) (2 * d + 1))) (m (matpos (2 * d + 1) (2 * d))) true
  end.

(** oct_to_box 487-512. *)
Definition oct_to_box (algo : Z) (a : oct) : list uitv :=
  let a := cached algo a in
  match best a with
  | None => map (fun _ => uitv_bottom) (seq 0 (odim a))
  | Some m => map (fun i => interval_of_bounds (m (matpos (2 * i) (2 * i + 1)))
                              (m (matpos (2 * i + 1) (2 * i))) true) (seq 0 (odim a))
  end.

(** lincons_of_bound, oct_internal.h 463-493. *)
Definition odd_sel {A} (i : nat) (x y : A) : A := if Nat.eqb (i mod 2) 1 then x else y.
Definition lincons_of_bound (i j : nat) (m : bound) : lincons :=
  let e :=
    if Nat.eqb i j then mkLin (Scal (scalar_of_upper m true)) (Sparse [])
    else if Nat.eqb i (xor1 j) then
      mkLin (Scal (scalar_of_upper m true))
            (Sparse [(Some (i / 2), Scal (Fin (odd_sel i (-1) 1)%Q))])
    else
      mkLin (Scal (scalar_of_upper m false))
            (Sparse [(Some (j / 2), Scal (Fin (odd_sel j 1 (-1))%Q));
                     (Some (i / 2), Scal (Fin (odd_sel i (-1) 1)%Q))]) in
  mkCons CSupEq e None.

(** ap_lincons0_make_unsat, ap_lincons0.c 40-47. *)
Definition lincons_unsat : lincons := mkCons CSupEq (mkLin (Scal (Fin (-1))) (Sparse [])) None.

(** oct_to_lincons_array 454-479. *)
Definition oct_to_lincons_array (a : oct) : list lincons :=
  match best a with
  | None => [lincons_unsat]
  | Some m =>
    flat_map (fun i => flat_map (fun j =>
      if Nat.eqb i j || binfty (m (matpos i j)) then [] else [lincons_of_bound i j (m (matpos i j))])
      (seq 0 (or1 i + 1))) (seq 0 (2 * odim a))
  end.

(** ** Lattice operations, oct_nary.c *)
(** loops [for (i=0;i<matsize(dim);i++)] over all cells *)
Definition cellwise (f : bound -> bound -> bound) (m1 m2 : hmat) : hmat := fun p => f (m1 p) (m2 p).

(** oct_meet 26-45. *)
Definition oct_meet (a1 a2 : oct) : oct :=
  match best a1, best a2 with
  | Some m1, Some m2 => set_mat a1 (Some (cellwise bmin m1 m2)) None
  | _, _ => set_mat a1 None None
  end.

(** oct_join 47-88. *)
Definition oct_join (algo : Z) (a1 a2 : oct) : oct :=
  let a1 := cached algo a1 in
  let a2 := cached algo a2 in
  match best a1, best a2 with
  | None, None => set_mat a1 None None
  | None, Some _ => set_mat a1 (om a2) (ocl a2)
  | Some _, None => set_mat a1 (om a1) (ocl a1)
  | Some m1, Some m2 =>
    let m := cellwise bmax m1 m2 in
    if is_some (ocl a1) && is_some (ocl a2) then set_mat a1 None (Some m)
    else set_mat a1 (Some m) None
  end.

(** oct_meet_array 90-111 (size > 0). *)
Definition oct_meet_array (a : oct) (l : list oct) : oct :=
  let tab := a :: l in
  let r := set_mat a None None in
  if existsb (fun x => negb (is_some (best x))) tab then r else
  let m := match best a with Some m => m | None => hmat_top 0 end in
  let m := fold_left (fun m x => match best x with Some y => cellwise bmin m y | None => m end) l m in
  set_mat r (Some m) None.

(** oct_join_array 113-156. *)
Definition oct_join_array (algo : Z) (a : oct) (l : list oct) : oct :=
  let r := set_mat a None None in
  let '(m, closed) :=
    fold_left (fun (s : option hmat * bool) x =>
      let '(m, closed) := s in
      let x := cached algo x in
      match best x with
      | None => s
      | Some y =>
        ((match m with None => Some y | Some m => Some (cellwise bmax m y) end),
         (if is_some (ocl x) then closed else false))
      end) (a :: l) (None, true) in
  match m with
  | None => r
  | Some m => if closed then set_mat r None (Some m) else set_mat r (Some m) None
  end.

(** oct_pre_widening, oct.h 71. *)
Definition oct_pre_widening : Z := 99%Z.
(** one cell of the standard widening, 190-194 *)
Definition bwiden (x y : bound) : bound := if (0 <=? bcmp x y)%Z then x else PInf.

(** oct_widening 164-200. *)
Definition oct_widening (algo : Z) (a1 a2 : oct) : oct :=
  let a2 := cached algo a2 in
  match orig a1, best a2 with
  | None, _ => a2
  | Some _, None => a1
  | Some m1, Some m2 =>
    if ((algo =? oct_pre_widening) || (algo =? - oct_pre_widening))%Z
    then set_mat a1 (Some (cellwise bmax m1 m2)) None
    else set_mat a1 (Some (cellwise bwiden m1 m2)) None
  end.

(** one cell of the widening with thresholds, 233-249: [for (j..) if (cmp<=0) break] *)
Fixpoint bthreshold (ts : list bound) (y : bound) : bound :=
  match ts with
  | [] => PInf
  | t :: ts => if (bcmp y t <=? 0)%Z then t else bthreshold ts y
  end.
Definition bwiden_thr (ts : list bound) (x y : bound) : bound :=
  if (0 <=? bcmp x y)%Z then x else bthreshold ts y.
(** oct_widening_thresholds 202-257. *)
Definition oct_widening_thresholds (algo : Z) (a1 a2 : oct) (array : list bound) : oct :=
  let a2 := cached algo a2 in
  match orig a1, best a2 with
  | None, _ => a2
  | Some _, None => a1
  | Some m1, Some m2 =>
    let ts := map (fun s => bound_of_scalar s false false) array in
    set_mat a1 (Some (cellwise (bwiden_thr ts) m1 m2)) None
  end.

(** oct_narrowing 259-286. *)
Definition oct_narrowing (algo : Z) (a1 a2 : oct) : oct :=
  let a1 := cached algo a1 in
  let a2 := cached algo a2 in
  match best a1, best a2 with
  | Some m1, Some m2 => set_mat a1 (Some (cellwise (fun x y => if binfty x then y else x) m1 m2)) None
  | _, _ => set_mat a1 None None
  end.

(** oct_add_epsilon 323-351 and oct_add_epsilon_bin 359-398. *)
Definition max_abs (dim : nat) (m : hmat) : bound :=
  for_ 0 (matsize dim) (fun i t =>
    if binfty (m i) then t
    else if (0 <=? bsgn (m i))%Z then bmax t (m i)
    else bmax t (bneg (m i))) (Fin 0).
Definition oct_add_epsilon (a : oct) (eps : bound) : oct :=
  match orig a with
  | None => set_mat a None None
  | Some m =>
    let t := bmul (N:=N) (max_abs (odim a) m) (bound_of_scalar eps false false) in
    set_mat a (Some (fun p => badd (N:=N) (m p) t)) None
  end.
Definition oct_add_epsilon_bin (a1 a2 : oct) (eps : bound) : oct :=
  match orig a1, orig a2 with
  | None, _ => a2
  | Some _, None => a1
  | Some m1, Some m2 =>
    let t := bmul (N:=N) (max_abs (odim a1) m2) (bound_of_scalar eps false false) in
    set_mat a1 (Some (cellwise (fun x y => if (bcmp x y <? 0)%Z then badd (N:=N) y t else x) m1 m2)) None
  end.

(** ** Dimensions, oct_resize.c *)
(** the loops of oct_forget_array 41-62 on one variable *)
Definition forget1 (dim : nat) (project : bool) (d : nat) (m : hmat) : hmat :=
  let d2 := 2 * d in
  let m := for_ 0 d2 (fun k m => upd (upd m (matpos d2 k) PInf) (matpos (d2 + 1) k) PInf) m in
  let m := for_ (d2 + 2) (2 * dim) (fun k m => upd (upd m (matpos k d2) PInf) (matpos k (d2 + 1)) PInf) m in
  let b := if project then Fin 0 else PInf in
  upd (upd m (matpos d2 (d2 + 1)) b) (matpos (d2 + 1) d2) b.
(** oct_forget_array 29-72. *)
Definition oct_forget_array (algo : Z) (a : oct) (tdim : list nat) (project : bool) : oct :=
  let a := cached algo a in
  match best a with
  | None => set_mat a None None
  | Some m =>
    let m := fold_left (fun m d => forget1 (odim a) project d m) tdim m in
    if is_some (ocl a) then
      if project then set_mat a (Some m) None else set_mat a None (Some m)
    else set_mat a (Some m) None
  end.

(** bound_set_array(dst+d,src+s,len) *)
Definition bset_array (dst src : hmat) (d s len : nat) : hmat :=
  for_ 0 len (fun i m => upd m (d + i) (src (s + i))) dst.

(** one line of hmat_addrem_dimensions, oct_resize.c 101-119 *)
Fixpoint addrem_elems (pos : list nat) (mult : nat) (add : bool)
    (size_org_line org_c new_c org_i new_i : nat) (src m : hmat) : nat * nat * hmat :=
  match pos with
  | [] => (org_i, new_i, m)
  | p :: pos =>
    let last_org_i := p * 2 in
    if Nat.leb size_org_line last_org_i then (org_i, new_i, m) (* partial block *)
    else
      let m := bset_array m src (new_c + new_i) (org_c + org_i) (last_org_i - org_i) in
      let new_i := new_i + (last_org_i - org_i) in
      let org_i := last_org_i in
      let new_i := if add then new_i + 2 * mult else new_i in
      let org_i := if add then org_i else org_i + 2 * mult in
      addrem_elems pos mult add size_org_line org_c new_c org_i new_i src m
  end.
Definition addrem_line (pos : list nat) (mult : nat) (add : bool)
    (org_j new_j org_c new_c : nat) (src m : hmat) : hmat :=
  let size_org_line := org_j + 2 - org_j mod 2 in
  let '(org_i, new_i, m) := addrem_elems pos mult add size_org_line org_c new_c 0 0 src m in
  bset_array m src (new_c + new_i) (org_c + org_i) (size_org_line - org_i).
(** hmat_addrem_dimensions, oct_resize.c 81-124.  State of the line loop:
    org_j, new_j, org_c, new_c and the destination. *)
Fixpoint addrem_lines (count : nat) (pos : list nat) (mult : nat) (add : bool)
    (org_j new_j org_c new_c : nat) (src m : hmat) : nat * nat * hmat :=
  match count with
  | O => (org_j, new_j, m)
  | S count =>
    let m := addrem_line pos mult add org_j new_j org_c new_c src m in
    addrem_lines count pos mult add (org_j + 1) (new_j + 1)
      (org_c + (org_j + 2 - org_j mod 2)) (new_c + (new_j + 2 - new_j mod 2)) src m
  end.
Definition hmat_addrem_dimensions (dst src : hmat) (pos : list nat) (mult dim : nat) (add : bool) : hmat :=
  let nb := length pos in
  let p0 := nth 0 pos 0 in
  let dst := bset_array dst src 0 0 (matsize p0) in
  let '(_, _, m) :=
    for_ 0 nb (fun j (s : nat * nat * hmat) =>
      let '(org_j, new_j, m) := s in
      let new_j := if add then new_j + 2 * mult else new_j in
      let org_j := if add then org_j else org_j + 2 * mult in
      let last_org_j := (if Nat.ltb j (nb - 1) then nth (j + 1) pos 0 else dim) * 2 in
      addrem_lines (last_org_j - org_j) pos mult add org_j new_j
        (matsize (org_j / 2)) (matsize (new_j / 2)) src m) (p0 * 2, p0 * 2, dst) in
  m.

(** oct_add_dimensions 126-161: [pos] is dimchange->dim, [ni] its intdim. *)
Definition oct_add_dimensions (a : oct) (pos : list nat) (ni : nat) (project : bool) : oct :=
  let nb := length pos in
  let mm := match best a with
    | None => None
    | Some m =>
      let mm := hmat_addrem_dimensions (hmat_top (odim a + nb)) m pos 1 (odim a) true in
      Some (if project then
        for_ 0 nb (fun i mm =>
          let v := 2 * (i + nth i pos 0) in
          upd (upd mm (matpos (v + 1) v) (Fin 0)) (matpos v (v + 1)) (Fin 0)) mm
        else mm)
    end in
  if is_some (ocl a) && negb project
  then mkOct None mm (odim a + nb) (oint a + ni)
  else mkOct mm None (odim a + nb) (oint a + ni).

(** oct_remove_dimensions 163-199; the uninitialised buffer is [junk]. *)
Definition junk : hmat := fun _ => Fin 0.
Definition oct_remove_dimensions (algo : Z) (a : oct) (pos : list nat) (ni : nat) : oct :=
  let nb := length pos in
  let a := cached algo a in
  let mm := match best a with
    | None => None
    | Some m => Some (hmat_addrem_dimensions junk m pos 1 (odim a) false)
    end in
  if is_some (ocl a) then mkOct None mm (odim a - nb) (oint a - ni)
  else mkOct mm None (odim a - nb) (oint a - ni).

(** hmat_permute 202-222, with its running pointer [sp] in [src]. *)
Definition hmat_permute (dst src : hmat) (dst_dim src_dim : nat) (perm : nat -> nat) : hmat :=
  fst (for_ 0 src_dim (fun i (s : hmat * nat) =>
    let '(dst, sp) := s in
    let new_ii := 2 * perm i in
    if Nat.leb (2 * dst_dim) new_ii then (dst, sp + 4 * (i + 1)) else
    let '(dst, sp) := for_ 0 (i + 1) (fun j (s : hmat * nat) =>
      let '(dst, sp) := s in
      let new_jj := 2 * perm j in
      if Nat.leb (2 * dst_dim) new_jj then (dst, sp + 2) else
      let dst := upd dst (matpos2 new_ii new_jj) (src sp) in
      let dst := upd dst (matpos2 new_ii (new_jj + 1)) (src (sp + 1)) in
      let dst := upd dst (matpos2 (new_ii + 1) new_jj) (src (sp + 2 * (i + 1))) in
      let dst := upd dst (matpos2 (new_ii + 1) (new_jj + 1)) (src (sp + 2 * (i + 1) + 1)) in
      (dst, sp + 2)) (dst, sp) in
    (dst, sp + 2 * (i + 1))) (dst, 0)).

(** oct_permute_dimensions 224-247. *)
Definition oct_permute_dimensions (a : oct) (perm : list nat) : oct :=
  let mm := match best a with
    | None => None
    | Some m => Some (hmat_permute junk m (odim a) (odim a) (fun i => nth i perm 0))
    end in
  if is_some (ocl a) then set_mat a None mm else set_mat a mm None.

(** oct_expand 254-300. *)
Definition oct_expand (a : oct) (d n : nat) : oct :=
  let pos := if Nat.ltb d (oint a) then oint a else odim a in
  let mm := match best a with
    | None => None
    | Some m =>
      let mm := hmat_addrem_dimensions (hmat_top (odim a + n)) m [pos] n (odim a) true in
      Some (for_ 0 n (fun i mm =>
        let x := 2 * (pos + i) in
        let mm := for_ 0 (2 * d) (fun j mm =>
          let mm := upd mm (matpos2 x j) (mm (matpos (2 * d) j)) in
          upd mm (matpos2 (x + 1) j) (mm (matpos (2 * d + 1) j))) mm in
        let mm := for_ (2 * d + 2) (2 * (odim a + n)) (fun j mm =>
          let mm := upd mm (matpos2 x j) (mm (matpos (xor1 j) (2 * d + 1))) in
          upd mm (matpos2 (x + 1) j) (mm (matpos (xor1 j) (2 * d)))) mm in
        let mm := upd mm (matpos2 x (x + 1)) (mm (matpos2 (2 * d) (2 * d + 1))) in
        upd mm (matpos2 (x + 1) x) (mm (matpos2 (2 * d + 1) (2 * d)))) mm)
    end in
  mkOct mm None (odim a + n) (if Nat.ltb d (oint a) then oint a + n else oint a).

(** oct_fold 302-382; [t0 :: ts] is tdim (size >= 1). *)
Definition bmax_at (tmp : hmat) (p : nat) (b : bound) : hmat := upd tmp p (bmax (tmp p) b).
Definition fold_merge (dim t0 : nat) (ts : list nat) (m tmp : hmat) : hmat :=
  let line j tmp := fold_left (fun tmp t =>
      let tmp := bmax_at tmp (matpos2 (t0 * 2) j) (m (matpos2 (t * 2) j)) in
      bmax_at tmp (matpos2 (t0 * 2 + 1) j) (m (matpos2 (t * 2 + 1) j))) ts tmp in
  let tmp := for_ 0 (2 * t0) line tmp in
  let tmp := for_ (2 * (t0 + 1)) (2 * dim) line tmp in
  fold_left (fun tmp t =>
    let tmp := bmax_at tmp (matpos2 (t0 * 2) (t0 * 2 + 1)) (m (matpos2 (t * 2) (t * 2 + 1))) in
    bmax_at tmp (matpos2 (t0 * 2 + 1) (t0 * 2)) (m (matpos2 (t * 2 + 1) (t * 2)))) ts tmp.
Definition oct_fold (algo : Z) (a : oct) (t0 : nat) (ts : list nat) : oct :=
  let a := cached algo a in
  let mm := match best a with
    | None => None
    | Some m =>
      let tmp := fold_merge (odim a) t0 ts m m in
      let mm := hmat_addrem_dimensions (hmat_top (odim a - length ts)) tmp ts 1 (odim a) false in
      Some (upd (upd mm (matpos (t0 * 2) (t0 * 2)) (Fin 0)) (matpos (t0 * 2 + 1) (t0 * 2 + 1)) (Fin 0))
    end in
  mkOct mm None (odim a - length ts) (if Nat.ltb t0 (oint a) then oint a - length ts else oint a).

End Oct.

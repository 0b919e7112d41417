(** Model of the transformations of polyhedra of newpolka: assignments and substitutions (pk_assign.c), changes
    of dimensions (pk_resize.c), projection (pk_project.c), expansion and folding (pk_expandfold.c), addition of
    rays (pk_meetjoin.c 690-745), widening (pk_widening.c).

    Same simplifications as in PkPoly.v.  A linear expression is an integer vector, as written by
    vector_set_itv_linexpr: the common denominator, the constant, the coefficients.  In every function the
    result is the new polyhedron and the new argument (the result itself when [destr], the argument being
    destroyed).  In a destructive operation the C code writes in the matrices of the argument: the rows are
    treated one after the other and a row is read before it is written, but for the cases which the row functions
    show with the parameter [destr] or [inplace].

    The array accesses of the dimension arrays are modelled by [nth]. *)
From Coq Require Import ZArith Bool List Lia.
Import ListNotations.
From Verif Require Import PkCone PkVec PkCherni PkSimplify PkMinimize PkPoly Box.
Open Scope nat_scope.

Definition option_list {A B : Type} (f : A -> B) (o : option (list A)) : option (list B) := match o with Some l => Some (map f l) | None => None end.

(** * Assignment and substitution, one dimension *)
(** pk_matrix_assign_variable (pk_assign.c 43-101), one row.  The destructive version multiplies column 0 too. *)
Definition assign_row (destr : bool) (dim : nat) (tab q : pvec) : pvec :=
  let den := (1 <? zn 0 tab)%Z in
  vector_normalize (map (fun j =>
    if Nat.eqb j (dim + 2) then vector_product q tab
    else if Nat.eqb j 0 && negb destr then zn 0 q
    else if den then (zn j q * zn 0 tab)%Z else zn j q) (seq 0 (length q))).
(** pk_matrix_substitute_variable (116-180), one row *)
Definition subst_row (dim : nat) (tab q : pvec) : pvec :=
  let den := (1 <? zn 0 tab)%Z in
  if (zn (dim + 2) q =? 0)%Z then q else
  vector_normalize (map (fun j =>
    if Nat.eqb j 0 then zn 0 q
    else if Nat.eqb j (dim + 2) then (zn (dim + 2) q * zn (dim + 2) tab)%Z
    else ((if den then zn j q * zn 0 tab else zn j q) + zn (dim + 2) q * zn j tab)%Z) (seq 0 (length q))).
(** vector_normalize_expr (pk_vector.c 206-222) *)
Definition vector_normalize_expr (q : pvec) : pvec := let g := vector_gcd q in if (g >? 1)%Z then map (fun x => (x / g)%Z) q else q.
(** vector_invert_expr (pk_assign.c 409-438) *)
Definition vector_invert_expr (dim : nat) (tab : pvec) : pvec :=
  let var := dim + 2 in
  vector_normalize_expr
   (if (0 <? zn var tab)%Z then map (fun j => if Nat.eqb j 0 then zn var tab else if Nat.eqb j var then zn 0 tab else (- zn j tab)%Z) (seq 0 (length tab))
    else map (fun j => if Nat.eqb j 0 then (- zn var tab)%Z else if Nat.eqb j var then (- zn 0 tab)%Z else zn j tab) (seq 0 (length tab))).
(** poly_obtain_F_dual (pk_representation.h 158-161) *)
Definition poly_obtain_F_dual (usual : bool) (po : poly) : poly := match pF po with None => poly_chernikova_dual usual po | _ => po end.
Definition duals (usual : bool) (po : poly) : poly := if usual then po else poly_dual po.
(** poly_asssub_linexpr_det (pk_assign.c 749-828) *)
Definition poly_asssub_linexpr_det (assign destr : bool) (pa : poly) (dim : nat) (tab : pvec) : poly * poly :=
  let pa := duals assign pa in
  let op (a : bool) := if a then assign_row destr dim else subst_row dim in
  let sgn := zn (dim + 2) tab in
  let pa := if (sgn =? 0)%Z then poly_obtain_F_dual assign pa else pa in
  let F := option_list (op assign tab) (pF pa) in
  let C := if (sgn =? 0)%Z then None else option_list (op (negb assign) (vector_invert_expr dim tab)) (pC pa) in
  let both := has C && has F in
  let po := mkPoly (pint pa) (preal pa) C false F false (if both then psatC pa else None) (if both then psatF pa else None)
                   (if both then pnbeq pa else 0) (if both then pnbline pa else 0) false false in
  (duals assign po, if destr then duals assign po else duals assign pa).
(** poly_asssub_linexpr (612-676) for a linear expression; [lazy] is [algorithm <= 0].  [None]: see poly_meet. *)
Definition poly_asssub_linexpr (assign lazy destr : bool) (pa : poly) (dim : nat) (tab : pvec) (dest : option poly) : option (poly * poly * option poly) :=
  let pa := if lazy then pa else poly_chernikova pa in
  if isbot pa then Some (if destr then pa else pbottom (pint pa) (preal pa), pa, dest)
  else
    let (po, pa) := poly_asssub_linexpr_det assign destr pa dim tab in
    match dest with
    | None => Some (if lazy then po else poly_chernikova po, pa, None)
    | Some pb => match poly_meet true lazy false false true po pb with
                 | None => None
                 | Some (po, _, pb) => Some (if lazy then po else poly_chernikova po, pa, Some pb)
                 end
    end.

(** * Assignment and substitution, several dimensions *)
(** pk_asssub_isort (190-212): the dimensions with their expressions, sorted; an insertion sort from the left *)
Fixpoint asssub_insert (e : nat * pvec) (l : list (nat * pvec)) : list (nat * pvec) :=
  match l with [] => [e] | f :: q => if Nat.ltb (fst e) (fst f) then e :: l else f :: asssub_insert e q end.
Definition asssub_isort (l : list (nat * pvec)) : list (nat * pvec) := fold_left (fun acc e => asssub_insert e acc) l [].
(** the common denominator (229-233) *)
Definition common_den (eqs : list (nat * pvec)) : Z := fold_left (fun d e => (d * zn 0 (snd e))%Z) eqs 1%Z.
(** pk_matrix_assign_variables (218-296), one row: columns from [j] on, with the remaining equations.  The special case of denominators all equal to 1 computes the same numbers. *)
Fixpoint assign_cols (den : Z) (q : pvec) (j : nat) (cols : list Z) (eqs : list (nat * pvec)) : list Z :=
  match cols with
  | [] => []
  | c :: cols =>
    match eqs with
    | (d, t) :: eqs' => if Nat.eqb (d + 2) j then (vector_product q t * (den / zn 0 t))%Z :: assign_cols den q (S j) cols eqs'
                        else (c * den)%Z :: assign_cols den q (S j) cols eqs
    | [] => (c * den)%Z :: assign_cols den q (S j) cols []
    end
  end.
Definition assign_row_array (eqs : list (nat * pvec)) (q : pvec) : pvec := vector_normalize (zn 0 q :: assign_cols (common_den eqs) q 1 (tl q) eqs).
(** pk_matrix_substitute_variables (302-386), one row: first the columns which are not substituted, then the contributions *)
Fixpoint subst_cols (den : Z) (j : nat) (cols : list Z) (eqs : list (nat * pvec)) : list Z :=
  match cols with
  | [] => []
  | c :: cols =>
    match eqs with
    | (d, _) :: eqs' => if Nat.eqb (d + 2) j then 0%Z :: subst_cols den (S j) cols eqs' else (c * den)%Z :: subst_cols den (S j) cols eqs
    | [] => (c * den)%Z :: subst_cols den (S j) cols []
    end
  end.
Definition subst_add (den : Z) (q : pvec) (j : nat) (eqs : list (nat * pvec)) (c : Z) : Z :=
  fold_left (fun acc e => let v := zn (fst e + 2) q in if (v =? 0)%Z then acc else (acc + v * zn j (snd e) * (den / zn 0 (snd e)))%Z) eqs c.
Definition subst_row_array (eqs : list (nat * pvec)) (q : pvec) : pvec :=
  let den := common_den eqs in
  let cols := subst_cols den 1 (tl q) eqs in
  vector_normalize (zn 0 q :: map (fun j => subst_add den q (S j) eqs (nth j cols 0%Z)) (seq 0 (length (tl q)))).
(** poly_asssub_linexpr_array_det (448-520) *)
Definition poly_asssub_linexpr_array_det (assign destr : bool) (pa : poly) (eqs : list (nat * pvec)) : poly * poly :=
  let pa := poly_obtain_F_dual assign (duals assign pa) in
  match pF pa with
  | None => (pbottom (pint pa) (preal pa), if destr then pbottom (pint pa) (preal pa) else pa)
  | Some F =>
    let eqs := asssub_isort eqs in
    let po := mkPoly (pint pa) (preal pa) None false (Some (map (if assign then assign_row_array eqs else subst_row_array eqs) F)) false None None 0 0 false false in
    (duals assign po, if destr then duals assign po else duals assign pa)
  end.
(** poly_asssub_linexpr_array (528-602) for linear expressions *)
Definition poly_asssub_linexpr_array (assign lazy destr : bool) (pa : poly) (eqs : list (nat * pvec)) (dest : option poly) : option (poly * poly * option poly) :=
  let pa := if lazy then pa else poly_chernikova pa in
  if isbot pa then Some (if destr then pa else pbottom (pint pa) (preal pa), pa, dest)
  else
    let (po, pa) := poly_asssub_linexpr_array_det assign destr pa eqs in
    match dest with
    | None => Some (if lazy then po else poly_chernikova po, pa, None)
    | Some pb => match poly_meet true lazy false false true po pb with
                 | None => None
                 | Some (po, _, pb) => Some (if lazy then po else poly_chernikova po, pa, Some pb)
                 end
    end.

(** * Changes of dimensions *)
(** vector_permute_dimensions (pk_resize.c 33-65) *)
Definition vector_permute (perm : list nat) (q : pvec) : pvec :=
  let d := length q - 2 in
  firstn 2 q ++ map (fold_left (fun r i => eset r (nth i perm 0) (zn (i + 2) q)) (seq 0 d) (fun _ => 0%Z)) (seq 0 d).
(** vector_add_dimensions (66-90), vector_remove_dimensions (92-110); the loops are those of the boxes.  [inplace]: newq == q. *)
Definition vector_add (inplace : bool) (pos : list nat) (q : pvec) : pvec :=
  let d := length q - 2 in let src := fun i => zn (i + 2) q in
  firstn 2 q ++ map (add_loop inplace src pos 0%Z d d (length pos) (if inplace then src else fun _ => 0%Z)) (seq 0 (d + length pos)).
Definition vector_remove (inplace : bool) (pos : list nat) (q : pvec) : pvec :=
  let d := length q - 2 in let src := fun i => zn (i + 2) q in
  firstn 2 q ++ map (rem_loop inplace src pos (d - length pos) 0 0 (if inplace then src else fun _ => 0%Z)) (seq 0 (d - length pos)).
Definition unit_row (d c : nat) : pvec := map (fun j => if Nat.eqb j (c + 2) then 1%Z else 0%Z) (seq 0 (d + 2)).
(** the new lines (240-250); [d] is the new dimension.  The positions are sorted: the loop meets all of them. *)
Definition new_lines (d : nat) (pos : list nat) : list pvec :=
  let m := length pos in map (fun j => let k := m - 1 - j in unit_row d (nth k pos 0 + k)) (seq 0 m).
(** cherni_add_dimensions (200-290), for at least one new dimension (ap_abstract0_add_dimensions, ap_abstract0.c 1221-1228, does not call it otherwise).  [ni]: number of new integer dimensions *)
Definition cherni_add_dimensions (destr : bool) (pa : poly) (pos : list nat) (ni : nat) : poly * poly :=
  let m := length pos in
  let i' := pint pa + ni in let r' := preal pa + (m - ni) in let d := i' + r' in
  let satC := match psatC pa, psatF pa, pF pa with Some s, _, _ => Some s | None, Some s, Some F => Some (transpose (length F) s) | _, _, _ => None end in
  let pa := set_satC pa satC in
  let C := option_list (vector_add destr pos) (pC pa) in
  let F := match pF pa with Some F => Some (new_lines d pos ++ map (vector_add destr pos) F) | None => None end in
  let srt := match F with Some F => pFs pa && match vector_compare (nth (m - 1) F []) (nth m F []) with Lt => true | _ => false end | None => false end in
  let satC' := match satC with Some s => Some (repeat (repeat false (match pC pa with Some C => length C | None => 0 end)) m ++ s) | None => None end in
  let both := has (pC pa) && has (pF pa) in
  let po := mkPoly i' r' C false F srt satC' None (if both then pnbeq pa else 0) (if both then pnbline pa + m else 0) (pconsgauss pa) (pgengauss pa) in
  (po, if destr then po else pa).
(** pk_add_dimensions (303-350); [alg] is [algorithm > 0] *)
Definition pk_add_dimensions (alg destr : bool) (pa : poly) (pos : list nat) (ni : nat) (project : bool) : poly * poly :=
  let pa := if alg then poly_chernikova pa else pa in
  if isbot pa then let po := pbottom (pint pa + ni) (preal pa + (length pos - ni)) in (po, if destr then po else pa)
  else let (po, pa) := cherni_add_dimensions destr (duals (negb project) pa) pos ni in (duals (negb project) po, duals (negb project) pa).
(** pk_remove_dimensions (352-408); [alg] is [algorithm > 0] *)
Definition pk_remove_dimensions (alg destr : bool) (pa : poly) (pos : list nat) (ni : nat) : poly * poly :=
  let pa := if alg then poly_chernikova pa else poly_obtain_F pa in
  let i' := pint pa - ni in let r' := preal pa - (length pos - ni) in
  match pF pa with
  | None => (pbottom i' r', if destr then pbottom i' r' else pa)
  | Some F =>
    let po := mkPoly i' r' None false (Some (map (fun q => vector_normalize (vector_remove destr pos q)) F)) false None None 0 0 false false in
    let po := if alg then poly_chernikova po else po in (po, if destr then po else pa)
  end.
(** pk_permute_dimensions (410-444) *)
Definition pk_permute_dimensions (alg destr : bool) (pa : poly) (perm : list nat) : poly * poly :=
  let pa := if alg then poly_chernikova pa else pa in
  let po := mkPoly (pint pa) (preal pa) (option_list (vector_permute perm) (pC pa)) false (option_list (vector_permute perm) (pF pa)) false
                   (psatC pa) (psatF pa) (pnbeq pa) (pnbline pa) false false in
  (po, if destr then po else pa).

(** * Projection *)
(** poly_projectforget_array (pk_project.c 27-125); [lazy] is [algorithm <= 0].  The flag [_sorted] of the generators is not updated when they are projected (66-80). *)
Definition project_row (tdim : list nat) (q : pvec) : pvec :=
  vector_normalize (map (fun j => if existsb (fun d => Nat.eqb j (d + 2)) tdim then 0%Z else zn j q) (seq 0 (length q))).
Definition pk_forget_array (lazy destr : bool) (pa : poly) (tdim : list nat) (project : bool) : option (poly * poly) :=
  let pa := if lazy then poly_obtain_F pa else poly_chernikova pa in
  match pF pa with
  | None => Some (pbottom (pint pa) (preal pa), if destr then pbottom (pint pa) (preal pa) else pa)
  | Some F =>
    if project then
      let po := mkPoly (pint pa) (preal pa) None false (Some (map (project_row tdim) F)) (pFs pa) None None (if destr then pnbeq pa else 0) (if destr then pnbline pa else 0) false false in
      let po := if lazy then po else poly_chernikova po in Some (po, if destr then po else pa)
    else
      let mat := matrix_sort_rows (map (unit_row (pdim pa)) tdim) in
      match (if lazy then Some (poly_dual pa) else poly_obtain_satC (poly_dual pa)) with
      | None => None
      | Some da => match poly_meet_matrix false lazy destr da mat with None => None | Some (po, da) => Some (poly_dual po, poly_dual da) end
      end
  end.

(** * Expansion and folding *)
(** pk_matrix_expand (pk_expandfold.c 34-88) for dimsup > 0 *)
Definition expand_rows (destr : bool) (dim offset n : nat) (C : list pvec) : list pvec :=
  let C' := map (vector_add destr (repeat offset n)) C in
  C' ++ flat_map (fun q => if (zn (dim + 2) q =? 0)%Z then [] else
    map (fun j => map (fun k => if Nat.eqb k (dim + 2) then 0%Z else if Nat.eqb k (j + 2) then zn (dim + 2) q else zn k q) (seq 0 (length q))) (seq offset n)) C'.
(** pk_expand (94-180); [alg0] is [algorithm < 0], [alg1] is [algorithm > 0] *)
Definition pk_expand (alg0 alg1 destr : bool) (pa : poly) (dim n : nat) : poly * poly :=
  if Nat.eqb n 0 then (pa, pa) else
  let isint := Nat.ltb dim (pint pa) in
  let pa := if alg0 then poly_obtain_C pa else poly_chernikova pa in
  let i' := if isint then pint pa + n else pint pa in let r' := if isint then preal pa else preal pa + n in
  match pC pa with
  | None => (pbottom i' r', if destr then pbottom i' r' else pa)
  | Some C =>
    let offset := if Nat.ltb (dim + n) i' then i' - n else i' + r' - n in
    let po := mkPoly i' r' (Some (expand_rows destr dim offset n C)) (pCs pa && negb (existsb (fun q => negb (zn (dim + 2) q =? 0)%Z) C)) None false None None 0 0 false false in
    let po := if alg1 then poly_chernikova po else po in (po, if destr then po else pa)
  end.
(** pk_matrix_fold (197-245) for at least two dimensions *)
Definition fold_rows (t0 : nat) (ts : list nat) (F : list pvec) : list pvec :=
  flat_map (fun q =>
    vector_normalize (vector_remove false ts q) ::
    flat_map (fun t => if (zn (t0 + 2) q =? zn (t + 2) q)%Z then [] else
      let w := vector_remove false ts q in [vector_normalize (map (fun k => if Nat.eqb k (t0 + 2) then zn (t + 2) q else zn k w) (seq 0 (length w)))]) ts) F.
(** pk_fold (249-320) *)
Definition pk_fold (alg0 alg1 destr : bool) (pa : poly) (t0 : nat) (ts : list nat) : poly * poly :=
  let isint := Nat.ltb t0 (pint pa) in let n := length ts in
  let pa := if alg0 then poly_obtain_F pa else poly_chernikova pa in
  let i' := if isint then pint pa - n else pint pa in let r' := if isint then preal pa else preal pa - n in
  match pF pa with
  | None => (pbottom i' r', if destr then pbottom i' r' else pa)
  | Some F =>
    let po := mkPoly i' r' None false (Some (match ts with [] => F | _ => fold_rows t0 ts F end)) (match ts with [] => pFs pa | _ => false end) None None 0 0 false false in
    let po := if alg1 then poly_chernikova po else po in (po, if destr then po else pa)
  end.

(** * Rays *)
(** poly_add_ray_array (pk_meetjoin.c 690-736): [rays] are the rows made by vector_set_ap_generator0 *)
Definition pk_add_ray_array (lazy destr : bool) (pa : poly) (rays : list pvec) : option (poly * poly) :=
  let pa := if lazy then poly_obtain_F pa else poly_chernikova pa in
  if isbot pa then Some (pa, pa)
  else
    let mat := matrix_sort_rows rays in
    match (if lazy then Some pa else poly_obtain_satF pa) with
    | None => None
    | Some pa => match poly_meet_matrix false lazy destr (poly_dual pa) mat with None => None | Some (po, da) => Some (poly_dual po, poly_dual da) end
    end.

(** * Widening *)
(** vector_is_positivity_constraint (pk_vector.c), non strict mode *)
Definition is_positivity (q : pvec) : bool := (0 <? zn 0 q)%Z && forallb (fun c => (c =? 0)%Z) (skipn 2 q).
(** pk_widening (pk_widening.c 137-212).  [affine] is [algorithm <= 0].  The saturation rows of pa are sorted with their indices and searched by dichotomy: the model searches the first row of pa->C with the same saturation row. *)
Fixpoint bits_eqb (a b : list bool) : bool := match a, b with [], [] => true | x :: a, y :: b => Bool.eqb x y && bits_eqb a b | _, _ => false end.
Fixpoint find_sat (bits : list bool) (C : list pvec) (sat : list (list bool)) : option pvec :=
  match C, sat with c :: C, s :: sat => if bits_eqb bits s then Some c else find_sat bits C sat | _, _ => None end.
Definition pk_widening (affine : bool) (pa pb : poly) : option (poly * poly * poly) :=
  let pa := poly_chernikova pa in
  let pb := poly_chernikova pb in
  if isbot pa then Some (pb, pa, pb) else
  match poly_obtain_satF pa with
  | None => None
  | Some pa =>
    match pC pa, pF pa, psatF pa, pC pb with
    | Some C, Some F, Some sat, Some B =>
      let keep (c : pvec) := match find_sat (map (fun f => negb (vector_product f c =? 0)%Z) F) C sat with
                             | Some c' => negb affine || negb (is_positivity c')
                             | None => false
                             end in
      Some (mkPoly (pint pa) (preal pa) (Some (positivity (pdim pa) :: filter keep B)) false None false None None 0 0 false false, pa, pb)
    | _, _, _, _ => None
    end
  end.

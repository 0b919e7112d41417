(** Model of the exchanges between newpolka and its user: linear constraints, generators and boxes turned into rows
    (pk_user.c 20-340, 480-530; pk_vector.c 248-315, 577-589), meet with an array of linear constraints
    (pk_meetjoin.c 523-592), addition of rays (686-740), polyhedron of a box (pk_constructor.c 155-242), bounds of a
    dimension or of an expression (pk_extract.c 22-350, 420-460), satisfaction of a constraint or of an interval
    (pk_test.c 245-450).

    Same simplifications as in PkPoly.v.  Numbers are GMP rationals (MPQ), kept reduced: a rational is read through
    [Qred].  The result flags are modelled where a property speaks of them. *)
From Coq Require Import ZArith QArith Qround Bool List Lia.
Import ListNotations.
From Verif Require Import Bound Itv Linexpr ItvLin PkCone PkVec PkCherni PkSimplify PkMinimize PkPoly Box PkOps.
Open Scope nat_scope.

(** numerator and denominator of a canonical rational *)
Definition rnum (q : Q) : Z := Qnum (Qred q).
Definition rden (q : Q) : Z := Zpos (Qden (Qred q)).

(** * Rows *)
(** vector_set_itv_linexpr (pk_user.c 134-190); [up] is [mode >= 0].  The terms are scalar: their upper bound is
    read.  The terms are written in order, a dimension met twice would be overwritten. *)
Definition lin_cst (up : bool) (e : ilin) : Q := if up then bfinq (sup (il_cst e)) else bfinq (inf (il_cst e)).
Definition lin_lcm (up : bool) (e : ilin) : Z :=
  fold_left (fun l t => Z.lcm l (rden (bfinq (sup (t_itv t))))) (il_terms e)
            (if (Z.sgn (Qnum (lin_cst up e)) =? 0)%Z then 1%Z else rden (lin_cst up e)).
Definition fill_terms (l : Z) (ts : list iterm) (f : nat -> Z) : nat -> Z :=
  fold_left (fun f t => eset f (t_dim t) (l / rden (bfinq (sup (t_itv t))) * rnum (bfinq (sup (t_itv t))))%Z) ts f.
Definition vector_set_linexpr (up : bool) (dim : nat) (e : ilin) : pvec :=
  let l := lin_lcm up e in
  let c := (l / rden (lin_cst up e) * rnum (lin_cst up e))%Z in
  l :: (if up then c else (- c)%Z) :: map (fill_terms l (il_terms e) (fun _ => 0%Z)) (seq 0 dim).
(** vector_is_integer (pk_vector.c 577-589) *)
Definition vector_is_integer (intdim : nat) (q : pvec) : bool := forallb (fun x => (x =? 0)%Z) (skipn (intdim + 2) q).
Definition set_at (j : nat) (x : Z) (q : pvec) : pvec := map (fun k => if Nat.eqb k j then x else zn k q) (seq 0 (length q)).
(** vector_normalize_constraint_int (270-315) in non strict mode *)
Definition vector_normalize_constraint_int (intdim : nat) (q : pvec) : pvec :=
  if Nat.ltb 0 intdim && vector_is_integer intdim q && negb (is_positivity q) then
    let g := vector_gcd (skipn 2 q) in
    if (g >? 1)%Z then
      let t := map (fun x => (x / g)%Z) (skipn 2 q) in
      if (zn 0 q =? 0)%Z then
        if (zn 1 q mod g =? 0)%Z then 0%Z :: (zn 1 q / g)%Z :: t
        else 0%Z :: 1%Z :: map (fun _ => 0%Z) (skipn 2 q)
      else zn 0 q :: (zn 1 q / g)%Z :: t
    else q
  else vector_normalize q.
(** vector_set_itv_lincons (207-240) and vector_set_itv_lincons_sat (247-283), once the vector is filled *)
Definition finish_lincons (ty : constyp) (intdim : nat) (q : pvec) : pvec :=
  let q := vector_normalize q in
  let q := set_at 0 (match ty with CEq => 0%Z | _ => 1%Z end) q in
  let q := match ty with CSup => if vector_is_integer intdim q then set_at 1 (zn 1 q - 1)%Z q else q | _ => q end in
  vector_normalize_constraint_int intdim q.
Definition vector_set_lincons (intdim dim : nat) (c : icons) : pvec :=
  finish_lincons (ic_typ c) intdim (vector_set_linexpr true dim (ic_expr c)).
Definition vector_set_lincons_sat (intdim dim : nat) (c : icons) : option pvec :=
  if match ic_typ c with CEq => negb (il_eq (ic_expr c)) | _ => false end then None
  else if binfty (inf (il_cst (ic_expr c))) then None
  else Some (finish_lincons (ic_typ c) intdim (vector_set_linexpr false dim (ic_expr c))).
(** pk_matrix_append_itv_lincons_array (485-518): the rows, and whether no constraint has been skipped *)
Definition row_typ (t : constyp) : bool := match t with CEq | CSupEq | CSup => true | _ => false end.
Definition matrix_of_lincons (intdim dim : nat) (l : list icons) : list pvec :=
  map (vector_set_lincons intdim dim) (filter (fun c => negb (binfty (sup (il_cst (ic_expr c)))) && row_typ (ic_typ c)) l).
Definition matrix_exact (l : list icons) : bool := forallb (fun c => binfty (sup (il_cst (ic_expr c))) || row_typ (ic_typ c)) l.

(** * Bounds *)
(** pk_matrix_bound_dimension (pk_extract.c 24-75): [val] reads the coordinate; the loop over the rows *)
Definition set_if_less (b : bound) (q : Q) : bound := if (bcmp b (Fin q) <? 0)%Z then Fin q else b.
Fixpoint bound_loop (val : pvec -> Z) (F : list pvec) (a b : bound) : itv :=
  match F with
  | [] => mkItv a b
  | f :: F =>
    let s := Z.sgn (val f) in
    if (zn 0 f =? 0)%Z then (if (s =? 0)%Z then bound_loop val F a b else itv_top)
    else if (zn 1 f =? 0)%Z then
      if (0 <? s)%Z then match a with PInf => mkItv a PInf | _ => bound_loop val F a PInf end
      else if (s <? 0)%Z then match b with PInf => mkItv PInf b | _ => bound_loop val F PInf b end
      else bound_loop val F a b
    else
      let q := (inject_Z (val f) / inject_Z (zn 1 f))%Q in
      bound_loop val F (set_if_less a (- q)%Q) (set_if_less b q)
  end.
Definition matrix_bound_dimension (d : nat) (F : list pvec) : itv := bound_loop (zn (d + 2)) F MInf MInf.
(** pk_matrix_to_box (77-94) *)
Definition matrix_to_box (F : list pvec) : nat -> itv := fun d => matrix_bound_dimension d F.
(** vector_bound_itv_linexpr (163-192) *)
Definition vector_bound_linexpr (e : ilin) (f : pvec) : itv :=
  let i := fold_left (fun acc t => if (zn (t_dim t + 2) f =? 0)%Z then acc
                                   else itv_add (N:=exact_num) acc (itv_mul_num (N:=exact_num) (t_itv t) (inject_Z (zn (t_dim t + 2) f))))
                     (il_terms e) (itv_of_int 0) in
  if (zn 1 f =? 0)%Z then i
  else itv_add (N:=exact_num) (itv_div_num (N:=exact_num) i (inject_Z (zn 1 f))) (il_cst e).
(** pk_matrix_bound_itv_linexpr (197-256) *)
Fixpoint bound_lin_loop (e : ilin) (F : list pvec) (acc : itv) : itv :=
  match F with
  | [] => acc
  | f :: F =>
    let p := vector_bound_linexpr e f in
    if (zn 0 f =? 0)%Z then (if itv_is_zero p then bound_lin_loop e F acc else itv_top)
    else if (zn 1 f =? 0)%Z then
      if itv_is_zero p then bound_lin_loop e F acc
      else if (bsgn (inf p) <? 0)%Z then
        match inf acc with PInf => mkItv PInf PInf | _ => bound_lin_loop e F (mkItv (inf acc) PInf) end
      else if (bsgn (sup p) <? 0)%Z then
        match sup acc with PInf => mkItv PInf PInf | _ => bound_lin_loop e F (mkItv PInf (sup acc)) end
      else itv_top
    else bound_lin_loop e F (itv_join acc p)
  end.
Definition matrix_bound_linexpr (e : ilin) (F : list pvec) : itv := bound_lin_loop e F (mkItv MInf MInf).
(** pk_bound_dimension (262-296), pk_bound_linexpr (302-348), pk_to_box (436-478); [alg] is [algorithm > 0]
    ([algorithm >= 0] for the last one).  The interval of an empty polyhedron is ap_interval_set_bottom: [1,-1]. *)
Definition obtain_gen (alg : bool) (po : poly) : poly := if alg then poly_chernikova po else poly_obtain_F po.
Definition pk_bound_dimension (alg : bool) (po : poly) (d : nat) : itv * poly :=
  let po := obtain_gen alg po in
  (match pF po with None => itv_bottom | Some F => matrix_bound_dimension d F end, po).
Definition pk_bound_linexpr (alg : bool) (po : poly) (e : linexpr) : itv * poly :=
  let po := obtain_gen alg po in
  (match pF po with None => itv_bottom | Some F => matrix_bound_linexpr (fst (ilin_of_linexpr (N:=exact_num) e)) F end, po).
Definition pk_to_box (alg : bool) (po : poly) : list itv * poly :=
  let po := obtain_gen alg po in
  (map (match pF po with None => fun _ => itv_bottom | Some F => matrix_to_box F end) (seq 0 (pdim po)), po).

(** * Meet with constraints *)
(** poly_meet_itv_lincons_array (pk_meetjoin.c 523-575) and pk_meet_lincons_array (577-592).  [lazy] is
    [algorithm < 0].  [None]: the evaluation of a constraint aborts (equality modulo 0).  Result: the result, the
    new argument, the flag flag_exact (and flag_best). *)
Definition pk_meet_lincons_array (lazy destr : bool) (pa : poly) (l : list lincons) : option (poly * poly * bool) :=
  let l := map (icons_of_lincons (N:=exact_num)) l in
  let ql := forallb (fun c => is_quasilinear (ic_expr c)) l in
  let pa := if lazy && ql then poly_obtain_C pa else poly_chernikova pa in
  if isbot pa then Some (pa, pa, true) else
  match (if ql then Some l else match pF pa with None => None | Some F => quasilinearize_array (N:=exact_num) (matrix_to_box F) true l end) with
  | None => None
  | Some l =>
  match linearize_array true l with
  | None => None
  | Some l =>
  match array_reduce_integer (pint pa) l with
  | None => None
  | Some (l, _) =>
    let mat := matrix_sort_rows (matrix_of_lincons (pint pa) (pdim pa) l) in
    match (if lazy then Some pa else poly_obtain_satC pa) with
    | None => None
    | Some pa =>
      match poly_meet_matrix true lazy destr pa mat with
      | None => None
      | Some (po, pa) => Some (po, pa, matrix_exact l)
      end
    end
  end end end.

(** * Addition of rays *)
(** ap_generator0_t; vector_set_ap_generator0 (pk_user.c 290-320): vertices are refused (assert) *)
Inductive gentyp := GLine | GRay | GVertex | GLineMod | GRayMod.
Definition vector_set_generator (dim : nat) (g : gentyp * linexpr) : pvec :=
  let q := vector_set_linexpr true dim (fst (ilin_of_linexpr (N:=exact_num) (snd g))) in
  let q := set_at 0 (match fst g with GLine | GLineMod => 0%Z | _ => 1%Z end) q in
  match fst g with GVertex => q | _ => vector_normalize (set_at 1 0%Z q) end.
Definition gen_exact (g : gentyp * linexpr) : bool := match fst g with GVertex | GRay | GLine => true | _ => false end.
(** pk_add_ray_array (pk_meetjoin.c 686-740) with the rows built from the user's generators; flag_exact *)
Definition pk_add_generators (lazy destr : bool) (pa : poly) (l : list (gentyp * linexpr)) : option (poly * poly * bool) :=
  match pk_add_ray_array lazy destr pa (map (vector_set_generator (pdim pa)) l) with
  | None => None
  | Some (po, pa') => Some (po, pa', forallb gen_exact l)
  end.

(** * Boxes *)
(** vector_set_dim_bound (pk_user.c 36-80), with [integer] true.  [mode]: sign of the mode.  [None]: the bound is an
    equality of an integer dimension with a number which is not an integer *)
Definition dim_row (dim d : nat) (s c k : Z) : pvec := s :: c :: map (fun j => if Nat.eqb j d then k else 0%Z) (seq 0 dim).
Definition vector_set_dim_bound (mode : comparison) (intdim dim d : nat) (q : Q) : option pvec :=
  let n := rnum q in let m := rden q in
  if Nat.ltb d intdim then
    match mode with
    | Gt => Some (dim_row dim d 1 (n / m) (-1))
    | Lt => Some (dim_row dim d 1 (- ((- n) / m)) 1)
    | Eq => if (m =? 1)%Z then Some (dim_row dim d 0 n (- m)) else None
    end
  else Some (match mode with Gt => dim_row dim d 1 n (- m) | Lt => dim_row dim d 1 n m | Eq => dim_row dim d 0 n (- m) end).
(** pk_matrix_fill_constraint_box (pk_constructor.c 158-206) *)
Definition fill_itv (intdim dim d : nat) (i : itv) : option (list pvec) :=
  let one m b := match b with Fin q => match vector_set_dim_bound m intdim dim d q with Some r => [r] | None => [] end | _ => [] end in
  if itv_is_point i then match vector_set_dim_bound Eq intdim dim d (bfinq (sup i)) with Some r => Some [r] | None => None end
  else Some (one Lt (inf i) ++ one Gt (sup i)).
Fixpoint fill_box (intdim dim d : nat) (l : list itv) : option (list pvec) :=
  match l with
  | [] => Some []
  | i :: l => match fill_itv intdim dim d i with
              | None => None
              | Some r => match fill_box intdim dim (S d) l with None => None | Some m => Some (r ++ m) end
              end
  end.
(** pk_of_box (208-242); both flags are set to true, except when the result is empty (they are not set) *)
Definition pk_of_box (intdim realdim : nat) (l : list itv) : poly :=
  match fill_box intdim (intdim + realdim) 0 l with
  | None => pbottom intdim realdim
  | Some m => mkPoly intdim realdim (Some (positivity (intdim + realdim) :: m)) false None false None None 0 0 false false
  end.

(** * Satisfaction *)
(** pk_sat_lincons (pk_test.c 248-307); [alg] is [algorithm > 0].  [None]: abort *)
Definition pk_sat_lincons (alg : bool) (po : poly) (c : lincons) : option (bool * poly) :=
  let po := obtain_gen alg po in
  match pF po with
  | None => Some (true, po)
  | Some F =>
    if negb (row_typ (lc_typ c)) then Some (false, po) else
    let ic := icons_of_lincons (N:=exact_num) c in
    match (if forallb (fun p => is_scal (snd p)) (foreach (le_terms (lc_expr c))) then Some ic
           else quasilinearize_lincons (N:=exact_num) (matrix_to_box F) false ic) with
    | None => None
    | Some ic =>
      match vector_set_lincons_sat (pint po) (pdim po) ic with
      | None => Some (false, po)
      | Some q => Some (do_generators_sat_vector F q (match lc_typ c with CSup => true | _ => false end), po)
      end
    end
  end.
(** do_generators_sat_bound (378-420) *)
Definition generators_sat_bound (F : list pvec) (d : nat) (b : Q) (sgn : comparison) : bool :=
  forallb (fun f =>
    let x := zn (d + 2) f in
    if (zn 0 f =? 0)%Z then (x =? 0)%Z
    else if (zn 1 f =? 0)%Z then
      negb ((match sgn with Lt => false | _ => (0 <? x)%Z end) || (match sgn with Gt => false | _ => (x <? 0)%Z end))
    else
      let q := (inject_Z x / inject_Z (zn 1 f))%Q in
      match sgn with
      | Eq => Qeq_bool q b
      | Lt => Qle_bool (- q)%Q b
      | Gt => Qle_bool q b
      end) F.
(** pk_sat_interval (422-462) *)
Definition pk_sat_interval (alg : bool) (po : poly) (d : nat) (i : itv) : bool * poly :=
  let po := obtain_gen alg po in
  (match pF po with
   | None => true
   | Some F =>
     if itv_is_point i then generators_sat_bound F d (bfinq (sup i)) Eq
     else (match inf i with Fin q => generators_sat_bound F d q Lt | _ => true end) &&
          (match sup i with Fin q => generators_sat_bound F d q Gt | _ => true end)
   end, po).

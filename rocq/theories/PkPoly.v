(** Model of the polyhedra of newpolka: the record [pk_t] and the control of its two representations
    (pk_representation.c, pk_representation.h), constructors (pk_constructor.c 30-160), tests (pk_test.c
    27-245), meet and join (pk_meetjoin.c).

    Matrices are lists of rows with the flag [_sorted].  The C functions modify their arguments, which only
    changes the representation: the model returns the new arguments.  [None] as a result stands for the
    dereference of a null pointer.

    Simplifications: non-strict mode only ([pk->strict] false, [pk->dec] = 2, so that a row for [d] dimensions
    has [d+2] coefficients); no exception (the coefficients and the matrices are unbounded); the bits
    conseps and minimaleps of the status are not kept (they matter in strict mode only); the result flags
    [flag_exact] and [flag_best] are not modelled. *)
From Coq Require Import ZArith Bool List Lia.
Import ListNotations.
From Verif Require Import PkCone PkVec PkCherni PkSimplify PkMinimize.
Open Scope nat_scope.

(** * Matrices *)
(** vector_compare (pk_vector.c 337-362) *)
Fixpoint lcmp (a b : list Z) : comparison := match a, b with x :: a, y :: b => match (x ?= y)%Z with Eq => lcmp a b | c => c end | _, _ => Eq end.
Definition vector_compare (q1 q2 : pvec) : comparison :=
  match (zn 0 q1 ?= zn 0 q2)%Z with Eq => match lcmp (skipn 2 q1) (skipn 2 q2) with Eq => (zn 1 q1 ?= zn 1 q2)%Z | c => c end | c => c end.
(** pk_matrix_sort_rows (pk_matrix.c 305-321) and pk_matrix_sort_rows_with_sat (344-366).  The C code has a
    quicksort; rows which compare equal are equal, hence the result is the same. *)
Fixpoint insert {A : Type} (key : A -> pvec) (x : A) (l : list A) : list A :=
  match l with [] => [x] | y :: q => match vector_compare (key x) (key y) with Gt => y :: insert key x q | _ => x :: l end end.
Definition isort {A : Type} (key : A -> pvec) (l : list A) : list A := fold_right (insert key) [] l.
Definition matrix_sort_rows (m : list pvec) : list pvec := isort (fun q => q) m.
Definition matrix_sort_rows_with_sat (m : list pvec) (sat : list (list bool)) : list pvec * list (list bool) :=
  let l := isort (fun r : row => fst r) (combine m sat) in (map fst l, map snd l).
(** pk_matrix_merge_sort (440-500) and pk_matrix_merge_sort_with (502-563), for sorted matrices *)
Fixpoint matrix_merge (a : list pvec) : list pvec -> list pvec :=
  fix go (b : list pvec) : list pvec :=
  match a, b with
  | [], _ => b
  | _, [] => a
  | x :: a', y :: b' => match vector_compare x y with Lt => x :: matrix_merge a' b | Eq => x :: matrix_merge a' b' | Gt => y :: go b' end
  end.
(** satmat_transpose (pk_satmat.c 135-160) is [transpose] of PkSimplify *)

(** * Polyhedra: pk.h 20-60 (pk_internal.h); an unsorted matrix has the flag false *)
Record poly : Type := mkPoly { pint : nat; preal : nat; pC : option (list pvec); pCs : bool; pF : option (list pvec); pFs : bool;
  psatC : option (list (list bool)); psatF : option (list (list bool)); pnbeq : nat; pnbline : nat; pconsgauss : bool; pgengauss : bool }.
Definition pdim (po : poly) : nat := pint po + preal po.
(** number of columns *)
Definition pcols (po : poly) : nat := pdim po + 2.
Definition isbot (po : poly) : bool := match pC po, pF po with None, None => true | _, _ => false end.
(** poly_alloc (61-74), poly_set_bottom (pk_constructor.c 32-43) *)
Definition pbottom (i r : nat) : poly := mkPoly i r None false None false None None 0 0 false false.
(** poly_dual (pk_representation.h) *)
Definition poly_dual (po : poly) : poly := mkPoly (pint po) (preal po) (pF po) (pFs po) (pC po) (pCs po) (psatF po) (psatC po) (pnbline po) (pnbeq po) (pconsgauss po) (pgengauss po).
(** poly_chernikova (pk_representation.c 157-196).  The dimensions of the record and the number of columns of the matrices agree. *)
Definition poly_chernikova (po : poly) : poly :=
  match pC po, pF po with
  | Some C, None =>
    match cherni_minimize true (pcols po) (if pCs po then C else matrix_sort_rows C) with
    | None => mkPoly (pint po) (preal po) None false None false None None 0 0 true false
    | Some (C', F', satF, nbeq, nbline) => mkPoly (pint po) (preal po) (Some C') false (Some F') false None (Some satF) nbeq nbline true false
    end
  | None, Some F =>
    match cherni_minimize false (pcols po) (if pFs po then F else matrix_sort_rows F) with
    | None => mkPoly (pint po) (preal po) None false None false None None 0 0 false true
    | Some (C', F', satF, nbeq, nbline) => poly_dual (mkPoly (pint po) (preal po) (Some C') false (Some F') false None (Some satF) nbeq nbline false true)
    end
  | _, _ => po
  end.
(** poly_chernikova_dual (199-211); [usual] false: the representations have been exchanged *)
Definition poly_chernikova_dual (usual : bool) (po : poly) : poly := if usual then poly_chernikova po else poly_dual (poly_chernikova (poly_dual po)).
(** poly_obtain_C, poly_obtain_F, poly_obtain_satF, poly_obtain_satC (pk_representation.h) *)
Definition poly_obtain_C (po : poly) : poly := match pC po with None => poly_chernikova po | _ => po end.
Definition poly_obtain_F (po : poly) : poly := match pF po with None => poly_chernikova po | _ => po end.
Definition poly_obtain_C_dual (usual : bool) (po : poly) : poly := match pC po with None => poly_chernikova_dual usual po | _ => po end.
Definition set_satC (po : poly) (s : option (list (list bool))) : poly := mkPoly (pint po) (preal po) (pC po) (pCs po) (pF po) (pFs po) s (psatF po) (pnbeq po) (pnbline po) (pconsgauss po) (pgengauss po).
Definition set_satF (po : poly) (s : option (list (list bool))) : poly := mkPoly (pint po) (preal po) (pC po) (pCs po) (pF po) (pFs po) (psatC po) s (pnbeq po) (pnbline po) (pconsgauss po) (pgengauss po).
Definition poly_obtain_satC (po : poly) : option poly :=
  match psatC po with
  | Some _ => Some po
  | None => match pF po, psatF po with Some F, Some s => Some (set_satC po (Some (transpose (length F) s))) | _, _ => None end
  end.
Definition poly_obtain_satF (po : poly) : option poly :=
  match psatF po with
  | Some _ => Some po
  | None => match pC po, psatC po with Some C, Some s => Some (set_satF po (Some (transpose (length C) s))) | _, _ => None end
  end.
(** poly_obtain_sorted_C (313-331), poly_obtain_sorted_F (293-311) *)
Definition poly_obtain_sorted_C (po : poly) : poly :=
  match pC po with
  | None => po
  | Some C =>
    if pCs po then po else
    let withsat s := let (C', s') := matrix_sort_rows_with_sat C s in mkPoly (pint po) (preal po) (Some C') true (pF po) (pFs po) None (Some s') (pnbeq po) (pnbline po) (pconsgauss po) (pgengauss po) in
    match psatF po, psatC po with
    | Some s, _ => withsat s
    | None, Some s => withsat (transpose (length C) s)
    | None, None => mkPoly (pint po) (preal po) (Some (matrix_sort_rows C)) true (pF po) (pFs po) (psatC po) (psatF po) (pnbeq po) (pnbline po) (pconsgauss po) (pgengauss po)
    end
  end.
Definition poly_obtain_sorted_F (po : poly) : poly := poly_dual (poly_obtain_sorted_C (poly_dual po)).

(** * Constructors *)
(** poly_set_top (pk_constructor.c 86-150), pk_top; the row 1 >= 0 (pk_matrix_fill_constraint_top, 62-83) *)
Definition positivity (d : nat) : pvec := 1%Z :: 1%Z :: repeat 0%Z d.
Definition top_lines (d : nat) : list pvec := map (fun i => map (fun j => if Nat.eqb j (S d - i) then 1%Z else 0%Z) (seq 0 (d + 2))) (seq 0 d).
Definition poly_top (i r : nat) : poly := let d := i + r in
  mkPoly i r (Some [positivity d]) true (Some (top_lines d ++ [positivity d])) true (Some (repeat [false] d ++ [[true]])) None 0 d true true.

(** * Tests *)
(** pk_is_bottom (pk_test.c 27-58); [alg] is [algorithm >= 0] *)
Definition pk_is_bottom (alg : bool) (po : poly) : bool * poly :=
  match pC po, pF po with
  | None, None => (true, po)
  | _, Some _ => (false, po)
  | Some _, None => if alg then let po' := poly_chernikova po in (match pF po' with None => true | _ => false end, po') else (false, po)
  end.
(** pk_is_top (64-80); [alg] is [algorithm >= 0] *)
Definition pk_is_top (alg : bool) (po : poly) : bool * poly :=
  let po := if alg then poly_chernikova po else po in
  (match pC po, pF po with Some C, Some _ => Nat.eqb (length C) 1 | _, _ => false end, po).
(** do_generators_sat_vector (101-145) *)
Definition do_generators_sat_vector (F : list pvec) (tab : pvec) (is_strict : bool) : bool :=
  if (zn 0 tab =? 0)%Z then forallb (fun r => (vector_product r tab =? 0)%Z) F
  else forallb (fun r => let s := vector_product r tab in (0 <=? s)%Z && (if (zn 0 r =? 0)%Z then (s =? 0)%Z else negb (is_strict && (s =? 0)%Z))) F.
(** pk_is_leq (147-206); [alg] is [algorithm > 0] *)
Definition minimal2 (po : poly) : bool := match pC po, pF po with Some _, Some _ => true | _, _ => false end.
Definition pk_is_leq (alg : bool) (pa pb : poly) : bool * poly * poly :=
  let pa := if alg then poly_chernikova pa else poly_obtain_F pa in
  match pF pa with
  | None => (true, pa, pb)
  | Some F =>
    let pb := if alg then poly_chernikova pb else poly_obtain_C pb in
    match pC pb with
    | None => (false, pa, pb)
    | Some C =>
      if minimal2 pa && minimal2 pb && (Nat.ltb (pnbeq pa) (pnbeq pb) || Nat.ltb (pnbline pb) (pnbline pa)) then (false, pa, pb)
      else (forallb (fun c => do_generators_sat_vector F c false) C, pa, pb)
    end
  end.

(** * Meet and join *)
(** poly_meet_matrix (pk_meetjoin.c 55-118).  [destr] is [po == pa].  Result: po and the new pa. *)
Definition poly_meet_matrix (meet lazy destr : bool) (pa : poly) (mat : list pvec) : option (poly * poly) :=
  if lazy then
    let pa := poly_obtain_sorted_C pa in
    match pC pa with
    | None => None
    | Some C => let po := mkPoly (pint pa) (preal pa) (Some (matrix_merge C mat)) true None false None None 0 0 false false in Some (po, if destr then po else pa)
    end
  else
    match pC pa, pF pa, psatC pa with
    | Some C, Some F, Some satC =>
      let po := match cherni_add_and_minimize meet (pcols pa) (C ++ mat) F satC (pnbline pa) (length C) with
                | None => mkPoly (pint pa) (preal pa) None false None false None None 0 0 meet (negb meet)
                | Some (C', F', satF, nbeq, nbline) => mkPoly (pint pa) (preal pa) (Some C') false (Some F') false None (Some satF) nbeq nbline meet (negb meet)
                end in Some (po, if destr then po else pa)
    | _, _, _ => None
    end.
(** poly_meet_particularcases (126-180).  [exw] is [flag_exact_wanted], [algleq] the option of the inclusion test.  The first result is the one to be returned, if any. *)
Definition poly_meet_particularcases (meet lazy exw algleq : bool) (pa pb : poly) : option poly * poly * poly :=
  if meet then (if isbot pa || isbot pb then Some (pbottom (pint pa) (preal pa)) else None, pa, pb)
  else if isbot pa then let pb := if lazy then pb else poly_chernikova_dual false pb in (Some pb, pa, pb)
  else if isbot pb then let pa := if lazy then pa else poly_chernikova_dual false pa in (Some pa, pa, pb)
  else if exw then
    let '(res1, da, db) := pk_is_leq algleq (poly_dual pa) (poly_dual pb) in
    if res1 then (Some (poly_dual db), poly_dual da, poly_dual db)
    else let '(res2, db, da) := pk_is_leq algleq db da in
         (if res2 then Some (poly_dual da) else None, poly_dual da, poly_dual db)
  else (None, pa, pb).
(** 275-281: the choice of the starting polyhedron when both are minimal: the first one? *)
Definition start_first (pa pb : poly) : bool :=
  Nat.ltb (pnbeq pb) (pnbeq pa) || (Nat.eqb (pnbeq pa) (pnbeq pb) && (Nat.ltb (pnbline pa) (pnbline pb) ||
    match pC pa, pC pb with Some A, Some B => Nat.leb (length B) (length A) | _, _ => false end)).
Definition has {A : Type} (o : option A) : bool := match o with Some _ => true | None => false end.
(** poly_meet (182-312) for two distinct polyhedra: the result, the new pa (meaningless when [destr]), the new pb *)
Definition poly_meet (meet lazy exw algleq destr : bool) (pa pb : poly) : option (poly * poly * poly) :=
  let '(r, pa, pb) := poly_meet_particularcases meet lazy exw algleq pa pb in
  match r with
  | Some po => Some (po, pa, pb)
  | None =>
    let pa := poly_obtain_C_dual meet pa in
    let pb := poly_obtain_C_dual meet pb in
    let '(r, pa, pb) := poly_meet_particularcases meet lazy exw algleq pa pb in
    match r with
    | Some po => Some (po, pa, pb)
    | None =>
      if lazy then
        let pa := poly_obtain_sorted_C pa in
        let pb := poly_obtain_sorted_C pb in
        match pC pb with None => None | Some B => match poly_meet_matrix meet lazy destr pa B with None => None | Some (po, pa) => Some (po, pa, pb) end end
      else
        let finish (swap : bool) (pa pb : poly) :=
          match poly_obtain_satC pa with
          | None => None
          | Some pa =>
            let pb := poly_obtain_sorted_C pb in
            match pC pb with
            | None => None
            | Some B => match poly_meet_matrix meet lazy destr pa B with None => None | Some (po, pa) => Some (if swap then (po, pb, pa) else (po, pa, pb)) end
            end
          end in
        if destr then finish false (poly_chernikova_dual meet pa) pb
        else if has (pF pa) && negb (has (pF pb)) then finish false pa pb
        else if has (pF pb) && negb (has (pF pa)) then finish true pb pa
        else if negb (has (pF pa)) && negb (has (pF pb)) then
          let pa := poly_chernikova_dual meet pa in
          let pb := poly_chernikova_dual meet pb in
          let '(r, pa, pb) := poly_meet_particularcases meet lazy exw algleq pa pb in
          match r with
          | Some po => Some (po, pa, pb)
          | None => if start_first pa pb then finish false pa pb else finish true pb pa
          end
        else if start_first pa pb then finish false pa pb else finish true pb pa
    end
  end.
(** pa == pb (190-196) *)
Definition poly_meet_same (meet lazy : bool) (pa : poly) : poly := if lazy then pa else poly_chernikova_dual meet pa.
(** pk_meet (488-498), pk_join (604-618); [lazy] is [algorithm < 0].  Result: the result, the new arguments *)
Definition pk_meet (lazy destr : bool) (pa pb : poly) : option (poly * poly * poly) := poly_meet true lazy false false destr pa pb.
Definition pk_join (lazy exw algleq destr : bool) (pa pb : poly) : option (poly * poly * poly) :=
  match poly_meet false lazy exw algleq destr (poly_dual pa) (poly_dual pb) with
  | None => None
  | Some (po, pa, pb) => Some (poly_dual po, poly_dual pa, poly_dual pb)
  end.

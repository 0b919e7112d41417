(** Model of the canonical form of the polyhedra of newpolka (pk_representation.c 254-291, 432-457), of the equality
    test and of the test that a dimension is unconstrained (pk_test.c 206-241, 470-510), and of the conversions to
    constraints and to generators (pk_extract.c 396-425, 485-520; pk_user.c 531-605).

    Same simplifications as in PkPoly.v. *)
From Coq Require Import ZArith QArith Bool List Lia.
Import ListNotations.
From Verif Require Import Bound Linexpr PkCone PkVec PkCherni PkSimplify PkMinimize PkPoly PkUser.
Open Scope nat_scope.

(** cherni_gauss then cherni_backsubstitute (pk_cherni.c 414-470) on a whole matrix, [nb] rows of which are equations *)
Definition matrix_gauss (cols nb : nat) (M : list pvec) : list pvec :=
  let '(rank, intp, rows) := gauss (cols - 1) nb 0 [] (map (fun q => (q, [])) M) in map fst (backsubstitute rank intp rows).
(** poly_chernikova3 (pk_representation.c 254-291).  poly_chernikova2 (216-250) is poly_chernikova in non strict mode *)
Definition gauss_C (po : poly) : poly :=
  if pconsgauss po then po else
  match pC po with
  | None => po
  | Some C => mkPoly (pint po) (preal po) (Some (matrix_gauss (pcols po) (pnbeq po) C)) false (pF po) (pFs po) (psatC po) (psatF po) (pnbeq po) (pnbline po) (pconsgauss po) (pgengauss po)
  end.
Definition gauss_F (po : poly) : poly :=
  if pgengauss po then po else
  match pF po with
  | None => po
  | Some F => mkPoly (pint po) (preal po) (pC po) (pCs po) (Some (matrix_gauss (pcols po) (pnbline po) F)) false (psatC po) (psatF po) (pnbeq po) (pnbline po) (pconsgauss po) (pgengauss po)
  end.
Definition set_gauss (po : poly) : poly := mkPoly (pint po) (preal po) (pC po) (pCs po) (pF po) (pFs po) (psatC po) (psatF po) (pnbeq po) (pnbline po) true true.
Definition poly_chernikova3 (po : poly) : poly :=
  let po := poly_chernikova po in
  match pC po with None => po | Some _ => set_gauss (poly_obtain_sorted_F (poly_obtain_sorted_C (gauss_F (gauss_C po)))) end.
(** pk_is_canonical (434-457) *)
Definition pk_is_canonical (po : poly) : bool :=
  match pC po, pF po with
  | None, None => true
  | Some _, Some _ => pCs po && pFs po && pconsgauss po && pgengauss po
  | _, _ => false
  end.
(** pk_matrix_equal (pk_matrix.c 138-153) *)
Fixpoint zlist_eqb (a b : list Z) : bool := match a, b with [], [] => true | x :: a, y :: b => (x =? y)%Z && zlist_eqb a b | _, _ => false end.
Fixpoint matrix_equal (A B : list pvec) : bool := match A, B with [], [] => true | a :: A, b :: B => zlist_eqb a b && matrix_equal A B | _, _ => false end.
(** pk_is_eq (pk_test.c 206-241) for two distinct polyhedra; [alg] is [algorithm > 0], [algleq] is the same option for pk_is_leq *)
Definition pk_is_eq (alg algleq : bool) (pa pb : poly) : bool * poly * poly :=
  if minimal2 pa && minimal2 pb && negb (Nat.eqb (pnbeq pa) (pnbeq pb) && Nat.eqb (pnbline pa) (pnbline pb)) then (false, pa, pb)
  else
    let pa := if alg then poly_chernikova3 pa else pa in
    let pb := if alg then poly_chernikova3 pb else pb in
    if pk_is_canonical pa && pk_is_canonical pb then
      (match pC pa, pF pa, pC pb, pF pb with
       | None, _, None, _ => true
       | Some A, Some F, Some B, Some G => Nat.eqb (length A) (length B) && Nat.eqb (length F) (length G) &&
           (if Nat.leb (length A) (length F) then matrix_equal A B else matrix_equal F G)
       | _, _, _, _ => false
       end, pa, pb)
    else
      let '(r, pa, pb) := pk_is_leq algleq pa pb in
      if r then let '(r, pb, pa) := pk_is_leq algleq pb pa in (r, pa, pb) else (false, pa, pb).
(** pk_is_dimension_unconstrained (pk_test.c 470-510): the first line with a coefficient on the dimension *)
Fixpoint first_line (d : nat) (L : list pvec) : bool :=
  match L with
  | [] => false
  | l :: L => if (zn (d + 2) l =? 0)%Z then first_line d L
              else forallb (fun j => Nat.eqb j (d + 2) || (zn j l =? 0)%Z) (seq 2 (length l - 2))
  end.
Definition pk_is_dimension_unconstrained (po : poly) (d : nat) : bool * poly :=
  let po := poly_chernikova3 po in
  (match pF po with None => false | Some F => first_line d (firstn (pnbline po) F) end, po).

(** lincons0_of_vector (pk_user.c 531-558): the coefficients are exact rationals *)
Definition zcoeff (z : Z) : coeff := Scal (Fin (inject_Z z)).
Definition lincons_of_vector (q : pvec) : lincons :=
  mkCons (if (zn 0 q =? 0)%Z then CEq else CSupEq) (mkLin (zcoeff (zn 1 q)) (Dense (map zcoeff (skipn 2 q)))) None.
(** vector_is_dummy_constraint (pk_vector.c 525-558), non strict mode *)
Definition is_dummy (q : pvec) : bool := (0 <? zn 0 q)%Z && negb (zn 1 q =? 0)%Z && forallb (fun c => (c =? 0)%Z) (skipn 2 q).
(** ap_lincons0_make_unsat (ap_lincons0.c 40-47): -1 >= 0 *)
Definition make_unsat : lincons := mkCons CSupEq (mkLin (Scal (Fin (-1))) (Sparse [])) None.
(** pk_to_lincons_array (pk_extract.c 396-425) *)
Definition pk_to_lincons_array (po : poly) : list lincons * poly :=
  let po := poly_chernikova3 po in
  match pC po with
  | None => ([make_unsat], po)
  | Some _ => let po := poly_obtain_sorted_C po in
              (match pC po with None => [] | Some C => map lincons_of_vector (filter (fun q => negb (is_dummy q)) C) end, po)
  end.
(** generator0_of_vector (pk_user.c 561-605) *)
Definition gen_coeff (s z : Z) : coeff := Scal (Fin (if (s =? 0)%Z then inject_Z z else Qred (inject_Z z / inject_Z s))).
Definition generator_of_vector (q : pvec) : gentyp * linexpr :=
  (if (zn 0 q =? 0)%Z then GLine else if (zn 1 q =? 0)%Z then GRay else GVertex,
   mkLin (zcoeff 0) (Dense (map (gen_coeff (zn 1 q)) (skipn 2 q)))).
(** pk_to_generator_array (pk_extract.c 485-520); vector_is_dummy_or_strict_generator (pk_vector.c 560-572) is false in non strict mode *)
Definition pk_to_generator_array (po : poly) : list (gentyp * linexpr) * poly :=
  let po := poly_chernikova3 po in
  match pF po with
  | None => ([], po)
  | Some _ => let po := poly_obtain_sorted_F po in
              (match pF po with None => [] | Some F => map generator_of_vector F end, po)
  end.

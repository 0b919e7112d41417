(** newpolka: the domain of linear equalities.  Models /repo/newpolka/pkeq.c (non strict mode).

    A value is a polyhedron in minimal form with the positivity constraint as its only inequality.  The functions call
    those of the polyhedra with the option [algorithm] set to 1 (hence not lazy), then [equality_reduce].  Exceptions and
    result flags are left out; matrices are not shared. *)
From Coq Require Import ZArith QArith Qreals Bool List Lia Reals Lra Classical.
Import ListNotations.
From Verif Require Import Bound BoundFacts Itv ItvFacts Linexpr LinexprFacts ItvLin ItvLinFacts ItvLinCons ItvLinInt ItvLinExact ItvLinApi ApCheck PkCone PkVec PkCherni PkCherniFacts PkRank PkSimplify PkSimplifyThm PkSimplifyEnd PkSpec PkMinimize PkPoly PkPolyFacts PkPolyLeq PkPolyMeet PkPolyTop PkLin PkOps PkRepr PkProj PkUser PkUserRow PkUserCons PkUserBound PkUserMeet PkUserGen PkUserSat PkAssign PropPkCherni PropPkMinimize PropPkPoly PkCanon PkCanonFacts PkLinUser PkApprox.
Open Scope R_scope.

(** * Model *)
(** equality_reduce (77-105): the first nbeq rows and the positivity constraint are kept *)
Definition equality_reduce (po : poly) : poly :=
  match pC po, pF po with
  | Some C, Some _ =>
    if Nat.ltb (pnbeq po + 1) (length C)
    then poly_chernikova (mkPoly (pint po) (preal po) (Some (firstn (pnbeq po) C ++ [positivity (pdim po)])) (pCs po) None false None None (pnbeq po) (pnbline po) (pconsgauss po) (pgengauss po))
    else po
  | _, _ => po
  end.
(** pkeq_of_box (142-188): the rows of the dimensions with one value.  [None]: a dimension has no integer value *)
Fixpoint point_rows (intdim dim d : nat) (l : list itv) : option (list pvec) :=
  match l with
  | [] => Some []
  | i :: l =>
    if itv_is_point i then
      match vector_set_dim_bound Eq intdim dim d (bfinq (sup i)) with
      | None => None
      | Some r => match point_rows intdim dim (S d) l with None => None | Some m => Some (r :: m) end
      end
    else point_rows intdim dim (S d) l
  end.
Definition pkeq_of_box (intdim realdim : nat) (l : list itv) : poly :=
  match point_rows intdim (intdim + realdim) 0 l with
  | None => pbottom intdim realdim
  | Some m => poly_chernikova3 (mkPoly intdim realdim (Some (m ++ [positivity (intdim + realdim)])) false None false None None 0 0 false false)
  end.
(** pkeq_is_eq (194-233) *)
Definition pkeq_is_eq (pa pb : poly) : bool * poly * poly :=
  let pa := poly_chernikova3 pa in let pb := poly_chernikova3 pb in
  (match pC pa, pC pb with
   | Some A, Some B => Nat.eqb (pnbeq pa) (pnbeq pb) && Nat.eqb (pnbline pa) (pnbline pb) && matrix_equal A B
   | None, None => true
   | _, _ => false
   end, pa, pb).
(** pkeq_meet (243-250), pkeq_join (283-291) *)
Definition pkeq_meet (destr : bool) (pa pb : poly) : option (poly * poly * poly) := pk_meet false destr pa pb.
Definition pkeq_join (exw algleq destr : bool) (pa pb : poly) : option (poly * poly * poly) :=
  match pk_join false exw algleq destr pa pb with None => None | Some (po, pa, pb) => Some (equality_reduce po, if destr then equality_reduce po else pa, pb) end.
(** pkeq_meet_lincons_array (261-270) *)
Definition pkeq_meet_lincons_array (destr : bool) (pa : poly) (l : list lincons) : option (poly * poly) :=
  match pk_meet_lincons_array false destr pa l with None => None | Some (po, pa, _) => Some (equality_reduce po, if destr then equality_reduce po else pa) end.
(** pkeq_add_ray_array (303-311) *)
Definition pkeq_add_ray_array (destr : bool) (pa : poly) (l : list (gentyp * linexpr)) : option (poly * poly) :=
  match pk_add_generators false destr pa l with None => None | Some (po, pa, _) => Some (equality_reduce po, if destr then equality_reduce po else pa) end.
(** pkeq_forget_array (520-530) *)
Definition pkeq_forget_array (destr : bool) (pa : poly) (tdim : list nat) (project : bool) : option (poly * poly) :=
  match pk_forget_array false destr pa tdim project with None => None | Some (po, pa) => Some (equality_reduce po, if destr then equality_reduce po else pa) end.
(** equality_asssub_linexpr (321-373): the expression is taken as linear when its constant is a scalar *)
Definition pkeq_asssub_linexpr (assign destr : bool) (pa : poly) (d : nat) (e : linexpr) : option (poly * poly) :=
  if isbot pa then Some (if destr then pa else pbottom (pint pa) (preal pa), pa)
  else if is_scal (le_cst e) then
    let (po, pa) := poly_asssub_linexpr_det assign destr pa d (pk_row (pdim pa) e) in
    let po := equality_reduce (poly_chernikova po) in Some (po, if destr then po else pa)
  else pkeq_forget_array destr pa [d] false.
(** equality_asssub_linexpr_array (376-453) *)
Definition pkeq_asssub_linexpr_array (assign destr : bool) (pa : poly) (l : list (nat * linexpr)) : option (poly * poly) :=
  match l with
  | [(d, e)] => pkeq_asssub_linexpr assign destr pa d e
  | _ =>
    if isbot pa then Some (if destr then pa else pbottom (pint pa) (preal pa), pa)
    else
      let lp := filter (fun p => is_scal (le_cst (snd p))) l in
      let lf := map fst (filter (fun p => negb (is_scal (le_cst (snd p)))) l) in
      match lp with
      | [] => pkeq_forget_array destr pa lf false
      | _ =>
        let (po, pa) := poly_asssub_linexpr_array_det assign destr pa (map (fun p => (fst p, pk_row (pdim pa) (snd p))) lp) in
        let po := equality_reduce (poly_chernikova po) in
        match lf with
        | [] => Some (po, if destr then po else pa)
        | _ => match pkeq_forget_array true po lf false with None => None | Some (po, _) => Some (po, if destr then po else pa) end
        end
      end
  end.
(** pkeq_assign_linexpr_array (455-475), pkeq_substitute_linexpr_array (476-496) *)
Definition pkeq_asssub (assign destr : bool) (pa : poly) (l : list (nat * linexpr)) (dest : option poly) : option (poly * poly) :=
  match pkeq_asssub_linexpr_array assign destr pa l with
  | None => None
  | Some (po, pa) => match dest with
                     | None => Some (po, pa)
                     | Some pb => match pkeq_meet true po pb with None => None | Some (po, _, _) => Some (po, pa) end
                     end
  end.
(** pkeq_remove_dimensions (538-548), pkeq_expand (553-563), pkeq_fold (564-573), pkeq_widening (579-583) *)
Definition pkeq_remove_dimensions (destr : bool) (pa : poly) (pos : list nat) (ni : nat) : poly * poly :=
  let (po, pa) := pk_remove_dimensions true destr pa pos ni in (equality_reduce po, if destr then equality_reduce po else pa).
Definition pkeq_expand (destr : bool) (pa : poly) (dim n : nat) : poly * poly :=
  let (po, pa) := pk_expand false true destr pa dim n in (equality_reduce po, if destr then equality_reduce po else pa).
Definition pkeq_fold (destr : bool) (pa : poly) (t0 : nat) (ts : list nat) : poly * poly :=
  let (po, pa) := pk_fold false true destr pa t0 ts in (equality_reduce po, if destr then equality_reduce po else pa).
Definition pkeq_widening (pa pb : poly) : poly := pb.

(** * The affine hull *)
(** the points reached from [S] by lines through two points, [d] dimensions *)
Inductive aff (d : nat) (S : vec -> Prop) : vec -> Prop :=
| aff_pt : forall x, S x -> aff d S x
| aff_line : forall x y t z, aff d S x -> aff d S y -> (forall j, (j < d)%nat -> z j = x j + t * (y j - x j)) -> aff d S z.
Definition is_aff (d : nat) (S : vec -> Prop) : Prop := forall x y t z, S x -> S y -> (forall j, (j < d)%nat -> z j = x j + t * (y j - x j)) -> S z.
Lemma aff_is : forall d (S : vec -> Prop), is_aff d (aff d S). Proof. intros d S x y t z X Y Z. exact (aff_line d S x y t z X Y Z). Qed.
Lemma aff_incl : forall d (S T : vec -> Prop) x, (forall x, S x -> T x) -> is_aff d T -> aff d S x -> T x. Proof. intros d S T x H A X. induction X as [x X|x y t z X1 IX1 X2 IX2 Z]; auto. exact (A x y t z IX1 IX2 Z). Qed.
Definition md (po : poly) : Prop := isbot po = true \/ minimal2 po = true.

Lemma mini_E : forall n C F a b, mini n C F a b -> exists E I L R, C = E ++ I /\ F = L ++ R /\ length E = a /\ firstn a C = E /\ Forall (lenS n) (C ++ F) /\ Forall (st 0) (E ++ L) /\ Forall (st 1) (I ++ R) /\ ddn n (map kc C) (tls L) (tls R) /\ ddn n (map kc F) (tls E) (tls I) /\ indep n (tls E).
Proof. intros n C F a b (E & I & L & R & H1 & H2 & H3 & H4 & H5 & H6 & H7 & H8 & H9 & H10 & H11). exists E, I, L, R. split; [exact H1|]. split; [exact H2|]. split; [exact H3|]. split; [subst a C; rewrite firstn_app, Nat.sub_diag, firstn_all; simpl; apply app_nil_r|]. split; [exact H5|]. split; [exact H6|]. split; [exact H7|]. split; [exact H8|]. split; [exact H9|exact H10]. Qed.
(** a row which is not an equality is positive somewhere *)
Lemma strict_row : forall n C F a b E I L R c, mini n C F a b -> C = E ++ I -> F = L ++ R -> Forall (lenS n) (C ++ F) -> Forall (st 0) (E ++ L) -> Forall (st 1) (I ++ R) -> ddn n (map kc F) (tls E) (tls I) -> In c I -> exists f, cone C f /\ 0 < dt n (rv (tl c)) f.
Proof.
  intros n C F a b E I L R c M EC EF LE S0 S1 D Ic. apply Forall_app in LE. destruct LE as [LC LF]. apply NNPP. intros NO.
  assert (CV : forall f, In f F -> cone C (rv (tl f))). { intros f Hf. apply (mini_points _ _ _ _ _ M). apply in_gen; auto. }
  assert (Cc : In c C) by (subst C; apply in_or_app; auto). assert (Lc : lenS n c) by (rewrite Forall_forall in LC; auto).
  assert (C1 : zn 0 c = 1%Z). { rewrite Forall_forall in S1. apply S1. apply in_or_app. auto. }
  assert (Z0 : forall f, In f F -> dt n (rv (tl c)) (rv (tl f)) = 0).
  { intros f Hf. assert (G : 0 <= dt n (rv (tl c)) (rv (tl f))). { assert (Q := CV f Hf). rewrite cone_in in Q. specialize (Q c Cc). apply (row_dt n c _ Lc) in Q. rewrite C1 in Q. exact Q. }
    destruct (Rle_lt_or_eq_dec _ _ G) as [P|P]; auto. exfalso. apply NO. exists (rv (tl f)). auto. }
  destruct (in_split _ _ Ic) as (I1 & I2 & EI). assert (TI : tls I = tls I1 ++ tl c :: tls I2) by (subst I; unfold tls; rewrite map_app; reflexivity). rewrite TI in D.
  apply (dd_ray_needed n _ _ _ _ _ D). apply gen_mono with (tls E) []; [intros z; auto|intros z []|]. rewrite <- TI in D.
  assert (IC : forall k, inC n (map kc F) (lin2 k (rv (tl c)) 0 (rv (tl c)))).
  { intros k q Q. apply in_map_iff in Q. destruct Q as (f & <- & Hf). assert (Y : dt n (rv (tl f)) (lin2 k (rv (tl c)) 0 (rv (tl c))) = 0). { rewrite dt_lin. rewrite (dt_sym n (rv (tl f))). rewrite (Z0 f Hf). ring. } unfold holds, kc. cbn [fst snd]. rewrite Y. destruct (_ =? 0)%Z; lra. }
  apply lin_space with (map kc F) (tls I); auto. apply inC_ext with (lin2 1 (rv (tl c)) 0 (rv (tl c))); auto. intros j _. unfold lin2. ring.
Qed.
(** a point of the cone where all the rows of [I] are positive *)
Lemma strict_all : forall n C p0 (I : list pvec), Forall (lenS n) C -> cone C p0 -> 0 < p0 0%nat -> (forall x, cone C x -> 0 <= x 0%nat) -> (forall c, In c I -> In c C /\ zn 0 c = 1%Z /\ exists f, cone C f /\ 0 < dt n (rv (tl c)) f) ->
  exists p, cone C p /\ 0 < p 0%nat /\ forall c, In c I -> 0 < dt n (rv (tl c)) p.
Proof.
  intros n C p0 I LC H0 P0 POS. induction I as [|c I IH]; intros H. { exists p0. split; auto. split; auto. intros c []. }
  destruct IH as (p & P1 & P2 & P3). { intros c' C'. apply H. right. auto. } destruct (H c (or_introl eq_refl)) as (_ & _ & f & F1 & F2).
  assert (GE : forall c' x, In c' (c :: I) -> cone C x -> 0 <= dt n (rv (tl c')) x). { intros c' x C' X. destruct (H c' C') as (X1 & X2 & _). rewrite cone_in in X. specialize (X c' X1). apply (row_dt n) in X; [|rewrite Forall_forall in LC; auto]. rewrite X2 in X. exact X. }
  exists (lin2 1 p 1 f). split; [apply cone_lin with n; auto; lra|]. split. { unfold lin2. assert (Q := POS f F1). lra. }
  intros c' [<-|C']; rewrite dt_lin. - assert (Q := GE c p (or_introl eq_refl) P1). lra. - assert (Q := GE c' f (or_intror C') F1). specialize (P3 c' C'). lra.
Qed.
Lemma eps_all : forall n (I : list pvec) p h, (forall c, In c I -> 0 < dt n (rv (tl c)) p) -> exists e, 0 < e /\ forall c, In c I -> 0 <= dt n (rv (tl c)) (lin2 1 p e h).
Proof.
  intros n I p h. induction I as [|c I IH]; intros H. { exists 1. split; [lra|]. intros c []. }
  destruct IH as (e & E1 & E2). { intros; apply H; right; auto. } assert (HP := H c (or_introl eq_refl)). set (a := dt n (rv (tl c)) p) in *. set (b := dt n (rv (tl c)) h).
  destruct (Rle_lt_dec 0 b) as [B|B].
  - exists e. split; auto. intros c' [<-|C']; auto. rewrite dt_lin. fold a b. assert (0 <= e * b) by (apply Rmult_le_pos; lra). lra.
  - assert (Q : 0 < a / - b) by (apply Rdiv_lt_0_compat; lra). exists (Rmin e (a / - b)). split. { apply Rmin_glb_lt; auto. } assert (M1 := Rmin_l e (a / - b)). assert (M2 := Rmin_r e (a / - b)). set (m := Rmin e (a / - b)) in *. assert (M0 : 0 < m) by (apply Rmin_glb_lt; auto).
    intros c' [<-|C']; rewrite dt_lin.
    + fold a b. assert (m * - b <= a / - b * - b) by (apply Rmult_le_compat_r; lra). replace (a / - b * - b) with a in H0 by (field; lra). lra.
    + specialize (E2 c' C'). rewrite dt_lin in E2. assert (HP' := H c' (or_intror C')). set (u := dt n (rv (tl c')) p) in *. set (v := dt n (rv (tl c')) h) in *.
      destruct (Rle_lt_dec 0 v) as [V|V]. * assert (0 <= m * v) by (apply Rmult_le_pos; lra). lra. * assert (m * - v <= e * - v) by (apply Rmult_le_compat_r; lra). lra.
Qed.
Lemma scale_point : forall n C p, Forall (lenS n) C -> cone C p -> 0 < p 0%nat -> cone C (homog (fun j => p (S j) / p 0%nat)).
Proof. intros n C p LC H P. apply cone_ext with n (lin2 (/ p 0%nat) p 0 p); auto. - intros [|j] _; unfold lin2, homog; field; lra. - apply cone_lin with n; auto; try lra. assert (0 < / p 0%nat) by (apply Rinv_0_lt_compat; auto). lra. Qed.
Lemma equalities_hull : forall po i r (S : vec -> Prop) C F x, repr po i r S -> pC po = Some C -> pF po = Some F -> cone (firstn (pnbeq po) C) (homog x) ->
  exists y z t, S y /\ S z /\ forall j, x j = y j + t * (z j - y j).
Proof.
  intros po i r S C F x R EC EF X. assert (PN := proj2 (repr_dim _ _ _ _ R)). destruct (repr_C _ _ _ _ _ R EC) as [LC HC]. destruct R as ((W & PO) & _ & _ & G). unfold swf in W. rewrite EC, EF, PN in W. destruct W as (M & _). set (n := Datatypes.S (i + r)) in *.
  destruct (mini_E _ _ _ _ _ M) as (E & I & L & R & H1 & H2 & H3 & H4 & H5 & H6 & H7 & H8 & H9 & H10). rewrite H4 in X.
  destruct PO as [PO|[PO1 PO2]]. { unfold isbot in PO. rewrite EC in PO. discriminate. } destruct PO2 as (p0 & P0 & P0'); [congruence|]. rewrite (cK_C _ _ EC) in P0.
  assert (PO : forall x, cone C x -> 0 <= x 0%nat) by (intros y Y; apply PO1; rewrite (cK_C _ _ EC); auto).
  destruct (strict_all n C p0 I LC P0 P0' PO) as (p & Hp & Pp & Sp). { intros c Hc. split; [subst C; apply in_or_app; auto|]. split. { rewrite Forall_forall in H7. apply H7. apply in_or_app. auto. } eapply strict_row; eauto. }
  destruct (eps_all n I p (homog x) Sp) as (e & E1 & E2). set (y := lin2 1 p e (homog x)) in *.
  assert (Y : cone C y). { rewrite H1. apply cone_app. rewrite Forall_forall in LC. split; apply cone_in; intros c Hc.
    - assert (Lc : lenS n c) by (apply LC; subst C; apply in_or_app; auto). assert (Zc : zn 0 c = 0%Z) by (rewrite Forall_forall in H6; apply H6; apply in_or_app; auto). rewrite H1 in Hp. apply cone_app in Hp. destruct Hp as [Hp _]. rewrite cone_in in Hp, X. specialize (Hp c Hc). specialize (X c Hc).
      apply (row_dt n c _ Lc) in Hp. apply (row_dt n c _ Lc) in X. apply (row_dt n c _ Lc). rewrite Zc in *. simpl in *. unfold y. rewrite dt_lin. rewrite Hp, X. ring.
    - assert (Lc : lenS n c) by (apply LC; subst C; apply in_or_app; auto). assert (Zc : zn 0 c = 1%Z) by (rewrite Forall_forall in H7; apply H7; apply in_or_app; auto). apply (row_dt n c _ Lc). rewrite Zc. simpl. apply E2. auto. }
  assert (Y0 : y 0%nat = p 0%nat + e) by (unfold y, lin2, homog; ring). assert (LC' : Forall (lenS n) C) by exact LC.
  exists (fun j => p (Datatypes.S j) / p 0%nat), (fun j => y (Datatypes.S j) / y 0%nat), (y 0%nat / e). split; [|split].
  - apply HC. apply scale_point with n; auto.
  - apply HC. apply scale_point with n; auto. lra.
  - intros j. rewrite Y0. unfold y, lin2, homog. field. lra.
Qed.
Lemma aff_rows : forall d (S : vec -> Prop) E x, Forall (lenS (Datatypes.S d)) E -> Forall (st 0) E -> (forall x, S x -> cone E (homog x)) -> aff d S x -> cone E (homog x).
Proof.
  intros d S E x LE SE H X. apply (aff_incl d S (fun x => cone E (homog x)) x H); auto. clear x X. intros x y t z X Y Z. rewrite cone_in in *. rewrite Forall_forall in LE, SE. intros c Hc. specialize (X c Hc). specialize (Y c Hc). apply (row_dt _ c _ (LE c Hc)) in X. apply (row_dt _ c _ (LE c Hc)) in Y. apply (row_dt _ c _ (LE c Hc)).
  assert (Zc := SE c Hc). unfold st in Zc. rewrite Zc in *. simpl (0 =? 0)%Z in *. cbv iota in *. rewrite (dt_ext (Datatypes.S d) (rv (tl c)) (homog z) (lin2 (1 - t) (homog x) t (homog y))). - rewrite dt_lin, X, Y. ring. - intros [|j] J; unfold homog, lin2. ring. rewrite Z by lia. ring.
Qed.
(** equality_reduce gives the affine hull *)
Theorem reduce_repr : forall po i r (S : vec -> Prop), repr po i r S -> md po -> repr (equality_reduce po) i r (aff (i + r) S) /\ md (equality_reduce po).
Proof.
  intros po i r S R MD. unfold equality_reduce. destruct (pC po) as [C|] eqn:EC, (pF po) as [F|] eqn:EF; try (unfold md, isbot, minimal2 in MD; rewrite EC, EF in MD; destruct MD; discriminate).
  2: { split; auto. assert (NO : forall x, ~ S x). { intros x X. apply R in X. unfold gamma, cK in X. rewrite EC, EF in X. auto. } destruct R as (W & R1 & R2 & R3). split; auto. split; auto. split; auto. intros x. rewrite R3. split; [apply aff_pt|]. intros X. destruct (aff_incl (i + r) S (fun _ => False) x); auto. intros a b t z []. }
  assert (D := proj1 (repr_dim _ _ _ _ R)). assert (PN := proj2 (repr_dim _ _ _ _ R)). destruct (repr_C _ _ _ _ _ R EC) as [LC HC].
  assert (M : mini (Datatypes.S (i + r)) C F (pnbeq po) (pnbline po)). { destruct R as ((W & _) & _). unfold swf in W. rewrite EC, EF, PN in W. apply W. }
  destruct (mini_E _ _ _ _ _ M) as (E & I & L & RR & H1 & H2 & H3 & H4 & H5 & H6 & H7 & H8 & H9 & H10).
  assert (LE : Forall (lenS (Datatypes.S (i + r))) E) by (rewrite H1 in LC; apply Forall_app in LC; tauto). assert (SE : Forall (st 0) E) by (apply Forall_app in H6; tauto).
  assert (SS : forall x, S x -> cone E (homog x)). { intros x X. apply HC in X. rewrite H1 in X. apply cone_app in X. tauto. }
  assert (HULL : forall x, aff (i + r) S x <-> cone E (homog x)). { intros x. split. - apply aff_rows; auto. - intros X. rewrite <- H4 in X. destruct (equalities_hull po i r S C F x R EC EF X) as (y & z & t & Y & Z & T). eapply aff_line; [apply aff_pt, Y|apply aff_pt, Z|]. intros; apply T. }
  destruct (Nat.ltb_spec (pnbeq po + 1) (length C)) as [LT|LT].
  - rewrite H4, D. match goal with |- repr (poly_chernikova ?p) _ _ _ /\ _ => set (po1 := p) end.
    assert (R1 : repr po1 i r (fun x => cone (E ++ [positivity (i + r)]) (homog x))). { apply with_cons_like; auto; try apply R. - apply Forall_app. split; auto. constructor; auto. apply len_pos. - apply in_or_app. simpl. auto. }
    destruct (chern_repr _ _ _ _ R1) as ((W & A & B & G) & _ & MM). split; auto. split; auto. split; auto. split; auto. intros x. rewrite G, HULL, cone_app. split; [tauto|]. intros X. split; auto. constructor; auto. apply pos_hom.
  - split; auto. destruct R as (W & A & B & G). split; auto. split; auto. split; auto. intros x. rewrite G, HULL. split; auto. intros X. apply HC. rewrite H1. apply cone_app. split; auto. rewrite H1, app_length, H3 in LT.
    destruct I as [|c [|c2 I]]; [constructor| |simpl in LT; lia]. constructor; [|constructor].
    assert (Cc : In c C) by (subst C; apply in_or_app; simpl; auto). assert (Lc : lenS (Datatypes.S (i + r)) c) by (rewrite Forall_forall in LC; auto). assert (Zc : zn 0 c = 1%Z) by (rewrite Forall_forall in H7; apply H7; simpl; auto).
    destruct W as (_ & [PO|[PO1 PO2]]); [unfold isbot in PO; rewrite EC in PO; discriminate|]. assert (PO : forall x, cone C x -> 0 <= x 0%nat) by (intros y Y; apply PO1; rewrite (cK_C _ _ EC); auto).
    destruct PO2 as (p0 & P0 & P0'); [congruence|]. rewrite (cK_C _ _ EC) in P0.
    destruct (strict_all _ C p0 [c] LC P0 P0' PO) as (p & Hp & Pp & Sp). { intros c' [<-|[]]. split; auto. split; auto. apply (strict_row _ C F (pnbeq po) (pnbline po) E [c] L RR c); simpl; auto. }
    specialize (Sp c (or_introl eq_refl)). apply (row_dt _ c _ Lc). rewrite Zc. simpl (1 =? 0)%Z. cbv iota. destruct (Rle_lt_dec 0 (dt (Datatypes.S (i + r)) (rv (tl c)) (homog x))) as [Q|Q]; auto. exfalso.
    set (u := dt (Datatypes.S (i + r)) (rv (tl c)) (homog x)) in *. set (v := dt (Datatypes.S (i + r)) (rv (tl c)) p) in *. set (k := - u / v). assert (K : 0 < k) by (apply Rdiv_lt_0_compat; lra).
    set (y := lin2 k p 1 (homog x)). assert (YC : forall s, cone C (lin2 s y 0 y)).
    { intros s. rewrite H1. apply cone_app. split; [|constructor; [|constructor]].
      - rewrite cone_in. intros e He. rewrite Forall_forall in LE, SE. assert (Ze := SE e He). unfold st in Ze. apply (row_dt _ e _ (LE e He)). rewrite Ze. simpl (0 =? 0)%Z. cbv iota. rewrite H1 in Hp. apply cone_app in Hp. destruct Hp as [Hp _]. rewrite cone_in in Hp, X. specialize (Hp e He). specialize (X e He). apply (row_dt _ e _ (LE e He)) in Hp. apply (row_dt _ e _ (LE e He)) in X. rewrite Ze in Hp, X. simpl (0 =? 0)%Z in Hp, X. cbv iota in Hp, X. unfold y. rewrite !dt_lin, Hp, X. ring.
      - apply (row_dt _ c _ Lc). rewrite Zc. simpl (1 =? 0)%Z. cbv iota. unfold y. rewrite !dt_lin. fold u v. unfold k. replace (s * (- u / v * v + 1 * u) + 0 * (- u / v * v + 1 * u)) with 0 by (field; lra). lra. }
    assert (Q1 := PO _ (YC (-1))). unfold y, lin2, homog in Q1. assert (0 < k * p 0%nat) by (apply Rmult_lt_0_compat; auto). lra.
Qed.

(** * The results of the operations are in minimal form *)
Lemma md_chern : forall po, md po -> poly_chernikova po = po. Proof. intros po H. unfold md, isbot, minimal2, poly_chernikova in *. destruct (pC po), (pF po); auto; destruct H; discriminate. Qed.
Lemma md_chernd : forall m po, md po -> poly_chernikova_dual m po = po. Proof. intros m po H. unfold md, isbot, minimal2, poly_chernikova_dual, poly_chernikova in *. destruct m; simpl; destruct po as [? ? [?|] ? [?|]]; simpl in *; auto; destruct H; discriminate. Qed.
Lemma md_obtF : forall po, md po -> poly_obtain_F po = po. Proof. intros po H. unfold poly_obtain_F. rewrite md_chern by auto. destruct (pF po); auto. Qed.
Lemma md_obtC : forall po, md po -> poly_obtain_C po = po. Proof. intros po H. unfold poly_obtain_C. rewrite md_chern by auto. destruct (pC po); auto. Qed.
Lemma md_obtCd : forall m po, md po -> poly_obtain_C_dual m po = po. Proof. intros m po H. unfold poly_obtain_C_dual. rewrite md_chernd by auto. destruct (pC po); auto. Qed.
Lemma md_dual : forall po, md po -> md (poly_dual po). Proof. intros po. unfold md. rewrite isbot_dual, min_dual. auto. Qed.
Lemma chern_md : forall po, md (poly_chernikova po).
Proof. intros po. unfold poly_chernikova. destruct (pC po) eqn:EC, (pF po) eqn:EF.
  - right. unfold minimal2. rewrite EC, EF. auto.
  - destruct (cherni_minimize true _ _) as [[[[[? ?] ?] ?] ?]|]; [right|left]; reflexivity.
  - destruct (cherni_minimize false _ _) as [[[[[? ?] ?] ?] ?]|]; [right|left]; reflexivity.
  - left. unfold isbot. rewrite EC, EF. auto. Qed.
Lemma md_mm : forall m destr pa mat po pa', poly_meet_matrix m false destr pa mat = Some (po, pa') -> md po.
Proof. intros m destr pa mat po pa'. unfold poly_meet_matrix. destruct (pC pa), (pF pa), (psatC pa); try discriminate. destruct (cherni_add_and_minimize _ _ _ _ _ _ _) as [[[[[? ?] ?] ?] ?]|]; intros H; assert (E : po = fst (po, pa')) by auto; injection H as <- _; [right|left]; reflexivity. Qed.
Lemma md_leq : forall alg pa pb, md pa -> md pb -> snd (fst (pk_is_leq alg pa pb)) = pa /\ snd (pk_is_leq alg pa pb) = pb.
Proof. intros alg pa pb A B. unfold pk_is_leq. rewrite !md_chern, !md_obtF, ?md_obtC by auto. replace (if alg then pa else pa) with pa by (destruct alg; auto). replace (if alg then pb else pb) with pb by (destruct alg; auto).
  repeat match goal with |- context [match ?x with _ => _ end] => destruct x end; auto. Qed.
Lemma md_part : forall m exw alg pa pb r pa' pb', md pa -> md pb -> poly_meet_particularcases m false exw alg pa pb = (r, pa', pb') -> pa' = pa /\ pb' = pb /\ match r with Some po => md po | None => True end.
Proof.
  intros m exw alg pa pb r pa' pb' A B. unfold poly_meet_particularcases. destruct m.
  - intros [= <- <- <-]. split; auto. split; auto. destruct (isbot pa || isbot pb); auto. left. auto.
  - rewrite !md_chernd by auto. destruct (isbot pa); [intros [= <- <- <-]; auto|]. destruct (isbot pb); [intros [= <- <- <-]; auto|]. destruct exw; [|intros [= <- <- <-]; auto].
    assert (Q := md_leq alg (poly_dual pa) (poly_dual pb) (md_dual _ A) (md_dual _ B)). destruct (pk_is_leq alg (poly_dual pa) (poly_dual pb)) as [[r1 da] db]. cbn [fst snd] in Q. destruct Q as [-> ->]. destruct r1. { rewrite !dual_dual. intros [= <- <- <-]. auto. }
    assert (Q := md_leq alg (poly_dual pb) (poly_dual pa) (md_dual _ B) (md_dual _ A)). destruct (pk_is_leq alg (poly_dual pb) (poly_dual pa)) as [[r2 db] da]. cbn [fst snd] in Q. destruct Q as [-> ->]. rewrite !dual_dual. intros [= <- <- <-]. destruct r2; auto.
Qed.
Lemma md_meet : forall m exw alg destr pa pb po pa' pb', md pa -> md pb -> poly_meet m false exw alg destr pa pb = Some (po, pa', pb') -> md po.
Proof.
  intros m exw alg destr pa pb po pa' pb' A B H. unfold poly_meet in H. destruct (poly_meet_particularcases m false exw alg pa pb) as [[r1 pa1] pb1] eqn:P1. destruct (md_part _ _ _ _ _ _ _ _ A B P1) as (-> & -> & Q1). destruct r1. { injection H as <- _ _. auto. }
  rewrite !md_obtCd in H by auto. rewrite P1 in H. 
  assert (FIN : forall (swap : bool) pa pb, match poly_obtain_satC pa with | None => None | Some pa => let pb := poly_obtain_sorted_C pb in match pC pb with | None => None | Some B => match poly_meet_matrix m false destr pa B with None => None | Some (po, pa) => Some (if swap then (po, pb, pa) else (po, pa, pb)) end end end = Some (po, pa', pb') -> md po).
  { intros swap p1 p2. destruct (poly_obtain_satC p1) as [p1'|]; [|discriminate]. cbv zeta. destruct (pC (poly_obtain_sorted_C p2)) as [B'|]; [|discriminate]. destruct (poly_meet_matrix m false destr p1' B') as [[q1 q2]|] eqn:E; [|discriminate]. apply md_mm in E. destruct swap; intros [= <- _ _]; auto. }
  destruct destr. { exact (FIN false _ _ H). } destruct (has (pF pa) && negb (has (pF pb))). { exact (FIN false _ _ H). } destruct (has (pF pb) && negb (has (pF pa))). { exact (FIN true _ _ H). }
  destruct (negb (has (pF pa)) && negb (has (pF pb))).
  - rewrite !md_chernd in H by auto. rewrite P1 in H. destruct (start_first pa pb); [exact (FIN false _ _ H)|exact (FIN true _ _ H)].
  - destruct (start_first pa pb); [exact (FIN false _ _ H)|exact (FIN true _ _ H)].
Qed.
Lemma md_join : forall exw alg destr pa pb po pa' pb', md pa -> md pb -> pk_join false exw alg destr pa pb = Some (po, pa', pb') -> md po.
Proof. intros exw alg destr pa pb po pa' pb' A B H. unfold pk_join in H. destruct (poly_meet false false exw alg destr (poly_dual pa) (poly_dual pb)) as [[[q1 q2] q3]|] eqn:E; [|discriminate]. apply md_meet in E; auto using md_dual. injection H as <- _ _. apply md_dual. auto. Qed.
Lemma md_forget : forall destr pa tdim pr po pa', pk_forget_array false destr pa tdim pr = Some (po, pa') -> md po.
Proof. intros destr pa tdim pr po pa' H. unfold pk_forget_array in H. destruct (pF (poly_chernikova pa)). 2: { injection H as <- _. left. auto. } destruct pr.
  - injection H as <- _. apply chern_md.
  - destruct (poly_obtain_satC _); [|discriminate]. destruct (poly_meet_matrix false false destr _ _) as [[q1 q2]|] eqn:E; [|discriminate]. injection H as <- _. apply md_mm in E. apply md_dual. auto. Qed.
Lemma md_lincons : forall destr pa l po pa' ex, pk_meet_lincons_array false destr pa l = Some (po, pa', ex) -> md po.
Proof. intros destr pa l po pa' ex H. unfold pk_meet_lincons_array in H. cbn [andb] in H. destruct (isbot (poly_chernikova pa)) eqn:B. { injection H as <- _ _. left. auto. }
  destruct (if forallb _ _ then _ else _) as [l1|]; [|discriminate]. destruct (linearize_array true l1) as [l2|]; [|discriminate]. destruct (array_reduce_integer _ l2) as [[l3 ?]|]; [|discriminate]. destruct (poly_obtain_satC _); [|discriminate]. destruct (poly_meet_matrix true false destr _ _) as [[q1 q2]|] eqn:E; [|discriminate]. injection H as <- _ _. apply md_mm in E. auto. Qed.
Lemma md_add : forall destr pa l po pa' ex, pk_add_generators false destr pa l = Some (po, pa', ex) -> md po.
Proof. intros destr pa l po pa' ex H. unfold pk_add_generators in H. destruct (pk_add_ray_array false destr pa _) as [[q1 q2]|] eqn:E; [|discriminate]. injection H as <- _ _. unfold pk_add_ray_array in E. destruct (isbot (poly_chernikova pa)) eqn:B. { injection E as <- _. left. auto. }
  destruct (poly_obtain_satF _); [|discriminate]. destruct (poly_meet_matrix false false destr _ _) as [[q3 q4]|] eqn:E2; [|discriminate]. injection E as <- _. apply md_mm in E2. apply md_dual. auto. Qed.
Lemma md_remove : forall destr pa pos ni, md (fst (pk_remove_dimensions true destr pa pos ni)).
Proof. intros. unfold pk_remove_dimensions. destruct (pF (poly_chernikova pa)); [apply chern_md|left; reflexivity]. Qed.
Lemma md_expand : forall destr pa d n, md pa -> md (fst (pk_expand false true destr pa d n)).
Proof. intros. unfold pk_expand. destruct (Nat.eqb n 0); auto. destruct (pC (poly_chernikova pa)); [apply chern_md|left; reflexivity]. Qed.
Lemma md_fold : forall destr pa t0 ts, md (fst (pk_fold false true destr pa t0 ts)).
Proof. intros. unfold pk_fold. destruct (pF (poly_chernikova pa)); [apply chern_md|left; reflexivity]. Qed.

(** * Increasing chains *)
Definition idrow (n k : nat) : list Z := map (fun j => if Nat.eqb j k then 1%Z else 0%Z) (seq 0 n).
Lemma rv_idrow : forall n k i, (i < n)%nat -> rv (idrow n k) i = if Nat.eqb i k then 1 else 0.
Proof. intros n k i H. unfold rv, idrow. rewrite (nth_indep _ 0%Z ((fun j => if Nat.eqb j k then 1%Z else 0%Z) 0%nat)) by (rewrite map_length, seq_length; auto). rewrite (map_nth (fun j => if Nat.eqb j k then 1%Z else 0%Z)), seq_nth by auto. simpl. destruct (Nat.eqb i k); auto. Qed.
Lemma lc_id : forall n (v : vec) m a i, (i < n)%nat -> lc (map v (seq a m)) (map (idrow n) (seq a m)) i = if Nat.leb a i && Nat.ltb i (a + m) then v i else 0.
Proof. intros n v m. induction m as [|m IH]; intros a i H. - simpl. destruct (Nat.leb_spec a i), (Nat.ltb_spec i (a + 0)); simpl; auto; lia.
  - cbn [seq map lc]. rewrite IH, rv_idrow by auto. destruct (Nat.eqb_spec i a) as [->|N].
    + destruct (Nat.leb_spec (S a) a), (Nat.leb_spec a a), (Nat.ltb_spec a (S a + m)), (Nat.ltb_spec a (a + S m)); simpl; try lia; ring.
    + destruct (Nat.leb_spec (S a) i), (Nat.leb_spec a i), (Nat.ltb_spec i (S a + m)), (Nat.ltb_spec i (a + S m)); simpl; try lia; ring. Qed.
Lemma indep_le : forall n L, indep n L -> (length L <= n)%nat.
Proof. intros n L H. assert (Q := steinitz n (map (idrow n) (seq 0 n)) L H). rewrite map_length, seq_length in Q. apply Q. intros b _. apply gen_ext with (lc (map (rv b) (seq 0 n)) (map (idrow n) (seq 0 n))). - apply lc_gen. rewrite !map_length. auto. - intros i Hi. rewrite lc_id by auto. destruct (Nat.ltb_spec i (0 + n)); simpl; auto. lia. Qed.
Lemma indep_snoc : forall n L a, indep n L -> ~ gen n rv L [] (rv a) -> indep n (L ++ [a]).
Proof. intros n L a H NG ks LK Z. rewrite app_length in LK. simpl in LK. destruct (exists_last (l := ks)) as (k0 & q & ->). { intros ->. simpl in LK. lia. } rewrite app_length in LK. simpl in LK.
  assert (LK0 : length k0 = length L) by lia. assert (Z' : forall i, (i < n)%nat -> lc k0 L i + q * rv a i = 0). { intros i Hi. rewrite <- (lc_snoc L a k0 q i LK0). auto. }
  destruct (Req_dec q 0) as [Q|Q]. - subst q. apply Forall_app. split; auto. apply H; auto. intros i Hi. specialize (Z' i Hi). lra.
  - exfalso. apply NG. apply gen_ext with (lc (map (fun k => - k / q) k0) L). + apply lc_gen. rewrite map_length. auto. + intros i Hi. specialize (Z' i Hi).
    assert (E : forall ks L0, lc (map (fun k => - k / q) ks) L0 i = - lc ks L0 i / q). { induction ks as [|k ks IH]; intros [|l0 L0]; simpl; try (field; auto). rewrite IH. field. auto. }
    rewrite E. replace (lc k0 L i) with (- (q * rv a i)) by lra. field. auto. Qed.
Lemma eqs_count : forall pa pb i r (A B : vec -> Prop), repr pa i r A -> repr pb i r B -> minimal2 pa = true -> minimal2 pb = true -> is_aff (i + r) A -> (forall x, A x -> B x) ->
  (pnbeq pb <= pnbeq pa)%nat /\ (pnbeq pa <= i + r + 1)%nat /\ (pnbeq pb = pnbeq pa -> forall x, B x -> A x).
Proof.
  intros pa pb i r A B RA RB MA MB AA SUB. unfold minimal2 in MA, MB. destruct (pC pa) as [CA|] eqn:ECA; try discriminate. destruct (pF pa) as [FA|] eqn:EFA; try discriminate. destruct (pC pb) as [CB|] eqn:ECB; try discriminate. destruct (pF pb) as [FB|] eqn:EFB; try discriminate.
  destruct (repr_C _ _ _ _ _ RA ECA) as [LA HA]. destruct (repr_C _ _ _ _ _ RB ECB) as [LB HB].
  assert (PA := proj2 (repr_dim _ _ _ _ RA)). assert (PB := proj2 (repr_dim _ _ _ _ RB)). set (n := S (i + r)) in *.
  assert (M1 : mini n CA FA (pnbeq pa) (pnbline pa)). { destruct RA as ((W & _) & _). unfold swf in W. rewrite ECA, EFA, PA in W. apply W. }
  assert (M2 : mini n CB FB (pnbeq pb) (pnbline pb)). { destruct RB as ((W & _) & _). unfold swf in W. rewrite ECB, EFB, PB in W. apply W. }
  destruct (mini_E _ _ _ _ _ M1) as (E & I & L & R & H1 & H2 & H3 & H4 & H5 & H6 & H7 & H8 & H9 & H10). destruct (mini_E _ _ _ _ _ M2) as (E2 & I2 & L2 & R2 & K1 & K2 & K3 & K4 & K5 & K6 & K7 & K8 & K9 & K10).
  assert (PO : (forall x, cone CA x -> 0 <= x 0%nat) /\ exists p, cone CA p /\ 0 < p 0%nat). { destruct RA as ((_ & [PO|[P1 P2]]) & _). unfold isbot in PO. rewrite ECA in PO. discriminate. split. - intros x X. apply P1. rewrite (cK_C _ _ ECA). auto. - destruct P2 as (p & Q & Q'); [congruence|]. exists p. rewrite (cK_C _ _ ECA) in Q. auto. }
  destruct PO as (PO & p & Hp & Pp).
  assert (ZB : forall b x, In b E2 -> cone CA x -> dt n (rv (tl b)) x = 0).
  { intros b x Hb X. assert (Lb : lenS n b) by (rewrite Forall_forall in LB; apply LB; subst CB; apply in_or_app; auto). assert (Zb : zn 0 b = 0%Z) by (rewrite Forall_forall in K6; apply K6; apply in_or_app; auto).
    assert (V : forall y, cone CA y -> 0 < y 0%nat -> dt n (rv (tl b)) y = 0). { intros y Y Y0. assert (Q := scale_point n CA y LA Y Y0). apply HA in Q. apply SUB in Q. apply HB in Q. rewrite cone_in in Q. assert (Ib : In b CB) by (subst CB; apply in_or_app; auto). specialize (Q b Ib). apply (row_dt n b _ Lb) in Q. rewrite Zb in Q. simpl (0 =? 0)%Z in Q. cbv iota in Q.
      rewrite (dt_ext n (rv (tl b)) y (lin2 (y 0%nat) (homog (fun j => y (S j) / y 0%nat)) 0 y)). rewrite dt_lin, Q. ring. intros [|j] _; unfold lin2, homog; field; lra. }
    assert (X1 := PO x X). assert (Q : dt n (rv (tl b)) (lin2 1 x 1 p) = 0). { apply V. apply cone_lin with n; auto; lra. unfold lin2. lra. } rewrite dt_lin in Q. rewrite (V p Hp Pp) in Q. lra. }
  assert (SP : forall b, In b (tls E2) -> gen n rv (tls E) [] (rv b)).
  { intros t Ht. apply in_map_iff in Ht. destruct Ht as (b & <- & Hb). assert (IC : forall k, inC n (map kc FA) (lin2 k (rv (tl b)) 0 (rv (tl b)))).
    { intros k q Q. apply in_map_iff in Q. destruct Q as (f & <- & Hf). assert (CF : cone CA (rv (tl f))) by (apply (mini_points _ _ _ _ _ M1); apply in_gen; auto). assert (Y : dt n (rv (tl f)) (lin2 k (rv (tl b)) 0 (rv (tl b))) = 0). { rewrite dt_lin. rewrite (dt_sym n (rv (tl f))). rewrite (ZB b _ Hb CF). ring. } unfold holds, kc. cbn [fst snd]. rewrite Y. destruct (_ =? 0)%Z; lra. }
    apply lin_space with (map kc FA) (tls I); auto. apply inC_ext with (lin2 1 (rv (tl b)) 0 (rv (tl b))); auto. intros j _. unfold lin2. ring. }
  assert (LE1 : length (tls E) = pnbeq pa) by (unfold tls; rewrite map_length; auto). assert (LE2 : length (tls E2) = pnbeq pb) by (unfold tls; rewrite map_length; auto).
  split; [|split].
  - rewrite <- LE1, <- LE2. apply (steinitz n); auto.
  - rewrite <- LE1. assert (Q := indep_le n _ H10). unfold n in Q. lia.
  - intros EQ x X. assert (SP2 : forall a, In a (tls E) -> gen n rv (tls E2) [] (rv a)).
    { intros a Ha. apply NNPP. intros NG. assert (ID := indep_snoc n _ a K10 NG). assert (Q := steinitz n (tls E) _ ID). rewrite app_length in Q. simpl in Q. assert (Q' : (length (tls E2) + 1 <= length (tls E))%nat). { apply Q. intros b Hb. apply in_app_or in Hb. destruct Hb as [Hb|[<-|[]]]; auto. apply gen_ext with (lin2 1 (rv a) 0 (rv a)). apply gen_line; auto. intros j _. unfold lin2. ring. } lia. }
    assert (ZX : cone E (homog x)). { apply cone_in. intros c Hc. assert (Lc : lenS n c) by (rewrite Forall_forall in LA; apply LA; subst CA; apply in_or_app; auto). assert (Zc : zn 0 c = 0%Z) by (rewrite Forall_forall in H6; apply H6; apply in_or_app; auto). apply (row_dt n c _ Lc). rewrite Zc. simpl (0 =? 0)%Z. cbv iota.
      assert (G := SP2 (tl c) (in_map _ _ _ Hc)). assert (GH := gen_holds n rv (homog x, true) (tls E2) [] (rv (tl c))). unfold holds in GH. cbn [fst snd] in GH. rewrite dt_sym. apply GH; auto. 2: { intros q []. }
      intros l Hl. apply in_map_iff in Hl. destruct Hl as (b & <- & Hb). apply HB in X. rewrite cone_in in X. assert (Ib : In b CB) by (subst CB; apply in_or_app; auto). specialize (X b Ib). assert (Lb : lenS n b) by (rewrite Forall_forall in LB; auto). apply (row_dt n b _ Lb) in X. rewrite Forall_forall in K6. assert (Zb : zn 0 b = 0%Z) by (apply K6; apply in_or_app; auto). rewrite Zb in X. simpl (0 =? 0)%Z in X. cbv iota in X. rewrite dt_sym. auto. }
    rewrite <- H4 in ZX. destruct (equalities_hull pa i r A CA FA x RA ECA EFA ZX) as (y & z & t & Y & Z & T). apply (AA y z t x Y Z). intros; apply T.
Qed.

(** Approximation of polyhedra: pk_approximate.

    Models /repo/newpolka/pk_approximate.c 22-459 in non strict mode, with the functions of pk_user.c 84-135
    (vector_set_linexpr_bound), pk_extract.c 97-162 (pk_matrix_bound_vector) and pk_matrix.c 263-282
    (pk_matrix_normalize_constraint_int) it calls.  Exceptions (overflow, memory) and the flags are left out.            *)
From Coq Require Import ZArith QArith Qreals Bool List Lia Reals Lra.
Import ListNotations.
From Verif Require Import Bound BoundFacts Itv ItvFacts Linexpr LinexprFacts ItvLin ItvLinFacts ItvLinCons ItvLinInt PkCone PkVec PkCherni PkSpec PkMinimize PkPoly PkPolyFacts PkPolyLeq PkPolyMeet PkPolyTop PkLin PkOps PkRepr PkProj PkUser PkUserRow PkUserCons PkUserBound PkUserMeet PkUserGen PkUserSat PkAssign PropPkPoly.
Open Scope R_scope.

(** * Model *)
(** numint_size2 (pk_config.h 113-114): mpz_sizeinbase(a,2), which is 1 for zero *)
Definition size2 (x : Z) : nat := if (x =? 0)%Z then 1%nat else S (Z.to_nat (Z.log2 (Z.abs x))).
Definition big (M : nat) (q : pvec) : bool := existsb (fun x => Nat.ltb M (size2 x)) (skipn 2 q).
Definition is_ineq_row (q : pvec) : bool := negb (zn 0 q =? 0)%Z.
(** the last row takes the place of the removed one *)
Definition last_first {A : Type} (t : list A) : list A := match rev t with [] => [] | x :: r => x :: rev r end.
(** pk_matrix_approximate_constraint_1 (78-112): [done] the rows before i, [rest] those from i on *)
Fixpoint drop_big (fuel M : nat) (done rest : list pvec) : list pvec :=
  match fuel, rest with
  | O, _ | _, [] => done
  | S fuel, q :: t => if is_ineq_row q && big M q then drop_big fuel M done (last_first t) else drop_big fuel M (done ++ [q]) t
  end.
(** the polyhedron [po] once its constraints are replaced by [C]; status 0 *)
Definition with_cons (po : poly) (C : list pvec) : poly := mkPoly (pint po) (preal po) (Some C) false None false None None (pnbeq po) (pnbline po) false false.
(** poly_approximate_1 (114-143): whether a constraint has been removed, the result, the argument *)
Definition approximate_1 (M : nat) (po : poly) : bool * poly * poly :=
  let po := poly_obtain_C po in
  match pC po with
  | None => (false, po, po)
  | Some C =>
    if existsb (fun q => is_ineq_row q && big M q) C
    then (true, with_cons po (drop_big (length C) M [] C ++ [positivity (pdim po)]), po)
    else (false, po, po)
  end.
(** lines 183-205: the interval constraints; [integer] is false: no rounding on the integer dimensions *)
Definition bound_row (dim d : nat) (m : comparison) (b : bound) : list pvec :=
  match b with Fin q => match vector_set_dim_bound m 0 dim d q with Some r => [r] | None => [] end | _ => [] end.
Definition itv_rows (dim : nat) (F : list pvec) : list pvec :=
  flat_map (fun d => bound_row dim d Lt (inf (matrix_bound_dimension d F)) ++ bound_row dim d Gt (sup (matrix_bound_dimension d F))) (seq 0 dim).
(** pk_matrix_bound_vector (pk_extract.c 97-162), for a vector whose coefficient 0 is 1 *)
Definition matrix_bound_vector (vec : pvec) (F : list pvec) : itv := bound_loop (fun f => vector_product f vec) F MInf MInf.
(** vector_set_linexpr_bound (pk_user.c 95-133); [mode]: its sign; [integer] false *)
Definition vector_set_linexpr_bound (mode : comparison) (vec : pvec) (q : Q) : pvec :=
  let t := map (fun x => (x * rden q)%Z) (tl vec) in
  let cst := (rnum q * zn 0 vec)%Z in
  let c := nth 0 t 0%Z in
  vector_normalize
    ((match mode with Eq => 0%Z | _ => 1%Z end) ::
     match mode with
     | Lt => (c + cst)%Z :: tl t
     | _ => (c - cst)%Z :: map Z.opp (tl t)
     end).
(** lines 206-239: the octagonal constraints *)
Definition oct_vec (dim i j : nat) (s : Z) : pvec := 1%Z :: 0%Z :: map (fun k => if Nat.eqb k i then 1%Z else if Nat.eqb k j then s else 0%Z) (seq 0 dim).
Definition oct_rows (dim : nat) (F : list pvec) : list pvec :=
  flat_map (fun i => flat_map (fun j => flat_map (fun s =>
    let v := oct_vec dim i j s in
    let b := matrix_bound_vector v F in
    match inf b with Fin q => [vector_set_linexpr_bound Lt v q] | _ => [] end ++
    match sup b with Fin q => [vector_set_linexpr_bound Gt v q] | _ => [] end)
    [(-1)%Z; 1%Z]) (seq (S i) (dim - S i))) (seq 0 dim).
(** poly_approximate_123 (151-243) *)
Definition approximate_123 (M : nat) (algorithm : Z) (po : poly) : poly :=
  let '(change, pa, po) := approximate_1 M po in
  if (algorithm =? 1)%Z then pa
  else if negb change then po
  else
    let po := poly_obtain_F po in
    match pF po, pC pa with
    | None, _ => match pC po with None => pbottom (pint po) (preal po) | Some _ => pa end
    | Some F, Some C =>
      with_cons pa (C ++ itv_rows (pdim po) F ++ (if (3 <=? algorithm)%Z then oct_rows (pdim po) F else []))
    | Some _, None => pa
    end.
(** pk_matrix_approximate_constraint_1x (249-363).  The largest size is computed over all the coefficients (in the code:
    from the first one which is too big on; the others are smaller). *)
Definition shift_of (M : nat) (q : pvec) : nat := fold_right (fun x a => Nat.max (size2 x) a) 0%nat (skipn 2 q) - M.
Definition inner (k : nat) (x : Z) : Z := Z.quot x (2 ^ Z.of_nat k).
Definition outer (k : nat) (x : Z) : Z := if (0 <? x)%Z then (- ((- x) / 2 ^ Z.of_nat k))%Z else if (x <? 0)%Z then (x / 2 ^ Z.of_nat k)%Z else x.
(** steps C, D: the constant is the rounded minimum over the generators; [None] if there is none *)
Definition rounded (F : list pvec) (t : list Z) : option pvec :=
  match inf (matrix_bound_vector (1%Z :: 0%Z :: t) F) with
  | Fin r => let m := (- r)%Q in Some (vector_normalize (1%Z :: (- (rnum m / rden m))%Z :: t))
  | _ => None
  end.
Fixpoint round_big (fuel M : nat) (F : list pvec) (fallback combine : bool) (done rest extra : list pvec) : list pvec :=
  match fuel, rest with
  | O, _ | _, [] => done ++ extra
  | S fuel, q :: t =>
    if is_ineq_row q && big M q then
      let k := shift_of M q in
      let more (b : bool) (extra : list pvec) := if b then match rounded F (map (outer k) (skipn 2 q)) with Some r => extra ++ [r] | None => extra end else extra in
      match rounded F (map (inner k) (skipn 2 q)) with
      | Some r => round_big fuel M F fallback combine (done ++ [r]) t (more combine extra)
      | None => round_big fuel M F fallback combine done (last_first t) (more (combine || fallback) (last_first extra))
      end
    else round_big fuel M F fallback combine (done ++ [q]) t extra
  end.
(** poly_approximate_1x (365-399); the status is not reset *)
Definition approximate_1x (M : nat) (fallback combine : bool) (po : poly) : poly :=
  let po := poly_chernikova po in
  match pC po, pF po with
  | Some C, Some F =>
    if existsb (fun q => is_ineq_row q && big M q) C
    then mkPoly (pint po) (preal po) (Some (round_big (length C) M F fallback combine [] C [] ++ [positivity (pdim po)])) false None false None None (pnbeq po) (pnbline po) (pconsgauss po) (pgengauss po)
    else po
  | _, _ => po
  end.
(** poly_approximate_n1 (40-72); a row has changed iff it is different *)
Definition row_eqb (a b : pvec) : bool := if list_eq_dec Z.eq_dec a b then true else false.
Definition approximate_n1 (po : poly) : poly :=
  if Nat.ltb 0 (pint po) then
    let po := poly_obtain_C po in
    match pC po with
    | None => po
    | Some C =>
      let C' := map (vector_normalize_constraint_int (pint po)) C in
      if forallb (fun p => row_eqb (fst p) (snd p)) (combine C C') then po
      else with_cons po (C' ++ [positivity (pdim po)])
    end
  else po.
(** pk_approximate (424-459); [M] is approximate_max_coeff_size *)
Definition pk_approximate (M : nat) (po : poly) (algorithm : Z) : poly :=
  match pC po, pF po with
  | None, None => po
  | _, _ =>
    if (algorithm =? -1)%Z then approximate_n1 po
    else if ((algorithm =? 1) || (algorithm =? 2) || (algorithm =? 3))%Z then (if Nat.ltb 0 M then approximate_123 M algorithm po else po)
    else if ((algorithm =? 10) || (algorithm =? 11) || (algorithm =? 12))%Z then
      (if Nat.ltb 0 M then approximate_1x M (algorithm =? 11)%Z (algorithm =? 12)%Z po else po)
    else po
  end.

(** * Facts *)
Lemma in_last_first : forall (A : Type) (t : list A) x, In x (last_first t) <-> In x t.
Proof. intros A t x. unfold last_first. destruct (rev t) as [|y r] eqn:E. - apply (f_equal (@rev A)) in E. rewrite rev_involutive in E. subst. simpl. tauto.
  - apply (f_equal (@rev A)) in E. rewrite rev_involutive in E. subst t. simpl. rewrite in_app_iff. simpl. tauto. Qed.
Lemma len_last_first : forall (A : Type) (t : list A), length (last_first t) = length t.
Proof. intros A t. unfold last_first. rewrite <- (rev_length t). destruct (rev t) as [|y r]; auto. simpl. rewrite rev_length. auto. Qed.
Definition toobig (M : nat) (q : pvec) : bool := is_ineq_row q && big M q.
Lemma drop_in : forall M fuel done rest r, (length rest <= fuel)%nat -> (In r (drop_big fuel M done rest) <-> In r done \/ (In r rest /\ toobig M r = false)).
Proof. induction fuel as [|fuel IH]; intros done rest r L.
  - destruct rest; [|simpl in L; lia]. simpl. tauto.
  - destruct rest as [|q t]; [simpl; tauto|]. simpl in L. change (drop_big (S fuel) M done (q :: t)) with (if toobig M q then drop_big fuel M done (last_first t) else drop_big fuel M (done ++ [q]) t).
    destruct (toobig M q) eqn:B; rewrite IH by (rewrite ?len_last_first; lia).
    + rewrite in_last_first. simpl. split; intros [H|H]; auto. * right. tauto. * destruct H as [[H|H] H']; [subst; congruence|]. auto.
    + rewrite in_app_iff. simpl. split; intros H. * destruct H as [[H|[H|[]]]|H]; subst; auto. right. tauto. * destruct H as [H|[[H|H] H']]; subst; auto. Qed.
Lemma pos_row1 : forall d x, row_holds (positivity d) x <-> 0 <= x 0%nat. Proof. intros d x. rewrite (row_dt (S d)) by apply len_pos. rewrite dt_pos1. simpl. tauto. Qed.
Lemma pos_hom : forall d x, row_holds (positivity d) (homog x). Proof. intros. apply pos_row1. simpl. lra. Qed.
Lemma with_cons_like : forall po' C i r, Forall (lenS (S (i + r))) C -> In (positivity (i + r)) C -> pint po' = i -> preal po' = r -> pC po' = Some C -> pF po' = None -> psatC po' = None -> psatF po' = None ->
  repr po' i r (fun x => cone C (homog x)).
Proof. intros po' C i r L I E1 E2 E3 E4 E5 E6. split; [split|]; [| |split; [|split]]; auto.
  - unfold swf. rewrite E3, E4. unfold pn, pdim. rewrite E1, E2. auto.
  - right. split; [|congruence]. intros x H. rewrite (cK_C _ _ E3) in H. rewrite cone_in in H. specialize (H _ I). apply pos_row1 in H. auto.
  - intros x. unfold gamma. rewrite (cK_C _ _ E3). tauto. Qed.
Lemma repr_dim : forall po i r P, repr po i r P -> pdim po = (i + r)%nat /\ pn po = S (i + r). Proof. intros po i r P (_ & A & B & _). unfold pn, pdim. subst. auto. Qed.
Lemma repr_C : forall po i r (P : vec -> Prop) C, repr po i r P -> pC po = Some C -> Forall (lenS (S (i + r))) C /\ forall x, cone C (homog x) <-> P x.
Proof. intros po i r P C R E. destruct (repr_dim _ _ _ _ R) as [_ N]. split. - rewrite <- N. apply swf_C; auto. apply R. - intros x. rewrite <- (cK_C _ _ E). apply R. Qed.
Theorem approximate_1_spec : forall M po i r (P : vec -> Prop), repr po i r P -> let '(change, pa, po1) := approximate_1 M po in
  repr po1 i r P /\ (change = false -> pa = po1) /\
  (change = true -> exists C C', pC po1 = Some C /\ pC pa = Some C' /\ Forall (lenS (S (i + r))) C' /\ In (positivity (i + r)) C' /\ repr pa i r (fun x => cone C' (homog x)) /\
     (forall q, In q C' <-> q = positivity (i + r) \/ (In q C /\ toobig M q = false))) .
Proof. intros M po i r P R. unfold approximate_1. destruct (obtain_C_repr po i r P R) as (R1 & _ & _). set (po1 := poly_obtain_C po) in *.
  destruct (pC po1) as [C|] eqn:E. 2: { split; auto. split; auto. discriminate. }
  destruct (existsb _ C). 2: { split; auto. split; auto. discriminate. }
  split; auto. split; [discriminate|]. intros _. exists C, (drop_big (length C) M [] C ++ [positivity (pdim po1)]). destruct (repr_dim _ _ _ _ R1) as [D N]. rewrite D. destruct (repr_C _ _ _ _ _ R1 E) as [L _].
  assert (I : forall q, In q (drop_big (length C) M [] C ++ [positivity (i + r)]) <-> q = positivity (i + r) \/ (In q C /\ toobig M q = false)). { intros q. rewrite in_app_iff, drop_in by auto. simpl. assert (SY : positivity (i + r) = q <-> q = positivity (i + r)) by (split; auto). tauto. }
  set (C' := drop_big (length C) M [] C ++ [positivity (i + r)]) in *.
  assert (L' : Forall (lenS (S (i + r))) C'). { apply Forall_forall. intros q Q. apply I in Q. destruct Q as [-> |[Q _]]. apply len_pos. rewrite Forall_forall in L. auto. }
  assert (I' : In (positivity (i + r)) C') by (apply I; auto).
  split; auto. split; [reflexivity|]. split; auto. split; auto. split; auto. apply with_cons_like; auto; apply R1. Qed.
Lemma cone_incl : forall C D x, (forall q, In q C -> In q D) -> cone D x -> cone C x. Proof. intros C D x H. rewrite !cone_in. auto. Qed.
(** algorithm 1 *)
Theorem approx1_repr : forall M po i r (P : vec -> Prop), repr po i r P -> exists Q, repr (approximate_123 M 1 po) i r Q /\ (forall x, P x -> Q x) /\
  (forall C, (0 < M)%nat -> pC (approximate_123 M 1 po) = Some C -> Forall (fun q => toobig M q = false) C) .
Proof. intros M po i r P R. unfold approximate_123. assert (H := approximate_1_spec M po i r P R). assert (NB : forall C, (0 < M)%nat -> pC (snd (fst (approximate_1 M po))) = Some C -> Forall (fun q => toobig M q = false) C).
  { clear H. intros C HM. unfold approximate_1. destruct (pC (poly_obtain_C po)) as [C0|] eqn:E; simpl; [|rewrite E; discriminate]. destruct (existsb _ C0) eqn:X; simpl.
    - intros [= <-]. apply Forall_forall. intros q. rewrite in_app_iff, drop_in by auto. simpl. intros [[[]|[_ Q]]|[<-|[]]]; auto. unfold toobig, positivity, big. simpl. rewrite <- not_true_iff_false. rewrite existsb_exists. intros (z & Z1 & Z2). apply repeat_spec in Z1. subst. unfold size2 in Z2. simpl in Z2. apply Nat.ltb_lt in Z2. lia.
    - rewrite E. intros [= <-]. apply Forall_forall. intros q Q. unfold toobig. rewrite <- not_true_iff_false. intros Y. rewrite <- not_true_iff_false in X. apply X. apply existsb_exists. eauto. }
  destruct (approximate_1 M po) as [[change pa] po1]. cbn [fst snd] in NB. change (1 =? 1)%Z with true. cbv iota. destruct H as (R1 & N & Y). destruct change.
  - destruct (Y eq_refl) as (C & C' & E & E' & L & I & R' & S). exists (fun x => cone C' (homog x)). split; auto. split; auto. intros x X. apply (repr_C _ _ _ _ _ R1 E) in X. apply cone_in. rewrite cone_in in X. intros q Q. apply S in Q. destruct Q as [-> |[Q _]]; auto. apply pos_hom.
  - rewrite N in * by auto. exists P. auto. Qed.

(** rows which hold at every point *)
Lemma in_bound_row : forall dim d m b r, In r (bound_row dim d m b) -> exists q, b = Fin q /\ vector_set_dim_bound m 0 dim d q = Some r.
Proof. intros dim d m b r H. unfold bound_row in H. destruct b; try (destruct H; fail). destruct (vector_set_dim_bound m 0 dim d q) eqn:E; [|destruct H]. destruct H as [<-|[]]. eauto. Qed.
Lemma itv_rows_spec : forall po i r (P : vec -> Prop) F, repr po i r P -> pF po = Some F -> Forall (lenS (S (i + r))) (itv_rows (i + r) F) /\
  (forall x, P x -> cone (itv_rows (i + r) F) (homog x)) /\
  (forall x d, (d < i + r)%nat -> cone (itv_rows (i + r) F) (homog x) -> exists y, P y /\ y d = x d).
Proof. intros po i r P F R E.
  assert (A : forall q, In q (itv_rows (i + r) F) -> lenS (S (i + r)) q /\ forall x, P x -> row_holds q (homog x)).
  { intros q Q. unfold itv_rows in Q. apply in_flat_map in Q. destruct Q as (d & Hd & Q). apply in_seq in Hd. assert (HB := box_spec po i r P F d R E ltac:(lia)). apply in_app_or in Q.
    destruct Q as [Q|Q]; apply in_bound_row in Q; destruct Q as (b & B1 & B2).
    - destruct (low_row 0 (i + r) d b ltac:(lia)) as (q' & E1 & L & H). rewrite E1 in B2. injection B2 as <-. split; auto. intros x X. apply H. assert (IN : in_itv (x d) (matrix_bound_dimension d F)) by (apply HB; eauto). unfold in_itv in IN. rewrite B1 in IN. simpl in IN. tauto.
    - destruct (up_row 0 (i + r) d b ltac:(lia)) as (q' & E1 & L & H). rewrite E1 in B2. injection B2 as <-. split; auto. intros x X. apply H; [|lia]. assert (IN : in_itv (x d) (matrix_bound_dimension d F)) by (apply HB; eauto). unfold in_itv in IN. rewrite B1 in IN. simpl in IN. tauto. }
  split. { apply Forall_forall. intros q Q. apply A; auto. } split. { intros x X. apply cone_in. intros q Q. apply A; auto. }
  intros x d D H. assert (HB := box_spec po i r P F d R E D). apply HB.
  assert (NE : exists z, P z). { destruct R as ((SW & [PO|PO]) & R1 & R2 & R3). - unfold isbot in PO. rewrite E in PO. destruct (pC po); discriminate. - destruct PO as [_ PO]. destruct PO as (z & Z1 & Z2); [congruence|]. destruct (gamma_pos po SW) as [_ G]. destruct G as [y Y]; eauto. exists y. apply R3. auto. }
  destruct NE as [z Z]. assert (IN : in_itv (z d) (matrix_bound_dimension d F)) by (apply HB; eauto). rewrite cone_in in H.
  assert (SEQ : In d (seq 0 (i + r))) by (apply in_seq; lia).
  assert (SUB : forall q, In q (bound_row (i + r) d Lt (inf (matrix_bound_dimension d F))) \/ In q (bound_row (i + r) d Gt (sup (matrix_bound_dimension d F))) -> row_holds q (homog x)). { intros q Q. apply H. unfold itv_rows. apply in_flat_map. exists d. split; auto. apply in_or_app. auto. }
  clear H. unfold in_itv in *. destruct IN as [I1 I2]. split.
  - destruct (inf (matrix_bound_dimension d F)) as [|b|]; [exact I1| |exact I]. simpl le_rb. destruct (low_row 0 (i + r) d b D) as (q' & E1 & L & H). unfold bound_row in SUB. rewrite E1 in SUB. apply (H x). apply SUB. left. simpl. auto.
  - destruct (sup (matrix_bound_dimension d F)) as [|b|]; [exact I2| |exact I]. simpl le_rb. destruct (up_row 0 (i + r) d b D) as (q' & E1 & L & H). unfold bound_row in SUB. rewrite E1 in SUB. apply (H x). apply SUB. right. simpl. auto. Qed.
(** algorithm 2 *)
Theorem approx2_repr : forall M po i r (P : vec -> Prop), repr po i r P -> exists Q, repr (approximate_123 M 2 po) i r Q /\ (forall x, P x -> Q x) /\
  (forall x d, (d < i + r)%nat -> Q x -> exists y, P y /\ y d = x d).
Proof. intros M po i r P R. unfold approximate_123. assert (H := approximate_1_spec M po i r P R). destruct (approximate_1 M po) as [[change pa] po1]. change (2 =? 1)%Z with false. change (3 <=? 2)%Z with false. cbv iota. destruct H as (R1 & N & Y). destruct change; cbn [negb]. 2: { exists P. split; auto. split; eauto. }
  destruct (Y eq_refl) as (C & C' & E & E' & L & I & R' & S). destruct (obtain_F_repr po1 i r P R1) as (R2 & _ & B2). set (po2 := poly_obtain_F po1) in *. rewrite E'.
  destruct (pF po2) as [F|] eqn:EF.
  - destruct (itv_rows_spec po2 i r P F R2 EF) as (RL & RS & RB). destruct (repr_dim _ _ _ _ R2) as [D _]. rewrite D, app_nil_r. exists (fun x => cone (C' ++ itv_rows (i + r) F) (homog x)). split; [|split].
    + apply with_cons_like; auto. * apply Forall_app. auto. * apply in_or_app. auto. * apply R'. * apply R'.
    + intros x X. apply cone_app. split; auto. apply cone_in. intros q Q. apply S in Q. destruct Q as [-> |[Q _]]; [apply pos_hom|]. apply (repr_C _ _ _ _ _ R1 E) in X. rewrite cone_in in X. auto.
    + intros x d Hd X. apply cone_app in X. apply RB; tauto.
  - assert (B := B2 eq_refl). assert (PC : pC po2 = None). { unfold isbot in B. destruct (pC po2); auto. destruct (pF po2); discriminate. } rewrite PC.
    assert (NO : forall x, ~ P x). { intros x X. apply R2 in X. unfold gamma, cK in X. rewrite PC, EF in X. auto. }
    exists P. split; [|split]; auto. 2: { intros x d _ X. destruct (NO x X). }
    destruct R2 as (W2 & R21 & R22 & R23). split; [split|split; [|split]]; auto. + unfold swf. simpl. auto. + left. auto. + intros x. split; intros X; [destruct X|destruct (NO x X)]. Qed.
(** the rounded constraints *)
Lemma rounded_spec : forall po i r (P : vec -> Prop) F t q, repr po i r P -> pF po = Some F -> length t = (i + r)%nat -> rounded F t = Some q -> lenS (S (i + r)) q /\ forall x, P x -> row_holds q (homog x).
Proof. intros po i r P F t q R E LT H. unfold rounded in H. set (v := 1%Z :: 0%Z :: t) in *. assert (LV : lenS (S (i + r)) v) by (unfold lenS, v; simpl; lia). destruct (repr_dim _ _ _ _ R) as [_ N].
  assert (LF : Forall (lenS (S (i + r))) F) by (rewrite <- N; apply swf_F; auto; apply R). assert (FP := repr_fpos _ _ _ _ _ R E).
  set (phi := fun x => dt (S (i + r)) (rv (tl v)) x).
  assert (PH : forall f, In f F -> phi (rv (tl f)) = IZR (vector_product f v)). { intros f Hf. unfold phi. symmetry. apply prod_dtn; auto. rewrite Forall_forall in LF. auto. }
  destruct (bound_loop_spec phi (fun f => vector_product f v) F [] MInf MInf PH FP (hi_nil phi) (hi_nil (fopp phi))) as (_ & (U0 & _)). assert (U : ub (fopp phi) F (inf (matrix_bound_vector v F))) by exact U0. clear U0.
  destruct (inf (matrix_bound_vector v F)) as [|a|] eqn:EB; try discriminate. cbv zeta in H. set (m := (- a)%Q) in *. assert (HQ : q = vector_normalize (1%Z :: (- (rnum m / rden m))%Z :: t)) by congruence. clear H. subst q.
  assert (L1 : lenS (S (i + r)) (1%Z :: (- (rnum m / rden m))%Z :: t)) by (unfold lenS; simpl; lia). split. { exact (proj1 (norm_row _ _ L1)). }
  intros x X. apply (row_rval (i + r)); [exact (proj1 (norm_row _ _ L1))|]. destruct (norm_row _ _ L1) as (_ & Z0 & _). rewrite Z0. simpl (zn 0 _). change (1 =? 0)%Z with false. cbv iota.
  destruct (rval_norm (i + r) _ L1) as (k & K & RV). rewrite RV. apply Rmult_le_pos; [lra|].
  assert (FL : flin (S (i + r)) phi). { split. - intros c y b z. unfold phi. apply dt_lin. - intros y z V. unfold phi. apply dt_ext. auto. }
  assert (G : generated (S (i + r)) F (homog x)). { rewrite <- N. apply (cK_F po F); auto. apply R. apply R. auto. }
  assert (UB := ub_le (S (i + r)) (fopp phi) F (Fin a) x ltac:(lia) (flin_opp _ _ FL) U FP G). simpl in UB. unfold fopp, phi in UB. rewrite <- rval_dt in UB. unfold v in UB. rewrite rval_cons in *.
  destruct (floor_R (rnum m) (rden m) (rden_pos m)) as [F1 _]. rewrite <- rat_R in F1. assert (QM : Q2R m = - Q2R a) by (unfold m; apply Q2R_opp). rewrite QM in F1. rewrite opp_IZR. lra. Qed.

Lemma len_skip2 : forall n (q : pvec), lenS (S n) q -> length (skipn 2 q) = n. Proof. intros n q L. destruct (skip2 n q L) as (a & b & t & -> & E). auto. Qed.
Lemma round_spec : forall po i r (P : vec -> Prop) F M fb cb, repr po i r P -> pF po = Some F -> forall fuel done rest extra,
  let good q := lenS (S (i + r)) q /\ forall x, P x -> row_holds q (homog x) in
  (forall q, In q done \/ In q rest \/ In q extra -> good q) -> forall q, In q (round_big fuel M F fb cb done rest extra) -> good q.
Proof. intros po i r P F M fb cb R E. induction fuel as [|fuel IH]; intros done rest extra good G q Q.
  - simpl in Q. apply in_app_or in Q. apply G. tauto.
  - destruct rest as [|p t]. { simpl in Q. apply in_app_or in Q. apply G. tauto. }
    cbn [round_big] in Q. assert (GP : good p) by (apply G; simpl; auto). assert (LP : length (skipn 2 p) = (i + r)%nat) by (apply len_skip2; apply GP).
    assert (RO : forall (f : Z -> Z) w, rounded F (map f (skipn 2 p)) = Some w -> good w). { intros f w. apply rounded_spec with (po := po); auto. rewrite map_length. auto. }
    assert (MORE : forall (b : bool) ex, (forall q, In q ex -> good q) -> forall q, In q (if b then match rounded F (map (outer (shift_of M p)) (skipn 2 p)) with Some r => ex ++ [r] | None => ex end else ex) -> good q).
    { intros b ex HX w. destruct b; auto. destruct (rounded F (map (outer (shift_of M p)) (skipn 2 p))) eqn:RE; auto. rewrite in_app_iff. simpl. intros [W|[<-|[]]]; [auto|exact (RO _ _ RE)]. }
    destruct (is_ineq_row p && big M p).
    + destruct (rounded F (map (inner (shift_of M p)) (skipn 2 p))) as [w|] eqn:RE; revert q Q; apply IH; intros q [Q|[Q|Q]].
      * apply in_app_or in Q. destruct Q as [Q|[<-|[]]]; [apply G; auto|exact (RO _ _ RE)].
      * apply G. simpl. auto.
      * revert q Q. apply MORE. intros w0 W0. apply G. right. right. exact W0.
      * apply G. auto.
      * apply (proj1 (in_last_first _ _ _)) in Q. apply G. right. left. right. exact Q.
      * revert q Q. apply MORE. intros w W. apply (proj1 (in_last_first _ _ _)) in W. apply G. right. right. exact W.
    + revert q Q. apply IH. intros q [Q|[Q|Q]]. * apply in_app_or in Q. destruct Q as [Q|[<-|[]]]; [apply G; auto|exact GP]. * apply G. simpl. auto. * apply G. auto. Qed.
(** algorithms 10, 11, 12 *)
Theorem approx1x_repr : forall M fb cb po i r (P : vec -> Prop), repr po i r P -> exists Q, repr (approximate_1x M fb cb po) i r Q /\ forall x, P x -> Q x.
Proof. intros M fb cb po i r P R. unfold approximate_1x. destruct (chern_repr po i r P R) as (R1 & _ & _). set (po1 := poly_chernikova po) in *.
  destruct (pC po1) as [C|] eqn:EC; [|exists P; auto]. destruct (pF po1) as [F|] eqn:EF; [|exists P; auto]. destruct (existsb _ C); [|exists P; auto].
  destruct (repr_dim _ _ _ _ R1) as [D _]. rewrite D. destruct (repr_C _ _ _ _ _ R1 EC) as [LC HC].
  assert (G := round_spec po1 i r P F M fb cb R1 EF (length C) [] C []). cbv zeta in G.
  assert (G0 : forall q, In q (round_big (length C) M F fb cb [] C []) -> lenS (S (i + r)) q /\ forall x, P x -> row_holds q (homog x)).
  { apply G. intros q [[]|[Q|[]]]. rewrite Forall_forall in LC. split; auto. intros x X. apply HC in X. rewrite cone_in in X. auto. }
  exists (fun x => cone (round_big (length C) M F fb cb [] C [] ++ [positivity (i + r)]) (homog x)). split.
  - apply with_cons_like; auto; try apply R1. + apply Forall_app. split; [|constructor; auto; apply len_pos]. apply Forall_forall. intros q Q. apply G0. auto. + apply in_or_app. simpl. auto.
  - intros x X. apply cone_app. split; [|constructor; auto; apply pos_hom]. apply cone_in. intros q Q. apply G0; auto. Qed.
(** algorithm -1 *)
Theorem approxn1_repr : forall po i r (P : vec -> Prop), repr po i r P -> exists Q, repr (approximate_n1 po) i r Q /\ (forall x, Q x -> P x) /\ forall x, int_point i x -> P x -> Q x.
Proof. intros po i r P R. unfold approximate_n1. destruct (Nat.ltb 0 (pint po)); [|exists P; auto]. destruct (obtain_C_repr po i r P R) as (R1 & _ & _). set (po1 := poly_obtain_C po) in *.
  destruct (pC po1) as [C|] eqn:EC; [|exists P; auto]. destruct (forallb _ _); [exists P; auto|]. destruct (repr_dim _ _ _ _ R1) as [D _]. rewrite D. assert (I1 : pint po1 = i) by apply R1. rewrite I1. destruct (repr_C _ _ _ _ _ R1 EC) as [LC HC]. rewrite Forall_forall in LC.
  exists (fun x => cone (map (vector_normalize_constraint_int i) C ++ [positivity (i + r)]) (homog x)). split; [|split].
  - apply with_cons_like; auto; try apply R1. + apply Forall_app. split; [|constructor; auto; apply len_pos]. apply Forall_forall. intros q Q. apply in_map_iff in Q. destruct Q as (p & <- & Q). apply (norm_int_spec i (i + r)); auto. + apply in_or_app. simpl. auto.
  - intros x X. apply cone_app in X. destruct X as [X _]. rewrite cone_in in X. apply HC. apply cone_in. intros q Q. apply (norm_int_spec i (i + r) q (LC q Q)). apply X. apply in_map. auto.
  - intros x IP X. apply HC in X. rewrite cone_in in X. apply cone_app. split; [|constructor; auto; apply pos_hom]. apply cone_in. intros q Q. apply in_map_iff in Q. destruct Q as (p & <- & Q). apply (norm_int_spec i (i + r) p (LC p Q)); auto. Qed.

(** * Sizes *)
Lemma size2_le : forall M x, (0 < M)%nat -> ((size2 x <= M)%nat <-> (Z.abs x < 2 ^ Z.of_nat M)%Z).
Proof. intros M x HM. unfold size2. destruct (Z.eqb_spec x 0) as [->|N]. - simpl. split; intros; [|lia]. apply Z.pow_pos_nonneg; lia.
  - assert (L := Z.log2_lt_pow2 (Z.abs x) (Z.of_nat M) ltac:(lia)). assert (P := Z.log2_nonneg (Z.abs x)). split; intros H; [apply L; lia|apply L in H; lia]. Qed.
Definition small (M : nat) (q : pvec) : Prop := forall z, In z (skipn 2 q) -> (Z.abs z < 2 ^ Z.of_nat M)%Z.
Lemma big_small : forall M q, (0 < M)%nat -> (big M q = false <-> small M q).
Proof. intros M q HM. unfold big, small. rewrite <- not_true_iff_false, existsb_exists. split.
  - intros H z Z. apply size2_le; auto. apply Nat.nlt_ge. intros L. apply H. exists z. split; auto. apply Nat.ltb_lt. auto.
  - intros H (z & Z & L). apply Nat.ltb_lt in L. apply H in Z. apply size2_le in Z; auto. lia. Qed.
Lemma norm_small : forall M s c t, small M (s :: c :: t) -> small M (vector_normalize (s :: c :: t)).
Proof. intros M s c t H. destruct (normalize_spec s (c :: t)) as (g & G & t' & E & L & N). rewrite E. destruct t' as [|c' t']; [simpl in L; lia|]. intros z Z. simpl in *. apply (In_nth _ _ 0%Z) in Z. destruct Z as (j & J & <-).
  assert (Nj := N (S j)). simpl in Nj. assert (I : In (nth j t 0%Z) t) by (apply nth_In; lia). specialize (H _ I). rewrite Nj, Z.abs_mul in H. nia. Qed.
Lemma max_size : forall l z, In z l -> (size2 z <= fold_right (fun x a => Nat.max (size2 x) a) 0 l)%nat. Proof. induction l as [|a l IH]; intros z [].  subst. simpl. lia. specialize (IH z H). simpl. lia. Qed.
Lemma inner_small : forall M q s c, (0 < M)%nat -> small M (s :: c :: map (inner (shift_of M q)) (skipn 2 q)).
Proof. intros M q s c HM z Z. simpl in Z. apply in_map_iff in Z. destruct Z as (x & <- & X). unfold inner, shift_of. apply max_size in X. set (m := fold_right _ 0%nat _) in *. set (k := (m - M)%nat).
  assert (A : (Z.abs x < 2 ^ Z.of_nat (M + k))%Z) by (apply size2_le; lia). rewrite Nat2Z.inj_add, Z.pow_add_r in A by lia. assert (P : (0 < 2 ^ Z.of_nat k)%Z) by (apply Z.pow_pos_nonneg; lia).
  rewrite <- Z.quot_abs by lia. rewrite (Z.abs_eq (2 ^ Z.of_nat k)) by lia. rewrite Z.quot_div_nonneg by lia. apply Z.div_lt_upper_bound; lia. Qed.
Lemma round_small : forall M F, (0 < M)%nat -> forall fuel done rest, (length rest <= fuel)%nat -> (forall q, In q done -> zn 0 q <> 0%Z -> small M q) -> forall q, In q (round_big fuel M F false false done rest []) -> zn 0 q <> 0%Z -> small M q.
Proof. intros M F HM. induction fuel as [|fuel IH]; intros done rest L D q.
  - destruct rest; [|simpl in L; lia]. simpl. rewrite app_nil_r. auto.
  - destruct rest as [|p t]. { simpl. rewrite app_nil_r. auto. } simpl in L. cbn [round_big]. destruct (is_ineq_row p && big M p) eqn:B.
    + destruct (rounded F (map (inner (shift_of M p)) (skipn 2 p))) as [w|] eqn:RE.
      * apply IH; [lia|]. intros q0 Q. apply in_app_or in Q. destruct Q as [Q|[<-|[]]]; auto. intros _. unfold rounded in RE. destruct (inf _); try discriminate. injection RE as <-. apply norm_small. apply inner_small. auto.
      * apply IH; auto. rewrite len_last_first. lia.
    + apply IH; [lia|]. intros q0 Q. apply in_app_or in Q. destruct Q as [Q|[<-|[]]]; auto. intros Z. apply big_small; auto. unfold is_ineq_row in B. destruct (Z.eqb_spec (zn 0 p) 0); [contradiction|]. simpl in B. auto. Qed.
Lemma toobig_small : forall M q, (0 < M)%nat -> (toobig M q = false <-> (zn 0 q <> 0%Z -> small M q)).
Proof. intros M q HM. unfold toobig, is_ineq_row. rewrite <- big_small by auto. destruct (Z.eqb_spec (zn 0 q) 0) as [E|E]; simpl; intuition. Qed.
Theorem approx1x_small : forall M po C, (0 < M)%nat -> pC (approximate_1x M false false po) = Some C -> isbot (poly_chernikova po) = true \/ minimal2 (poly_chernikova po) = true -> forall q, In q C -> zn 0 q <> 0%Z -> small M q.
Proof. intros M po C HM E MIN. unfold approximate_1x in E. set (po1 := poly_chernikova po) in *. destruct (pC po1) as [C0|] eqn:EC; [|congruence]. destruct (pF po1) as [F|] eqn:EF.
  2: { exfalso. unfold isbot, minimal2 in MIN. rewrite EC, EF in MIN. destruct MIN as [MIN|MIN]; discriminate. }
  destruct (existsb _ C0) eqn:X; simpl in E.
  - injection E as <-. intros q Q. apply in_app_or in Q. destruct Q as [Q|[<-|[]]].
    + revert q Q. apply round_small; auto. intros q [].
    + intros _ z Z. simpl in Z. apply repeat_spec in Z. subst. simpl. apply Z.pow_pos_nonneg; lia.
  - rewrite EC in E. injection E as <-. intros q Q. apply toobig_small; auto. unfold toobig. rewrite <- not_true_iff_false. intros Y. rewrite <- not_true_iff_false in X. apply X. apply existsb_exists. eauto. Qed.

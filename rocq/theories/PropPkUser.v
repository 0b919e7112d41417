(** Properties C72 (polyhedra from constraints, rays and boxes), C75 (bounds), C77 (satisfaction tests).

    The constraints, expressions and generators are those of the user (Linexpr.v), with their meaning on real
    points given there: [expr_val] gives the possible values of an expression at a point, [sat_cons] says that
    some choice of the interval coefficients satisfies the constraint, [sat_all] that each choice does. *)
From Coq Require Import ZArith QArith Qreals Bool List Lia Reals Lra.
Import ListNotations.
From Verif Require Import Bound BoundFacts Itv ItvFacts Linexpr LinexprFacts ItvLin ItvLinFacts ItvLinCons ItvLinInt ItvLinExact ItvLinApi PkCone PkVec PkCherni PkSpec PkMinimize PkPoly PkPolyFacts PkPolyLeq PkPolyMeet PkPolyTop PkLin PkOps PkRepr PkProj PkUser PkUserRow PkUserCons PkUserBound PkUserMeet PkUserGen PkUserSat PropPkPoly PropPkAssign.
Open Scope R_scope.

(** well formed user data over [n] dimensions: finite scalars, dimensions below [n], each at most once, empty
    slots of sparse expressions at the end; the modulus of a congruence is not zero *)
Definition cons_ok (n : nat) (c : lincons) : Prop := user_wf n c /\ mod_nz c.
(** scalar coefficients, a possible constant; equality or large inequality *)
Definition large (c : lincons) : Prop := lc_typ c = CEq \/ lc_typ c = CSupEq.

Ltac ok_sparse := split; [|intros ?; discriminate]; split; [split; simpl; auto; split; [repeat constructor; simpl; auto; try discriminate|split; [repeat constructor; simpl; intuition discriminate|unfold pdim; simpl; intuition lia]]
  |simpl; match goal with |- exists _ _, ?ts = _ /\ _ => exists ts, [] end; split; [rewrite app_nil_r; auto|split; [repeat constructor; simpl; discriminate|constructor]]].

(** * C72: meet with linear constraints *)
(** The result is between the points of the argument which satisfy the constraints (with integer values on the integer
    dimensions) and the points of the argument. *)
Theorem C72_meet_lincons : forall lazy destr pa l, wfp pa -> Forall (cons_ok (pdim pa)) l ->
  exists po pa' ex, pk_meet_lincons_array lazy destr pa l = Some (po, pa', ex) /\ wfp po /\ same_dims po pa /\ (destr = false -> unchanged pa pa') /\
    (forall x, points po x -> points pa x) /\ (forall x, points pa x -> int_point (pint pa) x -> Forall (fun c => sat_cons c x) l -> points po x) /\
    (Forall (fun c => scalar_cons c /\ (pint pa = 0%nat \/ lc_typ c <> CEq)) l -> forall x, points po x -> Forall (fun c => relaxed_cons c x) l).
Proof.
  intros lazy destr pa l W OK. destruct (meet_lincons_spec lazy destr pa l _ _ _ (repr_self pa W)) as (po & pa' & ex & Q & E & (W' & D1 & D2 & G) & (Q1 & Q2 & Q3) & R & _).
  eapply Forall_impl; [|exact OK]. intros c H. apply H. eapply Forall_impl; [|exact OK]. intros c H. apply H.
  exists po, pa', ex. split; auto. split; auto. split. split; auto. split. intros D. apply repr_unch; auto. assert (GQ : forall x, points po x <-> Q x) by (intros x; rewrite points_gamma; apply G).
  split. intros x X. apply Q1. apply GQ; auto. split. intros x X I S. apply GQ. auto. intros S x X. apply Q3; auto. apply GQ; auto.
Qed.
Print Assumptions C72_meet_lincons.
(** real dimensions, scalar coefficients, equalities and large inequalities: exact *)
Theorem C72_meet_lincons_exact : forall lazy destr pa l, wfp pa -> pint pa = 0%nat -> Forall (cons_ok (pdim pa)) l -> Forall (fun c => scalar_cons c /\ large c) l ->
  exists po pa' ex, pk_meet_lincons_array lazy destr pa l = Some (po, pa', ex) /\ result pa po (fun x => points pa x /\ Forall (fun c => sat_cons c x) l) /\ (destr = false -> unchanged pa pa').
Proof.
  intros lazy destr pa l W I OK S. destruct (C72_meet_lincons lazy destr pa l W OK) as (po & pa' & ex & E & W' & D & U & P1 & P2 & P3). exists po, pa', ex. split; auto. split; auto. split; auto. split; auto. intros x. split.
  - intros X. split; auto. assert (F : Forall (fun c => relaxed_cons c x) l). { apply P3; auto. eapply Forall_impl; [|exact S]. simpl. tauto. }
    rewrite Forall_forall in *. intros c C. destruct (F c C) as (r & A & B). exists r. split; auto. destruct (S c C) as (_ & [L|L]); rewrite L in *; auto.
  - intros (X & F). apply P2; auto. rewrite I. intros d D0; lia.
Qed.
Print Assumptions C72_meet_lincons_exact.
(** The flag: real dimensions, scalar coefficients and constants.  A disequality or a congruence on an expression
    which is not constant has no row, and the result is then never reported exact, unless it is empty. *)
Definition not_constant (e : linexpr) : Prop := exists x y a b, expr_val e x a /\ expr_val e y b /\ a <> b.
Theorem C72_flag_exact : forall lazy destr pa l po pa' c, wfp pa -> pint pa = 0%nat -> Forall (fun c => cons_ok (pdim pa) c /\ scalar_terms (lc_expr c) /\ is_scal (le_cst (lc_expr c)) = true) l ->
  In c l -> lc_typ c = CDisEq \/ lc_typ c = CEqMod -> not_constant (lc_expr c) -> pk_meet_lincons_array lazy destr pa l = Some (po, pa', true) -> forall x, ~ points po x.
Proof.
  intros lazy destr pa l po pa' c W I0 F C T (x1 & y1 & a1 & b1 & A1 & B1 & NE) E x X. rewrite Forall_forall in F. destruct (meet_lincons_spec lazy destr pa l _ _ _ (repr_self pa W)) as (po2 & pa2 & ex & Q & E2 & (_ & _ & _ & G) & _ & _ & H).
  { apply Forall_forall. intros d D. apply (F d D). } { apply Forall_forall. intros d D. apply (F d D). }
  rewrite E in E2. injection E2 as <- <- <-. apply (H I0 eq_refl) with (x := x). 3: apply G; apply points_gamma; auto.
  - apply forallb_forall. intros d D. apply in_map_iff in D. destruct D as (d0 & <- & D). destruct (F d0 D) as ((U & _) & S & _). apply qlc_quasi. unfold qlc. cbn [icons_of_lincons ic_expr]. unfold ilin_of_linexpr. destruct (itv_set_coeff (N:=exact_num) (le_cst (lc_expr d0))) as [i0 ex0].
    pose proof (set_terms_scal (foreach (le_terms (lc_expr d0)))) as ST. destruct (set_terms (N:=exact_num) (foreach (le_terms (lc_expr d0)))) as [ts res]. simpl in *. apply ST. destruct U as ((_ & WT) & _). apply foreach_wf in WT. unfold scalar_terms in S. rewrite Forall_forall in *. intros p P. split; auto. apply WT; auto.
  - apply Exists_exists. exists (icons_of_lincons (N:=exact_num) c). split. apply in_map; auto. destruct (F c C) as (((WL & HL) & _) & _ & SC). split. exact T.
    assert (K : ival (fst (ilin_of_linexpr (N:=exact_num) (lc_expr c))) x1 a1 /\ ival (fst (ilin_of_linexpr (N:=exact_num) (lc_expr c))) y1 b1). { split; apply (ilin_of_linexpr_exact (pdim pa)); auto. }
    simpl. revert K. unfold ilin_of_linexpr. destruct WL as (WC & _). destruct (le_cst (lc_expr c)) as [[|q|]|]; try (simpl in *; tauto); try discriminate. cbn [itv_set_coeff]. assert (BE : bexact (N:=exact_num) (Fin q) = true) by (unfold bexact; simpl; apply Qeq_bool_iff; reflexivity). rewrite BE. destruct (set_terms (N:=exact_num) (foreach (le_terms (lc_expr c)))) as [ts res]. simpl. intros (K1 & K2). split; [|auto].
    intros ->. apply ival_nil in K1. apply ival_nil in K2. destruct K1 as (P1 & P2), K2 as (P3 & P4). simpl in *. rewrite ?Q2R_opp in *. apply NE. lra.
Qed.
Print Assumptions C72_flag_exact.
(** x <> 0 in the plane: not reported exact *)
Example flag_exact_ex : exists po pa', pk_meet_lincons_array true false (poly_top 0 1) [mkCons CDisEq (mkLin (Scal (Fin 0)) (Sparse [(Some 0%nat, Scal (Fin 1))])) None] = Some (po, pa', false).
Proof. eexists _, _. vm_compute. reflexivity. Qed.
(** a strict inequality is replaced by the large one, and the result is reported exact *)
Theorem C72_strict_exact_refuted : exists pa l po pa' x, wfp pa /\ pint pa = 0%nat /\ Forall (cons_ok (pdim pa)) l /\ pk_meet_lincons_array true false pa l = Some (po, pa', true) /\ points po x /\ ~ Forall (fun c => sat_cons c x) l.
Proof.
  set (c := mkCons CSup (mkLin (Scal (Fin 0)) (Sparse [(Some 0%nat, Scal (Fin 1))])) None).
  exists (poly_top 0 1), [c]. eexists _, _, (fun _ => 0). split. apply C68_top. split. reflexivity. split. { constructor; auto. ok_sparse. }
  split. vm_compute. reflexivity. split. { unfold points. cbn [pC]. unfold poly_con, cone. rewrite !Forall_cons_iff. unfold row_holds. simpl. unfold homog. simpl. repeat split; try lra. constructor. }
  intros F. apply Forall_inv in F. destruct F as (r & (c0 & r1 & C0 & (cs & C1 & ->) & ->) & S). simpl in *. unfold Q2R in *; simpl in *. destruct cs as [|k [|]]; simpl in S; lra.
Qed.
Print Assumptions C72_strict_exact_refuted.
(** an integer dimension: 2x = 1 gives x = 1, reported exact *)
Theorem C72_integer_equality_refuted : exists pa l po pa' x, wfp pa /\ Forall (cons_ok (pdim pa)) l /\ Forall (fun c => scalar_cons c /\ large c) l /\ pk_meet_lincons_array true false pa l = Some (po, pa', true) /\ points po x /\ int_point (pint pa) x /\ ~ Forall (fun c => sat_cons c x) l.
Proof.
  set (c := mkCons CEq (mkLin (Scal (Fin (-1))) (Sparse [(Some 0%nat, Scal (Fin 2))])) None).
  exists (poly_top 1 0), [c]. eexists _, _, (fun _ => 1). split. apply C68_top. split. { constructor; auto. ok_sparse. }
  split. { constructor; auto. split. split. left; auto. split. repeat constructor. exists (-1). simpl. unfold Q2R; simpl; lra. left; auto. }
  split. vm_compute. reflexivity. split. { unfold points. cbn [pC]. unfold poly_con, cone. rewrite !Forall_cons_iff. unfold row_holds. simpl. unfold homog. simpl. repeat split; try lra. constructor. }
  split. intros d _. exists 1%Z. auto.
  intros F. apply Forall_inv in F. destruct F as (r & (c0 & r1 & C0 & (cs & C1 & ->) & ->) & S). inversion C1 as [|k ? ? ? K C2]; subst. inversion C2; subst. simpl in *. specialize (K ltac:(discriminate)). unfold Q2R in *; simpl in *. lra.
Qed.
Print Assumptions C72_integer_equality_refuted.

(** * C72: addition of rays and lines *)
(** exactly the points reached from a point of the argument by following the rays forward and the lines in both
    directions ([added]); the constant of a generator's expression is ignored *)
Theorem C72_add_rays : forall lazy destr pa l ds, wfp pa -> Forall (gen_wf (pdim pa)) l -> Forall2 (fun g d => direction (pdim pa) (snd g) d) l ds ->
  exists po pa' ex, pk_add_generators lazy destr pa l = Some (po, pa', ex) /\ result pa po (fun y => exists x, points pa x /\ added (pdim pa) (combine (map (fun g => is_line (fst g)) l) ds) x y) /\ (destr = false -> unchanged pa pa').
Proof.
  intros lazy destr pa l ds W OK D. destruct (add_generators_spec lazy destr pa l ds _ _ _ (repr_self pa W) OK D) as (po & pa' & ex & E & R & U). exists po, pa', ex. split; auto. split. eapply res_of. exact R. tauto. intros X. apply repr_unch; auto.
Qed.
Print Assumptions C72_add_rays.

(** * C72: polyhedron of a box *)
Definition in_boxl (l : list itv) (x : nat -> R) : Prop := forall j, (j < length l)%nat -> in_itv (x j) (nth j l itv_top).
Theorem C72_of_box : forall i r l, length l = (i + r)%nat -> wfp (pk_of_box i r l) /\ pint (pk_of_box i r l) = i /\ preal (pk_of_box i r l) = r /\
  (forall x, in_boxl l x -> int_point i x -> points (pk_of_box i r l) x) /\
  (forall x, points (pk_of_box i r l) x -> forall j, (j < i + r)%nat -> fits (Nat.ltb j i) (nth j l itv_top) (x j)).
Proof.
  intros i r l L. destruct (of_box_spec i r l L) as (Q & (W & A & B & G) & H1 & H2 & H3). split; auto. split; auto. split; auto. split; intros x; rewrite points_gamma, G; auto. intros X I. apply H2; auto. intros j J. apply X. lia.
Qed.
Print Assumptions C72_of_box.
(** no bound is an empty half line *)
Definition bounds_ok (i : itv) : Prop := inf i <> MInf /\ sup i <> MInf.
Theorem C72_of_box_exact : forall r l, length l = r -> Forall bounds_ok l -> forall x, points (pk_of_box 0 r l) x <-> in_boxl l x.
Proof.
  intros r l L OK x. destruct (of_box_spec 0 r l L) as (Q & (W & A & B & G) & H1 & H2 & H3). rewrite points_gamma, G.
  assert (F : forall j, (j < length l)%nat -> (fits false (nth j l itv_top) (x j) <-> in_itv (x j) (nth j l itv_top))).
  { intros j J. rewrite Forall_forall in OK. destruct (OK _ (nth_In l itv_top J)) as (N1 & N2). unfold fits, in_itv. destruct (inf (nth j l itv_top)), (sup (nth j l itv_top)); simpl; try congruence; tauto. }
  split. intros X j J. apply F; auto. apply (H1 x X). lia. intros X. apply H3; auto. intros j J. apply F; auto. simpl in J. lia. apply X. simpl in J. lia.
Qed.
Print Assumptions C72_of_box_exact.
(** an integer dimension with a lower bound which is not an integer: the bound is loosened ([1/2,3] contains 0) *)
Theorem C72_of_box_refuted : exists l x, Forall bounds_ok l /\ length l = 1%nat /\ points (pk_of_box 1 0 l) x /\ int_point 1 x /\ ~ in_boxl l x.
Proof.
  exists [mkItv (Fin (-1#2)) (Fin 3)], (fun _ => 0). split. repeat constructor; discriminate. split. reflexivity. split. { unfold points. vm_compute pk_of_box. cbn [pC]. unfold poly_con, cone. rewrite !Forall_cons_iff. unfold row_holds. simpl. unfold homog. simpl. repeat split; try lra. constructor. }
  split. intros d _. exists 0%Z. auto. intros H. specialize (H 0%nat ltac:(simpl; lia)). simpl in H. destruct H as (H & _). simpl in H. unfold Q2R in H. simpl in H. lra.
Qed.
Print Assumptions C72_of_box_refuted.

(** * C75: bounds *)
Lemma gen_points : forall alg po, wfp po -> unchanged po (obtain_gen alg po) /\ (pF (obtain_gen alg po) = None -> forall x, ~ points po x).
Proof. intros alg po W. destruct (get_F alg po _ _ _ (repr_self po W)) as (R & N). fold (obtain_gen alg po) in R, N. split. apply repr_unch; auto. intros E. eapply repr_none. exact R. auto. Qed.
Lemma bottom_empty : forall y, ~ in_itv y itv_bottom. Proof. intros y (A & B). simpl in *. unfold Q2R in *. simpl in *. lra. Qed.
(** the interval of a dimension is exactly the set of its values *)
Theorem C75_bound_dimension : forall alg po d b po', wfp po -> (d < pdim po)%nat -> pk_bound_dimension alg po d = (b, po') ->
  unchanged po po' /\ forall y, in_itv y b <-> exists x, points po x /\ x d = y.
Proof.
  intros alg po d b po' W D E. unfold pk_bound_dimension in E. inversion E; subst; clear E. destruct (gen_points alg po W) as (U & N). split; auto. intros y. destruct (pF (obtain_gen alg po)) as [F|] eqn:EF.
  - destruct (get_F alg po _ _ _ (repr_self po W)) as (R & _). apply (box_spec _ _ _ _ F d R EF D).
  - split. intros X. destruct (bottom_empty y X). intros (x & X & _). destruct (N eq_refl x X).
Qed.
Print Assumptions C75_bound_dimension.
Theorem C75_to_box : forall alg po l po', wfp po -> pk_to_box alg po = (l, po') ->
  unchanged po po' /\ length l = pdim po /\ forall d, (d < pdim po)%nat -> forall y, in_itv y (nth d l itv_top) <-> exists x, points po x /\ x d = y.
Proof.
  intros alg po l po' W E. unfold pk_to_box in E. inversion E; subst; clear E. destruct (gen_points alg po W) as (U & N). split; auto. assert (PD : pdim (obtain_gen alg po) = pdim po) by (destruct U as (_ & (A & B) & _); unfold pdim; congruence). rewrite PD. split. rewrite map_length, seq_length. auto.
  intros d D y. assert (NE : forall f : nat -> itv, nth d (map f (seq 0 (pdim po))) itv_top = f d). { intros f. rewrite (nth_indep _ itv_top (f 0%nat)) by (rewrite map_length, seq_length; auto). rewrite map_nth, seq_nth by auto. auto. } rewrite NE.
  pose proof (C75_bound_dimension alg po d _ _ W D eq_refl) as (_ & H). unfold pk_bound_dimension in H. rewrite <- H. destruct (pF (obtain_gen alg po)); tauto.
Qed.
Print Assumptions C75_to_box.
(** the interval of an expression contains its values at the points; with scalar coefficients it contains nothing else *)
Theorem C75_bound_linexpr : forall alg po e b po', wfp po -> wf_linexpr (pdim po) e -> holes_last (le_terms e) -> pk_bound_linexpr alg po e = (b, po') ->
  unchanged po po' /\ (forall x y, points po x -> expr_val e x y -> in_itv y b) /\ (scalar_terms e -> is_scal (le_cst e) = true -> forall y, in_itv y b <-> exists x, points po x /\ expr_val e x y).
Proof.
  intros alg po e b po' W WE HL E. unfold pk_bound_linexpr in E. inversion E; subst; clear E. destruct (gen_points alg po W) as (U & N). split; auto. destruct (pF (obtain_gen alg po)) as [F|] eqn:EF.
  - destruct (get_F alg po _ _ _ (repr_self po W)) as (R & _). fold (obtain_gen alg po) in R. set (pa := obtain_gen alg po) in *. pose proof (repr_fpos _ _ _ _ _ R EF) as FP. destruct (repr_F_point _ _ _ _ _ R EF) as (x0 & X0).
    assert (GP : forall x, generated (S (pdim po)) F (homog x) <-> points po x). { intros x. destruct R as ((SW & _) & I1 & RR & G). rewrite <- G. unfold gamma. rewrite (cK_F pa F) by auto. unfold pn, pdim. rewrite I1, RR. reflexivity. }
    assert (TD : forall t, In t (il_terms (fst (ilin_of_linexpr (N:=exact_num) e))) -> (S (t_dim t) < S (pdim po))%nat). { intros t T. pose proof (ilin_of_linexpr_dims (N:=exact_num) _ e WE) as FD. rewrite Forall_forall in FD. specialize (FD t T). lia. }
    split. intros x y X V. apply (linexpr_sound (S (pdim po)) _ F x); auto; try lia. apply GP; auto. apply (ilin_of_linexpr_exact (pdim po)); auto.
    intros SC SS y. rewrite (linexpr_exact (S (pdim po)) _ F x0); auto; try lia. 3: apply GP; auto.
    + split; intros (x & A & B); exists x; split; try (apply GP; auto); apply (ilin_of_linexpr_exact (pdim po)); auto.
    + destruct (terms_shape _ e WE HL SC) as (T1 & T2 & _). split. 2: { unfold flags_ok in T2. rewrite Forall_forall in *. intros t T. apply T2; auto. }
      assert (WC := proj1 WE). assert (FO := proj2 (user_flags (N:=exact_num) (pdim po) (mkCons CEq e None) (user_wf_ok (pdim po) (mkCons CEq e None) (conj WE HL)))). apply FO. simpl. destruct (le_cst e) as [[| q |]|] eqn:EC; try discriminate; simpl in WC; try tauto.
      assert (B : bexact (N:=exact_num) (Fin q) = true) by (unfold bexact; simpl; apply Qeq_bool_iff; apply Qeq_refl). unfold ilin_of_linexpr. rewrite EC. unfold itv_set_coeff. rewrite B. destruct (set_terms (N:=exact_num) (foreach (le_terms e))). reflexivity.
  - split. intros x y X. destruct (N eq_refl x X). intros _ _ y. split. intros X. destruct (bottom_empty y X). intros (x & X & _). destruct (N eq_refl x X).
Qed.
Print Assumptions C75_bound_linexpr.

(** * C77: satisfaction *)
Theorem C77_sat_interval : forall alg po d i b po', wfp po -> (d < pdim po)%nat -> bounds_ok i -> pk_sat_interval alg po d i = (b, po') ->
  unchanged po po' /\ (b = true <-> forall x, points po x -> in_itv (x d) i).
Proof.
  intros alg po d i b po' W D (B1 & B2) E. destruct (sat_interval_spec alg po d i _ _ _ (repr_self po W) D B1 B2) as (R & S). rewrite E in R, S. simpl in *. split; auto. apply repr_unch; auto.
Qed.
Print Assumptions C77_sat_interval.
(** the answer true is right: every point satisfies the constraint, whatever the choice of the coefficients *)
Theorem C77_sat_lincons : forall alg po c, wfp po -> cons_ok (pdim po) c -> scalar_terms (lc_expr c) \/ lc_typ c <> CEq ->
  exists b po', pk_sat_lincons alg po c = Some (b, po') /\ unchanged po po' /\ (b = true -> forall x, points po x -> sat_all c x).
Proof.
  intros alg po c W (U & _) S. destruct (sat_lincons_sound alg po c _ _ _ (repr_self po W) U S) as (b & po' & E & R & H). exists b, po'. split; auto. split; auto. apply repr_unch; auto.
Qed.
Print Assumptions C77_sat_lincons.
(** and complete for equalities and large inequalities with scalar coefficients, on real dimensions *)
Theorem C77_sat_lincons_complete : forall alg po c, wfp po -> pint po = 0%nat -> cons_ok (pdim po) c -> scalar_terms (lc_expr c) -> is_scal (le_cst (lc_expr c)) = true -> large c ->
  exists b po', pk_sat_lincons alg po c = Some (b, po') /\ (b = true <-> forall x, points po x -> sat_all c x).
Proof.
  intros alg po c W I OK S SC L. destruct (C77_sat_lincons alg po c W OK (or_introl S)) as (b & po' & E & _ & H). exists b, po'. split; auto. split; auto. intros A. assert (R := repr_self po W). rewrite I in R. assert (U := proj1 OK). unfold pdim in U. rewrite I in U. destruct (sat_lincons_complete alg po c _ _ R U S SC L A) as (po2 & E2). rewrite E in E2. inversion E2. auto.
Qed.
Print Assumptions C77_sat_lincons_complete.
Lemma ex_pt : wfp (mkPoly 0 2 (Some (positivity 2 :: [[0;1;-1;0];[0;1;0;1]]))%Z false None false None None 0 0 false false). Proof. apply (C69_constraints_wf 0 2). repeat constructor. Qed.
(** an equality with an interval coefficient: [1,2]x + y = 0 is answered true on the point (1,-1) *)
Theorem C77_sat_lincons_refuted : exists po c po' x, wfp po /\ cons_ok (pdim po) c /\ pk_sat_lincons true po c = Some (true, po') /\ points po x /\ ~ sat_all c x.
Proof.
  eexists _, (mkCons CEq (mkLin (Scal (Fin 0)) (Sparse [(Some 0%nat, Intv (Fin 1) (Fin 2)); (Some 1%nat, Scal (Fin 1))])) None), _, (fun j => match j with O => 1 | _ => -1 end). split. apply ex_pt. split.
  { ok_sparse. }
  split. vm_compute. reflexivity. split. { unfold points. cbn [pC]. unfold poly_con, cone, positivity. rewrite !Forall_cons_iff. unfold row_holds. simpl. unfold homog. simpl. repeat split; try lra. constructor. }
  intros H. specialize (H 1). simpl in H. assert (1 = 0); [|lra]. apply H. exists 0, 1. split. simpl. unfold Q2R; simpl; lra. split; [|ring]. exists [2; 1]. split. 2: simpl; ring. constructor. intros _. simpl. unfold Q2R; simpl. lra. constructor. intros _. simpl. unfold Q2R; simpl. lra. constructor.
Qed.
Print Assumptions C77_sat_lincons_refuted.
(** a strict inequality: y > 0 is answered false on x >= 0, y >= 1, with the flag exact *)
Theorem C77_sat_strict_refuted : exists po c po', wfp po /\ pint po = 0%nat /\ cons_ok (pdim po) c /\ scalar_terms (lc_expr c) /\ pk_sat_lincons true po c = Some (false, po') /\ forall x, points po x -> sat_all c x.
Proof.
  exists (mkPoly 0 2 (Some (positivity 2 :: [[1;0;1;0];[1;-1;0;1]]))%Z false None false None None 0 0 false false), (mkCons CSup (mkLin (Scal (Fin 0)) (Sparse [(Some 1%nat, Scal (Fin 1))])) None). eexists. split. apply (C69_constraints_wf 0 2); repeat constructor. split. reflexivity. split.
  { ok_sparse. }
  split. repeat constructor. split. vm_compute. reflexivity.
  intros x X r (c0 & r1 & C0 & (cs & C1 & ->) & ->). unfold points in X. cbn [pC] in X. unfold poly_con, cone, positivity in X. rewrite !Forall_cons_iff in X. unfold row_holds in X. simpl in X. unfold homog in X. simpl in X. inversion C1 as [|k ? ? ? K C2]; subst. inversion C2; subst. simpl in *. specialize (K ltac:(discriminate)). unfold Q2R in *. simpl in *. subst. lra.
Qed.
Print Assumptions C77_sat_strict_refuted.

(** * Concrete cases *)
(** the triangle x >= 0, y >= 0, x + y <= 3 *)
Definition tri72 : poly := mkPoly 0 2 (Some (positivity 2 :: [[1;0;1;0];[1;0;0;1];[1;3;-1;-1]]))%Z false None false None None 0 0 false false.
Example tri72_wf : wfp tri72. Proof. apply (C69_constraints_wf 0 2). repeat constructor. Qed.
(** 1/2 x - y + 1 >= 0 and x - 1 >= 0 *)
Definition cons72 : list lincons := [mkCons CSupEq (mkLin (Scal (Fin 1)) (Dense [Scal (Fin (1#2)); Scal (Fin (-1))])) None; mkCons CSupEq (mkLin (Scal (Fin (-1))) (Sparse [(Some 0%nat, Scal (Fin 1)); (None, Scal (Fin 0))])) None].
Example C72_example_meet : Forall (cons_ok (pdim tri72)) cons72 /\ Forall (fun c => scalar_cons c /\ large c) cons72 /\
  exists po pa' ex, pk_meet_lincons_array true false tri72 cons72 = Some (po, pa', ex) /\ points po (fun _ => 1) /\ ~ points po (fun _ => 0).
Proof.
  assert (A : Forall (cons_ok (pdim tri72)) cons72).
  { constructor; [|constructor; [|constructor]]. split; [|intros ?; discriminate]. split; simpl; auto. split; simpl; auto. split. unfold pdim; simpl; lia. repeat constructor.
    split; [|intros ?; discriminate]. split. split; simpl; auto. split. repeat constructor; simpl; auto; discriminate. split. repeat constructor; simpl; tauto. intros d [<-|[]]; unfold pdim; simpl; lia. simpl. exists [(Some 0%nat, Scal (Fin 1))], [(None, Scal (Fin 0))]. split; auto. split; repeat constructor; simpl; auto; discriminate. }
  assert (B : Forall (fun c => scalar_cons c /\ large c) cons72).
  { constructor; [|constructor; [|constructor]]; (split; [|right; reflexivity]); (split; [right; left; reflexivity|split; [repeat constructor|]]); simpl; eexists; reflexivity. }
  split; auto. split; auto. destruct (C72_meet_lincons_exact true false tri72 cons72 tri72_wf eq_refl A B) as (po & pa' & ex & E & (_ & _ & H) & _). exists po, pa', ex. split; auto. split.
  - apply H. split. unfold points, tri72. cbn [pC]. unfold poly_con, cone, positivity. rewrite !Forall_cons_iff. unfold row_holds. simpl. unfold homog. simpl. repeat split; try lra. constructor.
    constructor; [|constructor; [|constructor]]. exists (1/2). split. exists 1, (-1/2). split. simpl; unfold Q2R; simpl; lra. split; [|lra]. exists [1/2; -1]. split. constructor; [|constructor; [|constructor]]; simpl; unfold Q2R; simpl; lra. simpl; lra. simpl; lra.
    exists 0. split. exists (-1), 1. split. simpl; unfold Q2R; simpl; lra. split; [|lra]. exists [1; 0]. split. constructor; [|constructor; [|constructor]]; simpl; try congruence; unfold Q2R; simpl; intros; lra. simpl; lra. simpl; lra.
  - intros X. apply H in X. destruct X as (_ & X). apply Forall_inv_tail in X. apply Forall_inv in X. destruct X as (r & (c0 & r1 & C0 & (cs & C1 & ->) & ->) & S). simpl in *. unfold Q2R in *; simpl in *. destruct cs as [|k [|]]; simpl in S; try lra.
Qed.
(** adding the ray (1,1) to the triangle reaches (5,5) *)
Definition ray72 : gentyp * linexpr := (GRay, mkLin (Scal (Fin 0)) (Dense [Scal (Fin 1); Scal (Fin 1)])).
Example C72_example_ray : gen_wf 2 ray72 /\ direction 2 (snd ray72) (fun _ => 1) /\ exists po pa' ex, pk_add_generators true false tri72 [ray72] = Some (po, pa', ex) /\ points po (fun _ => 5).
Proof.
  assert (A : gen_wf 2 ray72). { split. discriminate. split. split; simpl; auto. split; auto. repeat constructor. split. simpl; auto. repeat constructor. }
  assert (B : direction 2 (snd ray72) (fun _ => 1)). { intros v. exists [1; 1]. split. constructor; [|constructor; [|constructor]]; simpl; unfold Q2R; simpl; lra. unfold dot. simpl. lra. }
  split; auto. split; auto. destruct (C72_add_rays true false tri72 [ray72] [fun _ => 1] tri72_wf) as (po & pa' & ex & E & (_ & _ & H) & _). constructor; auto. constructor; auto. exists po, pa', ex. split; auto. apply H. exists (fun _ => 1). split.
  unfold points, tri72. cbn [pC]. unfold poly_con, cone, positivity. rewrite !Forall_cons_iff. unfold row_holds. simpl. unfold homog. simpl. repeat split; try lra. constructor.
  simpl. exists 4. split. right. lra. intros j _. lra.
Qed.
Example C72_example_of_box : forall x, points (pk_of_box 0 2 [mkItv (Fin (1#2)) (Fin 3); mkItv (Fin 0) PInf]) x <-> (-1/2 <= x 0%nat <= 3 /\ 0 <= x 1%nat).
Proof.
  intros x. rewrite C72_of_box_exact; auto. 2: repeat constructor; discriminate. unfold in_boxl. simpl. split.
  - intros H. pose proof (H 0%nat ltac:(lia)) as (A & B). pose proof (H 1%nat ltac:(lia)) as (C & _). simpl in *. unfold Q2R in *; simpl in *. lra.
  - intros ((A & B) & C) [|[|j]] J; try lia; split; simpl; unfold Q2R; simpl; auto; lra.
Qed.
(** x + y <= 3: the box of the triangle, and the bounds of 1/2 x - y + 1 *)
Example C75_example : forallb (fun i => itv_is_eq i (mkItv (Fin 0) (Fin 3))) (fst (pk_to_box true tri72)) = true /\ itv_is_eq (fst (pk_bound_linexpr true tri72 (mkLin (Scal (Fin 1)) (Dense [Scal (Fin (1#2)); Scal (Fin (-1))])))) (mkItv (Fin 2) (Fin (5#2))) = true.
Proof. vm_compute. auto. Qed.
Example C77_example : fst (pk_sat_interval true tri72 0 (mkItv (Fin 1) (Fin 3))) = true /\ fst (pk_sat_interval true tri72 1 (mkItv (Fin 0) (Fin 2))) = false /\
  match pk_sat_lincons true tri72 (mkCons CSupEq (mkLin (Scal (Fin 4)) (Dense [Scal (Fin (-1)); Scal (Fin (-1))])) None) with Some (b, _) => b = true | None => False end.
Proof. vm_compute. auto. Qed.

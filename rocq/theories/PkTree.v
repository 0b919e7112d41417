(** newpolka: operations on expression trees.  Models newpolka/pk_meetjoin.c 592-597 (meet with constraints on
    trees, with the generic function of ap_generic.c 183-214), pk_test.c 317-360 (satisfaction), pk_extract.c 350-390
    (interval of a tree), pk_assign.c 670-745 and 882-912 (assignment and substitution).
    Simplified: the flags flag_exact and flag_best are not modelled, except the one of the meet (without the
    exactness of the linearisation, see GenericTree.v); the assignments are not done in place (destructive = false).
    As in PkLinUser.v the destructive meet called by the generic assignment gives here the empty polyhedron
    in the case where the code aborts. *)
From Coq Require Import Arith ZArith QArith Qreals Bool List Lia Reals Lra Sorted.
Import ListNotations.
From Verif Require Import Bound BoundFacts Itv ItvFacts Linexpr LinexprFacts ItvLin ItvLinFacts ItvLinCons ItvLinInt ItvLinExact ItvLinApi ApCore ApCoreFacts ApCoreDim ApCheck PropApCheck ApTexpr TexprSem PropTexpr ItvTree ItvTreeFacts ItvTreeApi ItvTreeApiFacts PropItvTree TreeShape OctResize2 OctResize3 BoxDims BoxSubst Generic GenericFacts GenericTree PkCone PkVec PkCherni PkSpec PkMinimize PkPoly PkPolyFacts PkPolyLeq PkPolyMeet PkPolyTop PkMatrix PkLin PkOps PkRepr PkProj PkUser PkUserRow PkUserCons PkUserBound PkUserMeet PkUserGen PkUserSat PropPkPoly PropPkAssign PropPkUser PropPkDims PropGeneric PkLinUser PropPkLin.
Open Scope R_scope.

Section Model.
Context {F : fmts}.
(** the box of the polyhedron, ap_abstract0_to_box and pk_to_box (pk_extract.c 436-478) *)
Definition pk_box (alg : bool) (po : poly) : nat -> itv := fun d => nth d (fst (pk_to_box alg po)) itv_top.
(** pk_meet_tcons_array, pk_meetjoin.c 592-597 *)
Definition pk_meet_tcons_array (eq0 : bool) (tch : nat -> bool * bool) (lazy destr : bool) (pa : poly) (l : list tcons) : option (poly * poly * bool) :=
  let '(b, pa) := pk_is_bottom (negb lazy) pa in
  if b || is_nil l then Some (pa, pa, true)
  else
    let '(box, pa) := pk_to_box (negb lazy) pa in
    match ap_intlinearize_tcons0_array (N:=exact_num) (F:=F) eq0 (fun d => nth d box itv_top) (pint pa) (pdim pa) TLinear true true 2 false tch l with
    | None => None
    | Some t => pk_meet_lincons_array lazy destr pa t
    end.
(** pk_sat_tcons, pk_test.c 317-360; [alg] is [algorithm > 0] *)
Definition pk_sat_tcons (eq0 alg : bool) (po : poly) (c : tcons) : option (bool * poly) :=
  let po := obtain_gen alg po in
  match pF po with
  | None => Some (true, po)
  | Some G =>
    if negb (row_typ (tc_typ c)) then Some (false, po) else
    match quasilinearize_lincons (N:=exact_num) (matrix_to_box G) false (fst (intlin_tcons (N:=exact_num) (F:=F) eq0 (matrix_to_box G) (pint po) c)) with
    | None => None
    | Some k =>
      match vector_set_lincons_sat (pint po) (pdim po) k with
      | None => Some (false, po)
      | Some q => Some (do_generators_sat_vector G q (match tc_typ c with CSup => true | _ => false end), po)
      end
    end
  end.
(** pk_bound_texpr, pk_extract.c 350-390; [alg] is [algorithm > 0] *)
Definition pk_bound_texpr (eq0 alg : bool) (po : poly) (e : texpr) : itv * poly :=
  let po := obtain_gen alg po in
  (match pF po with
   | None => itv_bottom
   | Some G => fst (itv_meet (matrix_bound_linexpr (intlin_form (N:=exact_num) (F:=F) eq0 (matrix_to_box G) (pint po) e) G)
                             (eval_texpr (N:=exact_num) (F:=F) (matrix_to_box G) e))
   end, po).
(** the linearisation of all the trees, ap_intlinearize_texpr0_array (pk_assign.c 710-727) *)
Fixpoint linearize_all (eq0 : bool) (box : nat -> itv) (intdim : nat) (l : list (nat * texpr)) : option (list (nat * linexpr)) :=
  match l with
  | [] => Some []
  | (d, e) :: l => match ap_intlinearize_texpr0 (N:=exact_num) (F:=F) eq0 box intdim false e, linearize_all eq0 box intdim l with
                   | Some x, Some r => Some ((d, x) :: r)
                   | _, _ => None
                   end
  end.
(** the entry meet_tcons_array of the table, called in place by the generic function *)
Definition pk_mt (eq0 : bool) (tch : nat -> bool * bool) (lazy : bool) (a : poly) (l : list tcons) : option (poly * bool) :=
  match pk_meet_tcons_array eq0 tch lazy true a l with Some (po, _, x) => Some (po, x) | None => None end.
(** poly_asssub_texpr_array, pk_assign.c 670-757; [lazy] is [algorithm <= 0], [lz] is [algorithm < 0]: the functions
    called through the table read the option of the manager *)
Definition pk_asssub_texpr_array (eq0 : bool) (tch : nat -> bool * bool) (assign lazy lz : bool) (pa : poly) (l : list (nat * texpr)) (dest : option poly) : option (poly * poly) :=
  let pa := if lazy then pa else poly_chernikova pa in
  if isbot pa then Some (pbottom (pint pa) (preal pa), pa)
  else
    let fin po := if lazy then po else poly_chernikova po in
    if forallb (fun p => texpr_is_scalar (snd p)) l && forallb (fun p => is_interval_linear (snd p)) l then
      match linearize_all eq0 (pk_box (negb lz) pa) (pint pa) l with
      | None => None
      | Some ll =>
        match pk_asssub_linexpr_array assign true false pa ll None with
        | None => None
        | Some (po, pa) =>
          match dest with
          | None => Some (fin po, pa)
          | Some pb => match pk_meet lazy true po pb with Some (po, _, _) => Some (fin po, pa) | None => None end
          end
        end
      end
    else
      match asssub_texpr_array (pk_gdom lz false) (pk_mt eq0 tch lz) assign pa l dest with
      | None => None
      | Some (po, _) => Some (fin po, pa)
      end.
End Model.

(** ** Meet *)
Lemma meet_lincons_some : forall lazy destr pa l i r (P : vec -> Prop) po pa' ex, repr pa i r P -> pk_meet_lincons_array lazy destr pa l = Some (po, pa', ex) ->
  exists Q, repr po i r Q /\ (forall x, Q x -> P x) /\ (destr = false -> repr pa' i r P) /\
    forall x, P x -> int_point i x -> Forall (user_wf (i + r)) l -> Forall (fun c => sat_cons c x) l -> Q x.
Proof.
  intros lazy destr pa l i r P po pa' ex R. unfold pk_meet_lincons_array. set (il := map (icons_of_lincons (N:=exact_num)) l). set (ql := forallb (fun c => is_quasilinear (ic_expr c)) il).
  set (pa1 := if lazy && ql then poly_obtain_C pa else poly_chernikova pa).
  assert (R1 : repr pa1 i r P /\ (isbot pa1 = false -> pC pa1 <> None) /\ (lazy && ql = false -> isbot pa1 = false -> minimal2 pa1 = true)).
  { unfold pa1. destruct (lazy && ql).
    - destruct (get_C true pa i r P R) as (A & B). split; [exact A|]. split; [|discriminate]. intros NB N. rewrite (B N) in NB. discriminate.
    - destruct (chern_repr _ _ _ _ R) as (A & _ & B). split; [exact A|]. split. intros NB N. destruct B as [B|B]; [congruence|]. unfold minimal2 in B. rewrite N in B. discriminate. intros _ NB. destruct B; auto; congruence. }
  clearbody pa1. destruct R1 as (R1 & HC & HM). assert (DI : pint pa1 = i /\ pdim pa1 = (i + r)%nat). { destruct R1 as (_ & A & B & _). split; auto. unfold pdim. congruence. } destruct DI as (DI & DD).
  destruct (isbot pa1) eqn:BOT.
  { pose proof (repr_none _ _ _ _ R1 BOT) as N. intros H. inversion H; subst. exists P. split; auto. }
  specialize (HC eq_refl).
  destruct (if ql then Some il else match pF pa1 with None => None | Some F => quasilinearize_array (N:=exact_num) (matrix_to_box F) true il end) as [l1|] eqn:E1; [|discriminate].
  assert (SND : Forall (user_wf (i + r)) l -> forall v, P v -> Forall (fun c => sat_cons c v) l -> Forall (fun c => wfd (i + r) c /\ qlc c /\ flc c /\ eq_flag_ok c) l1 /\ Forall (fun c => sat_some c v) l1).
  { intros UW.
    assert (SH : Forall (fun c => wfd (i + r) c /\ flc c /\ eq_flag_ok c) il) by (unfold il; rewrite Forall_map; eapply Forall_impl; [|exact UW]; intros c; apply user_shape).
    assert (SS : forall v, Forall (fun c => sat_cons c v) l -> Forall (fun c => sat_some c v) il). { intros v H. unfold il. rewrite Forall_map. rewrite Forall_forall in *. intros c C. apply (icons_of_lincons_iff (i + r)); try apply UW; auto. }
    destruct ql eqn:EQL.
    - inversion E1; subst l1. intros v PV H. split; auto. unfold ql in EQL. rewrite forallb_forall in EQL. rewrite Forall_forall in *. intros c C. destruct (SH c C) as (A & B & D). split; auto. split; auto. unfold qlc. specialize (EQL c C). pose proof (proj1 (forallb_forall _ _) EQL) as EQ2. apply Forall_forall. exact EQ2.
    - destruct (pF pa1) as [G|] eqn:EF; [|discriminate]. intros v PV H.
      assert (S1 : Forall (fun c => wfd (i + r) c /\ qlc c /\ flc c) l1). { eapply qlarr_shape; [|exact E1]. eapply Forall_impl; [|exact SH]. simpl. tauto. }
      assert (M1 : Forall (fun c => sat_some c v /\ meet_inv c) l1).
      { eapply (quasilinearize_array_meet (N:=exact_num)); [| | |exact E1]; unfold il; rewrite Forall_map; rewrite Forall_forall in *; intros c C.
        - eapply (user_meet_ok (N:=exact_num)). apply user_wf_ok. apply UW; auto. auto.
        - eapply user_env; eauto.
        - apply (icons_of_lincons_iff (i + r)); try apply UW; auto. }
      split; rewrite Forall_forall in *; intros c C; destruct (M1 c C) as (A & B & D); auto. destruct (S1 c C) as (E0 & E2 & E3). auto. }
  destruct (linearize_array true l1) as [l2|] eqn:E2; [|discriminate]. rewrite DI, DD in *. destruct (array_reduce_integer i l2) as [[l3 t3]|] eqn:E3; [|discriminate].
  set (mat := matrix_sort_rows (matrix_of_lincons i (i + r) l3)).
  assert (ML : Forall (lenS (d1 i r)) mat) by (apply sort_len; apply matrix_len).
  assert (S2 : exists pa2, (if lazy then Some pa1 else poly_obtain_satC pa1) = Some pa2 /\ repr pa2 i r P /\ pC pa2 = pC pa1 /\ (lazy = true \/ (pF pa2 <> None /\ psatC pa2 <> None))).
  { destruct lazy. exists pa1. auto. specialize (HM eq_refl eq_refl). destruct (satC_rep true pa1 i r P R1 HM) as (pa2 & A & B & C & D & E). exists pa2. split; auto. split; auto. split; auto. right. split; auto. rewrite D. unfold minimal2 in HM. destruct (pC pa1), (pF pa1); try discriminate. }
  destruct S2 as (pa2 & -> & R2 & CC & HL). destruct (pC pa1) as [A|] eqn:EA; [|congruence].
  destruct (matrix_con lazy destr pa2 i r P A mat R2 CC ML HL) as (po1 & pa3 & -> & RP & RD). intros H. inversion H; subst. exists (fun x => P x /\ poly_con mat x). split; auto. split. tauto. split; auto.
  intros x PX IP UW ST. split; auto. apply (proj2 (sort_cone _ _)). destruct (SND UW x PX ST) as (B1 & B2). eapply pipe_sound; eauto.
Qed.
(** the constraints obtained from trees satisfied at a point are well formed *)
Lemma meet_tcons_some : forall (F : fmts) eq0 tch lazy destr pa l po pa' ex, wfp pa ->
  pk_meet_tcons_array (F:=F) eq0 tch lazy destr pa l = Some (po, pa', ex) ->
  wfp po /\ same_dims po pa /\ (forall x, points po x -> points pa x) /\ (destr = false -> unchanged pa pa') /\
  (Forall (fun c => tmod_ok (N:=exact_num) c /\ no_pow (tc_expr c) /\ forall d, occurs d (tc_expr c) -> (d < pdim pa)%nat) l ->
    forall x, points pa x -> ipoint (pint pa) x -> Forall (fun c => sat_tcons F c x) l -> points po x).
Proof.
  intros F eq0 tch lazy destr pa l po pa' ex W H. unfold pk_meet_tcons_array in H.
  destruct (pk_is_bottom (negb lazy) pa) as [b p1] eqn:EB. destruct (C68_is_bottom (negb lazy) pa _ _ W EB) as (U1 & BT & _).
  assert (RS : repr p1 (pint pa) (preal pa) (points pa)). { assert (S := is_bottom_spec (negb lazy) pa _ _ _ (repr_self pa W)). rewrite EB in S. apply S. }
  assert (DONE : b || is_nil l = true -> po = p1 /\ pa' = p1 -> wfp po /\ same_dims po pa /\ (forall x, points po x -> points pa x) /\ (destr = false -> unchanged pa pa') /\
    (Forall (fun c => tmod_ok (N:=exact_num) c /\ no_pow (tc_expr c) /\ forall d, occurs d (tc_expr c) -> (d < pdim pa)%nat) l -> forall x, points pa x -> ipoint (pint pa) x -> Forall (fun c => sat_tcons F c x) l -> points po x)).
  { intros _ (-> & ->). destruct U1 as (A & B & C). split; auto. split. destruct B. split; congruence. split. intros x X. apply C; auto. split. intros _. split; auto. intros _ x X _ _. apply C; auto. }
  destruct (b || is_nil l) eqn:BN. inversion H; subst. apply DONE; auto. clear DONE.
  destruct (pk_to_box (negb lazy) p1) as [box p2] eqn:ET. assert (W1 : wfp p1) by (apply U1). destruct (C75_to_box (negb lazy) p1 _ _ W1 ET) as (U2 & LB & BX).
  assert (R2 : repr p2 (pint pa) (preal pa) (points pa)). { unfold pk_to_box in ET. inversion ET; subst p2. apply (get_F (negb lazy) p1 _ _ _ RS). }
  assert (D2 : pint p2 = pint pa /\ pdim p2 = pdim pa /\ pdim p1 = pdim pa). { destruct U1 as (_ & (A & B) & _), U2 as (_ & (C & D) & _). unfold pdim. split; [|split]; congruence. } destruct D2 as (DI & DP & DP1). rewrite DI, DP in H.
  destruct (ap_intlinearize_tcons0_array (N:=exact_num) (F:=F) eq0 (fun d => nth d box itv_top) (pint pa) (pdim pa) TLinear true true 2 false tch l) as [t|] eqn:EL; [|discriminate].
  destruct (meet_lincons_some lazy destr p2 t _ _ _ po pa' ex R2 H) as (Q & RQ & QP & RD & SND). assert (GQ : forall x, points po x <-> Q x) by (intro x; rewrite points_gamma by apply RQ; apply RQ). split. apply RQ. split. destruct RQ as (_ & A & B & _). split; auto.
  split. intros x X. apply QP. apply GQ. exact X. split. intros D. apply repr_unch; auto.
  intros OK x X IP ST. apply GQ. assert (SC : Forall (fun c => sat_cons c x) t).
  { eapply (ap_tcons_array_meet exact_num F); [left; reflexivity| | | | |exact ST|exact EL]. unfold pdim; lia.
    eapply Forall_impl; [|exact OK]. simpl. intros c (A & B & C). split; auto. split; auto. apply no_pow_lin; auto.
    intros d D. apply BX. rewrite DP1; auto. exists x. split; auto. apply U1; auto. exact IP. }
  apply SND; auto. assert (SH : Forall (lcd (pdim pa)) t). { eapply (tcons_array_shape (F:=F)); [|exact EL]. eapply Forall_impl; [|exact OK]. simpl. tauto. }
  rewrite Forall_forall in *. intros c C. apply (sat_wf _ _ x); auto.
Qed.

(** ** Satisfaction and bounds *)
Lemma tcons_wfd : forall (F : fmts) eq0 env intdim n c, (forall d, occurs d (tc_expr c) -> (d < n)%nat) -> let k := fst (intlin_tcons (N:=exact_num) (F:=F) eq0 env intdim c) in
  wfd n k /\ flc k /\ (ic_typ k = tc_typ c \/ k = icons_bool k false).
Proof.
  intros F eq0 env intdim n c D. unfold intlin_tcons. pose proof (fun t m => rec_wfd (F:=F) eq0 env intdim n (tc_expr c) t m D) as R. destruct (intlin_rec eq0 env intdim (tc_expr c)) as [[t0 l0] i0]. cbn [fst snd] in R.
  destruct (negb _ && negb _); cbn [fst].
  - split; [|split; [|left; reflexivity]]; destruct (il_terms l0) eqn:T; try apply R. split; constructor. constructor.
  - destruct (boolc_shape n (mkIC l0 (tc_typ c) 0%Q) false) as (A & B). split; auto.
Qed.
Lemma F_points : forall alg po G, wfp po -> pF (obtain_gen alg po) = Some G -> fpos G /\ Forall (lenS (S (pdim po))) G /\ (forall x, generated (S (pdim po)) G (homog x) <-> points po x) /\
  (forall x d, points po x -> (d < pdim po)%nat -> in_itv (x d) (matrix_to_box G d)) /\ pint (obtain_gen alg po) = pint po /\ pdim (obtain_gen alg po) = pdim po.
Proof.
  intros alg po G W EF. destruct (get_F alg po _ _ _ (repr_self po W)) as (R & _). fold (obtain_gen alg po) in R. set (pa := obtain_gen alg po) in *. clearbody pa.
  split. eapply repr_fpos; eauto. assert (DD : pdim pa = pdim po). { destruct R as (_ & A & B & _). unfold pdim. congruence. }
  split. { destruct R as ((SW & _) & _). pose proof (swf_F pa G SW EF) as LF. unfold pn in LF. rewrite DD in LF. exact LF. }
  split. { intros x. destruct R as ((SW & _) & I1 & RR & GG). rewrite <- GG. unfold gamma. rewrite (cK_F pa G) by auto. unfold pn. rewrite DD. reflexivity. }
  split. { intros x d X D. unfold matrix_to_box. apply (box_spec pa _ _ _ G d R EF D). exists x. auto. }
  split; auto. apply R.
Qed.
Lemma sat_tcons_sound : forall (F : fmts) eq0 alg po c b po', wfp po -> no_pow (tc_expr c) -> (forall d, occurs d (tc_expr c) -> (d < pdim po)%nat) -> tc_typ c <> CEq ->
  pk_sat_tcons (F:=F) eq0 alg po c = Some (b, po') -> unchanged po po' /\ (b = true -> forall x, points po x -> ipoint (pint po) x -> sat_tcons_all F c x).
Proof.
  intros F eq0 alg po c b po' W NP D NE H. unfold pk_sat_tcons in H. destruct (gen_points alg po W) as (U & N). destruct (pF (obtain_gen alg po)) as [G|] eqn:EF.
  2: { inversion H; subst. split; auto. intros _ x X. destruct (N eq_refl x X). }
  destruct (F_points alg po G W EF) as (FP & LF & GP & BX & DI & DD). rewrite DI, DD in H. set (pa := obtain_gen alg po) in *. clearbody pa.
  destruct (row_typ (tc_typ c)) eqn:RT; cbn [negb] in H. 2: { inversion H; subst. split; auto. discriminate. }
  pose proof (tcons_wfd F eq0 (matrix_to_box G) (pint po) (pdim po) c D) as KS. cbv zeta in KS.
  assert (SND := fun v r => intlin_tcons_sound (N:=exact_num) (F:=F) eq0 (matrix_to_box G) (pint po) v c r).
  destruct (intlin_tcons (N:=exact_num) (F:=F) eq0 (matrix_to_box G) (pint po) c) as [k kb]. cbn [fst] in *. destruct KS as (K1 & K2 & K3).
  destruct (quasilinearize_lincons (N:=exact_num) (matrix_to_box G) false k) as [k'|] eqn:Q; [|discriminate].
  destruct (qll_shape _ _ _ _ _ K1 K2 Q) as (Q1 & Q2 & Q3).
  destruct (vector_set_lincons_sat (pint po) (pdim po) k') as [q|] eqn:VS. 2: { inversion H; subst. split; auto. discriminate. }
  injection H as HB HP. subst po'. split; auto. intros BT x X IP r XV. subst b.
  assert (TC : (ic_typ k' = CEq /\ cst_flag_ok (ic_expr k')) \/ ic_typ k' = ic_typ k). { unfold quasilinearize_lincons in Q. destruct (il_terms (ic_expr k)). destruct (eval_cst k); inversion Q; subst; auto; left; apply bool_shape2. inversion Q; subst. right. auto. }
  assert (TK : (ic_typ k' = CEq /\ cst_flag_ok (ic_expr k')) \/ ic_typ k' = tc_typ c).
  { destruct TC as [TC|TC]; auto. destruct K3 as [K3|K3]. right; congruence. left. rewrite K3 in Q. unfold quasilinearize_lincons in Q. cbn [il_terms ic_expr icons_bool] in Q.
    destruct (eval_cst (icons_bool k false)); inversion Q; subst; apply bool_shape2. }
  assert (SE : sat_each k' x).
  { eapply row_each; [exact FP|exact LF|exact Q1|exact Q2|exact Q3| | | |exact VS|exact BT|apply GP; auto].
    - intros Y. destruct TK as [(_ & TK)|TK]; auto. congruence.
    - destruct TK as [(-> & _)| ->]; auto.
    - intros Y. destruct TK as [(TK & _)|TK]. congruence. rewrite <- TK, Y. auto. }
  assert (SK : sat_each k x).
  { eapply (quasilinearize_lincons_each (N:=exact_num)); [| |exact Q|exact SE].
    - unfold cons_in_env, in_env. destruct K1 as (_ & K1). eapply Forall_impl; [|exact K1]. simpl. intros t T. apply BX; auto.
    - intros Y. destruct K3 as [K3|K3]. { destruct Y as [Y|Y]; rewrite K3 in Y; [contradiction|]. rewrite Y in RT. discriminate. } intros _. rewrite K3. apply bool_shape2. }
  assert (PO : pt_ok (matrix_to_box G) (pint po) x (tc_expr c)) by (intros d O; split; [apply BX; auto|apply IP]).
  specialize (SND x r PO (no_pow_lin _ _ _ _ _ _ NP) XV). destruct SND as (S1 & S2). destruct kb.
  - destruct (S1 eq_refl) as (Y & _). exfalso. rewrite Y in SK. eapply icons_false_each; eauto.
  - destruct (S2 eq_refl) as (Y1 & Y2 & _ & _ & Y5). apply (tmod_conv (N:=exact_num)). intros T. rewrite T in RT. discriminate. rewrite <- Y1, <- Y2. apply SK; auto.
Qed.
Lemma bound_texpr_sound : forall (F : fmts) eq0 alg po e b po', wfp po -> no_pow e -> (forall d, occurs d e -> (d < pdim po)%nat) -> pk_bound_texpr (F:=F) eq0 alg po e = (b, po') ->
  unchanged po po' /\ forall x y, points po x -> ipoint (pint po) x -> xval F x e y -> in_itv y b.
Proof.
  intros F eq0 alg po e b po' W NP D H. unfold pk_bound_texpr in H. destruct (gen_points alg po W) as (U & N). injection H as HB HP. subst po'. split; auto. intros x y X IP V. subst b.
  destruct (pF (obtain_gen alg po)) as [G|] eqn:EF. 2: destruct (N eq_refl x X).
  destruct (F_points alg po G W EF) as (FP & LF & GP & BX & DI & DD). rewrite DI in *. apply itv_meet_spec.
  assert (PO : pt_ok (matrix_to_box G) (pint po) x e) by (intros d O; split; [apply BX; auto|apply IP]). split.
  - destruct (intlin_form_sound (N:=exact_num) (F:=F) eq0 _ _ x e y PO (no_pow_lin _ _ _ _ _ _ NP) V) as (SH & IV). destruct SH as (_ & SD & _).
    apply (linexpr_sound (S (pdim po)) _ G x); auto; try lia. 2: apply GP; auto. intros t T. unfold dims_in in SD. rewrite Forall_forall in SD. specialize (D _ (SD t T)). lia.
  - eapply eval_texpr_sound; [|apply no_pow_eval; auto|exact V]. intros d O. auto.
Qed.

(** ** Assignment and substitution *)
Lemma no_pow_add : forall e pos, no_pow e -> no_pow (texpr_add_dimensions e pos).
Proof. induction e; intros pos H; simpl in *; auto. destruct H as (A & B & C). auto. Qed.
Lemma pk_tsound : forall (F : fmts) eq0 tch lz, tsound F (pk_gdom lz false) wfp pgam (fun _ e => no_pow e) (pk_mt (F:=F) eq0 tch lz).
Proof.
  intros F eq0 tch lz. constructor.
  - intros a l r x W OK H. cbn [gd gd_int gd_real pk_gdom] in *. unfold pk_mt in H. destruct (pk_meet_tcons_array eq0 tch lz true a l) as [[[po pa'] ex]|] eqn:E; [|discriminate]. inversion H; subst.
    destruct (meet_tcons_some F eq0 tch lz true a l _ _ _ W E) as (A & (B1 & B2) & _ & _ & S). split; auto. split; auto. intros v IV (_ & PV) ST. split; auto. split; auto. apply S; auto.
    eapply Forall_impl; [|exact OK]. simpl. intros c (C1 & C2 & C3 & C4). split. intros C5. congruence. split; auto.
  - intros n e pos d H _ _. simpl. split. apply no_pow_add; auto. split; auto. discriminate.
Qed.
Lemma lin_gexpr : forall (F : fmts) eq0 env intdim n e x v r, (forall d, occurs d e -> (d < n)%nat) -> no_pow e -> ap_intlinearize_texpr0 (N:=exact_num) (F:=F) eq0 env intdim false e = Some x -> is_interval_linear e = true -> xval F v e r ->
  gexpr_ok n (fun _ => True) x /\ expr_val x v r.
Proof.
  intros F eq0 env intdim n e x v r D NP H IL XV. destruct (intlinear_sound (N:=exact_num) (F:=F) eq0 e IL (no_pow_eval _ _ _ _ NP)) as (l & EL & _ & DI & IV). specialize (IV v r XV).
  unfold ap_intlinearize_texpr0, intlin_any in H. rewrite IL, EL in H. cbn [andb] in H. inversion H; subst x.
  assert (V : expr_val (linexpr_of_ilin l) v r) by (apply linexpr_of_ilin_iff; auto). split; auto.
  assert (SD : sdims (il_terms l)) by (eapply intlinear_sorted; eauto).
  assert (LC : lcd n (mkCons CEq (linexpr_of_ilin l) None)). { split. simpl. exists (map (fun t => (Some (t_dim t), coeff_of_itv (t_itv t))) (il_terms l)), []. rewrite app_nil_r. split; auto. split; auto. rewrite Forall_map. apply Forall_forall. simpl. discriminate.
    simpl. rewrite terms_of_dims. split. apply sorted_nodup; auto. intros d I. apply in_map_iff in I. destruct I as (t & <- & T). unfold dims_in in DI. rewrite Forall_forall in DI. apply D. apply DI; auto. }
  assert (W : wf_linexpr n (linexpr_of_ilin l)). { destruct LC as (_ & LC). simpl in LC. destruct V as (c0 & r1 & C0 & T & _). assert (WC : forall x k, coeff_in x k -> wf_coeff k). { intros x [[| |]|[| |] [| |]] X; simpl in *; try tauto; split; try discriminate; tauto. }
    split. eapply WC; eauto. simpl. split; [|split]; try apply LC. destruct T as (cs & F2 & _). clear - F2 WC. simpl in F2. revert F2. generalize (map (fun t => (Some (t_dim t), coeff_of_itv (t_itv t))) (il_terms l)). intros ts F2. induction F2; constructor; auto. intros NN. eapply WC; eauto. }
  split; auto. split. apply lin_sorted_iff. split. apply LC. rewrite terms_of_dims. exact SD. split; auto. intros l0 K. simpl in K. discriminate.
Qed.
Lemma linearize_all_ok : forall (F : fmts) eq0 env intdim n v w l ll, (forall d e, In (d, e) l -> no_pow e /\ (forall x, occurs x e -> (x < n)%nat)) -> forallb (fun p => is_interval_linear (snd p)) l = true -> linearize_all (F:=F) eq0 env intdim l = Some ll ->
  (forall d e, In (d, e) l -> xval F v e (w d)) -> map fst ll = map fst l /\ forall d e, In (d, e) ll -> gexpr_ok n (fun _ => True) e /\ expr_val e v (w d).
Proof.
  intros F eq0 env intdim n v w. induction l as [|[d e] l IH]; intros ll OK PT H XV; simpl in H. inversion H; subst. split; auto. intros d e [].
  destruct (ap_intlinearize_texpr0 eq0 env intdim false e) as [x|] eqn:E; [|discriminate]. destruct (linearize_all eq0 env intdim l) as [r|]; [|discriminate]. inversion H; subst. simpl in PT. apply andb_true_iff in PT. destruct PT as (P1 & P2).
  destruct (IH r) as (A & B); auto. intros; eapply OK; simpl; eauto. intros; apply XV; simpl; auto. split. simpl. congruence.
  intros d0 e0 [I|I]; auto. inversion I; subst. destruct (OK d0 e) as (NP & D); simpl; auto. eapply (lin_gexpr F eq0 env intdim n e e0 v); eauto. apply XV; simpl; auto.
Qed.
Lemma fin_ok : forall (lazy : bool) po, wfp po -> unchanged po (if lazy then po else poly_chernikova po).
Proof. intros [] po W. apply repr_unch, repr_self; auto. apply C68_chernikova; auto. Qed.
(** [x] is the point before, [y] the point after the assignment *)
Lemma asssub_tree_sound : forall (F : fmts) eq0 tch assign lazy lz pa l dest po pa' x y, wfp pa -> NoDup (map fst l) ->
  (forall d e, In (d, e) l -> (d < pdim pa)%nat /\ no_pow e /\ forall k, occurs k e -> (k < pdim pa)%nat) -> dest_ok pa dest -> lz = true \/ dest = None ->
  pk_asssub_texpr_array (F:=F) eq0 tch assign lazy lz pa l dest = Some (po, pa') ->
  ipoint (pint pa) x -> ipoint (pint pa) y -> tupdated F (pdim pa) l x y ->
  points pa (if assign then x else y) -> in_dest dest (if assign then y else x) ->
  wfp po /\ same_dims po pa /\ points po (if assign then y else x).
Proof.
  intros F eq0 tch assign lazy lz pa l dest po pa' x y W ND OK DO LZ H IX IY TU PX PD. unfold pk_asssub_texpr_array in H.
  set (p1 := if lazy then pa else poly_chernikova pa) in *. assert (U1 : unchanged pa p1) by (unfold p1; apply fin_ok; auto). clearbody p1. destruct U1 as (W1 & (DI & DR) & G1). assert (DP : pdim p1 = pdim pa) by (unfold pdim; congruence).
  assert (PX1 : points p1 (if assign then x else y)) by (apply G1; auto).
  destruct (isbot p1) eqn:B1. { exfalso. apply (repr_none _ _ _ _ (repr_self p1 W1) B1 _ PX1). }
  assert (FIN : forall q p', wfp q -> same_dims q pa -> points q (if assign then y else x) -> Some (if lazy then q else poly_chernikova q, p') = Some (po, pa') -> wfp po /\ same_dims po pa /\ points po (if assign then y else x)).
  { intros q p' Wq (D1 & D2) Pq E. injection E as E _. subst po. destruct (fin_ok lazy q Wq) as (A & (B & C) & D). split; auto. split. split; congruence. apply D; auto. }
  destruct (forallb (fun p => texpr_is_scalar (snd p)) l && forallb (fun p => is_interval_linear (snd p)) l) eqn:LIN.
  - apply andb_true_iff in LIN. destruct LIN as (_ & LIN). destruct (linearize_all eq0 (pk_box (negb lz) p1) (pint p1) l) as [ll|] eqn:EL; [|discriminate]. destruct TU as (T1 & T2).
    destruct (linearize_all_ok F eq0 (pk_box (negb lz) p1) (pint p1) (pdim pa) x y l ll) as (MF & LL); auto. intros d e I. destruct (OK d e I) as (_ & A); auto.
    destruct (pk_asssub_linexpr_array assign true false p1 ll None) as [[q p']|] eqn:EA; [|discriminate].
    assert (UP : updated (pdim p1) ll x y). { rewrite DP. split. intros d e I. apply LL; auto. rewrite MF. auto. }
    assert (GO : forall d e, In (d, e) ll -> (d < pdim p1)%nat /\ gexpr_ok (pdim p1) (fun _ => True) e). { rewrite DP. intros d e I. split. 2: apply (LL d e I). assert (J : In d (map fst l)) by (rewrite <- MF; apply in_map_iff; exists (d, e); auto). apply in_map_iff in J. destruct J as ((d0 & e0) & <- & J). exact (proj1 (OK _ _ J)). }
    assert (QQ : wfp q /\ same_dims q p1 /\ points q (if assign then y else x)).
    { assert (NL : NoDup (map fst ll)) by (rewrite MF; auto). assert (DN : dest_ok p1 None) by (intros b E; discriminate). rewrite <- DI in IX, IY. destruct assign.
      exact (C85_assign_sound_partial true p1 ll None q p' x y W1 NL GO DN (or_introl eq_refl) EA IX IY UP PX1 I).
      exact (C85_substitute_sound_partial true p1 ll None q p' x y W1 NL GO DN (or_introl eq_refl) EA IX IY UP PX1 I). }
    destruct QQ as (Wq & (Q1 & Q2) & Pq). destruct dest as [pb|].
    + destruct (DO pb eq_refl) as (Wb & (D1 & D2)). assert (M := C69_meet_destructive lazy q pb Wq Wb (conj (eq_trans Q1 (eq_trans DI D1)) (eq_trans Q2 (eq_trans DR D2)))). destruct (pk_meet lazy true q pb) as [[[q2 a2] b2]|]; [|discriminate]. destruct M as ((M1 & (M2 & M3) & M4) & _). eapply FIN; [exact M1| | |exact H]. split; congruence. apply M4. split; auto.
    + eapply FIN; [exact Wq| |exact Pq|exact H]. split; congruence.
  - destruct (asssub_texpr_array (pk_gdom lz false) (pk_mt eq0 tch lz) assign p1 l dest) as [[q ex]|] eqn:EA; [|discriminate].
    assert (DO1 : forall b, dest = Some b -> wfp b /\ pint b = pint p1 /\ preal b = preal p1). { intros b E. destruct (DO b E) as (A & (B & C)). split; auto. split; congruence. }
    destruct (GenericTree.asssub_sound F (pk_gdom lz false) wfp pgam (fun _ => True) (fun _ e => no_pow e) (pk_gsound lz false) (pk_mt eq0 tch lz) (pk_tsound F eq0 tch lz) p1 l dest W1 ND) with (assign := assign) (r := q) (x := ex) (v := x) (w := y) as (A & B & C & D); cbn [gd gd_int gd_real pk_gdom] in *; auto.
    + intros d I. apply in_map_iff in I. destruct I as ((d0 & e0) & <- & J). destruct (OK _ _ J) as (A & _). rewrite <- DP in A. exact A.
    + intros d e I. destruct (OK d e I) as (_ & A & B). split; auto. intros k K. specialize (B k K). rewrite <- DP in B. exact B.
    + change (pint p1 + preal p1)%nat with (pdim p1). rewrite DP. exact TU.
    + rewrite DI; auto.
    + rewrite DI; auto.
    + split; auto.
    + intros b E. subst dest. split. apply (DO1 b eq_refl). exact PD.
    + eapply FIN; [exact A| |apply D|exact H]. split; congruence.
Qed.

(** Property C78, for all the polyhedra a program can build: the equality test and the test of an unconstrained
    dimension are exact on every polyhedron obtained from the constructors of the library by any sequence of calls,
    whatever the options, the order of the calls, and the representations left by the previous ones.

    [call ins outs] is one call: its polyhedra arguments, and the polyhedra after the call (the result, and the arguments
    with the representation the call leaves in them).  An argument consumed by a destructive call is not among
    the latter. *)
From Coq Require Import ZArith QArith Bool List Lia Reals Lra.
Import ListNotations.
From Verif Require Import Bound Itv Linexpr ItvLin ItvLinCons OctResize2 OctResize3 BoxDims PkCone PkVec PkCherni PkSpec PkMinimize PkPoly PkPolyFacts PkPolyLeq PkPolyMeet PkPolyTop PkLin PkOps PkRepr PkAssign PkAssignA PkDims PkProj PkFold PkUser PkUserRow PkUserCons PkUserGen PkWiden PkArray PkArrayFacts PkCanon PkCanonFacts PkCanonConv PkCanonNrm PkCanonHon PkCanonEq PkCanonClos PkCanonOps PkCanonOps2 PkCanonAdd PkCanonArr PropPkPoly PropPkAssign PropPkUser PropPkDims PropPkWiden PropPkArray PropPkCanon.
Open Scope R_scope.

Definition opt {A} (o : option A) : list A := match o with Some a => [a] | None => [] end.
Definition keep (destr : bool) (p : poly) : list poly := if destr then [] else [p].

Inductive call : list poly -> list poly -> Prop :=
(* constructors *)
| c_top : forall i r, call [] [poly_top i r]
| c_bottom : forall i r, call [] [pbottom i r]
| c_of_box : forall i r l, length l = (i + r)%nat -> call [] [pk_of_box i r l]
(* meet and join *)
| c_meet : forall lazy destr pa pb po pa' pb', same_dims pa pb -> pk_meet lazy destr pa pb = Some (po, pa', pb') -> call [pa; pb] (po :: pb' :: keep destr pa')
| c_join : forall lazy exw algleq destr pa pb po pa' pb', same_dims pa pb -> pk_join lazy exw algleq destr pa pb = Some (po, pa', pb') -> call [pa; pb] (po :: pb' :: keep destr pa')
| c_meet_array : forall lazy h l i r po h', l <> [] -> (forall a, In a l -> pint (h a) = i /\ preal (h a) = r) -> pk_meet_array lazy h l = Some (po, h') -> call (map h l) (po :: map h' l)
| c_join_array : forall lazy exw algleq h l i r po h', l <> [] -> (forall a, In a l -> pint (h a) = i /\ preal (h a) = r) -> (forall a, count_occ Nat.eq_dec l a <= 2)%nat ->
    pk_join_array lazy exw algleq h l = Some (po, h') -> call (map h l) (po :: map h' l)
| c_meet_lincons : forall lazy destr pa l po pa' ex, Forall (cons_ok (pdim pa)) l -> pk_meet_lincons_array lazy destr pa l = Some (po, pa', ex) -> call [pa] (po :: keep destr pa')
| c_add_rays : forall lazy destr pa l ds po pa' ex, Forall (gen_wf (pdim pa)) l -> Forall2 (fun g d => direction (pdim pa) (snd g) d) l ds -> pk_add_generators lazy destr pa l = Some (po, pa', ex) -> call [pa] (po :: keep destr pa')
(* assignments and substitutions *)
| c_assign : forall assign lazy pa dim e dest po pa' dest', expr_ok (pdim pa) e -> (dim < pdim pa)%nat -> (forall pb, dest = Some pb -> same_dims pa pb) ->
    poly_asssub_linexpr assign lazy false pa dim e dest = Some (po, pa', dest') -> call (pa :: opt dest) (po :: pa' :: opt dest')
| c_assign_destructive : forall lazy pa dim e dest po pa' dest', expr_ok (pdim pa) e -> (dim < pdim pa)%nat -> nth (dim + 2) e 0%Z = 0%Z \/ nth 0 e 0%Z = 1%Z -> (forall pb, dest = Some pb -> same_dims pa pb) ->
    poly_asssub_linexpr true lazy true pa dim e dest = Some (po, pa', dest') -> call (pa :: opt dest) (po :: opt dest')
| c_assign_array : forall assign lazy destr pa l dest po pa' dest', array_ok (pdim pa) l -> (forall pb, dest = Some pb -> same_dims pa pb) ->
    poly_asssub_linexpr_array assign lazy destr pa l dest = Some (po, pa', dest') -> call (pa :: opt dest) (po :: keep destr pa' ++ opt dest')
(* dimensions *)
| c_add : forall alg destr pa pos ni project po pa', box_add_ok (pdim pa) pos -> (ni <= length pos)%nat -> pk_add_dimensions alg destr pa pos ni project = (po, pa') -> call [pa] (po :: keep destr pa')
| c_remove : forall alg destr pa pos ni po pa', box_rem_ok (pdim pa) pos -> (ni <= length pos)%nat -> (ni <= pint pa)%nat -> (length pos - ni <= preal pa)%nat -> pk_remove_dimensions alg destr pa pos ni = (po, pa') -> call [pa] (po :: keep destr pa')
| c_permute : forall alg destr pa perm po pa', is_perm (pdim pa) perm -> pk_permute_dimensions alg destr pa perm = (po, pa') -> call [pa] (po :: keep destr pa')
| c_forget : forall lazy destr pa tdim project po pa', (forall t, In t tdim -> (t < pdim pa)%nat) -> pk_forget_array lazy destr pa tdim project = Some (po, pa') -> call [pa] (po :: keep destr pa')
| c_expand : forall alg0 alg1 destr pa dim n po pa', (dim < pdim pa)%nat -> pk_expand alg0 alg1 destr pa dim n = (po, pa') -> call [pa] (po :: keep destr pa')
| c_fold : forall alg0 alg1 destr pa t0 ts po pa', box_fold_ok (pdim pa) t0 ts -> ((t0 < pint pa)%nat -> forall t, In t ts -> (t < pint pa)%nat) -> pk_fold alg0 alg1 destr pa t0 ts = (po, pa') -> call [pa] (po :: keep destr pa')
| c_widening : forall affine pa pb po pa' pb', same_dims pb pa -> (forall x, points pa x -> points pb x) -> pk_widening affine pa pb = Some (po, pa', pb') -> call [pa; pb] [po; pa'; pb']
(* queries, which may change the representation of their arguments *)
| c_canonicalize : forall pa, call [pa] [poly_chernikova3 pa]
| c_minimize : forall pa, call [pa] [poly_chernikova pa]
| c_is_bottom : forall alg pa b pa', pk_is_bottom alg pa = (b, pa') -> call [pa] [pa']
| c_is_top : forall alg pa b pa', pk_is_top alg pa = (b, pa') -> call [pa] [pa']
| c_is_leq : forall alg pa pb b pa' pb', same_dims pa pb -> pk_is_leq alg pa pb = (b, pa', pb') -> call [pa; pb] [pa'; pb']
| c_is_eq : forall alg algleq pa pb b pa' pb', same_dims pa pb -> pk_is_eq alg algleq pa pb = (b, pa', pb') -> call [pa; pb] [pa'; pb']
| c_unconstrained : forall pa d b pa', (d < pdim pa)%nat -> pk_is_dimension_unconstrained pa d = (b, pa') -> call [pa] [pa']
| c_bound_dimension : forall alg pa d b pa', pk_bound_dimension alg pa d = (b, pa') -> call [pa] [pa']
| c_bound_linexpr : forall alg pa e b pa', pk_bound_linexpr alg pa e = (b, pa') -> call [pa] [pa']
| c_to_box : forall alg pa b pa', pk_to_box alg pa = (b, pa') -> call [pa] [pa']
| c_sat_lincons : forall alg pa c b pa', pk_sat_lincons alg pa c = Some (b, pa') -> call [pa] [pa']
| c_sat_interval : forall alg pa d i b pa', pk_sat_interval alg pa d i = (b, pa') -> call [pa] [pa']
| c_to_lincons : forall pa l pa', pk_to_lincons_array pa = (l, pa') -> call [pa] [pa']
| c_to_generators : forall pa l pa', pk_to_generator_array pa = (l, pa') -> call [pa] [pa'].

(** the polyhedra a program can build *)
Inductive built : poly -> Prop :=
| built_call : forall ins outs p, call ins outs -> Forall built ins -> In p outs -> built p.

Definition good (p : poly) : Prop := wfp p /\ hon p.
Lemma g_repr : forall p, good p -> repr p (pint p) (preal p) (points p). Proof. intros p (W & _). apply repr_self; auto. Qed.
Lemma g_obt : forall alg p, good p -> good (obtain_gen alg p).
Proof.
  intros alg p G. assert (R := g_repr p G). unfold obtain_gen. destruct alg.
  - split. apply (chern_repr _ _ _ _ R). apply hon_chern; apply G.
  - split. apply (obtain_F_repr _ _ _ _ R). apply (hon_obtF _ _ _ _ R). apply G.
Qed.
Lemma g_chern3 : forall p, good p -> good (poly_chernikova3 p) /\ pk_is_canonical (poly_chernikova3 p) = true.
Proof. intros p G. assert (R := g_repr p G). destruct (chern3_hon p _ _ _ R (proj2 G)) as (H & C). split; auto. split; auto. apply (chern3_repr p _ _ _ R). Qed.
Lemma g_keep : forall destr p, (destr = false -> wfp p) -> hon p -> Forall good (keep destr p).
Proof. intros [] p W H; unfold keep; constructor; auto. split; auto. Qed.
Lemma g_opt : forall (d : option poly), (forall p, d = Some p -> good p) -> Forall good (opt d). Proof. intros [p|] H; simpl; auto. Qed.
Lemma opt_g : forall (d : option poly), Forall good (opt d) -> forall p, d = Some p -> good p. Proof. intros [q|] H p E; inversion E; subst. inversion H; auto. Qed.
Lemma sorted_canon : forall p, pk_is_canonical p = true -> poly_obtain_sorted_C p = p /\ poly_obtain_sorted_F p = p.
Proof.
  intros p C. unfold pk_is_canonical in C. unfold poly_obtain_sorted_F, poly_obtain_sorted_C. destruct p as [i r [A|] cs [F|] fs sc sf ne nl cg gg]; simpl in *; try discriminate; auto. destruct cs, fs; simpl in *; try discriminate. auto.
Qed.
Lemma g_one : forall po pa' destr, wfp po -> hon po -> hon pa' -> (destr = false -> wfp pa') -> Forall good (po :: keep destr pa').
Proof. intros. constructor. split; auto. apply g_keep; auto. Qed.
Lemma dest_good : forall pa dest, (forall pb, dest = Some pb -> good pb) -> (forall pb, dest = Some pb -> same_dims pa pb) -> forall pb, dest = Some pb -> repr pb (pint pa) (preal pa) (in_dest dest) /\ hon pb.
Proof. intros pa dest G D pb E. split. apply dest_repr; auto. intros q EQ. split. apply (G q EQ). auto. apply (G pb E). Qed.
Lemma rw : forall p i r S, repr p i r S -> wfp p. Proof. intros p i r S R. apply R. Qed.

Lemma call_meet : forall meet lazy exw algleq destr pa pb po pa' pb', same_dims pa pb -> good (U meet pa) -> good (U meet pb) -> poly_meet meet lazy exw algleq destr pa pb = Some (po, pa', pb') ->
  good (U meet po) /\ good (U meet pb') /\ hon (U meet pa') /\ (destr = false -> wfp (U meet pa')).
Proof.
  intros meet lazy exw algleq destr pa pb po pa' pb' (D1 & D2) Ga Gb E. assert (Ra := g_repr _ Ga). assert (Rb := g_repr _ Gb).
  assert (UI : forall q, pint (U meet q) = pint q /\ preal (U meet q) = preal q) by (intros q; destruct meet; split; reflexivity). rewrite (proj1 (UI pa)), (proj2 (UI pa)) in Ra. rewrite (proj1 (UI pb)), (proj2 (UI pb)), <- D1, <- D2 in Rb.
  assert (Q := poly_meet_spec meet lazy exw algleq destr pa pb _ _ _ _ Ra Rb). rewrite E in Q. destruct Q as (A & B & C). destruct (hU_meet meet lazy exw algleq destr pa pb _ _ _ _ po pa' pb' Ra Rb (proj2 Ga) (proj2 Gb) E) as (HA & HB & HC).
  split. split; auto. apply (rw _ _ _ _ A). split. split; auto. apply (rw _ _ _ _ C). split; auto. intros D. apply (rw _ _ _ _ (B D)).
Qed.
Lemma call_leq : forall alg pa pb b pa' pb', same_dims pa pb -> good pa -> good pb -> pk_is_leq alg pa pb = (b, pa', pb') -> (good pa' /\ same_dims pa' pa) /\ (good pb' /\ same_dims pb' pb).
Proof.
  intros alg pa pb b pa' pb' D Ga Gb E. destruct (C68_is_leq alg pa pb b pa' pb' (proj1 Ga) (proj1 Gb) D E) as ((A1 & A2 & _) & (B1 & B2 & _) & _). destruct (hon_leq alg pa pb b pa' pb') as (HA & HB); auto; try apply Ga; try apply Gb.
  split; split; auto; split; auto.
Qed.
Lemma chern3_dims : forall p, wfp p -> same_dims (poly_chernikova3 p) p. Proof. intros p W. destruct (chern3_repr p _ _ _ (repr_self p W)) as ((_ & A & B & _) & _). split; auto. Qed.
Lemma call_eq : forall alg algleq pa pb b pa' pb', same_dims pa pb -> good pa -> good pb -> pk_is_eq alg algleq pa pb = (b, pa', pb') -> good pa' /\ good pb'.
Proof.
  intros alg algleq pa pb b pa' pb' D Ga Gb E. unfold pk_is_eq in E. destruct (minimal2 pa && minimal2 pb && negb (Nat.eqb (pnbeq pa) (pnbeq pb) && Nat.eqb (pnbline pa) (pnbline pb))). injection E as _ <- <-. auto.
  set (qa := if alg then poly_chernikova3 pa else pa) in *. set (qb := if alg then poly_chernikova3 pb else pb) in *.
  assert (Gq : good qa /\ good qb /\ same_dims qa qb). { unfold qa, qb. destruct alg; auto. split. apply g_chern3; auto. split. apply g_chern3; auto. assert (X := chern3_dims pa (proj1 Ga)). assert (Y := chern3_dims pb (proj1 Gb)). unfold same_dims in *. intuition congruence. }
  clearbody qa qb. destruct Gq as (G1 & G2 & D'). destruct (pk_is_canonical qa && pk_is_canonical qb). injection E as _ <- <-. auto.
  destruct (pk_is_leq algleq qa qb) as [[r1 a1] b1] eqn:E1. destruct (call_leq _ _ _ _ _ _ D' G1 G2 E1) as ((X1 & X2) & (Y1 & Y2)). destruct r1. 2: injection E as _ <- <-; auto.
  destruct (pk_is_leq algleq b1 a1) as [[r2 b2] a2] eqn:E2. injection E as _ <- <-. destruct (call_leq algleq b1 a1 _ _ _ ltac:(destruct X2, Y2, D'; split; congruence) Y1 X1 E2) as ((Z1 & _) & (Z2 & _)). auto.
Qed.

Lemma call_join_array : forall lazy exw algleq h l i r po h', l <> [] -> (forall a, In a l -> pint (h a) = i /\ preal (h a) = r) -> (forall a, count_occ Nat.eq_dec l a <= 2)%nat -> (forall a, In a l -> good (h a)) ->
  pk_join_array lazy exw algleq h l = Some (po, h') -> hon po /\ forall a, In a l -> hon (h' a).
Proof.
  intros lazy exw algleq h l i r po h' NE DI CO G E. destruct l as [|a1 [|a2 l0]]; try congruence. { simpl in E. injection E as <- <-. split. apply (G a1); simpl; auto. intros a J. apply (G a J). }
  remember (a1 :: a2 :: l0) as l. set (t := remove_doublons (length l) (nsort l)). assert (P := nsort_perm l). destruct (doublons_spec (length l) (nsort l)) as (ND & IN). rewrite (Permutation.Permutation_length P); auto. apply nsort_sorted. intros a. rewrite nsort_count. apply CO. fold t in ND, IN.
  assert (TI : forall a, In a t <-> In a l). { intros a. rewrite IN. split; apply Permutation.Permutation_in; auto. apply Permutation.Permutation_sym; auto. }
  assert (DU : forall a, In a t -> dual_all h t a = poly_dual (h a)). { intros a J. rewrite dual_all_spec by auto. destruct (in_dec Nat.eq_dec a t); [auto|contradiction]. }
  assert (I0 : Inv false (dual_all h t) t i r (fun a => points (h a))). { intros a J. rewrite DU by auto. unfold rep, U. rewrite dual_dual. apply TI in J. destruct (DI a J) as (<- & <-). apply g_repr. auto. }
  assert (NT : t <> []). { intros X. assert (K : In a1 t) by (apply TI; subst l; left; auto). rewrite X in K. destruct K. }
  assert (E' : match poly_meet_array false lazy exw algleq (dual_all h t) t with None => None | Some (po, h) => Some (poly_dual po, dual_all h t) end = Some (po, h')). { rewrite <- E. unfold t. rewrite Heql. reflexivity. }
  destruct (poly_meet_array false lazy exw algleq (dual_all h t) t) as [[p1 h1]|] eqn:E1; try discriminate. injection E' as <- <-.
  destruct (hU_meet_array false lazy exw algleq (dual_all h t) t i r _ p1 h1 I0) as (A & B); auto. { intros a J. rewrite DU by auto. unfold hU, U. rewrite dual_dual. apply G. apply TI; auto. }
  split. exact A. intros a J. apply TI in J. rewrite dual_all_spec by auto. destruct (in_dec Nat.eq_dec a t); [|contradiction]. apply (B a J).
Qed.

Lemma call_good : forall ins outs, call ins outs -> Forall good ins -> Forall good outs.
Proof.
  intros ins outs C F. destruct C.
  - constructor; auto. split. apply C68_top. apply hon_top.
  - constructor; auto. split. apply C68_bottom. apply hon_bottom.
  - constructor; auto. split. apply C72_of_box; auto. apply hon_of_box; auto.
  - inversion F as [|? ? Ga F1]; subst. inversion F1 as [|? ? Gb _]; subst. destruct (call_meet true lazy false false destr pa pb po pa' pb') as (A & B & H1 & H2); auto. constructor; auto. constructor; auto. apply g_keep; auto.
  - inversion F as [|? ? Ga F1]; subst. inversion F1 as [|? ? Gb _]; subst. unfold pk_join in H0. destruct (poly_meet false lazy exw algleq destr (poly_dual pa) (poly_dual pb)) as [[[p1 a1] b1]|] eqn:E1; try discriminate. injection H0 as <- <- <-.
    destruct (call_meet false lazy exw algleq destr (poly_dual pa) (poly_dual pb) p1 a1 b1) as (A & B & H1 & H2); auto; try (cbn [U]; rewrite dual_dual; auto). constructor; auto. constructor; auto. apply g_keep; auto.
  - rename H into NE, H0 into DI, H1 into E. assert (G : forall a, In a l -> good (h a)). { intros a J. rewrite Forall_forall in F. apply F. apply in_map; auto. }
    assert (A : args h l i r). { split; auto. intros a J. destruct (DI a J). split; auto. apply (G a J). } destruct (C76_meet_array lazy h l i r A) as (p1 & h1 & E1 & W & _ & _ & _ & K & _). rewrite E in E1. injection E1 as <- <-.
    destruct (hU_meet_array true lazy false false h l i r _ po h' (args_inv _ _ _ _ A)) as (X & Y); auto. intros a J. apply (G a J). constructor. split; auto. apply Forall_forall. intros q Q. apply in_map_iff in Q. destruct Q as (a & <- & J). split. apply (K a J). apply (Y a J).
  - rename H into NE, H0 into DI, H1 into CO, H2 into E. assert (G : forall a, In a l -> good (h a)). { intros a J. rewrite Forall_forall in F. apply F. apply in_map; auto. }
    assert (A : args h l i r). { split; auto. intros a J. destruct (DI a J). split; auto. apply (G a J). } destruct (C76_join_array_partial lazy exw algleq h l i r A CO) as (p1 & h1 & E1 & W & _ & _ & _ & K & _). rewrite E in E1. injection E1 as <- <-.
    destruct (call_join_array lazy exw algleq h l i r po h' NE DI CO G E) as (X & Y). constructor. split; auto. apply Forall_forall. intros q Q. apply in_map_iff in Q. destruct Q as (a & <- & J). split. apply (K a J). apply (Y a J).
  - inversion F as [|? ? Ga _]; subst. destruct (C72_meet_lincons lazy destr pa l (proj1 Ga) H) as (p1 & a1 & e1 & E & W & _ & K & _). rewrite H0 in E. injection E as <- <- <-. destruct (hon_meet_lincons lazy destr pa l _ _ _ po pa' ex (g_repr _ Ga) (proj2 Ga) H0). apply g_one; auto. intros D. apply (K D).
  - inversion F as [|? ? Ga _]; subst. destruct (C72_add_rays lazy destr pa l ds (proj1 Ga) H H0) as (p1 & a1 & e1 & E & (W & _) & K). rewrite H1 in E. injection E as <- <- <-. unfold pk_add_generators in H1. destruct (pk_add_ray_array lazy destr pa (map (vector_set_generator (pdim pa)) l)) as [[p2 a2]|] eqn:E2; try discriminate. injection H1 as -> -> _.
    destruct (hon_add_ray lazy destr pa (map (vector_set_generator (pdim pa)) l) _ _ _ po pa' (g_repr _ Ga) (proj2 Ga)) as (HA & HB); auto.
    + apply Forall_forall. intros q Q. apply in_map_iff in Q. destruct Q as (g & <- & J). clear - H H0 J. induction H0; simpl in J. destruct J. inversion H; subst. destruct J as [<-|J]; auto. destruct (gen_row _ _ _ H4 H0) as (L & _). exact L.
    + apply Forall_forall. intros q Q. apply in_map_iff in Q. destruct Q as (g & <- & J). apply gen_nrm. rewrite Forall_forall in H. apply (H g J).
    + apply g_one; auto. intros D. apply (K D).
  - inversion F as [|? ? Ga Fd]; subst. destruct (expr_lenS pa e H) as (LS & Z0). assert (DG := dest_good pa dest (opt_g _ Fd) H1). assert (Q := asssub_spec assign lazy false pa dim e _ _ _ (g_repr _ Ga) LS Z0 H0 ltac:(intro; discriminate) dest (in_dest dest) (fun pb E => proj1 (DG pb E))). rewrite H2 in Q. destruct Q as (A & B & D).
    destruct (hon_asssub assign lazy false pa dim e _ _ _ (g_repr _ Ga) (proj2 Ga) LS Z0 H0 ltac:(intro; discriminate) dest (in_dest dest) po pa' dest' DG H2) as (X & Y & Z).
    constructor. split; auto. apply (rw _ _ _ _ A). constructor. split; auto. apply (rw _ _ _ _ (B eq_refl)). apply g_opt. intros p E. split. apply (rw _ _ _ _ (D p E)). auto.
  - inversion F as [|? ? Ga Fd]; subst. destruct (expr_lenS pa e H) as (LS & Z0). assert (DG := dest_good pa dest (opt_g _ Fd) H2). assert (DO : den_ok true true (if lazy then pa else poly_chernikova pa) dim e) by (intros _ _ ?; unfold zn in *; destruct H1; congruence).
    assert (Q := asssub_spec true lazy true pa dim e _ _ _ (g_repr _ Ga) LS Z0 H0 DO dest (in_dest dest) (fun pb E => proj1 (DG pb E))). rewrite H3 in Q. destruct Q as (A & B & D).
    destruct (hon_asssub true lazy true pa dim e _ _ _ (g_repr _ Ga) (proj2 Ga) LS Z0 H0 DO dest (in_dest dest) po pa' dest' DG H3) as (X & Y & Z).
    constructor. split; auto. apply (rw _ _ _ _ A). apply g_opt. intros p E. split. apply (rw _ _ _ _ (D p E)). auto.
  - inversion F as [|? ? Ga Fd]; subst. destruct (array_eok pa l H) as (EK & ND). assert (DG := dest_good pa dest (opt_g _ Fd) H0). assert (Q := array_spec assign lazy destr pa l _ _ _ (g_repr _ Ga) EK ND dest (in_dest dest) (fun pb E => proj1 (DG pb E))). rewrite H1 in Q. destruct Q as (A & B & D).
    destruct (hon_asssub_array assign lazy destr pa l _ _ _ (g_repr _ Ga) (proj2 Ga) EK ND dest (in_dest dest) po pa' dest' DG H1) as (X & Y & Z).
    constructor. split; auto. apply (rw _ _ _ _ A). apply Forall_app. split. apply g_keep; auto. intros E. apply (rw _ _ _ _ (B E)). apply g_opt. intros p E. split. apply (rw _ _ _ _ (D p E)). auto.
  - inversion F as [|? ? Ga _]; subst. assert (A := C73_add_dimensions alg destr pa pos ni project (proj1 Ga) H H0). assert (B := hon_add alg destr pa pos ni project _ _ _ (g_repr _ Ga) (proj2 Ga) H H0). rewrite H1 in A, B. destruct A as ((W & _) & K), B. apply g_one; auto. intros D; apply (K D).
  - inversion F as [|? ? Ga _]; subst. assert (A := C73_remove_dimensions alg destr pa pos ni (proj1 Ga) H H0 H1 H2). assert (B := hon_remove alg destr pa pos ni _ _ _ (g_repr _ Ga) (proj2 Ga) H H0 H1 H2). rewrite H3 in A, B. destruct A as ((W & _) & K), B. apply g_one; auto. intros D; apply (K D).
  - inversion F as [|? ? Ga _]; subst. assert (A := C73_permute_dimensions alg destr pa perm (proj1 Ga) H). assert (B := hon_permute alg destr pa perm _ _ _ (g_repr _ Ga) (proj2 Ga) H). rewrite H0 in A, B. destruct A as ((W & _) & K), B. apply g_one; auto. intros D; apply (K D).
  - inversion F as [|? ? Ga _]; subst. destruct (C73_forget lazy destr pa tdim project (proj1 Ga) H) as (p1 & a1 & E & (W & _) & K). rewrite H0 in E. injection E as <- <-. destruct (hon_forget lazy destr pa tdim project _ _ _ po pa' (g_repr _ Ga) (proj2 Ga) H H0). apply g_one; auto. intros D; apply (K D).
  - inversion F as [|? ? Ga _]; subst. assert (A := C73_expand alg0 alg1 destr pa dim n (proj1 Ga) H). assert (B := hon_expand alg0 alg1 destr pa dim n _ _ _ (g_repr _ Ga) (proj2 Ga) H). rewrite H0 in A, B. destruct A as ((W & _) & K), B. apply g_one; auto. intros D; apply (K D).
  - inversion F as [|? ? Ga _]; subst. assert (A := C73_fold alg0 alg1 destr pa t0 ts (proj1 Ga) H H0). assert (B := hon_fold alg0 alg1 destr pa t0 ts _ _ _ (g_repr _ Ga) (proj2 Ga) H H0). rewrite H1 in A, B. destruct A as ((W & _) & _ & _ & K), B. apply g_one; auto. intros D; apply (K D).
  - inversion F as [|? ? Ga F1]; subst. inversion F1 as [|? ? Gb _]; subst. destruct (C74_widening_sound affine pa pb (proj1 Ga) (proj1 Gb) H H0) as (p1 & a1 & b1 & E & W & _ & (A & _) & (B & _) & _). rewrite H1 in E. injection E as <- <- <-. assert (Rb := g_repr _ Gb). destruct H as (D1 & D2). rewrite D1, D2 in Rb.
    destruct (hon_widening affine pa pb _ _ _ _ po pa' pb' (g_repr _ Ga) Rb (proj2 Ga) (proj2 Gb) H1) as (X & Y & Z). constructor; [split; auto|]. constructor; [split; auto|]. constructor; auto. split; auto.
  - inversion F as [|? ? Ga _]; subst. constructor; auto. apply g_chern3; auto.
  - inversion F as [|? ? Ga _]; subst. constructor; auto. apply (g_obt true); auto.
  - inversion F as [|? ? Ga _]; subst. constructor; auto. unfold pk_is_bottom in H. destruct (pC pa), (pF pa); try (injection H as _ <-; auto; fail). destruct alg; injection H as _ <-; auto. apply (g_obt true); auto.
  - inversion F as [|? ? Ga _]; subst. constructor; auto. unfold pk_is_top in H. injection H as _ <-. destruct alg; auto. apply (g_obt true); auto.
  - inversion F as [|? ? Ga F1]; subst. inversion F1 as [|? ? Gb _]; subst. destruct (call_leq alg pa pb b pa' pb' H Ga Gb H0) as ((A & _) & (B & _)). auto.
  - inversion F as [|? ? Ga F1]; subst. inversion F1 as [|? ? Gb _]; subst. destruct (call_eq alg algleq pa pb b pa' pb' H Ga Gb H0) as (A & B). auto.
  - inversion F as [|? ? Ga _]; subst. constructor; auto. unfold pk_is_dimension_unconstrained in H0. injection H0 as _ <-. apply g_chern3; auto.
  - inversion F as [|? ? Ga _]; subst. constructor; auto. unfold pk_bound_dimension in H. injection H as _ <-. apply g_obt; auto.
  - inversion F as [|? ? Ga _]; subst. constructor; auto. unfold pk_bound_linexpr in H. injection H as _ <-. apply g_obt; auto.
  - inversion F as [|? ? Ga _]; subst. constructor; auto. unfold pk_to_box in H. injection H as _ <-. apply g_obt; auto.
  - inversion F as [|? ? Ga _]; subst. constructor; auto. assert (G := g_obt alg _ Ga). unfold pk_sat_lincons in H. set (q := obtain_gen alg pa) in *. clearbody q. destruct (pF q). 2: injection H as _ <-; auto. destruct (negb (row_typ (lc_typ c))). injection H as _ <-; auto.
    repeat match type of H with context [match ?x with _ => _ end] => destruct x; try discriminate end; injection H as _ <-; auto.
  - inversion F as [|? ? Ga _]; subst. constructor; auto. unfold pk_sat_interval in H. injection H as _ <-. apply g_obt; auto.
  - inversion F as [|? ? Ga _]; subst. constructor; auto. destruct (g_chern3 _ Ga) as (G & CN). unfold pk_to_lincons_array in H. set (q := poly_chernikova3 pa) in *. clearbody q. rewrite (proj1 (sorted_canon q CN)) in H. destruct (pC q); injection H as _ <-; auto.
  - inversion F as [|? ? Ga _]; subst. constructor; auto. destruct (g_chern3 _ Ga) as (G & CN). unfold pk_to_generator_array in H. set (q := poly_chernikova3 pa) in *. clearbody q. rewrite (proj2 (sorted_canon q CN)) in H. destruct (pF q); injection H as _ <-; auto.
Qed.

(** every polyhedron a program can build is well formed, and its flags tell the truth *)
Lemma built_ind2 : forall P : poly -> Prop, (forall ins outs p, call ins outs -> Forall P ins -> In p outs -> P p) -> forall p, built p -> P p.
Proof.
  intros P H. fix IH 2. intros p [ins outs q C F I]. apply (H ins outs q C); auto. clear - IH F. induction F; constructor; auto.
Qed.
Theorem C78_built : forall p, built p -> wfp p /\ hon p.
Proof. apply built_ind2. intros ins outs p C F I. assert (G := call_good ins outs C F). rewrite Forall_forall in G. apply (G p I). Qed.
(** on them the equality test is exact, with any option *)
Theorem C78_is_eq_built : forall alg algleq pa pb b pa' pb', built pa -> built pb -> same_dims pa pb -> pk_is_eq alg algleq pa pb = (b, pa', pb') ->
  (b = true <-> forall x, points pa x <-> points pb x) /\ built pa' /\ built pb' /\ unchanged pa pa' /\ unchanged pb pb'.
Proof.
  intros alg algleq pa pb b pa' pb' Ba Bb D E. destruct (C78_built pa Ba) as (Wa & Ha). destruct (C78_built pb Bb) as (Wb & Hb). destruct (C78_is_eq_sound alg algleq pa pb b pa' pb' Wa Wb D E) as (A & B & _). split. apply (C78_is_eq alg algleq pa pb b pa' pb'); auto.
  assert (K := c_is_eq alg algleq pa pb b pa' pb' D E). split. apply (built_call _ _ pa' K); simpl; auto. split; auto. apply (built_call _ _ pb' K); simpl; auto.
Qed.
(** two programs which build the same points get, after canonicalization, the same matrices *)
Theorem C78_canonical_built : forall pa pb, built pa -> built pb -> same_dims pa pb -> (forall x, points pa x <-> points pb x) ->
  pk_is_canonical (poly_chernikova3 pa) = true /\ pC (poly_chernikova3 pa) = pC (poly_chernikova3 pb) /\ pF (poly_chernikova3 pa) = pF (poly_chernikova3 pb).
Proof. intros pa pb Ba Bb D E. destruct (C78_built pa Ba) as (Wa & Ha). destruct (C78_built pb Bb) as (Wb & Hb). apply (C78_canonical_form pa pb); auto. Qed.
(** the test of an unconstrained dimension *)
Theorem C78_unconstrained_built : forall p d b p', built p -> (d < pdim p)%nat -> (exists x, points p x) -> pk_is_dimension_unconstrained p d = (b, p') -> (b = true <-> free p d).
Proof. intros p d b p' B D X E. destruct (C78_built p B) as (W & H). destruct (C78_unconstrained p d b p' W D E) as (_ & A & C). split; auto. Qed.
Print Assumptions C78_built.
Print Assumptions C78_is_eq_built.
Print Assumptions C78_canonical_built.
Print Assumptions C78_unconstrained_built.

(** the empty polyhedron: all its dimensions are free, the library answers false *)
Example unconstrained_empty : exists p d, built p /\ (d < pdim p)%nat /\ free p d /\ fst (pk_is_dimension_unconstrained p d) = false.
Proof. exists (pbottom 0 1), 0%nat. split. apply (built_call _ _ _ (c_bottom 0 1)); simpl; auto. split. unfold pdim; simpl; lia. split. intros x v X. destruct (proj2 (C68_bottom 0 1) x X). reflexivity. Qed.

(** a program: the square [0,1]x[0,1] moved by (x, y) := (y + 1, x), joined with the square, then compared with itself
    in another representation *)
Definition bsq : poly := pk_of_box 0 2 [mkItv (Fin 0%Q) (Fin 1%Q); mkItv (Fin 0%Q) (Fin 1%Q)].
Definition bex : option poly :=
  match poly_asssub_linexpr_array true false false bsq [(0%nat, [1;1;0;1]%Z); (1%nat, [1;0;1;0]%Z)] None with
  | Some (p1, _, _) => match pk_join false false false false bsq p1 with Some (p2, _, _) => Some p2 | None => None end
  | None => None
  end.
Example bex_built : exists p, bex = Some p /\ built p.
Proof.
  assert (B0 : built bsq) by (apply (built_call _ _ _ (c_of_box 0 2 [mkItv (Fin 0%Q) (Fin 1%Q); mkItv (Fin 0%Q) (Fin 1%Q)] eq_refl)); simpl; auto).
  assert (AO : array_ok (pdim bsq) [(0%nat, [1;1;0;1]%Z); (1%nat, [1;0;1;0]%Z)]). { assert (DD : pdim bsq = 2%nat) by (vm_compute; reflexivity). rewrite DD. split. repeat constructor; simpl; lia. repeat constructor; simpl; intuition lia. }
  unfold bex. assert (D0 : pint bsq = 0%nat /\ preal bsq = 2%nat) by (vm_compute; auto). destruct (C71_assign_array false false bsq _ None (proj1 (C78_built _ B0)) AO ltac:(intros ? ?; discriminate)) as (p1 & a1 & d1 & E & _ & (W & D & _)). rewrite E.
  assert (B1 : built p1) by (apply (built_call _ _ p1 (c_assign_array true false false bsq _ None p1 a1 d1 AO ltac:(intros ? ?; discriminate) E)); simpl; auto).
  assert (D' : same_dims bsq p1) by (destruct D; split; auto). clearbody bsq || idtac.
  destruct (C70_join false false false false bsq p1 (proj1 (C78_built _ B0)) W D') as (p2 & a2 & b2 & E2 & _). rewrite E2. exists p2. split; auto. apply (built_call _ _ p2 (c_join false false false false bsq p1 p2 a2 b2 D' E2)); simpl; auto.
Qed.
Example bex_eq : match bex with Some p => fst (fst (pk_is_eq true false p (poly_chernikova3 p))) = true /\ fst (fst (pk_is_eq true false p bsq)) = false | None => False end.
Proof. vm_compute. auto. Qed.

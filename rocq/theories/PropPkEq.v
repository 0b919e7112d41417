(** Property C90: the domain of linear equalities (pkeq).

    The values are affine spaces: sets closed under the lines through two of their points.  The operations of the domain
    are those of the polyhedra, followed by the smallest affine space.  The theorems say that each result is again a
    value of the domain, and which affine space it is. *)
From Coq Require Import ZArith QArith Qreals Bool List Lia Reals Lra.
Import ListNotations.
From Verif Require Import OctResize2 OctResize3 BoxDims Bound BoundFacts Itv ItvFacts Linexpr LinexprFacts ItvLin ItvLinFacts ItvLinCons ItvLinInt ItvLinApi ApCheck Generic GenericFacts PkCone PkVec PkCherni PkSpec PkMinimize PkPoly PkPolyFacts PkPolyLeq PkPolyMeet PkPolyTop PkLin PkOps PkRepr PkProj PkUser PkUserRow PkUserCons PkUserBound PkUserMeet PkUserGen PkUserSat PkAssign PropPkCherni PropPkMinimize PropPkPoly PkCanon PkCanonFacts PkCanonHon PkCanonEq PropPkAssign PropPkUser PropPkDims PropPkCanon PkLinUser PropPkLin PkApprox ItvTreeFlags PkEq.
Open Scope R_scope.

(** a value of the domain: an affine space, both forms minimal (or empty) *)
Definition eqv (po : poly) : Prop := wfp po /\ md po /\ is_aff (pdim po) (points po).
(** [po] is the smallest value of the domain which contains [P] *)
Definition hull_of (po : poly) (i r : nat) (P : (nat -> R) -> Prop) : Prop :=
  eqv po /\ pint po = i /\ preal po = r /\ (forall x, P x -> points po x) /\
  forall T, is_aff (i + r) T -> (forall x, P x -> T x) -> forall x, points po x -> T x.
Definition exactly (po : poly) (i r : nat) (P : (nat -> R) -> Prop) : Prop := eqv po /\ pint po = i /\ preal po = r /\ forall x, points po x <-> P x.

Lemma md_full : forall po, md po -> isbot po = false -> minimal2 po = true. Proof. intros po [H|H] B; auto. congruence. Qed.
Lemma bot_points : forall po x, isbot po = true -> ~ points po x. Proof. intros po x B H. unfold isbot, points in *. destruct (pC po), (pF po); auto; discriminate. Qed.
Lemma full_points : forall po, wfp po -> isbot po = false -> md po -> exists x, points po x.
Proof. intros po W B M. apply md_full in M; auto. unfold minimal2 in M. destruct (pC po) as [C|] eqn:EC; try discriminate. destruct (pF po) as [F|] eqn:EF; try discriminate. destruct W as (SW & [BB|[P1 P2]]); [congruence|]. assert (Q : exists x, gamma po x). { apply gamma_pos; auto. apply P2. congruence. } destruct Q as (x & X). exists x. rewrite points_gamma. auto. Qed.
Lemma pts_repr : forall po i r P, wfp po -> pint po = i -> preal po = r -> (forall x, points po x <-> P x) -> repr po i r P.
Proof. intros po i r P W <- <- H. apply repr_ext with (points po); auto. apply repr_self; auto. Qed.
Lemma eqv_of : forall po i r P, repr po i r P -> md po -> is_aff (i + r) P -> exactly po i r P.
Proof. intros po i r P R M A. destruct (out_of _ _ _ _ R) as (W & E1 & E2 & H). split; [|auto]. split; [exact W|]. split; [exact M|]. intros x y t z X Y Z. unfold pdim in Z. rewrite E1, E2 in Z. apply H. apply H in X, Y. exact (A x y t z X Y Z). Qed.
Lemma reduce_ok : forall po i r P, repr po i r P -> md po -> hull_of (equality_reduce po) i r P.
Proof. intros po i r P R M. destruct (reduce_repr po i r P R M) as (R2 & M2). destruct (eqv_of _ _ _ _ R2 M2 (aff_is _ _)) as (V & E1 & E2 & H). split; [exact V|]. split; [exact E1|]. split; [exact E2|]. split. - intros x X. apply H. apply aff_pt. auto. - intros T A S x X. apply H in X. apply aff_incl with (i + r)%nat P; auto. Qed.
Lemma hull_exact : forall po i r P, hull_of po i r P -> is_aff (i + r) P -> exactly po i r P.
Proof. intros po i r P (V & E1 & E2 & H1 & H2) A. split; [exact V|]. split; [exact E1|]. split; [exact E2|]. intros x. split; auto. apply H2; auto. Qed.
Lemma eqv_repr : forall po, eqv po -> repr po (pint po) (preal po) (points po). Proof. intros po (W & _). apply repr_self; auto. Qed.
Lemma chern_unch : forall po, wfp po -> unchanged po (poly_chernikova po). Proof. intros po W. apply repr_unch. apply chern_repr, repr_self; auto. Qed.

(** the smallest affine space of a polyhedron *)
Theorem C90_affine_hull : forall po, wfp po -> hull_of (equality_reduce (poly_chernikova po)) (pint po) (preal po) (points po).
Proof. intros po W. apply reduce_ok. apply chern_repr, repr_self; auto. apply chern_md. Qed.
Theorem C90_top_bottom : forall i r, exactly (poly_top i r) i r (fun _ => True) /\ exactly (pbottom i r) i r (fun _ => False).
Proof.
  intros i r. split.
  - destruct (C68_top i r) as (W & E1 & E2 & H). apply eqv_of. + apply pts_repr; auto. intros x. split; auto. + right. reflexivity. + intros ? ? ? ? ? ? ?; auto.
  - apply eqv_of. apply pbottom_repr. left. reflexivity. intros ? ? ? ? [].
Qed.
Theorem C90_meet : forall destr pa pb, eqv pa -> eqv pb -> same_dims pa pb -> exists po pa' pb', pkeq_meet destr pa pb = Some (po, pa', pb') /\
  exactly po (pint pa) (preal pa) (fun x => points pa x /\ points pb x) /\ (destr = false -> unchanged pa pa') /\ unchanged pb pb'.
Proof.
  intros destr pa pb (Wa & Ma & Aa) (Wb & Mb & Ab) D. unfold pkeq_meet.
  assert (Q : exists po pa' pb', pk_meet false destr pa pb = Some (po, pa', pb') /\ meet_ok pa pb po /\ (destr = false -> unchanged pa pa') /\ unchanged pb pb').
  { destruct destr. - assert (Q := C69_meet_destructive false pa pb Wa Wb D). destruct (pk_meet false true pa pb) as [[[po pa'] pb']|] eqn:E. + destruct Q as (Q1 & Q2). exists po, pa', pb'. split; auto. split; auto. split; auto. discriminate.
      + exfalso. destruct Q as (_ & N). destruct (isbot pa) eqn:B. 2: { destruct (full_points pa Wa B Ma) as (x & X). apply (N x X). }
        unfold pk_meet, poly_meet, poly_meet_particularcases in E. rewrite B in E. simpl in E. discriminate.
    - destruct (C69_meet false pa pb Wa Wb D) as (po & pa' & pb' & E & H1 & H2 & H3). exists po, pa', pb'. auto. }
  destruct Q as (po & pa' & pb' & E & (W & (D1 & D2) & H) & U1 & U2). exists po, pa', pb'. split; auto. split; [|auto]. apply eqv_of. - apply pts_repr; auto. - exact (md_meet _ _ _ _ _ _ _ _ _ Ma Mb E).
  - intros x y t z (X1 & X2) (Y1 & Y2) Z. split. exact (Aa x y t z X1 Y1 Z). unfold pdim in Ab. destruct D as (<- & <-) in Ab. exact (Ab x y t z X2 Y2 Z).
Qed.
(** the join is the smallest value of the domain with both arguments *)
Theorem C90_join : forall exw algleq destr pa pb, eqv pa -> eqv pb -> same_dims pa pb -> exists po pa' pb', pkeq_join exw algleq destr pa pb = Some (po, pa', pb') /\
  eqv po /\ same_dims po pa /\ (forall x, points pa x \/ points pb x -> points po x) /\
  (forall pd, eqv pd -> same_dims pa pd -> (forall x, points pa x \/ points pb x -> points pd x) -> forall x, points po x -> points pd x) /\ (destr = false -> unchanged pa pa') /\ unchanged pb pb'.
Proof.
  intros exw algleq destr pa pb (Wa & Ma & Aa) (Wb & Mb & Ab) D. destruct (C70_join false exw algleq destr pa pb Wa Wb D) as (po & pa' & pb' & E & (W & (D1 & D2) & I1 & I2 & _) & U1 & U2). unfold pkeq_join. rewrite E.
  assert (M := md_join _ _ _ _ _ _ _ _ Ma Mb E). assert (R := pts_repr po _ _ (points po) W D1 D2 (fun x => iff_refl _)). destruct (reduce_ok _ _ _ _ R M) as (V & E1 & E2 & H1 & H2).
  exists (equality_reduce po), (if destr then equality_reduce po else pa'), pb'. split; auto. split; auto. split; [split; auto|]. split; [intros x [X|X]; auto|]. split; [|split; auto; intros ->; auto].
  intros pd (Wd & Md & Ad) Dd S x X. apply (H2 (points pd)); auto. { destruct Dd as (-> & ->). exact Ad. } intros y Y. eapply (C70_join_least false exw algleq destr pa pb pd); eauto.
Qed.
(** constraints: no satisfying point is lost; for large constraints with scalar coefficients over real dimensions the
    result is the smallest affine space of the satisfying points *)
Theorem C90_meet_lincons : forall destr pa l, eqv pa -> Forall (cons_ok (pdim pa)) l ->
  exists po pa', pkeq_meet_lincons_array destr pa l = Some (po, pa') /\ eqv po /\ same_dims po pa /\ (destr = false -> unchanged pa pa') /\
    (forall x, points po x -> points pa x) /\ (forall x, points pa x -> int_point (pint pa) x -> Forall (fun c => sat_cons c x) l -> points po x) /\
    (pint pa = 0%nat -> Forall (fun c => scalar_cons c /\ large c) l -> hull_of po (pint pa) (preal pa) (fun x => points pa x /\ Forall (fun c => sat_cons c x) l)).
Proof.
  intros destr pa l (Wa & Ma & Aa) F. destruct (C72_meet_lincons false destr pa l Wa F) as (po & pa' & ex & E & W & (D1 & D2) & U & I1 & I2 & _). unfold pkeq_meet_lincons_array. rewrite E. assert (M := md_lincons _ _ _ _ _ _ E). assert (R := pts_repr po _ _ (points po) W D1 D2 (fun x => iff_refl _)). assert (HR := reduce_ok _ _ _ _ R M). assert (HR' := HR). destruct HR' as (V & E1 & E2 & H1 & H2).
  exists (equality_reduce po), (if destr then equality_reduce po else pa'). split; auto. split; auto. split; [split; auto|]. split; [intros ->; auto|]. split; [intros x X; apply (H2 (points pa)); auto|]. split; auto.
  intros P0 FS. destruct (C72_meet_lincons_exact false destr pa l Wa P0 F FS) as (po2 & pa2 & ex2 & E' & (_ & _ & H) & _). rewrite E in E'. injection E' as <- <- <-. split; auto. split; auto. split; auto. split. intros x X. apply H1, H, X. intros T AT ST x X. apply (H2 T); auto. intros y Y. apply ST, H, Y.
Qed.
(** rays and lines: the smallest affine space of the points reached *)
Theorem C90_add_rays : forall destr pa l ds, eqv pa -> Forall (gen_wf (pdim pa)) l -> Forall2 (fun g d => direction (pdim pa) (snd g) d) l ds ->
  exists po pa', pkeq_add_ray_array destr pa l = Some (po, pa') /\ (destr = false -> unchanged pa pa') /\
  hull_of po (pint pa) (preal pa) (fun y => exists x, points pa x /\ PkUserGen.added (pdim pa) (combine (map (fun g => is_line (fst g)) l) ds) x y).
Proof.
  intros destr pa l ds (Wa & Ma & Aa) F D. destruct (C72_add_rays false destr pa l ds Wa F D) as (po & pa' & ex & E & (W & (D1 & D2) & H) & U). unfold pkeq_add_ray_array. rewrite E. assert (M := md_add _ _ _ _ _ _ E). exists (equality_reduce po), (if destr then equality_reduce po else pa'). split; auto. split; [intros ->; auto|]. apply reduce_ok; auto. apply pts_repr; auto.
Qed.
(** * Dimensions *)
Lemma aff_pull : forall d d' (f : nat -> nat) (P : (nat -> R) -> Prop), is_aff d P -> (forall x, (x < d)%nat -> (f x < d')%nat) -> is_aff d' (fun w => P (fun x => w (f x))).
Proof. intros d d' f P A L x y t z X Y Z. apply (A _ _ t _ X Y). intros j Hj. apply Z, L, Hj. Qed.
Theorem C90_forget : forall destr pa tdim project, eqv pa -> (forall t, In t tdim -> (t < pdim pa)%nat) ->
  exists po pa', pkeq_forget_array destr pa tdim project = Some (po, pa') /\ (destr = false -> unchanged pa pa') /\
  exactly po (pint pa) (preal pa) (fun w => exists v, points pa v /\ forall x, (x < pdim pa)%nat -> (~ In x tdim -> w x = v x) /\ (In x tdim -> project = true -> w x = 0)).
Proof.
  intros destr pa tdim project (Wa & Ma & Aa) L. destruct (C73_forget false destr pa tdim project Wa L) as (po & pa' & E & (W & D1 & D2 & H) & U). unfold pkeq_forget_array. rewrite E. assert (M := md_forget _ _ _ _ _ _ E). exists (equality_reduce po), (if destr then equality_reduce po else pa'). split; auto. split; [intros ->; auto|]. apply hull_exact. apply reduce_ok; auto. apply pts_repr; auto.
  intros x y t z (v & V & Hv) (w & Q & Hw) Z. exists (fun j => v j + t * (w j - v j)). split. { apply (Aa v w t); auto. } intros j Hj. destruct (Hv j Hj) as (V1 & V2), (Hw j Hj) as (W1 & W2). rewrite (Z j) by (unfold pdim in Hj; auto). split. intros N. rewrite V1, W1; auto. intros N PR. rewrite V2, W2; auto. ring.
Qed.
Theorem C90_remove_dimensions : forall destr pa pos ni, eqv pa -> box_rem_ok (pdim pa) pos -> (ni <= length pos)%nat -> (ni <= pint pa)%nat -> (length pos - ni <= preal pa)%nat ->
  let (po, pa') := pkeq_remove_dimensions destr pa pos ni in
  hull_of po (pint pa - ni) (preal pa - (length pos - ni)) (fun w => exists v, points pa v /\ forall x, (x < pdim pa)%nat -> ~ In x pos -> w (x - clt pos x)%nat = v x) /\
  (destr = false -> unchanged pa pa').
Proof.
  intros destr pa pos ni (Wa & Ma & Aa) B1 B2 B3 B4. unfold pkeq_remove_dimensions. assert (H := C73_remove_dimensions true destr pa pos ni Wa B1 B2 B3 B4). assert (M := md_remove destr pa pos ni). destruct (pk_remove_dimensions true destr pa pos ni) as [po pa']. destruct H as ((W & D1 & D2 & H) & U). simpl in M. split; [|intros ->; auto]. apply reduce_ok; auto. apply pts_repr; auto.
Qed.
Theorem C90_expand : forall destr pa dim n, eqv pa -> (dim < pdim pa)%nat ->
  let isint := (dim <? pint pa)%nat in let off := if isint then pint pa else pdim pa in let shift x := if (x <? off)%nat then x else (x + n)%nat in
  let (po, pa') := pkeq_expand destr pa dim n in
  exactly po (if isint then pint pa + n else pint pa) (if isint then preal pa else preal pa + n)
    (fun w => points pa (fun x => w (shift x)) /\ forall k, (k < n)%nat -> points pa (fun x => if Nat.eqb x dim then w (off + k)%nat else w (shift x))) /\
  (destr = false -> unchanged pa pa').
Proof.
  intros destr pa dim n (Wa & Ma & Aa) L isint off shift. unfold pkeq_expand. assert (H := C73_expand false true destr pa dim n Wa L). cbv zeta in H. fold isint in H. fold off in H. assert (M := md_expand destr pa dim n Ma). destruct (pk_expand false true destr pa dim n) as [po pa']. destruct H as ((W & D1 & D2 & H) & U). simpl in M. split; [|intros ->; auto]. apply hull_exact. apply reduce_ok; auto. apply pts_repr; auto.
  assert (SH : forall j, (j < pdim pa)%nat -> (shift j < (if isint then pint pa + n else pint pa) + (if isint then preal pa else preal pa + n))%nat). { intros j Hj. unfold shift, off, pdim in *. clear - Hj. destruct isint; [destruct (Nat.ltb_spec j (pint pa))|destruct (Nat.ltb_spec j (pint pa + preal pa))]; lia. }
  assert (OF : forall k, (k < n)%nat -> (off + k < (if isint then pint pa + n else pint pa) + (if isint then preal pa else preal pa + n))%nat). { intros k Hk. unfold off, pdim in *. destruct isint; lia. }
  intros x y t z (X1 & X2) (Y1 & Y2) Z. split. { apply (Aa _ _ t _ X1 Y1). intros j Hj. apply Z. auto. } intros k Hk. apply (Aa _ _ t _ (X2 k Hk) (Y2 k Hk)). intros j Hj. simpl. destruct (Nat.eqb j dim); apply Z; auto.
Qed.
Theorem C90_fold : forall destr pa t0 ts, eqv pa -> box_fold_ok (pdim pa) t0 ts -> ((t0 < pint pa)%nat -> forall t, In t ts -> (t < pint pa)%nat) ->
  let isint := (t0 <? pint pa)%nat in let folded w := exists t v, In t (t0 :: ts) /\ points pa v /\ box_folded (pdim pa) t0 ts t v w in
  let (po, pa') := pkeq_fold destr pa t0 ts in
  (eqv po /\ pint po = (if isint then pint pa - length ts else pint pa)%nat /\ preal po = (if isint then preal pa else preal pa - length ts)%nat) /\
  (forall w, folded w -> points po w) /\
  (forall pd, eqv pd -> same_dims pd po -> (forall w, folded w -> points pd w) -> forall w, points po w -> points pd w) /\
  (destr = false -> unchanged pa pa').
Proof.
  intros destr pa t0 ts (Wa & Ma & Aa) B1 B2. unfold pkeq_fold. assert (H := C73_fold false true destr pa t0 ts Wa B1 B2). cbv zeta in H. assert (M := md_fold destr pa t0 ts). destruct (pk_fold false true destr pa t0 ts) as [po pa']. destruct H as ((W & D1 & D2) & H1 & H2 & U). simpl in M. assert (HR := reduce_ok po _ _ _ (repr_self po W) M). destruct HR as (V & E1 & E2 & K1 & K2). cbv zeta. split; [split; [auto|split; congruence]|]. split; [intros w Q; apply K1, H1, Q|]. split; [|intros ->; auto].
  intros pd (Wd & Md & Ad) (F1 & F2) S w Q. rewrite E1 in F1. rewrite E2 in F2. apply (K2 (points pd)); auto. { rewrite <- F1, <- F2. exact Ad. } clear w Q. intros w Q.
  apply (hull_closed pd (pint pd) (preal pd) (points pd) w (repr_self pd Wd)). intros a VA. specialize (H2 (a 0%nat) (fun i => a (Datatypes.S i))). assert (DE : d1 (pint pd) (preal pd) = Datatypes.S (pdim po)) by (unfold d1, pdim; congruence). rewrite DE in *.
  assert (AE : forall y, affine (pdim po) (a 0%nat) (fun i => a (Datatypes.S i)) y = dt (Datatypes.S (pdim po)) a (homog y)). { intros y. rewrite affine_dt. rewrite !(dt_sym _ _ (homog y)). apply dt_ext. intros [|i] _; reflexivity. }
  rewrite <- AE. apply H2; auto. intros y Y. rewrite AE. apply VA. auto.
Qed.
(** * Assignments and substitutions *)
Lemma affine_line : forall d a0 a x y z t, (forall j, (j < d)%nat -> z j = x j + t * (y j - x j)) -> affine d a0 a z = affine d a0 a x + t * (affine d a0 a y - affine d a0 a x).
Proof. induction d; intros a0 a x y z t Z; simpl. ring. rewrite (IHd a0 a x y z t) by auto. rewrite (Z d) by auto. ring. Qed.
Lemma value_line : forall d e x y z t, (forall j, (j < d)%nat -> z j = x j + t * (y j - x j)) -> value d e z = value d e x + t * (value d e y - value d e x).
Proof. intros. unfold value. rewrite (affine_line d _ _ x y z t) by auto. unfold Rdiv. ring. Qed.
Lemma all_line : forall d l x y z t, (forall j, (j < d)%nat -> z j = x j + t * (y j - x j)) -> forall j, (j < d)%nat -> update_all d l z j = update_all d l x j + t * (update_all d l y j - update_all d l x j).
Proof. intros d l x y z t Z j Hj. unfold update_all. destruct (find _ l). apply value_line; auto. auto. Qed.
Lemma linear_scal : forall l, forallb (fun p : nat * linexpr => linexpr_is_linear (snd p)) l = true -> Forall (fun p => is_scal (le_cst (snd p)) = true) l.
Proof. intros l H. apply Forall_forall. intros p Hp. rewrite forallb_forall in H. specialize (H p Hp). unfold linexpr_is_linear in H. destruct (is_scal (le_cst (snd p))); auto. Qed.
Lemma filter_all : forall (A : Type) (f : A -> bool) l, Forall (fun a => f a = true) l -> filter f l = l /\ filter (fun a => negb (f a)) l = [].
Proof. intros A f l F. induction F as [|a l H F (I1 & I2)]; simpl; auto. rewrite H, I1, I2. auto. Qed.
Lemma asssub_pk : forall assign pa l, md pa -> l <> [] -> forallb (fun p => linexpr_is_linear (snd p)) l = true ->
  pkeq_asssub_linexpr_array assign false pa l = match pk_asssub_linexpr_array assign false false pa l None with Some (po, pa') => Some (equality_reduce po, pa') | None => None end /\
  forall po pa', pk_asssub_linexpr_array assign false false pa l None = Some (po, pa') -> md po.
Proof.
  intros assign pa l M N L. assert (SC := linear_scal l L). destruct (filter_all _ (fun p : nat * linexpr => is_scal (le_cst (snd p))) l SC) as (F1 & F2). unfold pk_asssub_linexpr_array. rewrite L. unfold pkeq_asssub_linexpr_array.
  destruct l as [|[d e] [|q l]]; [congruence| |].
  - inversion_clear SC as [|? ? SC1 _]. simpl in SC1. unfold pkeq_asssub_linexpr, poly_asssub_linexpr. rewrite (md_chern pa M). destruct (isbot pa) eqn:B. { split; [reflexivity|]. intros po pa' E. injection E as <- <-. left. reflexivity. } rewrite SC1. destruct (poly_asssub_linexpr_det assign false pa d (pk_row (pdim pa) e)) as [po pa']. split; [reflexivity|]. intros po2 pa2 E. injection E as <- <-. apply chern_md.
  - rewrite F1, F2. unfold poly_asssub_linexpr_array. rewrite (md_chern pa M). destruct (isbot pa) eqn:B. { split; [reflexivity|]. intros po pa' E. injection E as <- <-. left. reflexivity. } cbv zeta. cbn [map]. destruct (poly_asssub_linexpr_array_det assign false pa _) as [po pa']. split; [reflexivity|]. intros po2 pa2 E. injection E as <- <-. apply chern_md.
Qed.
(** linear expressions: exact *)
Theorem C90_assign_linear : forall pa l, eqv pa -> l <> [] -> asn_lin (pdim pa) l -> forallb (fun p => linexpr_is_linear (snd p)) l = true ->
  exists po pa', pkeq_asssub true false pa l None = Some (po, pa') /\ unchanged pa pa' /\ exactly po (pint pa) (preal pa) (fun y => exists x, points pa x /\ updated (pdim pa) l x y).
Proof.
  intros pa l (Wa & Ma & Aa) N AL L. destruct (asssub_pk true pa l Ma N L) as (E & M). destruct (C85_assign_linear false pa l None Wa AL L) as (po & pa' & E' & U & (W & (D1 & D2) & H)). { intros pb Q. discriminate. } unfold pkeq_asssub. rewrite E, E'. exists (equality_reduce po), pa'. split; auto. split; auto. apply hull_exact. apply reduce_ok; [|eauto]. apply pts_repr; auto. intros x. rewrite H. simpl. tauto.
  intros x y t z (x' & X & UX) (y' & Y & UY) Z. exists (fun j => x' j + t * (y' j - x' j)). split. { apply (Aa x' y' t); auto. } apply (agree_updated (pdim pa) l); auto. apply (agree_updated (pdim pa) l) in UX; auto. apply (agree_updated (pdim pa) l) in UY; auto. intros j Hj. rewrite (all_line _ _ x' y' _ t) by auto. rewrite <- UX, <- UY by auto. apply Z. auto.
Qed.
Theorem C90_substitute_linear : forall pa l, eqv pa -> l <> [] -> asn_lin (pdim pa) l -> forallb (fun p => linexpr_is_linear (snd p)) l = true ->
  exists po pa', pkeq_asssub false false pa l None = Some (po, pa') /\ unchanged pa pa' /\ exactly po (pint pa) (preal pa) (fun x => exists y, points pa y /\ updated (pdim pa) l x y).
Proof.
  intros pa l (Wa & Ma & Aa) N AL L. destruct (asssub_pk false pa l Ma N L) as (E & M). assert (Q := C85_substitute_linear false pa l None Wa AL L). destruct (pk_asssub_linexpr_array false false false pa l None) as [[po pa']|]. 2: { destruct Q as (_ & Q & _); [intros pb Q; discriminate|congruence]. } destruct Q as (U & (W & (D1 & D2) & H)). { intros pb Q. discriminate. } unfold pkeq_asssub. rewrite E. exists (equality_reduce po), pa'. split; auto. split; auto. apply hull_exact. apply reduce_ok; [|eauto]. apply pts_repr; auto. intros x. rewrite H. simpl. tauto.
  intros x y t z (x' & X & UX) (y' & Y & UY) Z. exists (fun j => x' j + t * (y' j - x' j)). split. { apply (Aa x' y' t); auto. } apply (agree_updated (pdim pa) l); auto. apply (agree_updated (pdim pa) l) in UX; auto. apply (agree_updated (pdim pa) l) in UY; auto. intros j Hj. rewrite (all_line _ _ x y _ t) by auto. rewrite <- UX, <- UY by auto. reflexivity.
Qed.
(** an expression with an interval as its constant: the dimensions are forgotten *)
Definition handled (e : linexpr) : Prop := linexpr_is_linear e = true \/ is_scal (le_cst e) = false.
Theorem C90_assign_sound : forall pa l, eqv pa -> l <> [] -> asn_lin (pdim pa) l -> Forall (fun p => handled (snd p)) l ->
  exists po pa', pkeq_asssub true false pa l None = Some (po, pa') /\ eqv po /\ same_dims po pa /\ unchanged pa pa' /\ forall x y, points pa x -> updated (pdim pa) l x y -> points po y.
Proof.
  intros pa l V N (ND & FD) FH. assert (V' := V). destruct V' as (Wa & Ma & Aa).
  destruct (forallb (fun p => linexpr_is_linear (snd p)) l) eqn:L.
  { destruct (C90_assign_linear pa l V N (conj ND FD) L) as (po & pa' & E & U & (V2 & E1 & E2 & H)). exists po, pa'. split; auto. split; auto. split; [split; auto|]. split; auto. intros x y X Q. apply H. exists x. auto. }
  destruct l as [|[d e] [|q l]]; [congruence| |].
  - assert (SC : is_scal (le_cst e) = false). { inversion_clear FH as [|? ? [H|H] _]; auto. simpl in *. rewrite H in L. discriminate. } inversion_clear FD as [|? ? (Hd & _) _]. simpl in Hd.
    unfold pkeq_asssub, pkeq_asssub_linexpr_array, pkeq_asssub_linexpr. rewrite SC. destruct (isbot pa) eqn:B.
    { exists (pbottom (pint pa) (preal pa)), pa. split; auto. destruct (C90_top_bottom (pint pa) (preal pa)) as (_ & (Vb & _)). split; auto. split; [split; auto|]. split. apply repr_unch, repr_self; auto. intros x y X. exfalso. apply (bot_points pa x B X). }
    destruct (C90_forget false pa [d] false V) as (po & pa' & E & U & (V2 & E1 & E2 & H)). { intros t [<-|[]]; auto. } rewrite E. exists po, pa'. split; auto. split; auto. split; [split; auto|]. split; auto. intros x y X (_ & Q). apply H. exists x. split; auto. intros j Hj. split; [intros NI; apply Q; auto|discriminate].
  - set (ll := (d, e) :: q :: l) in *. unfold pkeq_asssub, pkeq_asssub_linexpr_array. change ((d, e) :: q :: l) with ll. cbv zeta. unfold ll at 1. cbv iota. fold ll. clearbody ll. clear N L.
    destruct (isbot pa) eqn:B.
    { exists (pbottom (pint pa) (preal pa)), pa. split; auto. destruct (C90_top_bottom (pint pa) (preal pa)) as (_ & (Vb & _)). split; auto. split; [split; auto|]. split. apply repr_unch, repr_self; auto. intros x y X. exfalso. apply (bot_points pa x B X). }
    remember (filter (fun p => is_scal (le_cst (snd p))) ll) as lp eqn:DLP. remember (map fst (filter (fun p => negb (is_scal (le_cst (snd p)))) ll)) as lf eqn:DLF.
    assert (Hlf : forall t, In t lf -> (t < pdim pa)%nat /\ In t (map fst ll)). { intros t Ht. rewrite DLF in Ht. apply in_map_iff in Ht. destruct Ht as (p & <- & Hp). apply filter_In in Hp. destruct Hp as (Hp & _). rewrite Forall_forall in FD. split. apply (FD p Hp). apply in_map; auto. }
    assert (CP : lp = [] \/ lp <> []) by (destruct lp; [left; auto|right; discriminate]). destruct CP as [CP|CP].
    + rewrite CP. destruct (C90_forget false pa lf false V) as (po & pa' & E & U & (V2 & E1 & E2 & H)). { intros t Ht. apply Hlf; auto. } rewrite E. exists po, pa'. split; auto. split; auto. split; [split; auto|]. split; auto. intros x y X (Q1 & Q2). apply H. exists x. split; auto. intros j Hj. split; [|discriminate]. intros NI. apply Q2; auto. intros I. apply NI. rewrite DLF. apply in_map_iff in I. destruct I as (p & <- & Hp). apply in_map. apply filter_In. split; auto. destruct (is_scal (le_cst (snd p))) eqn:S; auto. exfalso. assert (H0 : In p lp) by (rewrite DLP; apply filter_In; auto). rewrite CP in H0. destruct H0.
    + assert (RW : forall (A : Type) (a b : A), match lp with [] => a | _ :: _ => b end = b) by (intros; destruct lp; congruence). rewrite RW. clear RW. assert (FP : Forall (fun p : nat * linexpr => linexpr_is_linear (snd p) = true) lp). { apply Forall_forall. intros p Hp. rewrite DLP in Hp. apply filter_In in Hp. destruct Hp as (Hp & S). rewrite Forall_forall in FH. destruct (FH p Hp) as [H|H]; auto. congruence. }
      assert (AP : array_ok (pdim pa) (rows (pdim pa) lp) /\ asn_lin (pdim pa) lp /\ forallb (fun p : nat * linexpr => linexpr_is_linear (snd p)) lp = true).
      { assert (AL : asn_lin (pdim pa) lp). { split. - clear - ND DLP. subst lp. induction ll as [|p ll IH]; simpl in *; auto. inversion_clear ND. destruct (is_scal _); simpl; auto. constructor; auto. intros I. apply H. apply in_map_iff in I. destruct I as (p' & E & I). rewrite <- E. apply in_map. apply filter_In in I. apply I. - apply Forall_forall. intros p Hp. rewrite DLP in Hp. apply filter_In in Hp. rewrite Forall_forall in FD. apply FD, Hp. }
        assert (FB : forallb (fun p : nat * linexpr => linexpr_is_linear (snd p)) lp = true). { apply forallb_forall. rewrite Forall_forall in FP. auto. } split; auto. apply rows_ok; auto. }
      destruct AP as (AP & AL & FB). destruct (C71_assign_array false false pa (rows (pdim pa) lp) None Wa AP) as (po & pa' & dd & E & U & (W & (D1 & D2) & H)). { intros pb Q; discriminate. }
      unfold poly_asssub_linexpr_array in E. rewrite (md_chern pa Ma), B in E. fold (rows (pdim pa) lp). destruct (poly_asssub_linexpr_array_det true false pa (rows (pdim pa) lp)) as [po0 pa0]. injection E as E3 E4 _. subst po pa0. set (po := poly_chernikova po0) in *.
      assert (R := reduce_ok po (pint pa) (preal pa) (points po) (pts_repr po _ _ _ W D1 D2 (fun x => iff_refl _)) (chern_md po0)). destruct R as (V3 & E1 & E2 & K1 & K2). specialize (U eq_refl).
      assert (IN : forall x z, points pa x -> updated (pdim pa) lp x z -> points (equality_reduce po) z). { intros x z X Q. apply K1, H. split; [|exact I]. exists x. split; auto. apply (agree_updated (pdim pa) lp); auto. }
      assert (Z : forall x y, updated (pdim pa) ll x y -> updated (pdim pa) lp x (fun j => if in_dec Nat.eq_dec j lf then x j else y j)).
      { intros x y (Q1 & Q2). assert (DJ : forall j, In j (map fst lp) -> ~ In j lf). { intros j J1 J2. apply in_map_iff in J1. destruct J1 as ((j1 & e1) & EJ & J1). simpl in EJ. subst j1. rewrite DLF in J2. apply in_map_iff in J2. destruct J2 as ((j2 & e2) & EJ & J2). simpl in EJ. subst j2. rewrite DLP in J1. apply filter_In in J1, J2. destruct J1 as (J1 & S1), J2 as (J2 & S2). simpl in *. assert (e1 = e2). { clear - ND J1 J2. induction ll as [|p ll0 IH]; [destruct J1|]. simpl in ND. inversion_clear ND. destruct J1 as [->|J1], J2 as [E2|J2]; auto. congruence. exfalso. apply H. apply (in_map fst) in J2. auto. subst p. exfalso. apply H. apply (in_map fst) in J1. auto. } subst e2. rewrite S1 in S2. discriminate. }
        split. - intros d1 e1 I1. destruct (in_dec Nat.eq_dec d1 lf) as [I2|I2]. exfalso. apply (DJ d1); auto. apply (in_map fst) in I1. auto. apply Q1. rewrite DLP in I1. apply filter_In in I1. apply I1.
        - intros j Hj NI. destruct (in_dec Nat.eq_dec j lf); auto. apply Q2; auto. intros I1. apply in_map_iff in I1. destruct I1 as (p & <- & Hp). destruct (is_scal (le_cst (snd p))) eqn:S. apply NI. apply in_map. rewrite DLP. apply filter_In. auto. apply n. rewrite DLF. apply in_map. apply filter_In. split; auto. rewrite S. auto. }
      assert (CF : lf = [] \/ lf <> []) by (destruct lf; [left; auto|right; discriminate]). destruct CF as [CF|CF].
      * rewrite CF in *. exists (equality_reduce po), pa'. split; auto. split; auto. split; [split; auto|]. split; auto. intros x y X Q. apply Z in Q. apply (IN x y X). destruct Q as (Q1 & Q2). split; auto.
      * assert (RW : forall (A : Type) (a b : A), match lf with [] => a | _ :: _ => b end = b) by (intros; destruct lf; congruence). rewrite RW. clear RW. destruct (C90_forget true (equality_reduce po) lf false V3) as (po2 & pa2 & E & _ & (V4 & E3 & E4 & H4)). { unfold pdim. rewrite E1, E2. intros t Ht. apply Hlf; auto. } rewrite E. exists po2, pa'. split; auto. split; auto. split; [split; congruence|]. split; auto. intros x y X Q. apply H4. eexists. split. apply (IN x _ X). apply Z. exact Q. intros j Hj. split; [|discriminate]. intros NI. destruct (in_dec Nat.eq_dec j lf); auto. tauto.
Qed.
(** * Equality *)
Theorem C90_is_eq : forall pa pb b pa' pb', eqv pa -> eqv pb -> same_dims pa pb -> pkeq_is_eq pa pb = (b, pa', pb') ->
  unchanged pa pa' /\ unchanged pb pb' /\ (b = true -> forall x, points pa x <-> points pb x) /\ (hon pa -> hon pb -> (forall x, points pa x <-> points pb x) -> b = true).
Proof.
  intros pa pb b pa' pb' (Wa & Ma & Aa) (Wb & Mb & Ab) (D1 & D2) E. unfold pkeq_is_eq in E. cbv zeta in E. injection E as EB E1 E2.
  destruct (chern3_repr pa _ _ _ (repr_self pa Wa)) as (Ra & _ & Ma'). destruct (chern3_repr pb _ _ _ (repr_self pb Wb)) as (Rb & _ & Mb'). assert (Ua := repr_unch _ _ Ra). assert (Ub := repr_unch _ _ Rb). assert (CF := fun Ha Hb => C78_canonical_form pa pb Wa Wb Ha Hb (conj D1 D2)). rewrite E1 in *. rewrite E2 in *. clear E1 E2. split; auto. split; auto.
  destruct Ua as (_ & _ & Pa), Ub as (_ & _ & Pb). split.
  - intros ->. intros x. rewrite <- Pa, <- Pb. unfold points. destruct (pC pa') as [A|] eqn:EA, (pC pb') as [B|] eqn:EB'; try discriminate. + apply andb_prop in EB. destruct EB as (_ & EB). apply matrix_equal_iff in EB. subst B. tauto. + destruct (pF pa') eqn:FA, (pF pb') eqn:FB; try tauto; exfalso; unfold isbot, minimal2 in *; rewrite ?EA, ?EB', ?FA, ?FB in *; destruct Ma', Mb'; discriminate.
  - intros Ha Hb EQ. destruct (CF Ha Hb EQ) as (_ & _ & C1 & C2). subst b. rewrite <- C1. destruct (pC pa') as [A|] eqn:EA; auto. assert (M1 : minimal2 pa' = true). { destruct Ma' as [M|M]; auto. unfold isbot in M. rewrite EA in M. discriminate. } assert (M2 : minimal2 pb' = true). { destruct Mb' as [M|M]; auto. unfold isbot in M. rewrite <- C1 in M. discriminate. }
    assert (Rb' : repr pb' (pint pa) (preal pa) (points pa)). { rewrite D1, D2. apply repr_ext with (points pb); auto. intros x. symmetry. apply EQ. } destruct (counts_eq pa' pb' _ _ _ Ra Rb' M1 M2) as (-> & ->). rewrite !Nat.eqb_refl. simpl. apply matrix_equal_iff. auto.
Qed.
(** * Boxes *)
Lemma point_rows_spec : forall i dim l d, (d + length l <= dim)%nat -> match point_rows i dim d l with
  | Some m => Forall (lenS (S dim)) m /\ forall x, cone m (homog x) <-> forall j, (j < length l)%nat -> itv_is_point (nth j l itv_top) = true -> x (d + j)%nat = Q2R (bfinq (sup (nth j l itv_top)))
  | None => (0 < i)%nat /\ forall x, (forall j, (j < length l)%nat -> in_itv (x (d + j)%nat) (nth j l itv_top)) -> ~ int_point i x end.
Proof.
  intros i dim l. induction l as [|a l IH]; intros d L; simpl.
  - split; [constructor|]. intros x. rewrite cone_in. split. intros _ j Hj. lia. intros _ f [].
  - simpl in L. specialize (IH (S d)). assert (L' : (S d + length l <= dim)%nat) by lia. specialize (IH L').
    assert (SH : forall (P : nat -> Prop), (P 0%nat /\ forall j, (j < length l)%nat -> P (S j)) <-> (forall j, (j < S (length l))%nat -> P j)). { intros P. split. intros (A & B) [|j] Hj; auto. apply B. lia. intros A. split. apply A. lia. intros j Hj. apply A. lia. }
    destruct (itv_is_point a) eqn:PA.
    + assert (ER := eq_row i dim d (bfinq (sup a))). assert (Ld : (d < dim)%nat) by lia. specialize (ER Ld). destruct (vector_set_dim_bound Eq i dim d (bfinq (sup a))) as [r|].
      * destruct ER as (E1 & E2). destruct (point_rows i dim (S d) l) as [m|]. -- destruct IH as (F & H). split; [constructor; auto|]. intros x. rewrite <- SH. rewrite cone_in. split. ++ intros C. split. intros _. rewrite Nat.add_0_r. apply E2. apply C. left; auto. intros j Hj PJ. replace (d + S j)%nat with (S d + j)%nat by lia. apply H; auto. apply cone_in. intros f Hf. apply C. right; auto. ++ intros (C1 & C2) f [<-|Hf]. apply E2. rewrite <- (Nat.add_0_r d) at 1. apply C1. auto. assert (Q : cone m (homog x)). { apply H. intros j Hj PJ. replace (S d + j)%nat with (d + S j)%nat by lia. apply C2; auto. } rewrite cone_in in Q. auto.
        -- destruct IH as (I0 & H). split; auto. intros x X. apply H. intros j Hj. replace (S d + j)%nat with (d + S j)%nat by lia. apply (X (S j)). lia.
      * destruct ER as (E1 & E2). split; [lia|]. intros x X IP. specialize (X 0%nat). simpl in X. rewrite Nat.add_0_r in X. assert (X' : in_itv (x d) a) by (apply X; lia). apply (point_val a _ PA) in X'. destruct (IP d E1) as (z & Z). apply (E2 z). congruence.
    + destruct (point_rows i dim (S d) l) as [m|]. * destruct IH as (F & H). split; auto. intros x. rewrite <- SH. rewrite H. split. intros C. split. intros Q. simpl in Q. congruence. intros j Hj PJ. replace (d + S j)%nat with (S d + j)%nat by lia. apply C; auto. intros (_ & C) j Hj PJ. replace (S d + j)%nat with (d + S j)%nat by lia. apply C; auto.
      * destruct IH as (I0 & H). split; auto. intros x X. apply H. intros j Hj. replace (S d + j)%nat with (d + S j)%nat by lia. apply (X (S j)). lia.
Qed.
Lemma aff_shift : forall d (T : (nat -> R) -> Prop) z p q s w, is_aff d T -> T z -> T p -> T q -> (forall j, (j < d)%nat -> w j = z j + s * (q j - p j)) -> T w.
Proof.
  intros d T z p q s w A Z P Q W. assert (Q2 : T (fun j => p j + s * (q j - p j))) by (apply (A p q s); auto). assert (M : T (fun j => z j + / 2 * ((p j + s * (q j - p j)) - z j))) by (apply (A _ _ (/ 2) _ Z Q2); auto). apply (A _ _ 2 _ P M). intros j Hj. rewrite W by auto. lra.
Qed.
Theorem C90_of_box : forall i r l, length l = (i + r)%nat -> let po := pkeq_of_box i r l in eqv po /\ pint po = i /\ preal po = r /\
  (forall x, in_boxl l x -> int_point i x -> points po x) /\
  (i = 0%nat -> (exists p, in_boxl l p) -> hull_of po i r (in_boxl l)).
Proof.
  intros i r l L po. assert (SP := point_rows_spec i (i + r) l 0). assert (Q0 : (0 + length l <= i + r)%nat) by lia. specialize (SP Q0). unfold po, pkeq_of_box. destruct (point_rows i (i + r) 0 l) as [m|].
  - destruct SP as (F & H). set (p0 := mkPoly i r (Some (m ++ [positivity (i + r)])) false None false None None 0 0 false false).
    assert (W0 : wfp p0). { apply con_wf. apply Forall_app. split. eapply Forall_impl; [|exact F]. intros a HA. unfold lenS in HA. unfold pvec in *. lia. constructor; auto. assert (Q := len_pos (i + r)). unfold lenS, pvec in *. lia. apply in_or_app. right. left. auto. }
    set (P := fun x : nat -> R => forall j, (j < length l)%nat -> itv_is_point (nth j l itv_top) = true -> x j = Q2R (bfinq (sup (nth j l itv_top)))).
    assert (R0 : repr p0 i r P). { apply pts_repr; auto. intros x. unfold points, p0. cbn [pC]. change (cone (m ++ [positivity (i + r)]) (homog x) <-> P x). rewrite cone_app2. unfold P. rewrite H. simpl. split. tauto. intros X. split; auto. apply cone_in. intros f [<-|[]]. apply pos_hom. }
    destruct (chern3_repr p0 i r P R0) as (R1 & _ & M1). assert (AP : is_aff (i + r) P). { intros x y t z X Y Z j Hj PJ. rewrite Z by lia. rewrite (X j Hj PJ), (Y j Hj PJ). ring. }
    destruct (eqv_of _ _ _ _ R1 M1 AP) as (V & E1 & E2 & HP). assert (IN : forall x, in_boxl l x -> points (poly_chernikova3 p0) x). { intros x X. apply HP. intros j Hj PJ. apply (point_val _ _ PJ). apply X; auto. }
    split; auto. split; auto. split; auto. split; [intros x X _; auto|]. intros I0 (p & Hp). split; auto. split; auto. split; auto. split; auto. intros T AT ST x X. apply HP in X.
    assert (K : forall k, (k <= i + r)%nat -> T (fun j => if Nat.ltb j k then x j else p j)).
    { induction k as [|k IH]; intros Hk. - apply (AT p p 0); auto. intros j _. simpl. ring.
      - assert (Hk' : (k <= i + r)%nat) by lia. specialize (IH Hk'). assert (PK := Hp k). assert (PK' : in_itv (p k) (nth k l itv_top)) by (apply PK; lia). destruct (point_or_wide _ _ PK') as [PT|(a & b & NE & Ia & Ib)].
        + apply (AT _ _ 0 _ IH IH). intros j Hj. destruct (Nat.ltb_spec j k), (Nat.ltb_spec j (S k)); try lia; try ring. assert (j = k) by lia. subst j. rewrite (X k) by (auto; lia). apply (point_val _ _ PT) in PK'. rewrite PK'. ring.
        + set (up := fun (v : R) (j : nat) => if Nat.eqb j k then v else p j). assert (UB : forall v, in_itv v (nth k l itv_top) -> T (up v)). { intros v Hv. apply ST. intros j Hj. unfold up. destruct (Nat.eqb_spec j k). subst j; auto. apply Hp; auto. }
          apply (aff_shift (i + r) T _ (up a) (up b) ((x k - p k) / (b - a)) _ AT IH (UB a Ia) (UB b Ib)). intros j Hj. unfold up. destruct (Nat.eqb_spec j k). * subst j. destruct (Nat.ltb_spec k (S k)), (Nat.ltb_spec k k); try lia. field. intros Q. apply NE. lra. * destruct (Nat.ltb_spec j (S k)), (Nat.ltb_spec j k); try lia; ring. }
    specialize (K (i + r)%nat (le_n _)). apply (AT _ _ 0 _ K K). intros j Hj. destruct (Nat.ltb_spec j (i + r)); try lia. ring.
  - destruct SP as (I0 & H). destruct (C90_top_bottom i r) as (_ & (V & E1 & E2 & HP)). split; auto. split; auto. split; auto. split. intros x X IP. exfalso. apply (H x); auto. intros ->. lia.
Qed.
(** * Widening *)
(** an increasing iteration with the widening is stationary after at most d + 3 steps, d the number of dimensions *)
Definition rank (d : nat) (po : poly) : nat := if isbot po then (d + 2)%nat else pnbeq po.
Lemma rank_lt : forall pa pb, eqv pa -> eqv pb -> same_dims pa pb -> (forall x, points pa x -> points pb x) -> (rank (pdim pa) pa <= pdim pa + 2)%nat /\ ((forall x, points pb x -> points pa x) \/ (rank (pdim pa) pb < rank (pdim pa) pa)%nat).
Proof.
  intros pa pb Va Vb (D1 & D2) S. unfold rank. assert (Ra := eqv_repr pa Va). assert (Rb := eqv_repr pb Vb). rewrite <- D1, <- D2 in Rb. destruct Va as (Wa & Ma & Aa), Vb as (Wb & Mb & Ab). destruct (isbot pa) eqn:BA.
  - split; auto. destruct (isbot pb) eqn:BB. left. intros x X. exfalso. apply (bot_points pb x BB X). right. destruct (eqs_count pb pb _ _ _ _ Rb Rb (md_full pb Mb BB) (md_full pb Mb BB)) as (_ & H & _); auto. unfold pdim in Ab. rewrite D1, D2. exact Ab. unfold pdim. lia.
  - destruct (full_points pa Wa BA Ma) as (p & P). assert (BB : isbot pb = false). { destruct (isbot pb) eqn:Q; auto. exfalso. apply (bot_points pb p Q). auto. } rewrite BB.
    destruct (eqs_count pa pb _ _ _ _ Ra Rb (md_full pa Ma BA) (md_full pb Mb BB) Aa S) as (H1 & H2 & H3). unfold pdim in *. split; [lia|]. destruct (Nat.eq_dec (pnbeq pb) (pnbeq pa)). left; auto. right. lia.
Qed.
Theorem C90_widening : forall (f g : nat -> poly) (i r : nat), eqv (f 0%nat) -> pint (f 0%nat) = i -> preal (f 0%nat) = r ->
  (forall n, eqv (g n) /\ pint (g n) = i /\ preal (g n) = r) -> (forall n x, points (f n) x -> points (g n) x) -> (forall n, f (S n) = pkeq_widening (f n) (g n)) ->
  (forall n x, points (f n) x \/ points (g n) x -> points (f (S n)) x) /\ exists n, (n <= i + r + 2)%nat /\ forall x, points (f (S n)) x -> points (f n) x.
Proof.
  intros f g i r V0 I0 R0 G IN ST. assert (INC : forall n x, points (f n) x \/ points (g n) x -> points (f (S n)) x). { intros n x X. rewrite ST. unfold pkeq_widening. destruct X; auto. } split; auto.
  assert (VF : forall n, eqv (f n) /\ pint (f n) = i /\ preal (f n) = r). { intros [|n]; auto. rewrite ST. apply G. }
  assert (Q : forall n, (exists k, (k < n)%nat /\ forall x, points (f (S k)) x -> points (f k) x) \/ (rank (i + r) (f n) + n <= i + r + 2)%nat).
  { induction n as [|n IH]. - right. destruct (rank_lt (f 0%nat) (f 0%nat) V0 V0 (conj eq_refl eq_refl)) as (H & _); auto. unfold pdim in H. rewrite I0, R0 in H. lia.
    - destruct IH as [(k & K & H)|IH]. left. exists k. split; auto. destruct (VF n) as (Vn & In & Rn), (VF (S n)) as (Vm & Im & Rm). destruct (rank_lt (f n) (f (S n)) Vn Vm) as (_ & [H|H]); auto. { split; congruence. } left. exists n. auto. right. unfold pdim in H. rewrite In, Rn in H. lia. }
  destruct (Q (i + r + 3)%nat) as [(k & K & H)|H]. exists k. split; auto. lia. lia.
Qed.
(** * What fails *)
Definition pt (q : Q) : itv := mkItv (Fin (- q)) (Fin q).
Definition e01 : poly := pkeq_of_box 0 2 [pt 0; pt 1].
Definition half : poly := pkeq_of_box 0 2 [pt 0; pt (1#2)].
Definition p2 (a b : R) : nat -> R := fun j => match j with O => a | _ => b end.
Lemma e01_eqv : eqv e01. Proof. exact (proj1 (C90_of_box 0 2 [pt 0; pt 1] eq_refl)). Qed.
Lemma half_eqv : eqv half. Proof. exact (proj1 (C90_of_box 0 2 [pt 0; pt (1#2)] eq_refl)). Qed.
Lemma e01_pt : points e01 (p2 0 1). Proof. refine (proj1 (proj2 (proj2 (proj2 (C90_of_box 0 2 [pt 0; pt 1] eq_refl)))) _ _ _). intros [|[|j]] Hj; simpl in *; try lia; split; simpl; unfold Q2R; simpl; lra. intros j Hj. lia. Qed.
Lemma half_pt : points half (p2 0 (1/2)). Proof. refine (proj1 (proj2 (proj2 (proj2 (C90_of_box 0 2 [pt 0; pt (1#2)] eq_refl)))) _ _ _). intros [|[|j]] Hj; simpl in *; try lia; split; simpl; unfold Q2R; simpl; lra. intros j Hj. lia. Qed.
Lemma e01_dim : pdim e01 = 2%nat. Proof. vm_compute. reflexivity. Qed.
Lemma half_dim : pdim half = 2%nat. Proof. vm_compute. reflexivity. Qed.
(** x := [0,1] y: the constant is a scalar, the expression is taken as linear, with the coefficient 1 *)
Definition ecoef : list (nat * linexpr) := [(0%nat, mkLin (Scal (Fin 0)) (Sparse [(Some 1%nat, Intv (Fin 0) (Fin 1))]))].
Theorem C90_assign_coefficients_refuted : exists pa l po pa' x y, eqv pa /\ asn_lin (pdim pa) l /\ pkeq_asssub true false pa l None = Some (po, pa') /\ points pa x /\ updated (pdim pa) l x y /\ ~ points po y.
Proof.
  exists e01, ecoef. rewrite e01_dim. eexists _, _, (p2 0 1), (p2 (1/2) 1). split. apply e01_eqv. split.
  { split. repeat constructor; simpl; tauto. constructor; [|constructor]. split. simpl; lia. split; simpl. - split. simpl; auto. simpl. split. repeat constructor; simpl; auto; discriminate. split. repeat constructor; simpl; tauto. intros x [<-|[]]. simpl; lia. - exists [(Some 1%nat, Intv (Fin 0) (Fin 1))], []. split; auto. split; repeat constructor; simpl; discriminate. }
  split. vm_compute. reflexivity. split. apply e01_pt. split.
  - split. intros d e [E|[]]; inversion E; subst. exists 0, (1/2). split. simpl; unfold Q2R; simpl; lra. split. exists [1/2]. split. repeat constructor; simpl; unfold Q2R; simpl; lra. simpl; lra. simpl; lra. intros [|[|d]] D N; simpl in *; auto. exfalso; apply N; auto.
  - unfold points. cbn [pC]. unfold poly_con, cone. rewrite !Forall_cons_iff. unfold row_holds. simpl. unfold homog, p2. simpl. intros (_ & H & _). lra.
Qed.
(** simultaneous substitution x := y, y := [0,1]: y is forgotten after the substitution of x, which reads it *)
Definition esw : list (nat * linexpr) := [(0%nat, mkLin (Scal (Fin 0)) (Sparse [(Some 1%nat, Scal (Fin 1))])); (1%nat, mkLin (Intv (Fin 0) (Fin 1)) (Sparse []))].
Lemma esw_ok : asn_lin 2 esw.
Proof.
  split. repeat constructor; simpl; intuition lia. constructor; [|constructor; [|constructor]]; (split; [simpl; lia|]); split; simpl.
  - split. simpl; auto. simpl. split. repeat constructor; simpl; auto; discriminate. split. repeat constructor; simpl; tauto. intros x [<-|[]]. simpl; lia.
  - exists [(Some 1%nat, Scal (Fin 1))], []. split; auto. split; repeat constructor; simpl; discriminate.
  - split. simpl; auto; try (split; discriminate). simpl. split. constructor. split. constructor. intros x [].
  - exists [], []. split; auto.
Qed.
Theorem C90_substitute_array_refuted : exists pa l po pa' x y, eqv pa /\ asn_lin (pdim pa) l /\ Forall (fun p => handled (snd p)) l /\ pkeq_asssub false false pa l None = Some (po, pa') /\ points pa y /\ updated (pdim pa) l x y /\ ~ points po x.
Proof.
  exists half, esw. rewrite half_dim. eexists _, _, (p2 7 0), (p2 0 (1/2)). split. apply half_eqv. split. apply esw_ok. split. { constructor; [left; reflexivity|]. constructor; [right; reflexivity|constructor]. }
  split. vm_compute. reflexivity. split. apply half_pt. split.
  - split. intros d e [E|[E|[]]]; inversion E; subst. exists 0, 0. split. simpl; unfold Q2R; simpl; lra. split. exists [1]. split. repeat constructor; simpl; unfold Q2R; simpl; lra. simpl; lra. simpl; lra. exists (1/2), 0. split. simpl; unfold Q2R; simpl; lra. split. exists []. split. constructor. reflexivity. simpl; lra. intros [|[|d]] D N; simpl in *; exfalso; try (apply N; auto; fail). simpl in D; lia.
  - unfold points. cbn [pC pF]. tauto.
Qed.
(** * Concrete cases *)
Definition e13 : poly := pkeq_of_box 0 2 [pt 1; pt 3].
Lemma e13_eqv : eqv e13. Proof. exact (proj1 (C90_of_box 0 2 [pt 1; pt 3] eq_refl)). Qed.
(* the line y = 2x + 1 through (0,1) and (1,3) *)
Example C90_example_join : exists po pa' pb', pkeq_join false false false e01 e13 = Some (po, pa', pb') /\ eqv po /\ (forall x, points po x <-> x 1%nat = 2 * x 0%nat + 1) /\ ~ points e01 (p2 2 5).
Proof.
  destruct (C90_join false false false e01 e13 e01_eqv e13_eqv) as (po & pa' & pb' & E & V & _). { split; reflexivity. } exists po, pa', pb'. split; auto. split; auto.
  assert (EC : pC po = Some [[0;-1;-2;1];[1;1;0;0]]%Z). { vm_compute in E. injection E as <- _ _. reflexivity. } split.
  - intros x. unfold points. rewrite EC. unfold poly_con, cone. rewrite !Forall_cons_iff. unfold row_holds. simpl. unfold homog. simpl. split. intros (H & _). lra. intros H. split. lra. split. lra. constructor.
  - assert (EC' : pC e01 = Some [[0;-1;0;1];[0;0;1;0];[1;1;0;0]]%Z) by (vm_compute; reflexivity). unfold points. rewrite EC'. unfold poly_con, cone. rewrite !Forall_cons_iff. unfold row_holds. simpl. unfold homog, p2. simpl. intros (H & _). lra.
Qed.
(* an inequality keeps the line, an equality cuts it *)
Example C90_example_cons : let d := poly_top 0 2 in let c t := mkCons t (mkLin (Scal (Fin 1)) (Sparse [(Some 0%nat, Scal (Fin 2)); (Some 1%nat, Scal (Fin (-1)))])) None in
  Forall (cons_ok (pdim d)) [c CEq; c CSupEq] /\ Forall (fun c => scalar_cons c /\ large c) [c CEq; c CSupEq] /\
  match pkeq_meet_lincons_array false d [c CSupEq], pkeq_meet_lincons_array false d [c CEq] with Some (p1, _), Some (p2, _) => pC p1 = Some [[1;1;0;0]]%Z /\ pC p2 = Some [[0;-1;-2;1];[1;1;0;0]]%Z | _, _ => False end.
Proof.
  intros d c. split. { repeat (constructor; [ok_sparse|]). constructor. } split.
  { assert (Q : forall t, ineq_typ t -> t = CEq \/ t = CSupEq -> scalar_cons (c t) /\ large (c t)). { intros t T1 T2. split; [|exact T2]. split; [exact T1|]. split; [repeat constructor|]. exists 1. simpl. unfold Q2R; simpl; lra. } constructor; [|constructor; [|constructor]]; apply Q; unfold ineq_typ; auto. }
  vm_compute. auto.
Qed.
Example C90_example_assign : asn_lin (pdim half) esw /\ Forall (fun p => handled (snd p)) esw /\ esw <> [] /\
  exists po pa', pkeq_asssub true false half esw None = Some (po, pa') /\ points po (p2 (1/2) 9) /\ ~ points po (p2 0 0).
Proof.
  split. rewrite half_dim. apply esw_ok. split. { constructor; [left; reflexivity|]. constructor; [right; reflexivity|constructor]. } split. discriminate. eexists _, _. split. vm_compute. reflexivity. unfold points. cbn [pC]. unfold poly_con, cone. rewrite !Forall_cons_iff. unfold row_holds. simpl. unfold homog, p2. simpl. split. split. lra. split. lra. constructor. intros (H & _). lra.
Qed.
Example C90_example_eq : fst (fst (pkeq_is_eq e01 e01)) = true /\ fst (fst (pkeq_is_eq e01 half)) = false. Proof. vm_compute. auto. Qed.
Example C90_example_dims : fst (pkeq_fold false (pkeq_of_box 0 3 [pt 0; pt 1; pt 5]) 0 [1%nat]) <> pbottom 0 2 /\ box_fold_ok 3 0 [1%nat] /\ eqv (pkeq_of_box 0 3 [pt 0; pt 1; pt 5]) /\
  pC (fst (pkeq_fold false (pkeq_of_box 0 3 [pt 0; pt 1; pt 5]) 0 [1%nat])) = Some [[0;-5;0;1];[1;1;0;0]]%Z /\ pC (fst (pkeq_expand false e01 0 1)) = Some [[0;0;0;0;1];[0;-1;0;1;0];[0;0;1;0;0];[1;1;0;0;0]]%Z.
Proof. split. vm_compute. discriminate. split. split; [repeat constructor|intros t [<-|[<-|[]]]; lia]. split. exact (proj1 (C90_of_box 0 3 [pt 0; pt 1; pt 5] eq_refl)). split; vm_compute; reflexivity. Qed.
(* a point, then a line, then the plane *)
Definition up (n : nat) : poly := match n with O => e01 | S O => pkeq_of_box 0 2 [pt 0; mkItv (Fin 0) (Fin 1)] | _ => poly_top 0 2 end.
Example C90_example_widening : (forall n, eqv (up n)) /\ up 1 = pkeq_widening (up 0) (up 1) /\ map (fun n => rank 2 (up n)) [0; 1; 2]%nat = [2; 1; 0]%nat.
Proof. split. intros [|[|n]]. apply e01_eqv. exact (proj1 (C90_of_box 0 2 [pt 0; mkItv (Fin 0) (Fin 1)] eq_refl)). exact (proj1 (proj1 (C90_top_bottom 0 2))). split. reflexivity. vm_compute. reflexivity. Qed.

Print Assumptions C90_affine_hull. Print Assumptions C90_top_bottom. Print Assumptions C90_meet. Print Assumptions C90_join. Print Assumptions C90_meet_lincons. Print Assumptions C90_add_rays.
Print Assumptions C90_forget. Print Assumptions C90_remove_dimensions. Print Assumptions C90_expand. Print Assumptions C90_fold. Print Assumptions C90_assign_linear. Print Assumptions C90_substitute_linear. Print Assumptions C90_assign_sound.
Print Assumptions C90_is_eq. Print Assumptions C90_of_box. Print Assumptions C90_widening. Print Assumptions C90_assign_coefficients_refuted. Print Assumptions C90_substitute_array_refuted.

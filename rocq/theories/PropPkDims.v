(** Property C73: addition, removal, permutation, forgetting, expansion and folding of the dimensions of
    polyhedra.  The vocabulary is the one of the boxes (C18): [cle pos x] counts the new dimensions inserted at
    or before [x], [clt pos x] the removed ones before [x], [box_folded n t0 ts t v w] says that [w] is [v]
    without the dimensions [ts], with the value of dimension [t] at [t0]. *)
From Coq Require Import ZArith Bool List Lia Reals Lra Sorted.
Import ListNotations.
From Verif Require Import OctResize2 OctResize3 BoxDims PkCone PkVec PkCherni PkSpec PkMinimize PkPoly PkPolyFacts PkPolyLeq PkPolyMeet PkPolyTop PkLin PkOps PkRepr PkDims PkProj PkFold PropPkPoly PropPkAssign.
Open Scope R_scope.

(** the result has the given dimensions and exactly the given points *)
Definition outcome (po : poly) (i r : nat) (P : (nat -> R) -> Prop) : Prop := wfp po /\ pint po = i /\ preal po = r /\ forall x, points po x <-> P x.
Lemma out_of : forall po i r (P : (nat -> R) -> Prop), repr po i r P -> outcome po i r P.
Proof. intros po i r P (W & A & B & G). split; [exact W|]. split; [exact A|]. split; [exact B|]. intros x. rewrite points_gamma. apply G. Qed.

Theorem C73_add_dimensions : forall alg destr pa pos ni project, wfp pa -> box_add_ok (pdim pa) pos -> (ni <= length pos)%nat ->
  let (po, pa') := pk_add_dimensions alg destr pa pos ni project in
  outcome po (pint pa + ni) (preal pa + (length pos - ni)) (fun y => points pa (fun x => y (x + cle pos x)%nat) /\ (project = true -> forall t, (t < length pos)%nat -> y (t + nth t pos 0)%nat = 0)) /\
  (destr = false -> unchanged pa pa').
Proof.
  intros alg destr pa pos ni project W OK NI. assert (H := add_spec alg destr pa pos ni project (pint pa) (preal pa) (points pa) (repr_self pa W) OK NI). destruct (pk_add_dimensions alg destr pa pos ni project) as [po pa']. destruct H as (A & B). split. apply out_of; auto. intros D. apply repr_unch; auto.
Qed.
Print Assumptions C73_add_dimensions.
Theorem C73_remove_dimensions : forall alg destr pa pos ni, wfp pa -> box_rem_ok (pdim pa) pos -> (ni <= length pos)%nat -> (ni <= pint pa)%nat -> (length pos - ni <= preal pa)%nat ->
  let (po, pa') := pk_remove_dimensions alg destr pa pos ni in
  outcome po (pint pa - ni) (preal pa - (length pos - ni)) (fun w => exists v, points pa v /\ forall x, (x < pdim pa)%nat -> ~ In x pos -> w (x - clt pos x)%nat = v x) /\
  (destr = false -> unchanged pa pa').
Proof.
  intros alg destr pa pos ni W OK N1 N2 N3. assert (H := remove_spec alg destr pa pos ni (pint pa) (preal pa) (points pa) (repr_self pa W) OK N1 N2 N3). destruct (pk_remove_dimensions alg destr pa pos ni) as [po pa']. destruct H as (A & B). split. apply out_of; auto. intros D. apply repr_unch; auto.
Qed.
Print Assumptions C73_remove_dimensions.
Theorem C73_permute_dimensions : forall alg destr pa perm, wfp pa -> is_perm (pdim pa) perm ->
  let (po, pa') := pk_permute_dimensions alg destr pa perm in
  outcome po (pint pa) (preal pa) (fun w => points pa (fun x => w (nth x perm 0%nat))) /\ (destr = false -> unchanged pa pa').
Proof.
  intros alg destr pa perm W OK. assert (H := permute_spec alg destr pa perm (pint pa) (preal pa) (points pa) (repr_self pa W) OK). destruct (pk_permute_dimensions alg destr pa perm) as [po pa']. destruct H as (A & B). split. apply out_of; auto. intros D. apply repr_unch; auto.
Qed.
Print Assumptions C73_permute_dimensions.
Theorem C73_forget : forall lazy destr pa tdim project, wfp pa -> (forall t, In t tdim -> (t < pdim pa)%nat) ->
  exists po pa', pk_forget_array lazy destr pa tdim project = Some (po, pa') /\
  outcome po (pint pa) (preal pa) (fun w => exists v, points pa v /\ forall x, (x < pdim pa)%nat -> (~ In x tdim -> w x = v x) /\ (In x tdim -> project = true -> w x = 0)) /\
  (destr = false -> unchanged pa pa').
Proof.
  intros lazy destr pa tdim project W LT. destruct (forget_spec lazy destr pa tdim project (pint pa) (preal pa) (points pa) (repr_self pa W) LT) as (po & pa' & E & A & B). exists po, pa'. split; auto. split. apply out_of; auto. intros D. apply repr_unch; auto.
Qed.
Print Assumptions C73_forget.
(** expansion: the dimension and each of its copies satisfy the constraints of the dimension.  The copies of an
    integer dimension come after the integer dimensions, those of a real one at the end. *)
Theorem C73_expand : forall alg0 alg1 destr pa dim n, wfp pa -> (dim < pdim pa)%nat ->
  let isint := (dim <? pint pa)%nat in let off := if isint then pint pa else pdim pa in let shift x := if (x <? off)%nat then x else (x + n)%nat in
  let (po, pa') := pk_expand alg0 alg1 destr pa dim n in
  outcome po (if isint then pint pa + n else pint pa) (if isint then preal pa else preal pa + n)
    (fun w => points pa (fun x => w (shift x)) /\ forall k, (k < n)%nat -> points pa (fun x => if Nat.eqb x dim then w (off + k)%nat else w (shift x))) /\
  (destr = false -> unchanged pa pa').
Proof.
  intros alg0 alg1 destr pa dim n W DM. assert (H := expand_spec alg0 alg1 destr pa dim n (pint pa) (preal pa) (points pa) (repr_self pa W) DM). destruct (pk_expand alg0 alg1 destr pa dim n) as [po pa']. destruct H as (A & B). split. apply out_of; auto. intros D. apply repr_unch; auto.
Qed.
Print Assumptions C73_expand.
(** folding: every folded point is in the result, and every half space which contains the folded points contains the result *)
Theorem C73_fold : forall alg0 alg1 destr pa t0 ts, wfp pa -> box_fold_ok (pdim pa) t0 ts -> ((t0 < pint pa)%nat -> forall t, In t ts -> (t < pint pa)%nat) ->
  let isint := (t0 <? pint pa)%nat in let folded w := exists t v, In t (t0 :: ts) /\ points pa v /\ box_folded (pdim pa) t0 ts t v w in
  let (po, pa') := pk_fold alg0 alg1 destr pa t0 ts in
  (wfp po /\ pint po = (if isint then pint pa - length ts else pint pa)%nat /\ preal po = (if isint then preal pa else preal pa - length ts)%nat) /\
  (forall w, folded w -> points po w) /\
  (forall a0 a, (forall w, folded w -> 0 <= affine (pdim po) a0 a w) -> forall w, points po w -> 0 <= affine (pdim po) a0 a w) /\
  (destr = false -> unchanged pa pa').
Proof.
  intros alg0 alg1 destr pa t0 ts W OK ST. assert (H := fold_spec alg0 alg1 destr pa t0 ts (pint pa) (preal pa) (points pa) (repr_self pa W) OK ST). destruct (pk_fold alg0 alg1 destr pa t0 ts) as [po pa']. destruct H as ((A & A1 & A2 & G) & B). cbv zeta.
  assert (PD : pdim po = (pdim pa - length ts)%nat). { unfold pdim at 1. rewrite A1, A2. apply pfold_dim; auto. } split; auto. split; [|split].
  - intros w (t & v & It & V & F). apply points_gamma, G. split. eauto. intros a H. apply (H t v w); auto.
  - intros a0 a H w Pw. apply points_gamma, G in Pw. destruct Pw as (_ & Pw). rewrite affine_dt, PD. apply Pw. intros t v w' It V F. change (pint pa + preal pa)%nat with (pdim pa). rewrite <- PD, <- affine_dt. apply H. eauto.
  - intros D. apply repr_unch; auto.
Qed.
Print Assumptions C73_fold.
(** the library reports the folding of real dimensions as exact; it is not: a fold may contain points which
    are not the folding of any point *)
Definition two : poly := pair_of [[0;0;1;0];[0;-1;0;1]]%Z.
Lemma two_wf : wfp two. Proof. apply (C69_constraints_wf 0 2). repeat constructor. Qed.
Lemma two_points : forall x, points two x <-> x 0%nat = 0 /\ x 1%nat = 1.
Proof.
  intros x. unfold points, two, pair_of. cbn [pC]. unfold poly_con, cone. rewrite !Forall_cons_iff. unfold row_holds, positivity. simpl. unfold homog. simpl. split. intros (_ & A & B & _). lra. intros (A & B). rewrite A, B. repeat split; try lra. constructor.
Qed.
Theorem C73_fold_exact_refuted : exists pa t0 ts po pa' w, wfp pa /\ box_fold_ok (pdim pa) t0 ts /\ pint pa = 0%nat /\ pk_fold false false false pa t0 ts = (po, pa') /\ points po w /\
  ~ exists t v, In t (t0 :: ts) /\ points pa v /\ box_folded (pdim pa) t0 ts t v w.
Proof.
  assert (OK : box_fold_ok (pdim two) 0 [1%nat]). { split. repeat constructor. intros t [<-|[<-|[]]]; unfold pdim; simpl; lia. }
  assert (ST : same_type (pint two) 0 [1%nat]) by (intros H; simpl in H; lia).
  assert (H := fold_spec false false false two 0 [1%nat] (pint two) (preal two) (points two) (repr_self two two_wf) OK ST).
  destruct (pk_fold false false false two 0 [1%nat]) as [po pa'] eqn:E. destruct H as ((_ & _ & _ & G) & _).
  exists two, 0%nat, [1%nat], po, pa', (fun _ => / 2). split. exact two_wf. split. exact OK. split. reflexivity. split. exact E. split.
  - apply points_gamma, G. set (v := fun i : nat => match i with O => 0 | _ => 1 end). assert (V : points two v) by (apply two_points; simpl; auto). split. exists v; exact V. intros a H.
    assert (H0 := H 0%nat v (fun _ => 0) (or_introl eq_refl) V). assert (H1 := H 1%nat v (fun _ => 1) (or_intror (or_introl eq_refl)) V).
    assert (F0 : box_folded (pint two + preal two) 0 [1%nat] 0 v (fun _ => 0)). { split. reflexivity. intros x X N N0. exfalso. simpl in X. apply N. simpl. lia. }
    assert (F1 : box_folded (pint two + preal two) 0 [1%nat] 1 v (fun _ => 1)). { split. reflexivity. intros x X N N0. exfalso. simpl in X. apply N. simpl. lia. }
    specialize (H0 F0). specialize (H1 F1). unfold dt in *. simpl in *. lra.
  - intros (t & v & It & V & F1 & _). apply two_points in V. destruct V as (V0 & V1). destruct It as [<-|[<-|[]]]; lra.
Qed.
Print Assumptions C73_fold_exact_refuted.
(** adding dimensions and removing them again gives back the same points *)
Lemma added_sorted : forall pos s, StronglySorted le pos -> StronglySorted lt (map (fun t => (t + s + nth t pos 0)%nat) (seq 0 (length pos))).
Proof.
  induction pos as [|p pos IH]; intros s S; simpl. constructor. inversion S; subst. rewrite <- seq_shift, map_map. constructor.
  - erewrite map_ext. apply (IH (Datatypes.S s)); auto. intros t. simpl. lia.
  - apply Forall_forall. intros x X. apply in_map_iff in X. destruct X as (t & <- & T). apply in_seq in T. rewrite Forall_forall in H2. specialize (H2 (nth t pos 0%nat) (nth_In pos 0%nat (ltac:(lia) : (t < length pos)%nat))). simpl. lia.
Qed.
Definition added (pos : list nat) : list nat := map (fun t => (t + nth t pos 0)%nat) (seq 0 (length pos)).
Lemma added_in : forall pos c, In c (added pos) <-> In c (anew pos).
Proof. intros. rewrite anew_in. unfold added. rewrite in_map_iff. split. intros (t & <- & T). apply in_seq in T. exists t. split; auto. lia. intros (t & T & ->). exists t. split; auto. apply in_seq. lia. Qed.
Lemma added_ss : forall pos, StronglySorted le pos -> StronglySorted lt (added pos).
Proof. intros pos S. assert (H := added_sorted pos 0 S). unfold added. erewrite map_ext. exact H. intros; simpl. lia. Qed.
Lemma added_len : forall pos, length (added pos) = length pos. Proof. intros. unfold added. rewrite map_length, seq_length. auto. Qed.
Lemma added_nth : forall pos t, (t < length pos)%nat -> nth t (added pos) 0%nat = (t + nth t pos 0)%nat.
Proof. intros pos t T. unfold added. erewrite nth_error_nth; [reflexivity|]. rewrite nth_error_map. rewrite (nth_error_nth' _ 0%nat) by (rewrite seq_length; auto). simpl. rewrite seq_nth; auto. Qed.
Lemma added_clt : forall d pos x, box_add_ok d pos -> clt (added pos) (x + cle pos x)%nat = cle pos x.
Proof.
  intros d pos x (S & B). apply clt_char. apply added_ss; auto. rewrite added_len. apply OctResize3.cle_le. 
  - intros t T. assert (TL := OctResize3.cle_le pos x). rewrite added_nth by lia. assert (~ (x < nth t pos 0)%nat). { intros H. assert (Q := cle_lo pos x t S ltac:(lia) H). lia. } lia.
  - rewrite added_len. intros t T. rewrite added_nth by lia. assert (~ (nth t pos 0 <= x)%nat). { intros H. assert (Q := cle_hi pos x t S ltac:(lia) H). lia. } lia.
Qed.
Theorem C73_add_then_remove : forall alg destr pa pos ni project alg' destr', wfp pa -> box_add_ok (pdim pa) pos -> (ni <= length pos)%nat ->
  let po := fst (pk_add_dimensions alg destr pa pos ni project) in unchanged pa (fst (pk_remove_dimensions alg' destr' po (added pos) ni)).
Proof.
  intros alg destr pa pos ni project alg' destr' W OK NI. assert (H := C73_add_dimensions alg destr pa pos ni project W OK NI). destruct (pk_add_dimensions alg destr pa pos ni project) as [po pa']. destruct H as ((W' & D1 & D2 & P1) & _). simpl.
  assert (PD : pdim po = (pdim pa + length pos)%nat) by (unfold pdim; lia).
  assert (RO : box_rem_ok (pdim po) (added pos)). { split. apply added_ss; apply OK. intros p I. rewrite PD. apply (anew_lt (pdim pa) pos OK). apply added_in; auto. }
  assert (H := C73_remove_dimensions alg' destr' po (added pos) ni W' RO). rewrite added_len in H. specialize (H NI ltac:(lia) ltac:(lia)). destruct (pk_remove_dimensions alg' destr' po (added pos) ni) as [pr po']. destruct H as ((W2 & R1 & R2 & P2) & _). simpl. split; auto. split. split; lia.
  assert (OLD : forall x, (x < pdim pa)%nat -> (x + cle pos x < pdim po)%nat /\ ~ In (x + cle pos x)%nat (added pos) /\ (x + cle pos x - clt (added pos) (x + cle pos x) = x)%nat).
  { intros x X. split. rewrite PD. apply (atau_lt (pdim pa) pos x X). split. rewrite added_in. intros I. apply (atau_out (pdim pa) pos OK _ x I X). reflexivity. rewrite (added_clt (pdim pa) pos x OK). lia. }
  intros w. rewrite P2. split.
  - intros (v & V & E). apply P1 in V. destruct V as (V & _). apply (gamma_agree pa (fun x => v (x + cle pos x)%nat)); auto. intros x X. destruct (OLD x X) as (A & B & C). rewrite <- (E _ A B), C. auto.
  - intros Pw. exists (fun j => if in_dec Nat.eq_dec j (added pos) then 0 else w (j - clt (added pos) j)%nat). split.
    + apply P1. split. apply (gamma_agree pa w); auto. intros x X. destruct (OLD x X) as (A & B & C). destruct (in_dec Nat.eq_dec (x + cle pos x)%nat (added pos)); [tauto|]. rewrite C. auto.
      intros _ t T. destruct (in_dec Nat.eq_dec (t + nth t pos 0)%nat (added pos)) as [|N]; auto. exfalso. apply N. apply added_in, anew_in. eauto.
    + intros x X NX. destruct (in_dec Nat.eq_dec x (added pos)); [tauto|auto].
Qed.
Print Assumptions C73_add_then_remove.

(** * Concrete cases: the triangle x >= 0, y >= x, y <= 2 *)
Definition tri : poly := pair_of [[1;0;1;0];[1;0;-1;1];[1;2;0;-1]]%Z.
Example tri_wf : wfp tri. Proof. apply (C69_constraints_wf 0 2). repeat constructor. Qed.
Lemma tri_points : forall x, points tri x <-> 0 <= x 0%nat /\ x 0%nat <= x 1%nat /\ x 1%nat <= 2.
Proof.
  intros x. unfold points, tri, pair_of. cbn [pC]. unfold poly_con, cone. rewrite !Forall_cons_iff. unfold row_holds, positivity. simpl. unfold homog. simpl. split. intros (_ & A & B & C & _). lra. intros (A & B & C). repeat split; try lra. constructor.
Qed.
(* a dimension is inserted in the middle, then set to zero *)
Example ex_add : let po := fst (pk_add_dimensions true false tri [1%nat] 0 true) in forall y, points po y <-> (0 <= y 0%nat /\ y 0%nat <= y 2%nat /\ y 2%nat <= 2) /\ y 1%nat = 0.
Proof.
  assert (OK : box_add_ok (pdim tri) [1%nat]). { split. repeat constructor. intros p [<-|[]]; unfold pdim; simpl; lia. }
  assert (H := C73_add_dimensions true false tri [1%nat] 0 true tri_wf OK ltac:(simpl; lia)). destruct (pk_add_dimensions true false tri [1%nat] 0 true) as [po pa']. destruct H as ((_ & _ & _ & G) & _). simpl. intros y. rewrite G, tri_points. simpl. split; intros (A & B); split; auto. apply (B eq_refl 0%nat). lia. intros _ t T. assert (t = 0%nat) by lia. subst. exact B.
Qed.
(* the first dimension is eliminated: 0 <= y <= 2 *)
Example ex_remove : let po := fst (pk_remove_dimensions false true tri [0%nat] 0) in forall y, points po y <-> 0 <= y 0%nat <= 2.
Proof.
  assert (OK : box_rem_ok (pdim tri) [0%nat]). { split. repeat constructor. intros p [<-|[]]; unfold pdim; simpl; lia. }
  assert (H := C73_remove_dimensions false true tri [0%nat] 0 tri_wf OK ltac:(simpl; lia) ltac:(simpl; lia) ltac:(simpl; lia)). destruct (pk_remove_dimensions false true tri [0%nat] 0) as [po pa']. destruct H as ((_ & _ & _ & G) & _). simpl. intros y. rewrite G. split.
  - intros (v & V & E). apply tri_points in V. specialize (E 1%nat ltac:(unfold pdim; simpl; lia) ltac:(simpl; lia)). unfold clt in E. simpl in E. lra.
  - intros Y. exists (fun i => match i with O => 0 | _ => y 0%nat end). split. apply tri_points. lra. intros x X N. assert (x = 1%nat). { unfold pdim in X. simpl in X, N. lia. } subst. reflexivity.
Qed.
(* two copies of x, each below y *)
Example ex_expand : let po := fst (pk_expand false true false tri 0 2) in forall y, points po y <-> (0 <= y 0%nat /\ y 0%nat <= y 1%nat /\ y 1%nat <= 2) /\ (0 <= y 2%nat /\ y 2%nat <= y 1%nat) /\ (0 <= y 3%nat /\ y 3%nat <= y 1%nat).
Proof.
  assert (H := C73_expand false true false tri 0 2 tri_wf ltac:(unfold pdim; simpl; lia)). cbv zeta in H. destruct (pk_expand false true false tri 0 2) as [po pa']. destruct H as ((_ & _ & _ & G) & _). simpl. intros y. rewrite G. unfold pdim. simpl. rewrite tri_points. simpl. split.
  - intros (A & B). assert (B0 := B 0%nat ltac:(lia)). assert (B1 := B 1%nat ltac:(lia)). apply tri_points in B0. apply tri_points in B1. simpl in *. tauto.
  - intros (A & B & C). split; auto. intros k K. apply tri_points. simpl. destruct k as [|[|k]]; simpl; try lia; tauto.
Qed.
(* x is forgotten *)
Example ex_forget : exists po pa', pk_forget_array false false tri [0%nat] false = Some (po, pa') /\ forall y, points po y <-> 0 <= y 1%nat <= 2.
Proof.
  assert (LT : forall t, In t [0%nat] -> (t < pdim tri)%nat) by (intros t [<-|[]]; unfold pdim; simpl; lia).
  destruct (C73_forget false false tri [0%nat] false tri_wf LT) as (po & pa' & E & (_ & _ & _ & G) & _). exists po, pa'. split. exact E. clear E. intros y. rewrite G. split.
  - intros (v & V & H). apply tri_points in V. destruct (H 1%nat ltac:(unfold pdim; simpl; lia)) as (H1 & _). rewrite H1 by (simpl; lia). lra.
  - intros Y. exists (fun i => match i with O => 0 | _ => y i end). split. apply tri_points. lra. intros x X. split; try discriminate. intros N. assert (x = 1%nat). { unfold pdim in X. simpl in X, N. lia. } subst. reflexivity.
Qed.
Example ex_swap_dims : let po := fst (pk_permute_dimensions false false tri [1%nat; 0%nat]) in forall y, points po y <-> 0 <= y 1%nat /\ y 1%nat <= y 0%nat /\ y 0%nat <= 2.
Proof.
  assert (OK : is_perm (pdim tri) [1%nat; 0%nat]). { unfold is_perm, pdim. simpl. repeat split. intros i I. destruct i as [|[|i]]; simpl; lia. intros [|[|i]] [|[|j]]; simpl; lia. }
  assert (H := C73_permute_dimensions false false tri [1%nat; 0%nat] tri_wf OK). destruct (pk_permute_dimensions false false tri [1%nat; 0%nat]) as [po pa']. destruct H as ((_ & _ & _ & G) & _). simpl. intros y. rewrite G, tri_points. simpl. tauto.
Qed.

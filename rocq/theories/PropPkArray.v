(** Property C76: meet and join of an array of polyhedra.

    The array is a list of addresses in a heap of polyhedra (PkArray.v), so that the same polyhedron may occur several
    times in it. *)
From Coq Require Import ZArith Bool List Lia Reals Lra Permutation.
Import ListNotations.
From Verif Require Import PkCone PkVec PkCherni PkSpec PkMinimize PkPoly PkPolyFacts PkPolyLeq PkPolyMeet PkPolyTop PkArray PkArrayFacts PropPkPoly.
Open Scope R_scope.

(** well formed arguments of the same dimensions *)
Definition args (h : heap) (l : list nat) (i r : nat) : Prop := l <> [] /\ forall a, In a l -> wfp (h a) /\ pint (h a) = i /\ preal (h a) = r.
(** the polyhedra of the array only change of representation, the other ones do not change *)
Definition kept (h h' : heap) (l : list nat) : Prop := (forall a, In a l -> unchanged (h a) (h' a)) /\ forall b, ~ In b l -> h' b = h b.

Lemma args_inv : forall h l i r, args h l i r -> Inv true h l i r (fun a => points (h a)).
Proof. intros h l i r (_ & A) a I. destruct (A a I) as (W & <- & <-). apply repr_self; auto. Qed.
(** the meet of an array is exact, whatever the option and the aliases *)
Theorem C76_meet_array : forall lazy h l i r, args h l i r -> exists po h', pk_meet_array lazy h l = Some (po, h') /\ wfp po /\ pint po = i /\ preal po = r /\ (forall x, points po x <-> forall a, In a l -> points (h a) x) /\ kept h h' l.
Proof.
  intros lazy h l i r A. destruct (meet_array_spec true lazy false false h l i r _ (args_inv _ _ _ _ A) (proj1 A)) as (po & h' & E & (W & D1 & D2 & G) & I). exists po, h'. split; auto. split; auto. split; auto. split; auto. split. intros x. rewrite points_gamma. apply G. split.
  intros a J. destruct (proj2 A a J) as (Wa & Ea & Eb). apply repr_unch. rewrite Ea, Eb. apply I; auto. intros b B. eapply array_frame; eauto.
Qed.
(** the least polyhedron which contains all of them *)
Definition least (h : heap) (l : list nat) (d : nat) (po : poly) : Prop :=
  (forall a x, In a l -> points (h a) x -> points po x) /\
  forall a0 v, (forall a x, In a l -> points (h a) x -> 0 <= affine d a0 v x) -> forall x, points po x -> 0 <= affine d a0 v x.
(** the join of an array, when no polyhedron occurs three times or more *)
Theorem C76_join_array_partial : forall lazy exw algleq h l i r, args h l i r -> (forall a, count_occ Nat.eq_dec l a <= 2)%nat ->
  exists po h', pk_join_array lazy exw algleq h l = Some (po, h') /\ wfp po /\ pint po = i /\ preal po = r /\ least h l (i + r) po /\ kept h h' l.
Proof.
  intros lazy exw algleq h l i r A CO. destruct l as [|a1 [|a2 l0]]. destruct A; congruence.
  { destruct (proj2 A a1 (or_introl eq_refl)) as (W & D1 & D2). exists (h a1), h. split; auto. split; auto. split; auto. split; auto. split. split. intros a x [<-|[]]; auto. intros a0 v V x X. apply (V a1); simpl; auto. split. intros a [<-|[]]. apply repr_unch, repr_self; auto. auto. }
  set (l := a1 :: a2 :: l0) in *. set (t := remove_doublons (length l) (nsort l)). assert (P := nsort_perm l). destruct (doublons_spec (length l) (nsort l)) as (ND & IN). rewrite (Permutation_length P); auto. apply nsort_sorted. intros a. rewrite nsort_count. apply CO. fold t in ND, IN.
  assert (TI : forall a, In a t <-> In a l). { intros a. rewrite IN. split; apply Permutation_in; auto. apply Permutation_sym; auto. }
  set (Q := fun a => points (h a)). assert (I0 : Inv false (dual_all h t) t i r Q). { intros a J. rewrite dual_all_spec by auto. destruct (in_dec Nat.eq_dec a t); [|contradiction]. unfold rep, U. rewrite dual_dual. apply args_inv in A. apply (A a). apply TI; auto. }
  assert (NE : t <> []). { intros E. assert (K : In a1 t) by (apply TI; left; auto). rewrite E in K. destruct K. }
  destruct (meet_array_spec false lazy exw algleq (dual_all h t) t i r Q I0 NE) as (po & h' & E & (W & D1 & D2 & G) & I). assert (FR := fun b => array_frame false lazy exw algleq (dual_all h t) t po h' b E).
  exists (poly_dual po), (dual_all h' t). split. { unfold pk_join_array. fold l. change (match poly_meet_array false lazy exw algleq (dual_all h t) t with None => None | Some (po, h) => Some (poly_dual po, dual_all h t) end = Some (poly_dual po, dual_all h' t)). rewrite E. auto. }
  split; auto. split; auto. split; auto. assert (GP : forall x, points (poly_dual po) x <-> TT false (d1 i r) Q t x) by (intros x; rewrite points_gamma; apply G). split.
  - split. intros a x J X. apply GP. intros v V. apply (V a); auto. apply TI; auto. intros a0 v V x X. rewrite affine_dt. apply GP in X. apply X. intros a y J Y. change (S (i + r)) with (d1 i r) in *. assert (K := V a y (proj1 (TI a) J) Y). rewrite affine_dt in K. exact K.
  - split. intros a J. apply TI in J. rewrite dual_all_spec by auto. destruct (in_dec Nat.eq_dec a t); [|contradiction]. destruct (proj2 A a (proj1 (TI a) J)) as (Wa & Ea & Eb). apply repr_unch. rewrite Ea, Eb. apply (I a J). intros b B. assert (B' : ~ In b t) by (rewrite TI; auto). rewrite dual_all_spec by auto. destruct (in_dec Nat.eq_dec b t); [contradiction|]. rewrite FR by auto. rewrite dual_all_spec by auto. destruct (in_dec Nat.eq_dec b t); auto. contradiction.
Qed.
(** a polyhedron which contains all the arguments contains their join *)
Theorem C76_join_array_least : forall lazy exw algleq h l i r po h' pd, args h l i r -> (forall a, count_occ Nat.eq_dec l a <= 2)%nat -> pk_join_array lazy exw algleq h l = Some (po, h') ->
  wfp pd -> pint pd = i -> preal pd = r -> (forall a x, In a l -> points (h a) x -> points pd x) -> forall x, points po x -> points pd x.
Proof.
  intros lazy exw algleq h l i r po h' pd A CO E W D1 D2 H x X. destruct (C76_join_array_partial lazy exw algleq h l i r A CO) as (po2 & h2 & E2 & _ & _ & _ & (_ & L) & _). rewrite E2 in E. injection E as <- <-. assert (R := repr_self pd W). rewrite D1, D2 in R. apply (hull_closed pd i r (points pd) x R). intros a V. specialize (L (a 0%nat) (fun i => a (S i))).
  assert (AE : forall y, affine (i + r) (a 0%nat) (fun i => a (S i)) y = dt (d1 i r) a (homog y)). { intros y. rewrite affine_dt. change (S (i + r)) with (d1 i r). rewrite !(dt_sym _ _ (homog y)). apply dt_ext. intros [|k] _; reflexivity. }
  rewrite <- AE. apply L; auto. intros b y J Y. rewrite AE. apply V. eapply H; eauto.
Qed.
(** three times the same polyhedron: a duplicate remains, which is exchanged twice with its dual.  The join does not contain its arguments: here the universe, and the result is the origin. *)
Theorem C76_join_array_aliases_refuted : forall lazy exw algleq, exists h l po h' x, args h l 0 1 /\ pk_join_array lazy exw algleq h l = Some (po, h') /\ (forall a, In a l -> points (h a) x) /\ ~ points po x.
Proof.
  intros lazy exw algleq. exists (fun _ => poly_top 0 1), [0; 0; 0]%nat. assert (E : exists h', pk_join_array lazy exw algleq (fun _ => poly_top 0 1) [0; 0; 0]%nat = Some (poly_dual (poly_top 0 1), h')). { eexists. destruct lazy; reflexivity. } destruct E as (h' & E). eexists _, h', (fun _ => 5). split. split. discriminate. intros a _. destruct (C68_top 0 1) as (W & D1 & D2 & _). auto. split. exact E. split. intros a _. apply C68_top. unfold points. simpl. intros H. unfold poly_con, cone in H. inversion H as [|? ? H1 H2]. unfold row_holds in H1. simpl in H1. unfold homog in H1. lra.
Qed.

(** * Concrete cases *)
Definition heap76 : heap := fun a => match a with O => ex_a | 1%nat => ex_b | 2%nat => poly_top 0 2 | _ => pair_of [[1;-3;1;0];[1;4;-1;0];[0;0;0;1]]%Z end.
Example heap76_args : args heap76 [0; 1; 3; 1]%nat 0 2.
Proof. split. discriminate. intros a [<-|[<-|[<-|[<-|[]]]]]; (split; [|split; reflexivity]). apply ex_a_wf. apply ex_b_wf. apply (C69_constraints_wf 0 2). repeat constructor. apply ex_b_wf. Qed.
Example heap76_count : forall a, (count_occ Nat.eq_dec [0; 1; 3; 1] a <= 2)%nat.
Proof. intros a. cbn [count_occ]. destruct (Nat.eq_dec 0 a), (Nat.eq_dec 1 a), (Nat.eq_dec 3 a); lia. Qed.
Definition gens76 (o : option (poly * heap)) : option (list pvec) := match o with Some (po, _) => pF (poly_chernikova po) | None => None end.
Example heap76_join : gens76 (pk_join_array false false false heap76 [0; 1; 3; 1]%nat) = Some [[1;1;0;1];[1;1;0;0];[1;1;4;0];[1;1;2;1]]%Z.
Proof. vm_compute. reflexivity. Qed.
Example heap76_meet : gens76 (pk_meet_array false heap76 [0; 2; 0]%nat) = Some [[1;1;0;0];[1;1;0;1]]%Z /\ gens76 (pk_meet_array true heap76 [0; 1; 2]%nat) = None.
Proof. vm_compute. auto. Qed.

Print Assumptions C76_meet_array.
Print Assumptions C76_join_array_partial.
Print Assumptions C76_join_array_least.
Print Assumptions C76_join_array_aliases_refuted.

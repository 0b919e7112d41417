(** Property C74: widening of polyhedra. *)
From Coq Require Import ZArith Bool List Lia Reals Lra.
Import ListNotations.
From Verif Require Import PkCone PkVec PkCherni PkSpec PkMinimize PkPoly PkPolyFacts PkPolyTop PkOps PkRepr PkWiden PkWidenTop PropPkPoly PropPkAssign.
Open Scope R_scope.

(** the result contains both arguments; it is the second one when the first is empty *)
Theorem C74_widening_sound : forall affine pa pb, wfp pa -> wfp pb -> same_dims pb pa -> (forall x, points pa x -> points pb x) ->
  exists po pa' pb', pk_widening affine pa pb = Some (po, pa', pb') /\ wfp po /\ same_dims po pa /\ unchanged pa pa' /\ unchanged pb pb' /\
    (forall x, points pb x -> points po x) /\ ((forall x, ~ points pa x) -> forall x, points po x -> points pb x).
Proof.
  intros affine pa pb WA WB (D1 & D2) INC. assert (RB := repr_self pb WB). rewrite D1, D2 in RB.
  destruct (widening_sound affine pa pb _ _ _ _ (repr_self pa WA) RB) as (po & pa' & pb' & W & E & R1 & R2 & (W1 & I1 & I2 & G) & S1 & S2). exact INC.
  exists po, pa', pb'. split; auto. split; auto. split. split; auto. split. apply repr_unch; auto. split. apply repr_unch; auto. rewrite D1, D2; auto. split. intros x X. rewrite points_gamma. apply G, S1; auto. intros N x X. apply S2; auto. apply G. rewrite <- points_gamma; auto.
Qed.
Print Assumptions C74_widening_sound.
(** an iterate which has not grown is not changed *)
Theorem C74_widening_stable : forall affine pa pb po pa' pb', wfp pa -> wfp pb -> same_dims pb pa -> (forall x, points pa x <-> points pb x) -> pk_widening affine pa pb = Some (po, pa', pb') -> forall x, points po x <-> points pa x.
Proof.
  intros affine pa pb po pa' pb' WA WB (D1 & D2) EQ E x. assert (RB := repr_self pb WB). rewrite D1, D2 in RB. rewrite points_gamma. apply (widening_stable affine pa pb _ _ _ _ po pa' pb' (repr_self pa WA) RB EQ E).
Qed.
Print Assumptions C74_widening_stable.
(** an increasing iteration with widening stabilises: whatever the polyhedra [Q k] met, containing the iterates [P k], if
    each iterate has the points of the widening of the previous one, after finitely many steps the iterates are equal *)
Theorem C74_widening_terminates : forall (affine : nat -> bool) (P Q : nat -> poly), (forall k, wfp (P k) /\ same_dims (P k) (P 0%nat) /\ wfp (Q k) /\ same_dims (Q k) (P 0%nat)) -> (forall k x, points (P k) x -> points (Q k) x) ->
  (forall k, exists po pa pb, pk_widening (affine k) (P k) (Q k) = Some (po, pa, pb) /\ forall x, points (P (S k)) x <-> points po x) ->
  exists N, forall k, (N <= k)%nat -> forall x, points (P (S k)) x <-> points (P k) x.
Proof.
  intros affine P Q WF INC ST. set (i := pint (P 0%nat)) in *. set (r := preal (P 0%nat)) in *.
  assert (RP : forall k, repr (P k) i r (points (P k))). { intros k. destruct (WF k) as (A & (B & C) & _). assert (H := repr_self _ A). fold i r in B, C. rewrite B, C in H. auto. }
  assert (RQ : forall k, repr (Q k) i r (points (Q k))). { intros k. destruct (WF k) as (_ & _ & A & (B & C)). assert (H := repr_self _ A). fold i r in B, C. rewrite B, C in H. auto. }
  assert (M : forall k, lexle (meas (P (S k))) (meas (P k)) /\ (meas (P (S k)) = meas (P k) -> forall x, points (P (S k)) x -> points (P k) x)).
  { intros k. apply (widening_measure (affine k) (P k) (Q k) (P (S k)) i r (points (P k)) (points (Q k))); auto. intros po pa' pb' E x. destruct (ST k) as (po0 & pa0 & pb0 & E0 & H). rewrite E in E0. inversion E0; subst. rewrite H, points_gamma. tauto. }
  destruct (lex_stab (fun k => meas (P k))) as (N & SN). intros k; apply M. exists N. intros k K x. split. apply M. auto. intros X. destruct (ST k) as (po & pa & pb & E & H). apply H. destruct (WF k) as (A & (B & C) & A' & (B' & C')).
  destruct (C74_widening_sound (affine k) (P k) (Q k) A A') as (po1 & pa1 & pb1 & E1 & _ & _ & _ & _ & S1 & _). split; congruence. apply INC. rewrite E in E1. inversion E1; subst. apply S1, INC; auto.
Qed.
Print Assumptions C74_widening_terminates.

(** * A concrete case: x in [0,1] then x in [0,2]: the lower bound is kept, the upper bound is dropped *)
Definition seg74 (k : Z) : poly := mkPoly 0 1 (Some (positivity 1 :: [[1;0;1];[1;k;-1]]))%Z false None false None None 0 0 false false.
Example C74_example : wfp (seg74 1) /\ wfp (seg74 2) /\ (forall x, points (seg74 1) x -> points (seg74 2) x) /\
  (exists x, points (seg74 1) x) /\ match pk_widening true (seg74 1) (seg74 2) with Some (po, _, _) => pC po = Some (positivity 1 :: [[1;0;1]])%Z | None => False end.
Proof.
  assert (W : forall k, wfp (seg74 k)) by (intros k; apply (C69_constraints_wf 0 1); repeat constructor). split; auto. split; auto. unfold points, seg74. cbn [pC]. unfold poly_con, cone, positivity.
  split. intros x. rewrite !Forall_cons_iff. unfold row_holds. simpl. unfold homog. simpl. intros (A & B & C & D). repeat split; auto; lra. split. exists (fun _ => 0). rewrite !Forall_cons_iff. unfold row_holds. simpl. unfold homog. simpl. repeat split; try lra. constructor. vm_compute. auto.
Qed.
Lemma seg_step : exists po pa pb, pk_widening true (seg74 1) (seg74 2) = Some (po, pa, pb) /\ pC po = Some (positivity 1 :: [[1;0;1]])%Z. Proof. eexists _, _, _. split. vm_compute. reflexivity. reflexivity. Qed.
(** the iteration P, P widened with [0,k+2] joined: stable after one step *)
Example C74_example_iteration : exists (P Q : nat -> poly), (forall k, wfp (P k) /\ same_dims (P k) (P 0%nat) /\ wfp (Q k) /\ same_dims (Q k) (P 0%nat)) /\ (forall k x, points (P k) x -> points (Q k) x) /\
  (forall k, exists po pa pb, pk_widening true (P k) (Q k) = Some (po, pa, pb) /\ forall x, points (P (S k)) x <-> points po x) /\ exists x, points (P 1%nat) x /\ ~ points (P 0%nat) x.
Proof.
  set (half := mkPoly 0 1 (Some (positivity 1 :: [[1;0;1]]))%Z false None false None None 0 0 false false). assert (WH : wfp half) by (apply (C69_constraints_wf 0 1); repeat constructor). assert (W : forall k, wfp (seg74 k)) by (intros k; apply (C69_constraints_wf 0 1); repeat constructor).
  exists (fun k => match k with O => seg74 1 | S _ => half end), (fun k => match k with O => seg74 2 | S _ => half end). split. intros [|k]; (split; [auto|split; [split; auto|split; [auto|split; auto]]]). split. intros [|k] x H. exact (proj1 (proj2 (proj2 C74_example)) x H). exact H.
  split. intros [|k].
  - destruct seg_step as (po & pa & pb & E & H). exists po, pa, pb. split. exact E. intros x. unfold points. rewrite H. unfold half. cbn [pC]. reflexivity.
  - destruct (C74_widening_sound true half half WH WH) as (po & pa & pb & E & _). split; reflexivity. auto. exists po, pa, pb. split. exact E. intros x. symmetry. apply (C74_widening_stable true half half po pa pb WH WH). split; reflexivity. intros; tauto. exact E.
  - exists (fun _ => 5). unfold points, half, seg74. cbn [pC]. unfold poly_con, cone, positivity. rewrite !Forall_cons_iff. unfold row_holds. simpl. unfold homog. simpl. split. repeat split; try lra. constructor. intros (_ & _ & A & _). lra.
Qed.

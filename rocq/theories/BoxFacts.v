(** Box domain: sets of points, tests, lattice operations, widening. *)
From Coq Require Import Arith ZArith QArith Qround Qreals Reals Lra Lia Bool List Sorted.
From Verif Require Import Bound BoundFacts Util Itv ItvFacts ItvFacts2 ItvHistory Linexpr ItvLin Box BoxizeFacts.
Import ListNotations.
Open Scope Z_scope.

(** points of a box; boxes without empty interval *)
Definition gbox (a : box) (v : nat -> R) : Prop :=
  match bx_p a with None => False | Some p => forall d, (d < bx_dim a)%nat -> in_itv (v d) (p d) end.
Definition nonempty (i : itv) : Prop := exists x, in_itv x i.
Definition nebox (a : box) : Prop :=
  match bx_p a with None => True | Some p => forall d, (d < bx_dim a)%nat -> nonempty (p d) end.

(** some point of an interval *)
Definition pick (i : itv) : R :=
  match sup i with Fin q => Q2R q | _ => match inf i with Fin q => (- Q2R q)%R | _ => 0%R end end.
Lemma pick_in : forall i, nonempty i -> in_itv (pick i) i.
Proof.
  intros [[|p|] [|q|]] [x [H1 H2]]; simpl in *; unfold pick, in_itv; simpl; try tauto; try (split; auto; lra); auto.
Qed.
Lemma nonempty_not_MInf : forall i, nonempty i -> inf i <> MInf /\ sup i <> MInf.
Proof. intros i [x [H1 H2]]. split; intro E; rewrite E in *; auto. Qed.
Lemma nonempty_iff : forall i, nonempty i <-> inf i <> MInf /\ sup i <> MInf /\ itv_empty_test i = false.
Proof.
  intro i. split.
  - intro H. destruct (nonempty_not_MInf i H). split; auto. split; auto. destruct H as [x H]. destruct (itv_empty_test i) eqn:T; auto. exfalso. eapply itv_empty_test_sound; eauto.
  - intros (A & B & C). destruct i as [[|p|] [|q|]]; simpl in *; try congruence.
    + unfold itv_empty_test in C. simpl in C. apply Z.ltb_ge in C. exists (Q2R q). split; simpl; [|lra].
      destruct (Rle_dec (- Q2R q) (Q2R p)); auto. exfalso. assert (X : qcmp q (- p) < 0) by (apply qcmp_lt; rewrite Q2R_opp; lra). lia.
    + exists (- Q2R p)%R. split; simpl; auto. lra.
    + exists (Q2R q)%R. split; simpl; auto. lra.
    + exists 0%R. split; simpl; auto.
Qed.
Definition bpoint (p : nat -> itv) : nat -> R := fun d => pick (p d).
Lemma nebox_point : forall a, nebox a -> bx_p a = None \/ exists v, gbox a v.
Proof.
  intros a H. unfold nebox, gbox in *. destruct (bx_p a) as [p|] eqn:P; auto. right. exists (bpoint p). intros d D. apply pick_in. auto.
Qed.
Lemma all_dims_iff : forall n f, all_dims n f = true <-> forall d, (d < n)%nat -> f d = true.
Proof.
  intros. unfold all_dims. rewrite forallb_forall. split; intros H d D. apply H, in_seq; lia. apply H. apply in_seq in D. lia.
Qed.
Lemma all_dims_false : forall n f, all_dims n f = false -> exists d, (d < n)%nat /\ f d = false.
Proof.
  intros n f. unfold all_dims. assert (G : forall l, forallb f l = false -> exists d, In d l /\ f d = false).
  { induction l; simpl; [discriminate|]. intro H. destruct (f a) eqn:F; [|exists a; auto]. destruct (IHl H) as (d & I & D). exists d; auto. }
  intro H. destruct (G _ H) as (d & I & D). exists d. split; auto. apply in_seq in I. lia.
Qed.
Definition upd (v : nat -> R) (d : nat) (x : R) : nat -> R := fun j => if Nat.eqb j d then x else v j.
Lemma upd_same : forall v d x, upd v d x d = x.
Proof. intros. unfold upd. rewrite Nat.eqb_refl. auto. Qed.
Lemma upd_other : forall v d x j, j <> d -> upd v d x j = v j.
Proof. intros. unfold upd. destruct (Nat.eqb_spec j d); congruence. Qed.

(** ** tests *)
Lemma is_bottom_iff : forall a, nebox a -> (box_is_bottom a = true <-> forall v, ~ gbox a v).
Proof.
  intros a W. unfold box_is_bottom. split.
  - intros H v G. unfold gbox in G. destruct (bx_p a); [discriminate|auto].
  - intros H. destruct (nebox_point a W) as [->|[v G]]; auto. exfalso. eapply H; eauto.
Qed.
Lemma itv_is_top_iff : forall i, nonempty i -> (itv_is_top i = true <-> forall x, in_itv x i).
Proof.
  intros i W. destruct (nonempty_not_MInf i W) as [A B]. unfold itv_is_top. split.
  - intros H x. destruct i as [[|p|] [|q|]]; simpl in *; try discriminate; try congruence. split; simpl; auto.
  - intros H. destruct i as [[|p|] [|q|]]; simpl in *; try congruence; auto; exfalso.
    + destruct (H (Q2R q + 1)%R) as [_ H2]. simpl in H2. lra.
    + destruct (H (- Q2R p - 1)%R) as [H2 _]. simpl in H2. lra.
    + destruct (H (Q2R q + 1)%R) as [_ H2]. simpl in H2. lra.
Qed.
Lemma is_top_iff : forall a, nebox a -> (box_is_top a = true <-> forall v, gbox a v).
Proof.
  intros a W. unfold box_is_top, gbox, nebox in *. destruct (bx_p a) as [p|].
  - rewrite all_dims_iff. split.
    + intros H v d D. apply itv_is_top_iff; auto.
    + intros H d D. apply itv_is_top_iff; auto. intro x. apply (H (fun _ => x) d D).
  - split; [discriminate|]. intro H. destruct (H (fun _ => 0%R)).
Qed.
Lemma gbox_upd : forall a p d x v, bx_p a = Some p -> (d < bx_dim a)%nat -> gbox a v -> (gbox a (upd v d x) <-> in_itv x (p d)).
Proof.
  intros a p d x v P D G. unfold gbox in *. rewrite P in *. split.
  - intro H. specialize (H d D). rewrite upd_same in H. auto.
  - intros H j J. unfold upd. destruct (Nat.eqb_spec j d); subst; auto.
Qed.
Lemma is_leq_sound : forall a b, bx_dim a = bx_dim b -> box_is_leq a b = true -> forall v, gbox a v -> gbox b v.
Proof.
  intros a b DE H v G. unfold box_is_leq, gbox in *. destruct (bx_p a) as [p|]; [|tauto]. destruct (bx_p b) as [q|]; [|discriminate].
  rewrite all_dims_iff in H. intros d D. rewrite <- DE in D. apply (itv_is_leq_sound _ _ (H d D)). auto.
Qed.
Lemma is_leq_iff : forall a b, bx_dim a = bx_dim b -> nebox a -> (box_is_leq a b = true <-> forall v, gbox a v -> gbox b v).
Proof.
  intros a b DE W. split; [apply is_leq_sound; auto|]. intros H. destruct (nebox_point a W) as [P|[v G]].
  - unfold box_is_leq. rewrite P. auto.
  - unfold box_is_leq. pose proof (H v G) as Gb. assert (Ga := G). unfold gbox in Ga, Gb. destruct (bx_p a) as [p|] eqn:P; [|tauto]. destruct (bx_p b) as [q|] eqn:Q; [|tauto].
    apply all_dims_iff. intros d D. apply itv_is_leq_complete with (v d); auto. intros x X.
    assert (K : gbox a (upd v d x)) by (apply (gbox_upd a p); auto). apply H in K. unfold gbox in K. rewrite Q in K.
    specialize (K d ltac:(congruence)). rewrite upd_same in K. auto.
Qed.
Lemma is_eq_iff : forall a b, bx_dim a = bx_dim b -> nebox a -> nebox b -> (box_is_eq a b = true <-> forall v, gbox a v <-> gbox b v).
Proof.
  intros a b DE Wa Wb. unfold box_is_eq. split.
  - intros H v. unfold gbox. destruct (bx_p a) as [p|], (bx_p b) as [q|]; try discriminate; try tauto.
    rewrite all_dims_iff in H. rewrite <- DE. split; intros G d D; apply (itv_is_eq_sound _ _ (H d D)); auto.
  - intros H. destruct (nebox_point a Wa) as [P|[v G]].
    + rewrite P. destruct (nebox_point b Wb) as [Q|[w G]]. rewrite Q; auto. exfalso. apply H in G. unfold gbox in G. rewrite P in G. auto.
    + assert (Gb := proj1 (H v) G). assert (Ga := G). assert (Gb' := Gb). unfold gbox in Ga, Gb. destruct (bx_p a) as [p|] eqn:P; [|tauto]. destruct (bx_p b) as [q|] eqn:Q; [|tauto].
      apply all_dims_iff. intros d D. apply itv_is_eq_complete with (v d); auto. intros x.
      rewrite <- (gbox_upd a p d x v) by auto. rewrite <- (gbox_upd b q d x v) by (auto; congruence). apply H.
Qed.
Lemma unconstrained_iff : forall a d, (d < bx_dim a)%nat -> nebox a ->
  (box_is_dimension_unconstrained a d = true <-> (exists v, gbox a v) /\ forall v x, gbox a v -> gbox a (upd v d x)).
Proof.
  intros a d D W. unfold box_is_dimension_unconstrained. destruct (bx_p a) as [p|] eqn:P.
  - assert (Wd : nonempty (p d)) by (unfold nebox in W; rewrite P in W; auto). rewrite itv_is_top_iff by auto. split.
    + intros H. split. destruct (nebox_point a W) as [X|X]; [congruence|auto]. intros v x G. apply (gbox_upd a p); auto.
    + intros [[v G] H] x. apply (gbox_upd a p d x v); auto.
  - split; [discriminate|]. intros [[v G] _]. unfold gbox in G. rewrite P in G. tauto.
Qed.

(** ** meet and join *)
Lemma meet_dim : forall a b, bx_int (box_meet a b) = bx_int a /\ bx_real (box_meet a b) = bx_real a.
Proof. intros. unfold box_meet. destruct (bx_p a), (bx_p b); auto. destruct (all_dims _ _); auto. Qed.
Lemma meet_exact : forall a b v, bx_dim a = bx_dim b -> (gbox (box_meet a b) v <-> gbox a v /\ gbox b v).
Proof.
  intros a b v DE. unfold box_meet, gbox. destruct (bx_p a) as [p|], (bx_p b) as [q|]; simpl; try tauto.
  destruct (all_dims _ _) eqn:T; simpl.
  - fold (bx_dim a). change (bx_dim (set_p a (Some (fun i => fst (itv_meet (p i) (q i)))))) with (bx_dim a). rewrite <- DE. split.
    + intro H. split; intros d D; specialize (H d D); apply itv_meet_spec in H; tauto.
    + intros [H1 H2] d D. apply itv_meet_spec. auto.
  - split; [tauto|]. intros [H1 H2]. apply all_dims_false in T. destruct T as (d & D & F). apply negb_false_iff in F. simpl in F.
    apply (itv_empty_test_sound _ F (v d)). apply (itv_meet_spec (v d) (p d) (q d)). split; auto. apply H2. congruence.
Qed.
Lemma bmin_not_MInf : forall b c, b <> MInf -> c <> MInf -> bmin b c <> MInf.
Proof. intros. unfold bmin. destruct b, c; try congruence; match goal with |- context [if ?x then _ else _] => destruct x; congruence end. Qed.
Lemma meet_nebox : forall a b, bx_dim a = bx_dim b -> nebox a -> nebox b -> nebox (box_meet a b).
Proof.
  intros a b DE Wa Wb. unfold box_meet, nebox in *. destruct (bx_p a) as [p|], (bx_p b) as [q|]; simpl; auto.
  destruct (all_dims _ _) eqn:T; simpl; auto. rewrite all_dims_iff in T. intros d D. change (d < bx_dim a)%nat in D. specialize (T d D). apply negb_true_iff in T.
  apply nonempty_iff. destruct (nonempty_not_MInf _ (Wa d D)). assert (D' := D). rewrite DE in D'. destruct (nonempty_not_MInf _ (Wb d D')).
  split; [|split; [|exact T]]; simpl; apply bmin_not_MInf; auto.
Qed.
Lemma join_dim : forall a b, bx_int (box_join a b) = bx_int a /\ bx_real (box_join a b) = bx_real a.
Proof. intros. unfold box_join. destruct (bx_p a), (bx_p b); auto. Qed.
Definition same_dims (a b : box) : Prop := bx_int a = bx_int b /\ bx_real a = bx_real b.
Lemma same_dims_dim : forall a b, same_dims a b -> bx_dim a = bx_dim b.
Proof. intros a b [A B]. unfold bx_dim. congruence. Qed.
Lemma join_cells : forall a b p q d, bx_p a = Some p -> bx_p b = Some q -> same_dims a b -> (d < bx_dim a)%nat ->
  exists r, bx_p (box_join a b) = Some r /\ r d = itv_join (p d) (q d).
Proof.
  intros a b p q d P Q [_ S] D. unfold box_join. rewrite P, Q. eexists. split; [reflexivity|]. simpl. rewrite <- S.
  destruct (Nat.ltb_spec d (bx_int a + bx_real a)); auto. unfold bx_dim in D. lia.
Qed.
Lemma join_sound : forall a b v, same_dims a b -> gbox a v \/ gbox b v -> gbox (box_join a b) v.
Proof.
  intros a b v S H. pose proof (same_dims_dim a b S) as DE. unfold gbox in *. destruct (join_dim a b) as [J1 J2].
  assert (DJ : bx_dim (box_join a b) = bx_dim a) by (unfold bx_dim; congruence). rewrite DJ.
  destruct (bx_p a) as [p|] eqn:P, (bx_p b) as [q|] eqn:Q.
  - unfold box_join. rewrite P, Q. simpl. intros d D. destruct S as [_ S]. rewrite <- S. destruct (Nat.ltb_spec d (bx_int a + bx_real a)); [|unfold bx_dim in D; lia].
    apply itv_join_sound. destruct H; [left|right]; apply H; auto. rewrite <- DE. auto.
  - unfold box_join. rewrite P, Q, P. tauto.
  - unfold box_join. rewrite P, Q. simpl. rewrite DE. tauto.
  - tauto.
Qed.
Lemma join_least : forall a b c, same_dims a b -> bx_dim a = bx_dim c -> nebox a -> nebox b ->
  (forall v, gbox a v -> gbox c v) -> (forall v, gbox b v -> gbox c v) -> forall v, gbox (box_join a b) v -> gbox c v.
Proof.
  intros a b c S DC Wa Wb Ha Hb v H. pose proof (same_dims_dim a b S) as DE.
  assert (DJ : bx_dim (box_join a b) = bx_dim a). { destruct (join_dim a b). unfold bx_dim. congruence. }
  destruct (bx_p a) as [p|] eqn:P, (bx_p b) as [q|] eqn:Q.
  - destruct (nebox_point a Wa) as [X|[va Ga]]; [congruence|]. destruct (nebox_point b Wb) as [X|[vb Gb]]; [congruence|].
    pose proof (Ha va Ga) as Gc. unfold gbox in Gc. unfold gbox. destruct (bx_p c) as [r|] eqn:R; [|tauto]. intros d D. rewrite <- DC in D.
    destruct (join_cells a b p q d P Q S D) as (j & J & Jd). unfold gbox in H. rewrite J, DJ in H. specialize (H d D). rewrite Jd in H.
    assert (Ga' := Ga). assert (Gb' := Gb). unfold gbox in Ga', Gb'. rewrite P in Ga'. rewrite Q in Gb'.
    apply (itv_join_least (p d) (q d) (r d) (va d) (vb d)); auto.
    + apply Gb'. congruence.
    + intros x X. assert (K : gbox a (upd va d x)) by (apply (gbox_upd a p); auto). apply Ha in K. unfold gbox in K. rewrite R in K. specialize (K d ltac:(congruence)). rewrite upd_same in K. auto.
    + intros x X. assert (K : gbox b (upd vb d x)) by (apply (gbox_upd b q); auto; congruence). apply Hb in K. unfold gbox in K. rewrite R in K. specialize (K d ltac:(congruence)). rewrite upd_same in K. auto.
  - apply Ha. unfold box_join in H. rewrite P, Q in H. auto.
  - apply Hb. unfold box_join in H. rewrite P, Q in H. unfold gbox in *. simpl in *. rewrite Q. rewrite <- DE. auto.
  - unfold box_join in H. rewrite P, Q in H. destruct H.
Qed.
Lemma join_nebox : forall a b, same_dims a b -> nebox a -> nebox b -> nebox (box_join a b).
Proof.
  intros a b S Wa Wb. pose proof (same_dims_dim a b S) as DE. assert (DJ : bx_dim (box_join a b) = bx_dim a). { destruct (join_dim a b). unfold bx_dim. congruence. }
  unfold nebox. destruct (bx_p a) as [p|] eqn:P, (bx_p b) as [q|] eqn:Q.
  - destruct (bx_p (box_join a b)) eqn:J; auto. rewrite DJ. intros d D. destruct (join_cells a b p q d P Q S D) as (r & R & Rd). rewrite J in R. inversion R; subst i. rewrite Rd.
    unfold nebox in Wa. rewrite P in Wa. destruct (Wa d D) as [x X]. exists x. apply itv_join_sound; auto.
  - unfold box_join. rewrite P, Q. exact Wa.
  - unfold box_join. rewrite P, Q. simpl. unfold nebox in Wb. rewrite Q in Wb. rewrite <- DE in Wb. auto.
  - unfold box_join. rewrite P, Q. simpl. auto.
Qed.
Lemma meet_list_dim : forall l a, same_dims (box_meet_list a l) a.
Proof.
  induction l as [|b l IH]; intros a; simpl. split; auto. pose proof (meet_dim a b) as [A B]. destruct (box_is_bottom _). split; auto. destruct (IH (box_meet a b)). split; congruence.
Qed.
Lemma meet_list_exact : forall l a v, Forall (same_dims a) l -> (gbox (box_meet_list a l) v <-> gbox a v /\ Forall (fun b => gbox b v) l).
Proof.
  induction l as [|b l IH]; intros a v F; simpl. split; [auto|tauto]. inversion F as [|? ? F1 F2]; subst.
  pose proof (meet_exact a b v (same_dims_dim _ _ F1)) as M. destruct (box_is_bottom (box_meet a b)) eqn:B.
  - assert (X : ~ gbox (box_meet a b) v). { unfold box_is_bottom in B. unfold gbox. destruct (bx_p (box_meet a b)); [discriminate|auto]. }
    split; [tauto|]. intros [H1 H2]. inversion H2; subst. tauto.
  - rewrite IH. rewrite M. split; [intros [[H1 H2] H3]; auto|intros [H1 H2]; inversion H2; auto].
    eapply Forall_impl; [|exact F2]. intros c [C1 C2]. destruct (meet_dim a b). split; congruence.
Qed.
Lemma join_list_dim : forall l a, same_dims (box_join_array a l) a.
Proof. induction l as [|b l IH]; intros a; simpl. split; auto. destruct (IH (box_join a b)), (join_dim a b). unfold box_join_array in *. simpl. split; congruence. Qed.
Lemma join_list_sound : forall l a v, Forall (same_dims a) l -> (gbox a v \/ Exists (fun b => gbox b v) l) -> gbox (box_join_array a l) v.
Proof.
  induction l as [|b l IH]; intros a v F H; simpl. destruct H as [H|H]; auto. inversion H. inversion F as [|? ? F1 F2]; subst. apply IH.
  eapply Forall_impl; [|exact F2]. intros c [C1 C2]. destruct (join_dim a b). split; congruence.
  destruct H as [H|H]. left. apply join_sound; auto. inversion H; subst; auto. left. apply join_sound; auto.
Qed.
Lemma join_list_nebox : forall l a, Forall (same_dims a) l -> nebox a -> Forall nebox l -> nebox (box_join_array a l).
Proof.
  induction l as [|b l IH]; intros a F W WF; auto. inversion F as [|? ? F1 F2]; subst. inversion WF; subst. simpl. apply IH; auto.
  eapply Forall_impl; [|exact F2]. intros c' [C1 C2]. destruct (join_dim a b). split; congruence.
  apply join_nebox; auto.
Qed.
Lemma join_list_least : forall l a c, Forall (same_dims a) l -> bx_dim a = bx_dim c -> nebox a -> Forall nebox l ->
  (forall b v, In b (a :: l) -> gbox b v -> gbox c v) -> forall v, gbox (box_join_array a l) v -> gbox c v.
Proof.
  induction l as [|b l IH]; intros a c F DC W WF H v G. apply (H a); simpl; auto. inversion F as [|? ? F1 F2]; subst. inversion WF; subst. simpl in G.
  destruct (join_dim a b). revert v G. apply IH; auto.
  - eapply Forall_impl; [|exact F2]. intros c' [C1 C2]. split; congruence.
  - unfold bx_dim in *. congruence.
  - apply join_nebox; auto.
  - intros b' v [<-|I] G; [|apply (H b'); simpl; auto]. revert v G. apply join_least; auto; intros v; apply H; simpl; auto.
Qed.

(** ** widening *)
Lemma widening_dim : forall a b r, same_dims a b -> box_widening a b = Some r -> same_dims r a.
Proof. intros a b r [S1 S2] H. unfold box_widening in H. destruct (bx_p a), (bx_p b); inversion H; subst; split; auto. Qed.
Lemma widening_sound : forall a b r v, same_dims a b -> box_widening a b = Some r -> gbox a v \/ gbox b v -> gbox r v.
Proof.
  intros a b r v S H G. pose proof (same_dims_dim a b S) as DE. unfold box_widening in H. unfold gbox in *. destruct (bx_p a) as [p|] eqn:P.
  - destruct (bx_p b) as [q|] eqn:Q; inversion H; subst; clear H. simpl. intros d D. change (d < bx_dim a)%nat in D. destruct (Nat.ltb_spec d (bx_dim a)); [|lia].
    apply itv_widening_sound. destruct G as [G|G]; [left|right]; apply G; auto. congruence.
  - inversion H; subst. destruct G; [tauto|auto].
Qed.
Lemma widening_nebox : forall a b r, same_dims a b -> nebox a -> nebox b -> box_widening a b = Some r -> nebox r.
Proof.
  intros a b r S Wa Wb H. unfold box_widening in H. unfold nebox in *. destruct (bx_p a) as [p|] eqn:P.
  - destruct (bx_p b) as [q|] eqn:Q; inversion H; subst; clear H. simpl. intros d D. change (d < bx_dim a)%nat in D. destruct (Nat.ltb_spec d (bx_dim a)); [|lia].
    destruct (Wa d D) as [x X]. exists x. apply itv_widening_sound; auto.
  - inversion H; subst. auto.
Qed.
Lemma widening_returns : forall a b, (box_widening a b = None <-> (bx_p a <> None /\ bx_p b = None)).
Proof. intros. unfold box_widening. destruct (bx_p a), (bx_p b); split; try tauto; try discriminate; intuition; congruence. Qed.
Fixpoint wsum (f : nat -> nat) (n : nat) : nat := match n with O => O | S n => (wsum f n + f n)%nat end.
Lemma wsum_le : forall f k n, (forall d, (d < n)%nat -> (f d <= k)%nat) -> (wsum f n <= k * n)%nat.
Proof. induction n; simpl; intros; [lia|]. specialize (IHn ltac:(auto)). specialize (H n ltac:(lia)). lia. Qed.
Lemma wsum_step : forall f g (P : nat -> Prop) n, (forall d, (d < n)%nat -> (P d /\ (g d = f d)%nat) \/ (g d < f d)%nat) ->
  ((forall d, (d < n)%nat -> P d) /\ wsum g n = wsum f n) \/ (wsum g n < wsum f n)%nat.
Proof.
  intros f g P. induction n; simpl; intros H. left. split; auto. intros; lia.
  destruct (IHn ltac:(auto)) as [[A B]|A]; destruct (H n ltac:(lia)) as [[C D]|C]; try (right; lia).
  left. split; [|lia]. intros d L. destruct (Nat.eq_dec d n); subst; auto. apply A; lia.
Qed.
Definition bxweight (a : box) : nat :=
  match bx_p a with None => S (2 * bx_dim a) | Some p => wsum (fun d => itv_weight (p d)) (bx_dim a) end.
Lemma nonempty_not_canon : forall i, nonempty i -> itv_is_canonical_bottom i = false.
Proof. intros i [x H]. destruct (itv_is_canonical_bottom i) eqn:B; auto. exfalso. eapply canonical_bottom_empty; eauto. Qed.
Lemma nonempty_weight : forall i, nonempty i -> (itv_weight i <= 2)%nat.
Proof. intros i H. unfold itv_weight. rewrite nonempty_not_canon by auto. pose proof (bweight_le1 (inf i)). pose proof (bweight_le1 (sup i)). lia. Qed.
Lemma widening_step : forall a b r, same_dims a b -> nebox a -> nebox b -> box_widening a b = Some r ->
  ((forall v, gbox r v <-> gbox a v) /\ (bxweight r <= bxweight a)%nat) \/ (bxweight r < bxweight a)%nat.
Proof.
  intros a b r S Wa Wb H. pose proof (same_dims_dim a b S) as DE. unfold box_widening in H. unfold gbox, bxweight, nebox in *. destruct (bx_p a) as [p|] eqn:P.
  - destruct (bx_p b) as [q|] eqn:Q; inversion H; subst; clear H. simpl. fold (bx_dim a).
    change (bx_dim (set_p a _)) with (bx_dim a).
    destruct (wsum_step (fun d => itv_weight (p d)) (fun d => itv_weight (if Nat.ltb d (bx_dim a) then itv_widening (p d) (q d) else p d))
      (fun d => (if Nat.ltb d (bx_dim a) then itv_widening (p d) (q d) else p d) = p d) (bx_dim a)) as [[A B]|A]; auto.
    + intros d D. destruct (Nat.ltb_spec d (bx_dim a)); [|lia]. destruct (itv_widening_weight (p d) (q d)) as [[E0|[E0 _]]|E0]; auto.
      * left. rewrite E0. auto.
      * rewrite nonempty_not_canon in E0; auto. discriminate.
    + left. split; [|lia]. intros v. split; intros G d D; specialize (G d D); rewrite A in * by auto; auto.
  - inversion H; subst. destruct (bx_p r) as [q|] eqn:Q.
    + right. rewrite DE in *. pose proof (wsum_le (fun d => itv_weight (q d)) 2 (bx_dim r) ltac:(intros; apply nonempty_weight; auto)). lia.
    + left. split; [tauto|]. rewrite DE. lia.
Qed.
Lemma widening_history : forall i r (h y : nat -> box), nebox (h O) -> bx_int (h O) = i -> bx_real (h O) = r ->
  (forall k, nebox (y k) /\ bx_int (y k) = i /\ bx_real (y k) = r) -> (forall k, box_widening (h k) (y k) = Some (h (S k))) ->
  forall n, exists s, (length s <= 2 * (i + r) + 1)%nat /\ forall k, (k < n)%nat -> ~ In k s -> forall v, gbox (h (S k)) v <-> gbox (h k) v.
Proof.
  intros i r h y W I R Y H n.
  assert (J : forall k, nebox (h k) /\ bx_int (h k) = i /\ bx_real (h k) = r).
  { induction k; auto. destruct IHk as (A & B & C). destruct (Y k) as (A' & B' & C'). assert (S : same_dims (h k) (y k)) by (split; congruence).
    destruct (widening_dim _ _ _ S (H k)). split; [|split; congruence]. apply (widening_nebox (h k) (y k)); auto. }
  destruct (decr_changes (fun k => bxweight (h k)) (fun k => forall v, gbox (h (S k)) v <-> gbox (h k) v)) with (n := n) as [s [L P]].
  - intro k. destruct (J k) as (A & B & C). destruct (Y k) as (A' & B' & C'). apply (widening_step (h k) (y k)); auto. split; congruence.
  - exists s. split; auto. unfold bxweight in L. unfold bx_dim in L. rewrite I, R in L. destruct (bx_p (h 0%nat)) as [p|] eqn:P0; [|lia].
    unfold nebox in W. rewrite P0 in W. pose proof (wsum_le (fun d => itv_weight (p d)) 2 (i + r)) as K. unfold bx_dim in W. rewrite I, R in W.
    specialize (K ltac:(intros; apply nonempty_weight; auto)). lia.
Qed.

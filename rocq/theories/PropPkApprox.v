(** Property C89: approximation of polyhedra (pk_approximate).

    [M] is the largest accepted number of bits of the coefficients (approximate_max_coeff_size, 0: no limit). *)
From Coq Require Import ZArith QArith Qreals Bool List Lia Reals Lra.
Import ListNotations.
From Verif Require Import ItvLinInt PkCone PkVec PkCherni PkSpec PkMinimize PkPoly PkPolyFacts PkPolyLeq PkPolyTop PkLin PkOps PkApprox PropPkPoly.
Open Scope R_scope.

(** the coefficients (not the constant) of the inequalities are below 2^M *)
Definition ineqs_small (M : nat) (C : list pvec) : Prop :=
  forall s c t, In (s :: c :: t) C -> s <> 0%Z -> forall z, In z t -> (Z.abs z < 2 ^ Z.of_nat M)%Z.

(** nothing is done for the empty polyhedron, without limit on the size, or for another algorithm *)
Theorem C89_approximate_disabled : forall M po alg, (pC po = None /\ pF po = None) \/ (M = 0%nat /\ alg <> (-1)%Z) \/ ~ In alg [-1; 1; 2; 3; 10; 11; 12]%Z \/ (alg = (-1)%Z /\ pint po = 0%nat) ->
  pk_approximate M po alg = po.
Proof.
  intros M po alg H. unfold pk_approximate. destruct (pC po) as [C|] eqn:EC, (pF po) as [F|] eqn:EF; auto;
    (destruct H as [[H1 H2]|[[-> H]|[H|[-> H]]]]; [discriminate| | |change (-1 =? -1)%Z with true; cbv iota; unfold approximate_n1; rewrite H; reflexivity]).
  all: try (destruct (Z.eqb_spec alg (-1)); [contradiction|]; change (Nat.ltb 0 0) with false; cbv iota; destruct (_ || _ || _)%bool; auto; destruct (_ || _ || _)%bool; auto).
  all: simpl in H; destruct (Z.eqb_spec alg (-1)), (Z.eqb_spec alg 1), (Z.eqb_spec alg 2), (Z.eqb_spec alg 3), (Z.eqb_spec alg 10), (Z.eqb_spec alg 11), (Z.eqb_spec alg 12); subst; try (exfalso; apply H; tauto); reflexivity.
Qed.
Print Assumptions C89_approximate_disabled.

Lemma approx_case : forall M po alg (R : poly -> Prop), R po -> (alg = (-1)%Z -> R (approximate_n1 po)) -> (alg = 1%Z \/ alg = 2%Z \/ alg = 3%Z -> R (approximate_123 M alg po)) ->
  (alg = 10%Z \/ alg = 11%Z \/ alg = 12%Z -> R (approximate_1x M (alg =? 11)%Z (alg =? 12)%Z po)) -> R (pk_approximate M po alg).
Proof.
  intros M po alg R H0 H1 H2 H3. unfold pk_approximate. destruct (pC po), (pF po); auto;
  (destruct (Z.eqb_spec alg (-1)); [auto|]; destruct (Z.eqb_spec alg 1), (Z.eqb_spec alg 2), (Z.eqb_spec alg 3), (Z.eqb_spec alg 10), (Z.eqb_spec alg 11), (Z.eqb_spec alg 12); cbn [orb]; auto; destruct (Nat.ltb 0 M); auto).
Qed.
(** algorithms 1, 2, 10, 11, 12: no point is lost *)
Theorem C89_approximate_sound : forall M po alg, wfp po -> In alg [1; 2; 10; 11; 12]%Z ->
  wfp (pk_approximate M po alg) /\ same_dims (pk_approximate M po alg) po /\ forall x, points po x -> points (pk_approximate M po alg) x.
Proof.
  intros M po alg W A. assert (R := repr_self po W).
  assert (K : forall p Q, repr p (pint po) (preal po) Q -> (forall x, points po x -> Q x) -> wfp p /\ same_dims p po /\ forall x, points po x -> points p x).
  { intros p Q (W1 & D1 & D2 & G) H. split; auto. split; [split; auto|]. intros x X. apply points_gamma. apply G. auto. }
  apply (approx_case M po alg (fun p => wfp p /\ same_dims p po /\ forall x, points po x -> points p x)).
  - split; auto. split; auto. split; auto.
  - intros ->. simpl in A. exfalso. repeat (destruct A as [A|A]; [discriminate|]). auto.
  - intros [->|[->| ->]].
    + destruct (approx1_repr M po _ _ _ R) as (Q & RQ & S & _). eauto.
    + destruct (approx2_repr M po _ _ _ R) as (Q & RQ & S & _). eauto.
    + simpl in A. exfalso. repeat (destruct A as [A|A]; [discriminate|]). auto.
  - intros _. destruct (approx1x_repr M (alg =? 11)%Z (alg =? 12)%Z po _ _ _ R) as (Q & RQ & S). eauto.
Qed.
Print Assumptions C89_approximate_sound.

(** algorithm -1: no integer point is lost and no point is added *)
Theorem C89_approximate_integer : forall M po, wfp po -> let po' := pk_approximate M po (-1) in
  wfp po' /\ same_dims po' po /\ (forall x, points po' x -> points po x) /\ forall x, int_point (pint po) x -> points po x -> points po' x.
Proof.
  intros M po W po'. assert (R := repr_self po W). unfold po'.
  apply (approx_case M po (-1) (fun p => wfp p /\ same_dims p po /\ (forall x, points p x -> points po x) /\ forall x, int_point (pint po) x -> points po x -> points p x)).
  - split; auto. split; [split; auto|]. auto.
  - intros _. destruct (approxn1_repr po _ _ _ R) as (Q & (W1 & D1 & D2 & G) & S1 & S2). split; auto. split; [split; auto|]. split; intros x.
    + intros X. apply S1. apply G. apply points_gamma. auto.
    + intros I X. apply points_gamma. apply G. auto.
  - intros [H|[H|H]]; discriminate.
  - intros [H|[H|H]]; discriminate.
Qed.
Print Assumptions C89_approximate_integer.

(** algorithm 2 keeps the values of each dimension *)
Theorem C89_approximate_bounds : forall M po d y, wfp po -> (d < pint po + preal po)%nat ->
  ((exists x, points (pk_approximate M po 2) x /\ x d = y) <-> exists x, points po x /\ x d = y).
Proof.
  intros M po d y W D. assert (R := repr_self po W).
  apply (approx_case M po 2 (fun p => (exists x, points p x /\ x d = y) <-> exists x, points po x /\ x d = y)).
  - tauto.
  - discriminate.
  - intros _. destruct (approx2_repr M po _ _ _ R) as (Q & (W1 & D1 & D2 & G) & S1 & S2). split; intros (x & X & E).
    + apply points_gamma in X. apply G in X. destruct (S2 x d D X) as (z & Z & E'). exists z. split; auto. congruence.
    + exists x. split; auto. apply points_gamma. apply G. auto.
  - intros [H|[H|H]]; discriminate.
Qed.
Print Assumptions C89_approximate_bounds.

(** after algorithms 1 and 10 the coefficients of the inequalities fit *)
Theorem C89_approximate_small : forall M po alg C, wfp po -> (0 < M)%nat -> alg = 1%Z \/ alg = 10%Z -> pC po <> None \/ pF po <> None -> pC (pk_approximate M po alg) = Some C -> ineqs_small M C.
Proof.
  intros M po alg C W HM A NE E s c t I S z Z. assert (R := repr_self po W). unfold pk_approximate in E. apply Nat.ltb_lt in HM. rewrite HM in E. apply Nat.ltb_lt in HM.
  assert (B : pC (if (alg =? 1)%Z then approximate_123 M 1 po else approximate_1x M false false po) = Some C).
  { destruct A as [-> | ->]; destruct (pC po), (pF po); auto; destruct NE as [NE|NE]; destruct NE; reflexivity. }
  assert (SM : zn 0 (s :: c :: t) <> 0%Z -> small M (s :: c :: t)).
  { destruct (alg =? 1)%Z.
    - destruct (approx1_repr M po _ _ _ R) as (_ & _ & _ & H). specialize (H C HM B). rewrite Forall_forall in H. apply toobig_small; auto.
    - apply (approx1x_small M po C HM B); auto. apply (chern_repr po _ _ _ R). }
  apply (SM S). simpl. auto.
Qed.
Print Assumptions C89_approximate_small.

(** algorithms 1, 2, 3: nothing is done when the coefficients fit *)
Theorem C89_approximate_fits : forall M po alg C, (0 < M)%nat -> In alg [1; 2; 3]%Z -> pC po = Some C -> Forall (fun c : pvec => length c = (pint po + preal po + 2)%nat) C -> ineqs_small M C -> pk_approximate M po alg = po.
Proof.
  intros M po alg C HM A E L S. assert (X : existsb (fun q => is_ineq_row q && big M q) C = false).
  { rewrite <- not_true_iff_false, existsb_exists. intros (q & Q & B). change (toobig M q = true) in B. rewrite <- not_false_iff_true in B. apply B. apply toobig_small; auto. intros Z z. rewrite Forall_forall in L. specialize (L q Q).
    destruct q as [|s [|c t]]; [simpl in L; lia|simpl in L; lia|]. simpl. apply (S s c t); auto. }
  assert (O : approximate_1 M po = (false, po, po)). { unfold approximate_1, poly_obtain_C. rewrite E. rewrite E. rewrite X. auto. }
  apply (approx_case M po alg (fun p => p = po)); auto.
  - intros ->. simpl in A. exfalso. repeat (destruct A as [A|A]; [discriminate|]). auto.
  - intros _. unfold approximate_123. rewrite O. destruct (alg =? 1)%Z; auto.
  - intros H. exfalso. simpl in A. destruct H as [->|[->| ->]]; repeat (destruct A as [A|A]; [discriminate|]); auto.
Qed.
Print Assumptions C89_approximate_fits.

(** algorithm 3 loses points: its constraints x+y <= b have the constant of the wrong sign *)
Definition tri89 : poly := mkPoly 0 2 (Some (positivity 2 :: [[1;0;1;0];[1;0;0;1];[1;4;-2;-1]]))%Z false None false None None 0 0 false false.
Example tri89_wf : wfp tri89. Proof. apply (C69_constraints_wf 0 2). repeat constructor. Qed.
Lemma tri89_pt : points tri89 (fun _ => 1).
Proof. unfold points, tri89. cbn [pC]. unfold poly_con, cone, positivity. rewrite !Forall_cons_iff. unfold row_holds. simpl. unfold homog. simpl. repeat split; try lra. constructor. Qed.
Theorem C89_approximate_octagonal_refuted : exists M po, wfp po /\ (exists x, points po x) /\ forall x, ~ points (pk_approximate M po 3) x.
Proof.
  exists 1%nat, tri89. split; [apply tri89_wf|]. split; [exists (fun _ => 1); apply tri89_pt|]. intros x X. unfold points in X.
  assert (E : pC (pk_approximate 1 tri89 3) = Some [[1;1;0;0];[1;0;1;0];[1;0;0;1];[1;1;0;0];[1;0;1;0];[1;2;-1;0];[1;0;0;1];[1;4;0;-1];[1;4;1;-1];[1;-2;-1;1];[1;0;1;1];[1;-4;-1;-1]]%Z) by (vm_compute; reflexivity).
  rewrite E in X. unfold poly_con, cone in X. rewrite !Forall_cons_iff in X. destruct X as (_ & _ & _ & _ & _ & _ & _ & _ & _ & _ & X1 & X2 & _). clear E. unfold row_holds in X1, X2. simpl in X1, X2. lra.
Qed.
Print Assumptions C89_approximate_octagonal_refuted.

(** the triangle x >= 0, y >= 0, 2x+y <= 4 with one bit: algorithm 1 keeps only the first two constraints, so that (5,5) is
    added, algorithm 2 adds x <= 2 and y <= 4 *)
Example C89_example_1 : points (pk_approximate 1 tri89 1) (fun _ => 5) /\ ~ points tri89 (fun _ => 5).
Proof.
  assert (E : pC (pk_approximate 1 tri89 1) = Some [[1;1;0;0];[1;0;1;0];[1;0;0;1];[1;1;0;0]]%Z) by (vm_compute; reflexivity). unfold points. rewrite E. split.
  - unfold poly_con, cone. rewrite !Forall_cons_iff. unfold row_holds. simpl. unfold homog. repeat split; try lra. constructor.
  - unfold tri89. cbn [pC]. unfold poly_con, cone. rewrite !Forall_cons_iff. unfold row_holds. simpl. unfold homog. intros (_ & _ & _ & H & _). lra.
Qed.
Example C89_example_2 : points (pk_approximate 1 tri89 2) (fun _ => 2) /\ forall x, points (pk_approximate 1 tri89 2) x -> x 0%nat <= 2.
Proof.
  assert (E : pC (pk_approximate 1 tri89 2) = Some [[1;1;0;0];[1;0;1;0];[1;0;0;1];[1;1;0;0];[1;0;1;0];[1;2;-1;0];[1;0;0;1];[1;4;0;-1]]%Z) by (vm_compute; reflexivity). unfold points. rewrite E. split.
  - unfold poly_con, cone. rewrite !Forall_cons_iff. unfold row_holds. simpl. unfold homog. repeat split; try lra. constructor.
  - intros x. unfold poly_con, cone. rewrite !Forall_cons_iff. unfold row_holds. simpl. unfold homog. intros (_ & _ & _ & _ & _ & H & _). lra.
Qed.
(** 5x+3y <= 20 with two bits becomes 2x+y <= 8, and also 3x+2y <= 14 with algorithm 12 *)
Definition tri89b : poly := mkPoly 0 2 (Some (positivity 2 :: [[1;0;1;0];[1;0;0;1];[1;20;-5;-3]]))%Z false None false None None 0 0 false false.
Example C89_example_12 : wfp tri89b /\ In [1;8;-2;-1]%Z (match pC (pk_approximate 2 tri89b 10) with Some C => C | None => [] end) /\ In [1;14;-3;-2]%Z (match pC (pk_approximate 2 tri89b 12) with Some C => C | None => [] end).
Proof. split; [apply (C69_constraints_wf 0 2); repeat constructor|]. vm_compute. tauto. Qed.
(** on integer dimensions 2x+2y <= 7 becomes x+y <= 3 *)
Definition tri89c : poly := mkPoly 2 0 (Some (positivity 2 :: [[1;0;1;0];[1;0;0;1];[1;7;-2;-2]]))%Z false None false None None 0 0 false false.
Example C89_example_integer : wfp tri89c /\ int_point 2 (fun i => match i with O => 1 | _ => 2 end) /\ points tri89c (fun i => match i with O => 1 | _ => 2 end) /\ points tri89c (fun _ => 7 / 4) /\ ~ points (pk_approximate 0 tri89c (-1)) (fun _ => 7 / 4).
Proof.
  split; [apply (C69_constraints_wf 2 0); repeat constructor|]. split. { intros [|i] _; [exists 1%Z|exists 2%Z]; reflexivity. }
  split; [|split]. 1, 2: unfold points, tri89c; cbn [pC]; unfold poly_con, cone, positivity; rewrite !Forall_cons_iff; unfold row_holds; simpl; unfold homog; simpl; repeat split; try lra; constructor.
  assert (E : pC (pk_approximate 0 tri89c (-1)) = Some [[1;1;0;0];[1;0;1;0];[1;0;0;1];[1;3;-1;-1];[1;1;0;0]]%Z) by (vm_compute; reflexivity). unfold points. rewrite E. unfold poly_con, cone. rewrite !Forall_cons_iff. unfold row_holds. simpl. unfold homog. intros (_ & _ & _ & H & _). lra.
Qed.

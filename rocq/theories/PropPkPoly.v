(** Properties C68 (tests on polyhedra), C69 (meet), C70 (join).

    A polyhedron is a value of the record [poly] of PkPoly.v which satisfies [wfp] (PkPolyFacts.v): the
    matrices have the right number of columns; when both are present they form a minimal double description
    and the saturation matrices are those of the two matrices; the cone lies in the half space of non negative
    first coordinate, and contains a point of positive first coordinate when the generators are present.
    Every function of PkPoly.v returns such values (this is part of the theorems), [C69_constraints_wf] gives
    them from arbitrary constraints.  The points of a polyhedron are those of its constraints, or those
    generated by its generators, in the vocabulary of PkSpec.v. *)
From Coq Require Import ZArith Bool List Lia Reals Lra.
Import ListNotations.
From Verif Require Import PkCone PkVec PkCherni PkSpec PkMinimize PkPoly PkPolyFacts PkPolyLeq PkPolyMeet PkPolyTop.
Open Scope R_scope.

(** the points of a polyhedron *)
Definition points (po : poly) (x : nat -> R) : Prop :=
  match pC po, pF po with Some C, _ => poly_con C x | None, Some F => poly_gen (S (pdim po)) F x | None, None => False end.
Definition same_dims (a b : poly) : Prop := pint a = pint b /\ preal a = preal b.
(** the argument has only changed of representation *)
Definition unchanged (a a' : poly) : Prop := wfp a' /\ same_dims a' a /\ forall x, points a' x <-> points a x.
(** the value of an affine expression: constant [a0], coefficients [a] *)
Fixpoint affine (d : nat) (a0 : R) (a : nat -> R) (x : nat -> R) : R := match d with O => a0 | S d => affine d a0 a x + a d * x d end.

Lemma points_gamma : forall po x, points po x <-> gamma po x. Proof. intros po x. unfold points, gamma, cK, poly_con, poly_gen, pn. destruct (pC po), (pF po); tauto. Qed.
Lemma repr_self : forall po, wfp po -> repr po (pint po) (preal po) (points po).
Proof. intros po W. split; auto. split; auto. split; auto. intros x. symmetry. apply points_gamma. Qed.
Lemma repr_unch : forall po po', repr po' (pint po) (preal po) (points po) -> unchanged po po'.
Proof. intros po po' (W & A & B & G). split; auto. split. split; auto. intros x. rewrite points_gamma. apply G. Qed.
Lemma affine_dt : forall d a0 a x, affine d a0 a x = dt (S d) (fun i => match i with O => a0 | S i => a i end) (homog x).
Proof. intros d a0 a x. unfold dt. rewrite sm_shift. simpl. rewrite Rmult_1_r. induction d; simpl. ring. rewrite IHd. ring. Qed.

(** * Well formed polyhedra *)
Lemma con_wf : forall i r C b, Forall (fun c : pvec => length c = (i + r + 2)%nat) C -> In (positivity (i + r)) C -> wfp (mkPoly i r (Some C) b None false None None 0 0 false false).
Proof.
  intros i r C b F I. split.
  - unfold swf. simpl. split; auto. eapply Forall_impl; [|exact F]. intros c E. unfold lenS, pn, pdim. simpl. unfold pvec in *. lia.
  - right. split. 2: simpl; congruence. intros x K. unfold cK in K. simpl in K. rewrite cone_in in K. specialize (K _ I). apply (row_dt (S (i + r)) _ _ (len_pos _)) in K. rewrite dt_pos1 in K. exact K.
Qed.
(** any constraints, with the constraint 1 >= 0, give a well formed polyhedron *)
Theorem C69_constraints_wf : forall i r C, Forall (fun c : pvec => length c = (i + r + 2)%nat) C -> wfp (mkPoly i r (Some (positivity (i + r) :: C)) false None false None None 0 0 false false).
Proof. intros i r C F. apply con_wf. constructor; auto. rewrite (len_pos (i + r)). lia. left; auto. Qed.
(** the two representations agree *)
Theorem C68_representations_agree : forall po C F, wfp po -> pC po = Some C -> pF po = Some F -> forall x, poly_con C x <-> poly_gen (S (pdim po)) F x.
Proof. intros po C F (W & _) EC EF x. unfold poly_con, poly_gen. change (S (pdim po)) with (pn po). rewrite <- (cK_C po C EC), <- (cK_F po F W EF). tauto. Qed.
(** computing the other representation *)
Theorem C68_chernikova : forall po, wfp po -> unchanged po (poly_chernikova po) /\ (isbot (poly_chernikova po) = true \/ minimal2 (poly_chernikova po) = true).
Proof. intros po W. destruct (chern_repr _ _ _ _ (repr_self po W)) as (A & _ & B). split; auto. apply repr_unch; auto. Qed.

(** * C68: tests *)
Theorem C68_top : forall i r, wfp (poly_top i r) /\ pint (poly_top i r) = i /\ preal (poly_top i r) = r /\ forall x, points (poly_top i r) x.
Proof. intros i r. destruct (top_repr i r) as (W & A & B & G). split; auto. split; auto. split; auto. intros x. apply points_gamma, G; auto. Qed.
Theorem C68_bottom : forall i r, wfp (pbottom i r) /\ forall x, ~ points (pbottom i r) x.
Proof. intros i r. destruct (pbottom_repr i r) as (W & _). split; auto. Qed.
Theorem C68_is_bottom : forall alg po b po', wfp po -> pk_is_bottom alg po = (b, po') -> unchanged po po' /\ (b = true -> forall x, ~ points po x) /\ (alg = true -> (b = true <-> forall x, ~ points po x)).
Proof. intros alg po b po' W E. assert (S := is_bottom_spec alg po _ _ _ (repr_self po W)). rewrite E in S. destruct S as (A & B). split; auto. apply repr_unch; auto. Qed.
Theorem C68_is_top : forall alg po b po', wfp po -> pk_is_top alg po = (b, po') -> unchanged po po' /\ (b = true -> forall x, points po x) /\ (alg = true -> (b = true <-> forall x, points po x)).
Proof. intros alg po b po' W E. assert (S := is_top_spec alg po _ _ _ (repr_self po W)). rewrite E in S. destruct S as (A & B). split; auto. apply repr_unch; auto. Qed.
(** the inclusion test is exact whatever the option and the available representations *)
Theorem C68_is_leq : forall alg pa pb b pa' pb', wfp pa -> wfp pb -> same_dims pa pb -> pk_is_leq alg pa pb = (b, pa', pb') ->
  unchanged pa pa' /\ unchanged pb pb' /\ (b = true <-> forall x, points pa x -> points pb x).
Proof.
  intros alg pa pb b pa' pb' Wa Wb (D1 & D2) E. assert (Rb := repr_self pb Wb). rewrite <- D1, <- D2 in Rb. assert (S := is_leq_spec alg pa pb _ _ _ _ (repr_self pa Wa) Rb). rewrite E in S. destruct S as (A & _ & B & _ & C). split. apply repr_unch; auto. split; auto. apply repr_unch. rewrite <- D1, <- D2. auto.
Qed.

(** * C69: meet *)
Definition meet_ok (pa pb po : poly) : Prop := wfp po /\ same_dims po pa /\ forall x, points po x <-> points pa x /\ points pb x.
(** the meet is exact; the arguments only change of representation *)
Theorem C69_meet : forall lazy pa pb, wfp pa -> wfp pb -> same_dims pa pb -> exists po pa' pb', pk_meet lazy false pa pb = Some (po, pa', pb') /\ meet_ok pa pb po /\ unchanged pa pa' /\ unchanged pb pb'.
Proof.
  intros lazy pa pb Wa Wb (D1 & D2). assert (Ra := repr_self pa Wa). assert (Rb := repr_self pb Wb). rewrite <- D1, <- D2 in Rb. assert (S := poly_meet_spec true lazy false false false pa pb _ _ _ _ Ra Rb). unfold pk_meet. destruct (poly_meet true lazy false false false pa pb) as [[[po pa'] pb']|]. 2: destruct S as (_ & _ & F & _); discriminate.
  destruct S as (A & B & C). exists po, pa', pb'. split; auto. split. { destruct A as (W & E1 & E2 & G). split; auto. split. split; auto. intros x. rewrite points_gamma. apply G. } split. apply repr_unch. apply B; auto. apply repr_unch. rewrite <- D1, <- D2. exact C.
Qed.
(** the destructive meet is exact too when it returns; it returns when the first argument is not empty *)
Theorem C69_meet_destructive : forall lazy pa pb, wfp pa -> wfp pb -> same_dims pa pb -> 
  match pk_meet lazy true pa pb with
  | Some (po, _, pb') => meet_ok pa pb po /\ unchanged pb pb'
  | None => lazy = false /\ forall x, ~ points pa x
  end.
Proof.
  intros lazy pa pb Wa Wb (D1 & D2). assert (Ra := repr_self pa Wa). assert (Rb := repr_self pb Wb). rewrite <- D1, <- D2 in Rb. assert (S := poly_meet_spec true lazy false false true pa pb _ _ _ _ Ra Rb). unfold pk_meet. destruct (poly_meet true lazy false false true pa pb) as [[[po pa'] pb']|]. 2: tauto.
  destruct S as (A & _ & C). split. { destruct A as (W & E1 & E2 & G). split; auto. split. split; auto. intros x. rewrite points_gamma. apply G. } apply repr_unch. rewrite <- D1, <- D2. exact C.
Qed.
(** ... and does dereference a null pointer for some well formed arguments *)
Theorem C69_meet_destructive_refuted : exists pa pb, wfp pa /\ wfp pb /\ same_dims pa pb /\ pk_meet false true pa pb = None.
Proof.
  exists (mkPoly 0 1 (Some [positivity 1; [1; -1; 1]; [1; 0; -1]]%Z) false None false None None 0 0 false false), (poly_top 0 1). split. apply (C69_constraints_wf 0 1 [[1; -1; 1]; [1; 0; -1]]%Z). repeat constructor. split. apply C68_top. split. split; reflexivity. vm_compute. reflexivity.
Qed.
(** pa == pb *)
Theorem C69_meet_same : forall lazy pa, wfp pa -> unchanged pa (poly_meet_same true lazy pa).
Proof. intros [] pa W; simpl. apply repr_unch, repr_self; auto. apply repr_unch. apply chern_repr, repr_self; auto. Qed.

(** * C70: join *)
(** the least polyhedron: it contains both arguments, and every half space which contains both contains it *)
Definition join_ok (pa pb po : poly) : Prop :=
  wfp po /\ same_dims po pa /\ (forall x, points pa x -> points po x) /\ (forall x, points pb x -> points po x) /\
  forall a0 a, (forall x, points pa x \/ points pb x -> 0 <= affine (pdim pa) a0 a x) -> forall x, points po x -> 0 <= affine (pdim pa) a0 a x.
Theorem C70_join : forall lazy exw algleq destr pa pb, wfp pa -> wfp pb -> same_dims pa pb -> exists po pa' pb', pk_join lazy exw algleq destr pa pb = Some (po, pa', pb') /\ join_ok pa pb po /\ (destr = false -> unchanged pa pa') /\ unchanged pb pb'.
Proof.
  intros lazy exw algleq destr pa pb Wa Wb (D1 & D2). assert (Ra := repr_self pa Wa). assert (Rb := repr_self pb Wb). rewrite <- D1, <- D2 in Rb. assert (S := poly_meet_spec false lazy exw algleq destr (poly_dual pa) (poly_dual pb) (pint pa) (preal pa) (points pa) (points pb)). unfold rep, U in S. rewrite !dual_dual in S. specialize (S Ra Rb). unfold pk_join.
  destruct (poly_meet false lazy exw algleq destr (poly_dual pa) (poly_dual pb)) as [[[po pa'] pb']|]. 2: destruct S; discriminate. destruct S as (A & B & C). eexists _, _, _. split. reflexivity. split.
  - destruct A as (W & E1 & E2 & G). split; auto. split. split; auto. assert (GH : forall x, points (poly_dual po) x <-> hull (d1 (pint pa) (preal pa)) (points pa) (points pb) x) by (intros x; rewrite points_gamma; apply G). split. intros x X. apply GH. intros a V. apply V; auto. split. intros x X. apply GH. intros a V. apply V; auto.
    intros a0 a V x X. apply GH in X. rewrite affine_dt. apply X. intros y Y. specialize (V y Y). rewrite affine_dt in V. exact V.
  - split. intros DF. apply repr_unch. apply B; auto. apply repr_unch. rewrite <- D1, <- D2. exact C.
Qed.
(** a polyhedron given by constraints which contains both arguments contains the join *)
Theorem C70_join_least : forall lazy exw algleq destr pa pb pd po pa' pb', wfp pa -> wfp pb -> wfp pd -> same_dims pa pb -> same_dims pa pd -> pk_join lazy exw algleq destr pa pb = Some (po, pa', pb') ->
  (forall x, points pa x -> points pd x) -> (forall x, points pb x -> points pd x) -> forall x, points po x -> points pd x.
Proof.
  intros lazy exw algleq destr pa pb pd po pa' pb' Wa Wb Wd Dab (E1 & E2) J Ia Ib x X. destruct (C70_join lazy exw algleq destr pa pb Wa Wb Dab) as (po2 & p2 & p3 & J2 & (_ & _ & _ & _ & L) & _). rewrite J2 in J. injection J as <- <- <-.
  apply (hull_closed pd (pint pd) (preal pd) (points pd) x (repr_self pd Wd)). intros a V. specialize (L (a 0%nat) (fun i => a (S i))). assert (DE : d1 (pint pd) (preal pd) = S (pdim pa)) by (unfold d1, pdim; congruence). rewrite DE in *.
  assert (AE : forall y, affine (pdim pa) (a 0%nat) (fun i => a (S i)) y = dt (S (pdim pa)) a (homog y)). { intros y. rewrite affine_dt. rewrite !(dt_sym _ _ (homog y)). apply dt_ext. intros [|i] _; reflexivity. }
  rewrite <- AE. apply L; auto. intros y Y. rewrite AE. apply V. destruct Y; auto.
Qed.
Theorem C70_join_same : forall lazy pa, wfp pa -> unchanged pa (poly_dual (poly_meet_same false lazy (poly_dual pa))).
Proof. intros lazy pa W. destruct lazy; simpl. rewrite dual_dual. apply repr_unch, repr_self; auto. rewrite !dual_dual. apply repr_unch. apply chern_repr, repr_self; auto. Qed.

(** * Concrete cases *)
Definition pair_of (C : list pvec) : poly := mkPoly 0 2 (Some (positivity 2 :: C)) false None false None None 0 0 false false.
(* x = 0, 0 <= y <= 1 and 1 <= x <= 2, y = x - 1 *)
Definition ex_a : poly := pair_of [[0;0;1;0];[1;0;0;1];[1;1;0;-1]]%Z.
Definition ex_b : poly := pair_of [[1;-1;1;0];[1;2;-1;0];[0;-1;1;-1]]%Z.
Example ex_a_wf : wfp ex_a. Proof. apply (C69_constraints_wf 0 2). repeat constructor. Qed.
Example ex_b_wf : wfp ex_b. Proof. apply (C69_constraints_wf 0 2). repeat constructor. Qed.
Example ex_point : points ex_a (fun i => match i with O => 0 | _ => / 2 end). Proof. unfold points, ex_a, pair_of, positivity, poly_con, cone. simpl. repeat constructor; unfold row_holds; simpl; lra. Qed.
Example ex_meet : match pk_meet false false ex_a ex_b with Some (po, _, _) => isbot po | None => false end = true. Proof. vm_compute. reflexivity. Qed.
Example ex_join : match pk_join false false false false ex_a ex_b with Some (po, _, _) => (pC po, pF po) | None => (None, None) end =
  (Some [[1;0;1;0];[1;0;0;1];[1;1;-1;1];[1;1;0;-1]], Some [[1;1;0;1];[1;1;0;0];[1;1;1;0];[1;1;2;1]])%Z. Proof. vm_compute. reflexivity. Qed.
Example ex_leq : fst (fst (pk_is_leq false ex_a ex_b)) = false /\ match pk_join true false false false ex_a ex_b with Some (po, a, b) => fst (fst (pk_is_leq false a po)) && fst (fst (pk_is_leq true b po)) && negb (fst (fst (pk_is_leq false po a))) | None => false end = true. Proof. vm_compute. auto. Qed.
Example ex_top : fst (pk_is_top true (pair_of [[1;2;0;0]]%Z)) = true /\ fst (pk_is_bottom true (pair_of [[1;-1;1;0];[1;0;-1;0]]%Z)) = true. Proof. vm_compute. auto. Qed.

Print Assumptions C68_is_leq.
Print Assumptions C68_is_top.
Print Assumptions C69_meet.
Print Assumptions C69_meet_destructive_refuted.
Print Assumptions C70_join_least.

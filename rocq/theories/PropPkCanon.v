(** Properties C78 (equality of polyhedra, unconstrained dimensions) and C79 (conversion to constraints and to
    generators).  The vocabulary is that of PropPkPoly.v.

    [hon] (PkCanonHon.v) says that the rows of the matrices have no common factor and that, when both matrices are
    present, the flags "sorted" and "Gauss form" tell the truth.  The equality test compares matrices when both
    polyhedra are flagged as canonical, hence its completeness needs this; [C78_honest_...] show that the polyhedra
    made by the library satisfy it. *)
From Coq Require Import ZArith QArith Bool List Lia Reals Lra.
Import ListNotations.
From Verif Require Import PkCone PkVec PkCherni PkSpec PkMinimize PkPoly PkPolyFacts PkPolyLeq PkPolyMeet PkPolyTop PkUser PkUserGen PkCanon PkCanonFacts PkCanonConv PkCanonNrm PkCanonHon PkCanonEq PkCanonClos Linexpr PropPkPoly.
Open Scope R_scope.

(** * C78: equality *)
(** A positive answer is right, whatever the options and the representations; a negative one is right for honest
    polyhedra.  The arguments only change of representation. *)
Theorem C78_is_eq_sound : forall alg algleq pa pb b pa' pb', wfp pa -> wfp pb -> same_dims pa pb -> pk_is_eq alg algleq pa pb = (b, pa', pb') ->
  unchanged pa pa' /\ unchanged pb pb' /\ (b = true -> forall x, points pa x <-> points pb x).
Proof.
  intros alg algleq pa pb b pa' pb' Wa Wb (D1 & D2) E. assert (Rb := repr_self pb Wb). rewrite <- D1, <- D2 in Rb. destruct (is_eq_spec alg algleq pa pb _ _ _ _ b pa' pb' (repr_self pa Wa) Rb E) as (A & B & C & _). split. apply repr_unch; auto. split. apply repr_unch. rewrite <- D1, <- D2. auto. exact C.
Qed.
Theorem C78_is_eq : forall alg algleq pa pb b pa' pb', wfp pa -> wfp pb -> hon pa -> hon pb -> same_dims pa pb -> pk_is_eq alg algleq pa pb = (b, pa', pb') ->
  (b = true <-> forall x, points pa x <-> points pb x).
Proof.
  intros alg algleq pa pb b pa' pb' Wa Wb Ha Hb (D1 & D2) E. assert (Rb := repr_self pb Wb). rewrite <- D1, <- D2 in Rb. destruct (is_eq_spec alg algleq pa pb _ _ _ _ b pa' pb' (repr_self pa Wa) Rb E) as (_ & _ & C & D). split. exact C. intros Q. apply D; auto.
Qed.
(** the canonical form only depends on the points *)
Theorem C78_canonical_form : forall pa pb, wfp pa -> wfp pb -> hon pa -> hon pb -> same_dims pa pb -> (forall x, points pa x <-> points pb x) ->
  unchanged pa (poly_chernikova3 pa) /\ pk_is_canonical (poly_chernikova3 pa) = true /\ pC (poly_chernikova3 pa) = pC (poly_chernikova3 pb) /\ pF (poly_chernikova3 pa) = pF (poly_chernikova3 pb).
Proof.
  intros pa pb Wa Wb Ha Hb (D1 & D2) E. assert (Ra := repr_self pa Wa). assert (Rb : repr pb (pint pa) (preal pa) (points pa)). { rewrite D1, D2. destruct (repr_self pb Wb) as (W & X & Y & G). split; auto. split; auto. split; auto. intros x. rewrite G. symmetry. apply E. }
  destruct (chern3_repr pa _ _ _ Ra) as (A & _ & OA). destruct (chern3_repr pb _ _ _ Rb) as (B & _ & OB). assert (CA := chern3_hon pa _ _ _ Ra Ha). assert (CB := chern3_hon pb _ _ _ Rb Hb). split. apply repr_unch; auto. split. apply CA.
  set (qa := poly_chernikova3 pa) in *. set (qb := poly_chernikova3 pb) in *. clearbody qa qb. assert (BB : isbot qa = isbot qb).
  { destruct (isbot qa) eqn:X, (isbot qb) eqn:Y; auto; exfalso. destruct OB as [OB|OB]; try congruence. unfold minimal2 in OB. destruct (pC qb); try discriminate. destruct (pF qb) eqn:EF; try discriminate. destruct (repr_F qb _ _ _ B) as (x & P). congruence. apply (repr_bot qa _ _ _ A X x P).
    destruct OA as [OA|OA]; try congruence. unfold minimal2 in OA. destruct (pC qa); try discriminate. destruct (pF qa) eqn:EF; try discriminate. destruct (repr_F qa _ _ _ A) as (x & P). congruence. apply (repr_bot qb _ _ _ B Y x P). }
  destruct (isbot qa) eqn:X.
  - unfold isbot in X, BB. destruct (pC qa), (pF qa); try discriminate. destruct (pC qb), (pF qb); try discriminate. auto.
  - symmetry in BB. destruct OA as [OA|OA], OB as [OB|OB]; try congruence. unfold minimal2 in OA, OB. destruct (pC qa) as [A1|] eqn:E1; try discriminate. destruct (pF qa) as [F1|] eqn:E2; try discriminate. destruct (pC qb) as [B1|] eqn:E3; try discriminate. destruct (pF qb) as [G1|] eqn:E4; try discriminate.
    destruct (canon_eq qa qb _ _ _ A1 F1 B1 G1 A B CA CB E1 E2 E3 E4) as [-> ->]. auto.
Qed.
(** ** honest polyhedra *)
Theorem C78_honest_constraints : forall i r C, Forall (fun c => (vector_gcd (tl c) <= 1)%Z) C -> hon (mkPoly i r (Some (positivity (i + r) :: C)) false None false None None 0 0 false false).
Proof. intros i r C F. apply hon_constraints. constructor. apply nrm_one. unfold positivity. simpl. auto. eapply Forall_impl; [|exact F]. intros c G. unfold nrm. rewrite <- vector_gcd_spec. exact G. Qed.
Theorem C78_honest_top_bottom : forall i r, hon (poly_top i r) /\ hon (pbottom i r).
Proof. intros i r. split. apply hon_top. apply hon_bottom. Qed.
Theorem C78_honest_canonical : forall po, wfp po -> hon po -> hon (poly_chernikova po) /\ hon (poly_chernikova3 po).
Proof. intros po W H. split. apply hon_chern; auto. apply W. apply (chern3_hon po _ _ _ (repr_self po W) H). Qed.
Theorem C78_honest_meet : forall lazy destr pa pb po pa' pb', wfp pa -> wfp pb -> same_dims pa pb -> hon pa -> hon pb -> pk_meet lazy destr pa pb = Some (po, pa', pb') -> hon po /\ hon pa' /\ hon pb'.
Proof.
  intros lazy destr pa pb po pa' pb' Wa Wb (D1 & D2) Ha Hb E. assert (Rb := repr_self pb Wb). rewrite <- D1, <- D2 in Rb. apply (hU_meet true lazy false false destr pa pb _ _ _ _ po pa' pb' (repr_self pa Wa) Rb Ha Hb E).
Qed.
Theorem C78_honest_join : forall lazy exw algleq destr pa pb po pa' pb', wfp pa -> wfp pb -> same_dims pa pb -> hon pa -> hon pb -> pk_join lazy exw algleq destr pa pb = Some (po, pa', pb') -> hon po /\ hon pa' /\ hon pb'.
Proof.
  intros lazy exw algleq destr pa pb po pa' pb' Wa Wb (D1 & D2) Ha Hb E. assert (Rb := repr_self pb Wb). rewrite <- D1, <- D2 in Rb. unfold pk_join in E. destruct (poly_meet false lazy exw algleq destr (poly_dual pa) (poly_dual pb)) as [[[p1 a1] b1]|] eqn:E1; try discriminate. injection E as <- <- <-.
  apply (hU_meet false lazy exw algleq destr (poly_dual pa) (poly_dual pb) (pint pa) (preal pa) (points pa) (points pb) p1 a1 b1); auto; unfold rep, hU; cbn [U]; rewrite dual_dual; auto. apply repr_self; auto.
Qed.

(** * C78: unconstrained dimension *)
Definition free (po : poly) (d : nat) : Prop := forall x v, points po x -> points po (fun j => if Nat.eqb j d then v else x j).
(** on a non empty honest polyhedron the answer is exact; a positive answer is always right *)
Theorem C78_unconstrained : forall po d b po', wfp po -> (d < pdim po)%nat -> pk_is_dimension_unconstrained po d = (b, po') ->
  unchanged po po' /\ (b = true -> free po d) /\ (hon po -> (exists x, points po x) -> free po d -> b = true).
Proof. intros po d b po' W D E. destruct (unconstrained_spec po d _ _ _ b po' (repr_self po W) D E) as (A & B & C). split. apply repr_unch; auto. split. exact B. exact C. Qed.

(** * C79: conversions *)
(** The constraints have exactly the points of the polyhedron.  [sat_cons]: Linexpr.v. *)
Theorem C79_to_lincons : forall po l po', wfp po -> pk_to_lincons_array po = (l, po') -> unchanged po po' /\ forall x, points po x <-> Forall (fun c => sat_cons c x) l.
Proof. intros po l po' W E. assert (Q := to_lincons_spec po _ _ _ (repr_self po W)). rewrite E in Q. destruct Q as (A & B). split; auto. apply repr_unch; auto. Qed.
(** The generators generate exactly the points: combinations of the vertices (mass 1), the rays (non negative) and
    the lines. *)
Theorem C79_to_generators : forall po l po', wfp po -> pk_to_generator_array po = (l, po') -> unchanged po po' /\ forall x, points po x <-> in_generators (pdim po) l x.
Proof. intros po l po' W E. assert (Q := to_generators_spec po _ _ _ (repr_self po W)). rewrite E in Q. destruct Q as (A & B). split; auto. apply repr_unch; auto. Qed.

Print Assumptions C78_is_eq.
Print Assumptions C78_canonical_form.
Print Assumptions C78_unconstrained.
Print Assumptions C79_to_lincons.
Print Assumptions C79_to_generators.

(** * Examples *)
(** the same triangle, written with a redundant constraint and in another order *)
Definition tri1 : poly := pair_of [[1;0;1;0];[1;0;0;1];[1;2;-1;-1]]%Z.
Definition tri2 : poly := pair_of [[1;5;-1;-1];[1;2;-1;-1];[1;0;0;1];[1;0;1;0]]%Z.
Example tri1_wf : wfp tri1. Proof. apply (C69_constraints_wf 0 2). repeat constructor. Qed.
Example tri2_wf : wfp tri2. Proof. apply (C69_constraints_wf 0 2). repeat constructor. Qed.
Lemma hon_pair : forall C, Forall (fun c => (vector_gcd (tl c) <= 1)%Z) C -> hon (pair_of C). Proof. intros C F. apply (C78_honest_constraints 0 2 C F). Qed.
Example tri1_hon : hon tri1. Proof. apply hon_pair. repeat constructor; vm_compute; discriminate. Qed.
Example tri2_hon : hon tri2. Proof. apply hon_pair. repeat constructor; vm_compute; discriminate. Qed.
Example tri_eq : fst (fst (pk_is_eq true false tri1 tri2)) = true /\ fst (fst (pk_is_eq false false tri1 tri2)) = true /\ fst (fst (pk_is_eq true true tri1 ex_b)) = false. Proof. vm_compute. auto. Qed.
Example tri_lincons : length (fst (pk_to_lincons_array tri2)) = 3%nat /\ length (fst (pk_to_generator_array tri2)) = 3%nat. Proof. vm_compute. auto. Qed.
(** the strip 0 <= x <= 1 *)
Definition strip : poly := pair_of [[1;0;1;0];[1;1;-1;0]]%Z.
Example strip_free : fst (pk_is_dimension_unconstrained strip 0) = false /\ fst (pk_is_dimension_unconstrained strip 1) = true. Proof. vm_compute. auto. Qed.
Example strip_wf : wfp strip. Proof. apply (C69_constraints_wf 0 2). repeat constructor. Qed.

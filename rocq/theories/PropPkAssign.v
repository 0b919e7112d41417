(** Property C71: assignment and substitution of linear expressions in polyhedra.

    An expression is a row of integers: the common (positive) denominator, the constant, the coefficients.
    The specification evaluates it on real points and is independent of the matrices. *)
From Coq Require Import ZArith Bool List Lia Reals Lra.
Import ListNotations.
From Verif Require Import PkCone PkVec PkCherni PkSpec PkMinimize PkPoly PkPolyFacts PkPolyLeq PkPolyMeet PkPolyTop PkLin PkOps PkRepr PkAssign PkAssignA PropPkPoly.
Open Scope R_scope.

(** the rows which stand for expressions over [d] dimensions, and their values *)
Definition expr_ok (d : nat) (e : list Z) : Prop := length e = (d + 2)%nat /\ (0 < nth 0 e 0)%Z.
Definition value (d : nat) (e : list Z) (x : nat -> R) : R := affine d (IZR (nth 1 e 0%Z)) (fun i => IZR (nth (i + 2) e 0%Z)) x / IZR (nth 0 e 0%Z).
(** the point after the assignment of one dimension, or of several dimensions at once *)
Definition update (d : nat) (dim : nat) (e : list Z) (x : nat -> R) : nat -> R := fun i => if Nat.eqb i dim then value d e x else x i.
Definition update_all (d : nat) (l : list (nat * list Z)) (x : nat -> R) : nat -> R :=
  fun i => match find (fun p => Nat.eqb i (fst p)) l with Some p => value d (snd p) x | None => x i end.
Definition agree (d : nat) (x y : nat -> R) : Prop := forall i, (i < d)%nat -> x i = y i.
Definition array_ok (d : nat) (l : list (nat * list Z)) : Prop := Forall (fun p => expr_ok d (snd p) /\ (fst p < d)%nat) l /\ NoDup (map fst l).
(** the destination: an optional polyhedron the result is met with *)
Definition in_dest (dest : option poly) (x : nat -> R) : Prop := match dest with None => True | Some pb => points pb x end.
Definition dest_ok (pa : poly) (dest : option poly) : Prop := forall pb, dest = Some pb -> wfp pb /\ same_dims pa pb.
Definition result (pa po : poly) (P : (nat -> R) -> Prop) : Prop := wfp po /\ same_dims po pa /\ forall x, points po x <-> P x.

Lemma affine_ext : forall d a0 a b x, (forall i, (i < d)%nat -> a i = b i) -> affine d a0 a x = affine d a0 b x.
Proof. induction d; intros; simpl; auto. rewrite (IHd a0 a b x), H; auto. Qed.
Lemma value_eval1 : forall d (e : pvec) x, expr_ok d e -> value d e x = eval1 (S d) (homog x) e.
Proof.
  intros d e x (L & _). unfold value, eval1. unfold zn. f_equal. rewrite affine_dt. rewrite !(dt_sym _ _ (homog x)). apply dt_ext. intros i _. unfold rv. destruct e as [|z e]; simpl in *. lia. destruct i. destruct e; reflexivity. rewrite Nat.add_comm. destruct e; simpl. destruct i; reflexivity. reflexivity.
Qed.
Lemma update_amap : forall i r dim e x, expr_ok (i + r) e -> agree (i + r) (update (i + r) dim e x) (fun j => amap (d1 i r) dim e (homog x) (S j)).
Proof.
  intros i r dim e x E j J. unfold update, amap. rewrite Nat.add_1_r. simpl. destruct (Nat.eqb j dim); auto. rewrite value_eval1; auto.
Qed.
Lemma update_amapA : forall i r l x, array_ok (i + r) l -> agree (i + r) (update_all (i + r) l x) (fun j => amapA (d1 i r) l (homog x) (S j)).
Proof.
  intros i r l x (F & _) j J. unfold update_all. induction l as [|[k e] l IH]; simpl. reflexivity. inversion F; subst. rewrite Nat.add_1_r. simpl. destruct (Nat.eqb j k). apply value_eval1. simpl in *; tauto. apply IH; auto.
Qed.
Lemma gamma_agree : forall po x y, wfp po -> agree (pdim po) x y -> points po x -> points po y.
Proof. intros po x y W A. rewrite !points_gamma. unfold gamma. apply cK_ext. apply W. intros [|k] K; simpl; auto. apply A. unfold pn in K. lia. Qed.
Lemma dest_repr : forall pa dest, dest_ok pa dest -> forall pb, dest = Some pb -> repr pb (pint pa) (preal pa) (in_dest dest).
Proof. intros pa dest D pb E. destruct (D pb E) as (W & A & B). subst dest. simpl. rewrite A, B. apply repr_self; auto. Qed.
Lemma res_of : forall pa po (P Q : (nat -> R) -> Prop), repr po (pint pa) (preal pa) P -> (forall x, P x <-> Q x) -> result pa po Q.
Proof. intros pa po P Q (W & A & B & G) E. split; auto. split. split; auto. intros x. rewrite points_gamma, G. apply E. Qed.
Lemma dest_iff : forall dest x, (dest <> None -> in_dest dest x) <-> in_dest dest x.
Proof. intros [pb|] x; simpl. split; auto. intros H; apply H; congruence. split; auto. Qed.
Lemma asg_iff : forall pa dim e y, wfp pa -> expr_ok (pdim pa) e -> asg (pint pa) (preal pa) dim e (points pa) y <-> exists x, points pa x /\ agree (pdim pa) y (update (pdim pa) dim e x).
Proof.
  intros pa dim e y W E. unfold asg. split; intros (x & X & A); exists x; split; auto; intros j J; rewrite A; auto. symmetry. apply update_amap; auto. apply update_amap; auto.
Qed.
Lemma sbs_iff : forall pa dim e y, wfp pa -> expr_ok (pdim pa) e -> sbs (pint pa) (preal pa) dim e (points pa) y <-> points pa (update (pdim pa) dim e y).
Proof.
  intros pa dim e y W E. unfold sbs. split; apply gamma_agree; auto; intros j J; [symmetry|]; apply update_amap; auto.
Qed.
Lemma asgA_iff : forall pa l y, wfp pa -> array_ok (pdim pa) l -> asgA (pint pa) (preal pa) l (points pa) y <-> exists x, points pa x /\ agree (pdim pa) y (update_all (pdim pa) l x).
Proof.
  intros pa l y W E. unfold asgA. split; intros (x & X & A); exists x; split; auto; intros j J; rewrite A; auto. symmetry. apply update_amapA; auto. apply update_amapA; auto.
Qed.
Lemma sbsA_iff : forall pa l y, wfp pa -> array_ok (pdim pa) l -> sbsA (pint pa) (preal pa) l (points pa) y <-> points pa (update_all (pdim pa) l y).
Proof.
  intros pa l y W E. unfold sbsA. split; apply gamma_agree; auto; intros j J; [symmetry|]; apply update_amapA; auto.
Qed.
Lemma expr_lenS : forall pa e, expr_ok (pdim pa) e -> lenS (d1 (pint pa) (preal pa)) e /\ (0 < zn 0 e)%Z.
Proof. intros pa e (L & Z). split; auto. unfold lenS, d1, pdim, pvec in *. lia. Qed.
Lemma array_eok : forall pa l, array_ok (pdim pa) l -> eok (d1 (pint pa) (preal pa)) l /\ NoDup (map fst l).
Proof. intros pa l (F & N). split; auto. unfold eok. eapply Forall_impl; [|exact F]. intros p (E & L). destruct (expr_lenS pa (snd p) E). split; auto. split; auto. unfold d1, pdim, pvec in *; simpl in *; lia. Qed.

(** assignment: the image by the affine map, met with the destination *)
Theorem C71_assign : forall lazy pa dim e dest, wfp pa -> expr_ok (pdim pa) e -> (dim < pdim pa)%nat -> dest_ok pa dest ->
  exists po pa' dest', poly_asssub_linexpr true lazy false pa dim e dest = Some (po, pa', dest') /\ unchanged pa pa' /\
  result pa po (fun y => (exists x, points pa x /\ agree (pdim pa) y (update (pdim pa) dim e x)) /\ in_dest dest y).
Proof.
  intros lazy pa dim e dest W E L D. destruct (expr_lenS pa e E) as (LS & Z0). assert (S := asssub_spec true lazy false pa dim e _ _ _ (repr_self pa W) LS Z0 L).
  specialize (S ltac:(intro; discriminate) dest (in_dest dest) (dest_repr pa dest D)). destruct (poly_asssub_linexpr true lazy false pa dim e dest) as [[[po pa'] pb']|]. 2: destruct S; discriminate.
  destruct S as (A & B & _). exists po, pa', pb'. split; auto. split. apply repr_unch; auto. eapply res_of. exact A. intros y. simpl. rewrite dest_iff. rewrite asg_iff; auto. tauto.
Qed.
(** substitution: the inverse image *)
Theorem C71_substitute : forall lazy pa dim e dest, wfp pa -> expr_ok (pdim pa) e -> (dim < pdim pa)%nat -> dest_ok pa dest ->
  match poly_asssub_linexpr false lazy false pa dim e dest with
  | Some (po, pa', _) => unchanged pa pa' /\ result pa po (fun y => points pa (update (pdim pa) dim e y) /\ in_dest dest y)
  | None => lazy = false /\ dest <> None /\ forall y, ~ points pa (update (pdim pa) dim e y)
  end.
Proof.
  intros lazy pa dim e dest W E L D. destruct (expr_lenS pa e E) as (LS & Z0). assert (S := asssub_spec false lazy false pa dim e _ _ _ (repr_self pa W) LS Z0 L).
  specialize (S ltac:(intro; discriminate) dest (in_dest dest) (dest_repr pa dest D)). destruct (poly_asssub_linexpr false lazy false pa dim e dest) as [[[po pa'] pb']|].
  destruct S as (A & B & _). split. apply repr_unch; auto. eapply res_of. exact A. intros y. simpl. rewrite dest_iff. rewrite sbs_iff; auto. tauto.
  destruct S as (_ & A & B & G). split; auto. split; auto. intros y Y. apply (G y). simpl. apply sbs_iff; auto.
Qed.
(** parallel assignment and substitution *)
Theorem C71_assign_array : forall lazy destr pa l dest, wfp pa -> array_ok (pdim pa) l -> dest_ok pa dest ->
  exists po pa' dest', poly_asssub_linexpr_array true lazy destr pa l dest = Some (po, pa', dest') /\ (destr = false -> unchanged pa pa') /\
  result pa po (fun y => (exists x, points pa x /\ agree (pdim pa) y (update_all (pdim pa) l x)) /\ in_dest dest y).
Proof.
  intros lazy destr pa l dest W E D. destruct (array_eok pa l E) as (EK & ND). assert (S := array_spec true lazy destr pa l _ _ _ (repr_self pa W) EK ND dest (in_dest dest) (dest_repr pa dest D)).
  destruct (poly_asssub_linexpr_array true lazy destr pa l dest) as [[[po pa'] pb']|]. 2: destruct S; discriminate.
  destruct S as (A & B & _). exists po, pa', pb'. split; auto. split. intros DD. apply repr_unch; auto. eapply res_of. exact A. intros y. simpl. rewrite dest_iff. rewrite asgA_iff; auto. tauto.
Qed.
Theorem C71_substitute_array : forall lazy destr pa l dest, wfp pa -> array_ok (pdim pa) l -> dest_ok pa dest ->
  match poly_asssub_linexpr_array false lazy destr pa l dest with
  | Some (po, pa', _) => (destr = false -> unchanged pa pa') /\ result pa po (fun y => points pa (update_all (pdim pa) l y) /\ in_dest dest y)
  | None => lazy = false /\ dest <> None /\ forall y, ~ points pa (update_all (pdim pa) l y)
  end.
Proof.
  intros lazy destr pa l dest W E D. destruct (array_eok pa l E) as (EK & ND). assert (S := array_spec false lazy destr pa l _ _ _ (repr_self pa W) EK ND dest (in_dest dest) (dest_repr pa dest D)).
  destruct (poly_asssub_linexpr_array false lazy destr pa l dest) as [[[po pa'] pb']|].
  destruct S as (A & B & _). split. intros DD; apply repr_unch; auto. eapply res_of. exact A. intros y. simpl. rewrite dest_iff. rewrite sbsA_iff; auto. tauto.
  destruct S as (_ & A & B & G). split; auto. split; auto. intros y Y. apply (G y). simpl. apply sbsA_iff; auto.
Qed.
(** the destructive forms on one dimension: exact when the matrices are not both kept, or the denominator is 1 *)
Theorem C71_assign_destructive_partial : forall lazy pa dim e, wfp pa -> expr_ok (pdim pa) e -> (dim < pdim pa)%nat -> nth (dim + 2) e 0%Z = 0%Z \/ nth 0 e 0%Z = 1%Z ->
  exists po pa' dest', poly_asssub_linexpr true lazy true pa dim e None = Some (po, pa', dest') /\
  result pa po (fun y => exists x, points pa x /\ agree (pdim pa) y (update (pdim pa) dim e x)).
Proof.
  intros lazy pa dim e W E L D. destruct (expr_lenS pa e E) as (LS & Z0). assert (S := asssub_spec true lazy true pa dim e _ _ _ (repr_self pa W) LS Z0 L).
  specialize (S ltac:(intros _ _ ?; unfold zn in *; destruct D; congruence) None (fun _ => True) ltac:(congruence)). destruct (poly_asssub_linexpr true lazy true pa dim e None) as [[[po pa'] pb']|]. 2: destruct S; discriminate.
  destruct S as (A & _). exists po, pa', pb'. split; auto. eapply res_of. exact A. intros y. simpl. rewrite asg_iff; auto. intuition congruence.
Qed.
(** otherwise the first column (which tells inequalities from equalities) is multiplied by the denominator:
    after x := (x + 1) / 2 the result is not a well formed polyhedron *)
Definition seg0 : poly := mkPoly 0 1 (Some [positivity 1; [1; 0; 1]; [1; 4; -1]]%Z) false None false None None 0 0 false false.
Definition seg : poly := poly_chernikova seg0.
Lemma seg_wf : wfp seg.
Proof. assert (W : wfp seg0). { apply (C69_constraints_wf 0 1 [[1; 0; 1]; [1; 4; -1]]%Z). repeat constructor. } destruct (C68_chernikova seg0 W) as ((A & _) & _). exact A. Qed.
Theorem C71_assign_destructive_refuted : exists pa e, wfp pa /\ expr_ok 1 e /\ (0 < pdim pa)%nat /\
  match poly_asssub_linexpr true true true pa 0 e None with
  | Some (po, _, _) => match pF po with Some F => existsb (fun q : list Z => Z.ltb 1 (nth 0 q 0%Z)) F | None => false end
  | None => false
  end = true.
Proof.
  exists seg, [2; 1; 1]%Z. split. apply seg_wf. split. split; [reflexivity|simpl; lia]. split. vm_compute; lia.
  vm_compute. reflexivity.
Qed.
(** the strict substitution does dereference a null pointer when the substituted polyhedron is empty and a
    destination is given: { x = 1 }, x := 0 *)
Theorem C71_substitute_refuted : exists pa e dest, wfp pa /\ expr_ok (pdim pa) e /\ (0 < pdim pa)%nat /\ dest_ok pa dest /\ poly_asssub_linexpr false false false pa 0 e dest = None.
Proof.
  exists (mkPoly 0 1 (Some [positivity 1; [0; -1; 1]]%Z) false None false None None 0 0 false false), [1; 0; 0]%Z, (Some (poly_top 0 1)). split. apply (C69_constraints_wf 0 1 [[0; -1; 1]]%Z). repeat constructor. split. split; [reflexivity|simpl; lia]. split. unfold pdim; simpl; lia. split. intros pb E. injection E as <-. split. apply C68_top. split; reflexivity. vm_compute. reflexivity.
Qed.

(** concrete cases *)
Example ex_assign : exists po pa' d', poly_asssub_linexpr true false false seg 0 [2; 1; 1]%Z None = Some (po, pa', d') /\ wfp seg /\ expr_ok (pdim seg) [2; 1; 1]%Z /\
  pC po = Some [[1; 5; -2]; [1; -1; 2]]%Z /\ points po (fun _ => 1) /\ ~ points po (fun _ => 3).
Proof.
  eexists _, _, _. split. vm_compute. reflexivity. split. apply seg_wf. split. split; [vm_compute; reflexivity|simpl; lia]. split. reflexivity. unfold points, poly_con, cone; simpl. split. repeat constructor; unfold row_holds; simpl; lra.
  intros F. inversion F as [|? ? H _]; subst. unfold row_holds in H. simpl in H. lra.
Qed.
(** x, y := y, x + 1 on { x = 0, 0 <= y <= 1 } *)
Example ex_swap : array_ok 2 [(0%nat, [1; 0; 0; 1]%Z); (1%nat, [1; 1; 1; 0]%Z)] /\ exists po pa' d', poly_asssub_linexpr_array true false false ex_a [(0%nat, [1; 0; 0; 1]%Z); (1%nat, [1; 1; 1; 0]%Z)] None = Some (po, pa', d') /\
  points po (fun i => match i with O => /2 | _ => 1 end).
Proof.
  split. split. repeat constructor; simpl; auto. repeat constructor; simpl; intuition lia.
  eexists _, _, _. split. vm_compute. reflexivity. unfold points, poly_con, cone; simpl. repeat constructor; unfold row_holds; simpl; lra.
Qed.
Print Assumptions C71_assign.
Print Assumptions C71_substitute.
Print Assumptions C71_assign_array.
Print Assumptions C71_substitute_array.
Print Assumptions C71_assign_destructive_partial.
Print Assumptions C71_assign_destructive_refuted.
Print Assumptions C71_substitute_refuted.

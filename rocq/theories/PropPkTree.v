(** Property C86: polyhedra and expression trees.  [xval F x e y] (TexprSem.v): [y] is a value of the tree [e] at the
    point [x], for some choice of its interval constants and of its roundings; [no_pow e]: the tree has no power. *)
From Coq Require Import Arith ZArith QArith Qreals Bool List Lia Reals Lra.
Import ListNotations.
From Verif Require Import Bound Itv ItvFacts Linexpr LinexprFacts ItvLinCons ApCore ApCheck ApTexpr TexprSem ItvTree ItvTreeApi ItvTreeApiFacts PropItvTree Generic GenericFacts GenericTree PkCone PkVec PkCherni PkSpec PkPoly PkPolyFacts PkOps PkUser PropPkPoly PropPkAssign PropPkUser PkLinUser PropPkLin PkTree.
Open Scope R_scope.

(** a tree over the dimensions of the polyhedron *)
Definition tree_ok (n : nat) (e : texpr) : Prop := no_pow e /\ forall d, occurs d e -> (d < n)%nat.
(** [y] is obtained from [x] by all the assignments at once *)
Definition tree_update (F : fmts) (n : nat) (l : list (nat * texpr)) (x y : nat -> R) : Prop :=
  (forall d e, In (d, e) l -> xval F x e (y d)) /\ (forall d, (d < n)%nat -> ~ In d (map fst l) -> y d = x d).

(** the interval of a tree contains its values at the points *)
Theorem C86_bound_texpr : forall (F : fmts) eq0 alg po e b po', wfp po -> tree_ok (pdim po) e -> pk_bound_texpr (F:=F) eq0 alg po e = (b, po') ->
  unchanged po po' /\ forall x y, points po x -> ipoint (pint po) x -> xval F x e y -> in_itv y b.
Proof. intros F eq0 alg po e b po' W (NP & D) E. eapply bound_texpr_sound; eauto. Qed.
Print Assumptions C86_bound_texpr.
(** the answer true is right, for the inequalities: the constraint holds at every point for all the values of the tree *)
Theorem C86_sat_tcons : forall (F : fmts) eq0 alg po c b po', wfp po -> tree_ok (pdim po) (tc_expr c) -> tc_typ c <> CEq -> pk_sat_tcons (F:=F) eq0 alg po c = Some (b, po') ->
  unchanged po po' /\ (b = true -> forall x, points po x -> ipoint (pint po) x -> forall y, xval F x (tc_expr c) y -> sat_typ (tc_typ c) (tc_mod c) y).
Proof. intros F eq0 alg po c b po' W (NP & D) NE E. exact (sat_tcons_sound F eq0 alg po c b po' W NP D NE E). Qed.
Print Assumptions C86_sat_tcons.
(** it is wrong for an equality with an interval coefficient: [1,2] x + y = 0 on the single point (1,-1) *)
Definition eqc : tcons := mkTC CEq (TBin BAdd RReal DRnd (TBin BMul RReal DRnd (TCst (Intv (Fin 1) (Fin 2))) (TDim 0)) (TDim 1)) None.
Definition onept : poly := pair_of [[0;-1;1;0];[0;1;0;1]]%Z.
Theorem C86_sat_equality_refuted : forall (F : fmts), exists po po' x y, wfp po /\ tree_ok (pdim po) (tc_expr eqc) /\ pk_sat_tcons (F:=F) true true po eqc = Some (true, po') /\
  points po x /\ ipoint (pint po) x /\ xval F x (tc_expr eqc) y /\ ~ sat_typ (tc_typ eqc) (tc_mod eqc) y.
Proof.
  intros F. exists onept. assert (B : match pk_sat_tcons (F:=F) true true onept eqc with Some (b, _) => b | None => false end = true) by (vm_compute; reflexivity).
  destruct (pk_sat_tcons (F:=F) true true onept eqc) as [[b po']|] eqn:E; [|discriminate]. subst b. exists po', (fun j => match j with O => 1 | _ => -1 end), 1.
  split. apply (C69_constraints_wf 0 2). repeat constructor. split. { split. simpl; repeat split; discriminate. intros d O. repeat match goal with H : occurs _ _ |- _ => inversion H; clear H; subst end; unfold pdim; simpl; lia. }
  split; auto. split. { unfold points. cbn [pC onept pair_of]. unfold poly_con, cone, positivity. rewrite !Forall_cons_iff. unfold row_holds. simpl. unfold homog. simpl. repeat split; try lra. constructor. }
  split. intros d D. simpl in D. lia. split. apply xv_bin with 2 (-1); [|apply (xv_dim F (fun j => match j with O => 1 | _ => -1 end) 1%nat)|simpl; lra]. apply xv_bin with 2 1; [|apply (xv_dim F (fun j => match j with O => 1 | _ => -1 end) 0%nat)|simpl; lra]. constructor. simpl. unfold Q2R; simpl. lra. simpl. lra.
Qed.
Print Assumptions C86_sat_equality_refuted.
(** the meet loses no point that satisfies the constraints and adds none *)
Theorem C86_meet_tcons : forall (F : fmts) eq0 tch lazy pa l po pa' ex, wfp pa -> Forall (fun c => tc_typ c <> CEqMod /\ tree_ok (pdim pa) (tc_expr c)) l ->
  pk_meet_tcons_array (F:=F) eq0 tch lazy false pa l = Some (po, pa', ex) ->
  unchanged pa pa' /\ wfp po /\ same_dims po pa /\ (forall x, points po x -> points pa x) /\
  (forall x, points pa x -> ipoint (pint pa) x -> Forall (fun c => exists y, xval F x (tc_expr c) y /\ sat_typ (tc_typ c) (tc_mod c) y) l -> points po x).
Proof.
  intros F eq0 tch lazy pa l po pa' ex W OK E. destruct (meet_tcons_some F eq0 tch lazy false pa l po pa' ex W E) as (A & B & C & D & S). split; auto. split; auto. split; auto. split; auto. apply S.
  eapply Forall_impl; [|exact OK]. simpl. intros c (T & N & O). split; auto. intros X. contradiction.
Qed.
Print Assumptions C86_meet_tcons.
(** parallel assignment and substitution: no point is lost.  With a destination, the option [algorithm < 0] is needed
    (the generic function calls the destructive meet, which aborts on an empty value otherwise) *)
Theorem C86_assign_texpr_partial : forall (F : fmts) eq0 tch lazy lz pa l dest po pa' x y, wfp pa -> NoDup (map fst l) -> (forall d e, In (d, e) l -> (d < pdim pa)%nat /\ tree_ok (pdim pa) e) ->
  dest_ok pa dest -> lz = true \/ dest = None -> pk_asssub_texpr_array (F:=F) eq0 tch true lazy lz pa l dest = Some (po, pa') ->
  ipoint (pint pa) x -> ipoint (pint pa) y -> tree_update F (pdim pa) l x y -> points pa x -> in_dest dest y -> wfp po /\ same_dims po pa /\ points po y.
Proof. intros F eq0 tch lazy lz pa l dest po pa' x y W ND OK DO LZ E IX IY T P D. exact (asssub_tree_sound F eq0 tch true lazy lz pa l dest po pa' x y W ND OK DO LZ E IX IY T P D). Qed.
Print Assumptions C86_assign_texpr_partial.
Theorem C86_substitute_texpr_partial : forall (F : fmts) eq0 tch lazy lz pa l dest po pa' x y, wfp pa -> NoDup (map fst l) -> (forall d e, In (d, e) l -> (d < pdim pa)%nat /\ tree_ok (pdim pa) e) ->
  dest_ok pa dest -> lz = true \/ dest = None -> pk_asssub_texpr_array (F:=F) eq0 tch false lazy lz pa l dest = Some (po, pa') ->
  ipoint (pint pa) x -> ipoint (pint pa) y -> tree_update F (pdim pa) l x y -> points pa y -> in_dest dest x -> wfp po /\ same_dims po pa /\ points po x.
Proof. intros F eq0 tch lazy lz pa l dest po pa' x y W ND OK DO LZ E IX IY T P D. exact (asssub_tree_sound F eq0 tch false lazy lz pa l dest po pa' x y W ND OK DO LZ E IX IY T P D). Qed.
Print Assumptions C86_substitute_texpr_partial.

(** ** Examples: on the rectangle [0,1]x[0,2], the tree x*y *)
Definition xy : texpr := TBin BMul RReal DRnd (TDim 0) (TDim 1).
Definition xyc : tcons := mkTC CSupEq (TBin BAdd RReal DRnd xy (TCst (Scal (Fin 1)))) None.
Definition pt86 : nat -> R := fun i => match i with O => 1 | _ => 2 end.
Ltac occ := intros d O; repeat match goal with H : occurs _ _ |- _ => inversion H; clear H; subst end; unfold pdim; simpl; lia.
Lemma xy_ok : tree_ok (pdim sq) xy. Proof. split. simpl; repeat split; discriminate. occ. Qed.
Lemma sq_pt : points sq pt86.
Proof. unfold points, sq, pair_of. cbn [pC]. unfold poly_con, cone, positivity. rewrite !Forall_cons_iff. unfold row_holds. simpl. unfold homog, pt86. simpl. repeat split; try lra. constructor. Qed.
Lemma xy_val : forall F, xval F pt86 xy 2.
Proof. intros F. apply xv_bin with 1 2; [apply (xv_dim F pt86 0%nat)|apply (xv_dim F pt86 1%nat)|simpl; lra]. Qed.
Example C86_bound : forall F, wfp sq /\ tree_ok (pdim sq) xy /\ points sq pt86 /\ ipoint (pint sq) pt86 /\ xval F pt86 xy 2 /\ fst (pk_bound_texpr (F:=F) true true sq xy) = mkItv (Fin 0) (Fin 2).
Proof. intros F. split. apply sq_wf. split. apply xy_ok. split. apply sq_pt. split. intros d D. simpl in D. lia. split. apply xy_val. vm_compute. reflexivity. Qed.
Example C86_sat : forall F, tree_ok (pdim sq) (tc_expr xyc) /\ tc_typ xyc <> CEq /\ exists po', pk_sat_tcons (F:=F) true true sq xyc = Some (true, po').
Proof.
  intros F. split. split. simpl; repeat split; discriminate. occ. split. discriminate.
  assert (B : match pk_sat_tcons (F:=F) true true sq xyc with Some (b, _) => b | None => false end = true) by (vm_compute; reflexivity). destruct (pk_sat_tcons (F:=F) true true sq xyc) as [[b po']|]; [|discriminate]. subst b. eauto.
Qed.
(** x*y >= 2 and x := x*y *)
Definition mc : list tcons := [mkTC CSupEq (TBin BSub RReal DRnd xy (TCst (Scal (Fin 2)))) None].
Definition tch86 : nat -> bool * bool := fun _ => (false, false).
Example C86_meet : forall F, Forall (fun c => tc_typ c <> CEqMod /\ tree_ok (pdim sq) (tc_expr c)) mc /\ Forall (fun c => exists y, xval F pt86 (tc_expr c) y /\ sat_typ (tc_typ c) (tc_mod c) y) mc /\
  exists po pa' ex, pk_meet_tcons_array (F:=F) true tch86 false false sq mc = Some (po, pa', ex) /\ points po pt86 /\ ~ points po (fun _ => 0).
Proof.
  intros F. assert (OK : Forall (fun c => tc_typ c <> CEqMod /\ tree_ok (pdim sq) (tc_expr c)) mc) by (constructor; [|constructor]; split; [discriminate|]; split; [simpl; repeat split; discriminate|occ]).
  assert (ST : Forall (fun c => exists y, xval F pt86 (tc_expr c) y /\ sat_typ (tc_typ c) (tc_mod c) y) mc). { constructor; [|constructor]. exists 0. split. apply xv_bin with 2 2. apply xy_val. constructor. simpl. unfold Q2R; simpl; lra. simpl; lra. simpl. lra. }
  split; auto. split; auto.
  assert (B : match pk_meet_tcons_array (F:=F) true tch86 false false sq mc with Some (po, _, _) => match pC po with Some C => existsb (fun r => match r with [a; b; c; d] => negb (b =? 0)%Z && (a =? 0)%Z | _ => false end) C | None => false end | None => false end = true) by (vm_compute; reflexivity).
  destruct (pk_meet_tcons_array (F:=F) true tch86 false false sq mc) as [[[po pa'] ex]|] eqn:E; [|discriminate]. exists po, pa', ex. split; auto.
  destruct (C86_meet_tcons F true tch86 false sq mc po pa' ex sq_wf OK E) as (_ & _ & _ & _ & S). split. apply S; auto. apply sq_pt. intros d D. simpl in D. lia.
  intros P. unfold points in P. destruct (pC po) as [C|]; [|discriminate B]. apply existsb_exists in B. destruct B as (r & I & B). unfold poly_con, cone in P. rewrite Forall_forall in P. specialize (P r I). clear E. destruct r as [|a [|b [|c [|d [|]]]]]; try discriminate B. apply andb_true_iff in B. destruct B as (B1 & B2). apply negb_true_iff in B1. apply Z.eqb_neq in B1. apply Z.eqb_eq in B2. subst a. unfold row_holds in P. simpl in P. unfold homog in P. simpl in P. apply B1. apply eq_IZR. lra.
Qed.
Definition as86 : list (nat * texpr) := [(0%nat, xy)].
Example C86_assign : forall F, (forall d e, In (d, e) as86 -> (d < pdim sq)%nat /\ tree_ok (pdim sq) e) /\
  tree_update F (pdim sq) as86 pt86 (fun _ => 2) /\ exists po pa', pk_asssub_texpr_array (F:=F) true tch86 true true false sq as86 None = Some (po, pa') /\ points po (fun _ => 2).
Proof.
  intros F. assert (OK : forall d e, In (d, e) as86 -> (d < pdim sq)%nat /\ tree_ok (pdim sq) e). { intros d e [E|[]]. inversion E; subst. split. unfold pdim; simpl; lia. apply xy_ok. }
  assert (U : tree_update F (pdim sq) as86 pt86 (fun _ => 2)). { split. intros d e [E|[]]. inversion E; subst. apply xy_val. intros d D N. destruct d as [|[|d]]. exfalso. apply N. simpl. auto. reflexivity. unfold pdim in D. simpl in D. lia. }
  split; auto. split; auto. assert (B : match pk_asssub_texpr_array (F:=F) true tch86 true true false sq as86 None with Some _ => true | None => false end = true) by (vm_compute; reflexivity).
  destruct (pk_asssub_texpr_array (F:=F) true tch86 true true false sq as86 None) as [[po pa']|] eqn:E; [|discriminate]. exists po, pa'. split; auto.
  apply (C86_assign_texpr_partial F true tch86 true false sq as86 None po pa' pt86 (fun _ => 2) sq_wf); auto. repeat constructor; simpl; tauto. intros b X; discriminate. intros d D; simpl in D; lia. intros d D; simpl in D; lia. apply sq_pt. exact I.
Qed.

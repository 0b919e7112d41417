(** Abstract values with named variables (/repo/apron/ap_abstract1.c): C80-C83, for boxes, polyhedra, and
    octagons with exact numbers (PropAbs1Oct.v: octagons with any numbers).

    A value of level 1 is an environment with a value of the domain.  [val a rho]: the valuation [rho] of the
    names is in [a], that is, the point whose coordinate d is the value of the d-th name is in the value of level 0.
    [gives r e P]: the call succeeds without exception, its result is a well formed value on the environment [e]
    and contains exactly the valuations [P].  [refused r e]: the exception "invalid argument" is raised and the
    result is top on [e]. *)
From Coq Require Import Arith ZArith QArith Bool List Lia Sorted Reals Lra.
From Verif Require Import Bound Linexpr ApCore ApEnv ApEnvFacts ApEnvFacts2 PropApEnv Box BoxFacts BoxOps PkPoly PkPolyFacts Abs1 Abs1Facts Abs1Ops Abs1Fold Abs1Inst Abs1InstPk Abs1InstOct.
From Verif Require PropBox PropPkPoly Oct OctMat OctFacts.
Import ListNotations.
Local Open Scope nat_scope.

(** the three domains; for octagons, exact numbers and algorithm >= 0 *)
Inductive domain := Boxes (N : numtype) (algo : Z) | Polyhedra (lazy : bool) | Octagons (algo : nat) (tmp : OctMat.hmat).
Definition dom (k : domain) : dom0 := match k with Boxes N algo => box_d0 N algo | Polyhedra lazy => poly_d0 lazy | Octagons algo tmp => oct_d0 exact_num (Z.of_nat algo) tmp end.
Definition dinv (k : domain) : dv (dom k) -> Prop := match k with Boxes N algo => nebox | Polyhedra lazy => wfp | Octagons algo tmp => OctFacts.exo end.
Definition dgam (k : domain) : dv (dom k) -> (nat -> R) -> Prop := match k with Boxes N algo => gbox | Polyhedra lazy => PropPkPoly.points | Octagons algo tmp => OctFacts.gamo end.
Lemma dom_spec : forall k, dspec true (dom k) (dinv k) (dgam k).
Proof. intros [N algo|lazy|algo tmp]. apply box_dspec. apply poly_dspec. apply (oct_dspec true). intros _. split; auto. lia. Qed.

Section Level1.
Context {V : Type} (ops : vops V) (k : domain).
Notation env := (environment V).
Definition well (a : abs1 (dom k)) : Prop := wf1 ops (dom k) (dinv k) a.
Definition vals (a : abs1 (dom k)) (rho : V -> R) : Prop := val (dom k) (dgam k) a rho.
Definition yields (r : option (bool * abs1 (dom k))) (e : env) (P : (V -> R) -> Prop) : Prop :=
  exists b, r = Some (false, (e, b)) /\ well (e, b) /\ forall rho, vals (e, b) rho <-> P rho.
Definition refuses (r : option (bool * abs1 (dom k))) (e : env) : Prop := exists b, r = Some (true, (e, b)) /\ well (e, b) /\ forall rho, vals (e, b) rho.
Lemma gives_yields : forall r e P, gives ops true (dom k) (dinv k) (dgam k) r e P -> yields r e P.
Proof. intros r e P (b & E & W & H). exists b. split; auto. split; auto. intros rho. destruct (H rho). split; auto. Qed.

(** ** C80: change of environment, minimisation *)
Theorem C80_change_environment : forall a nenv project, well a -> good ops nenv -> ~ clash (fst a) nenv ->
  yields (change_environment ops (dom k) a nenv project) nenv (fun rho => exists sg, vals a sg /\ (forall x, In x (e_vars (fst a)) -> In x (e_vars nenv) -> sg x = rho x) /\
    (project = true -> forall x, In x (e_vars nenv) -> ~ In x (e_vars (fst a)) -> rho x = 0%R)).
Proof. intros. apply gives_yields. apply change_environment_gives; auto. apply dom_spec. Qed.
Theorem C80_change_environment_refused : forall a nenv project, well a -> good ops nenv -> clash (fst a) nenv -> refuses (change_environment ops (dom k) a nenv project) nenv.
Proof. intros. eapply change_environment_refused; eauto. apply dom_spec. Qed.
(** the names removed are unconstrained: the value has the same valuations *)
Theorem C80_minimize_environment : forall a, well a -> exists e, incl (e_int e) (e_int (fst a)) /\ incl (e_real e) (e_real (fst a)) /\ yields (minimize_environment ops (dom k) a) e (vals a).
Proof.
  intros a W. destruct (minimize_gives ops true (dom k) (dinv k) (dgam k) (dom_spec k) a W) as (e & A & B & G). exists e. split. intros x X. apply A; auto. split. intros x X. apply B; auto. apply gives_yields; auto.
Qed.

(** ** C81: meet and join on one environment, unification of two environments *)
Theorem C81_meet : forall a b, well a -> well b -> fst a = fst b -> yields (meet1 ops (dom k) a b) (fst a) (fun rho => vals a rho /\ vals b rho).
Proof. intros. apply gives_yields. apply meet_gives; auto. apply dom_spec. Qed.
Theorem C81_join : forall a b, well a -> well b -> fst a = fst b -> exists c, join1 ops (dom k) a b = Some (false, (fst a, c)) /\ well (fst a, c) /\ (forall rho, vals a rho \/ vals b rho -> vals (fst a, c) rho) /\
  forall d, well (fst a, d) -> (forall rho, vals a rho \/ vals b rho -> vals (fst a, d) rho) -> forall rho, vals (fst a, c) rho -> vals (fst a, d) rho.
Proof. intros a b A B E. destruct (join_gives ops true (dom k) (dinv k) (dgam k) (dom_spec k) a b A B E) as (c & C & W & S & L). exists c. split; auto. split; auto. split; auto. exact (L eq_refl). Qed.
Theorem C81_refused : forall a b, well a -> fst a <> fst b -> refuses (meet1 ops (dom k) a b) (fst a) /\ refuses (join1 ops (dom k) a b) (fst a) /\ refuses (widening1 ops (dom k) a b) (fst a).
Proof. intros a b A E. split; [|split]; eapply binary_refused; eauto; apply dom_spec. Qed.
Theorem C81_unify : forall a b, well a -> well b -> ~ clash (fst a) (fst b) ->
  exists e, is_union ops (fst a) (fst b) e /\ yields (unify1 ops (dom k) a b) e (fun rho => vals a rho /\ vals b rho).
Proof. intros a b A B C. destruct (unify_gives ops true (dom k) (dinv k) (dgam k) (dom_spec k) a b A B C) as (e & U & G). exists e. split; auto. apply gives_yields; auto. Qed.

(** ** C82: renaming, forgetting *)
Theorem C82_rename : forall a l (f : V -> V), well a -> NoDup (map fst l) -> (forall x, In x (map fst l) -> In x (e_vars (fst a))) -> (forall x, In x (e_vars (fst a)) -> renamed l x (f x)) -> NoDup (map f (e_vars (fst a))) ->
  exists e, (forall y, In y (e_int e) <-> exists x, In x (e_int (fst a)) /\ y = f x) /\ (forall y, In y (e_real e) <-> exists x, In x (e_real (fst a)) /\ y = f x) /\
    yields (rename_array ops (dom k) a l) e (fun rho => vals a (fun x => rho (f x))).
Proof. intros a l f A B C E F. destruct (rename_gives ops true (dom k) (dinv k) (dgam k) (dom_spec k) a l f A B C E F) as (e & X & Y & G). exists e. split; auto. split; auto. apply gives_yields; auto. Qed.
Theorem C82_forget : forall a tvar project, well a -> (forall x, In x tvar -> In x (e_vars (fst a))) ->
  yields (forget1 ops (dom k) a tvar project) (fst a) (fun rho => exists sg, vals a sg /\ forall x, In x (e_vars (fst a)) -> (~ In x tvar -> rho x = sg x) /\ (In x tvar -> project = true -> rho x = 0%R)).
Proof. intros. apply gives_yields. apply forget_gives; auto. apply dom_spec. Qed.
Theorem C82_forget_refused : forall a tvar project, well a -> (exists x, In x tvar /\ ~ In x (e_vars (fst a))) -> refuses (forget1 ops (dom k) a tvar project) (fst a).
Proof. intros. eapply forget_refused; eauto. apply dom_spec. Qed.

(** ** C83: copies of a variable, folding of variables *)
Definition with_value (rho : V -> R) (x : V) (r : R) (sg : V -> R) : Prop := sg x = r /\ forall y, y <> x -> sg y = rho y.
Theorem C83_expand : forall a var tvar, well a -> In var (e_vars (fst a)) -> NoDup tvar -> (forall x, In x tvar -> ~ In x (e_vars (fst a))) ->
  exists e, (forall x, In x (e_int e) <-> In x (e_int (fst a)) \/ (In var (e_int (fst a)) /\ In x tvar)) /\ (forall x, In x (e_real e) <-> In x (e_real (fst a)) \/ (In var (e_real (fst a)) /\ In x tvar)) /\
    yields (expand1 ops (dom k) a var tvar) e (fun rho => vals a rho /\ forall y sg, In y tvar -> with_value rho var (rho y) sg -> vals a sg).
Proof.
  intros a var tvar W I ND NI. destruct (expand_gives ops true (dom k) (dinv k) (dgam k) (dom_spec k) a var tvar W I ND NI) as (e & _ & X & Y & G). exists e. split; auto. split; auto. destruct (gives_yields _ _ _ G) as (b & E & WB & H). exists b. split; auto. split; auto.
  intros rho. rewrite H. split; intros (A & B); split; auto.
  - intros y sg Y' (S1 & S2). apply (val_agree ops true (dom k) (dinv k) (dgam k) (dom_spec k) a (vset ops rho var (rho y))); auto. intros x _. unfold vset. destruct (Z.eqb_spec (cmp ops x var) 0) as [Z|Z]. apply (cmp_eq _ ops) in Z. subst x. auto. rewrite S2; auto. intros ->. apply Z. apply (cmp_eq _ ops). auto.
  - intros y Y'. apply (B y); auto. split. apply vset_same. intros z Z. apply vset_other; auto.
Qed.
Theorem C83_expand_refused : forall a var tvar, well a -> tvar <> [] -> ~ In var (e_vars (fst a)) \/ ~ NoDup tvar \/ (exists x, In x tvar /\ In x (e_vars (fst a))) -> refuses (expand1 ops (dom k) a var tvar) (fst a).
Proof. intros. eapply expand_refused; eauto. apply dom_spec. Qed.
(** [rho] on the remaining variables: the first variable has the value of one of those which are folded *)
Definition folding (a : abs1 (dom k)) (x0 : V) (rest : list V) (rho : V -> R) : Prop :=
  exists t sg, In t (x0 :: rest) /\ vals a sg /\ rho x0 = sg t /\ forall y, In y (e_vars (fst a)) -> ~ In y (x0 :: rest) -> rho y = sg y.
Theorem C83_fold : forall a x0 rest, well a -> rest <> [] -> NoDup (x0 :: rest) -> one_type (fst a) (x0 :: rest) ->
  exists e b, (forall x, In x (e_int e) <-> In x (e_int (fst a)) /\ ~ In x rest) /\ (forall x, In x (e_real e) <-> In x (e_real (fst a)) /\ ~ In x rest) /\
    fold1 ops (dom k) a (x0 :: rest) = Some (false, (e, b)) /\ well (e, b) /\ (forall rho, folding a x0 rest rho -> vals (e, b) rho) /\
    forall c, well (e, c) -> (forall rho, folding a x0 rest rho -> vals (e, c) rho) -> forall rho, vals (e, b) rho -> vals (e, c) rho.
Proof.
  intros a x0 rest W NE ND OT. destruct (fold_gives ops true (dom k) (dinv k) (dgam k) (dom_spec k) a x0 rest W NE ND OT) as (e & b & A & B & C & E & S & L). exists e, b. split; auto. split; auto. split; auto. split; auto. split; auto. exact (L eq_refl).
Qed.
End Level1.
Print Assumptions C80_change_environment. Print Assumptions C80_change_environment_refused. Print Assumptions C80_minimize_environment. Print Assumptions C81_meet. Print Assumptions C81_join. Print Assumptions C81_refused. Print Assumptions C81_unify.
Print Assumptions C82_rename. Print Assumptions C82_forget. Print Assumptions C82_forget_refused. Print Assumptions C83_expand. Print Assumptions C83_expand_refused. Print Assumptions C83_fold.

(** ** Examples: names are integers; the environment [1] [5; 7] has an integer variable 1 and two real variables *)
Definition b80 : dv (dom (Boxes exact_num 0)) := PropBox.bx 1 2 [(0, 3); (0, 1); (4, 5)]%Q.
Definition a80 : abs1 (dom (Boxes exact_num 0)) := (env [1] [5; 7], b80)%Z.
Definition shows (r : option (bool * abs1 (dom (Boxes exact_num 0)))) (x : bool) (i j : list Z) (l : list (list Q * bool)) : bool :=
  match r with
  | Some (y, (e, b)) => Bool.eqb x y && environment_is_eq zops e (env i j) && forallb (fun p => Bool.eqb (PropBox.gboxb b (fst p)) (snd p)) l
  | None => false
  end.
Example C80_well : well zops (Boxes exact_num 0) a80.
Proof.
  split. apply zgood. reflexivity. split; [|split; reflexivity]. intros d D. cbn in D. destruct d as [|[|[|d]]]; [exists 0%R|exists 0%R|exists 4%R|exfalso; cbn in D; lia]; split; cbn; unfold Q2R; simpl; lra.
Qed.
Example C80_example :
  shows (change_environment zops (dom (Boxes exact_num 0)) a80 (env [1; 2] [6; 7])%Z true) false [1; 2]%Z [6; 7]%Z [([3; 0; 0; 4], true); ([3; 1; 0; 4], false); ([4; 0; 0; 4], false); ([3; 0; 0; 6], false)]%Q = true /\
  shows (change_environment zops (dom (Boxes exact_num 0)) a80 (env [1; 2] [6; 7])%Z false) false [1; 2]%Z [6; 7]%Z [([3; 9; 8; 4], true); ([4; 0; 0; 4], false)]%Q = true /\
  shows (change_environment zops (dom (Boxes exact_num 0)) a80 (env [5] [])%Z false) true [5]%Z [] [([100], true)]%Q = true.
Proof. vm_compute. auto. Qed.
Definition a81 : abs1 (dom (Boxes exact_num 0)) := (env [1] [6; 7], PropBox.bx 1 2 [(2, 9); (8, 9); (5, 6)]%Q)%Z.
Example C81_example : shows (unify1 zops (dom (Boxes exact_num 0)) a80 a81) false [1]%Z [5; 6; 7]%Z [([2; 0; 8; 5], true); ([1; 0; 8; 5], false); ([2; 2; 8; 5], false); ([2; 0; 7; 5], false); ([2; 0; 8; 6], false)]%Q = true /\
  shows (meet1 zops (dom (Boxes exact_num 0)) a80 a81) true [1]%Z [5; 7]%Z [([100; 100; 100], true)]%Q = true.
Proof. vm_compute. auto. Qed.
Example C82_example : shows (rename_array zops (dom (Boxes exact_num 0)) a80 [(5, 9)]%Z) false [1]%Z [7; 9]%Z [([3; 4; 0], true); ([3; 0; 4], false)]%Q = true /\
  shows (forget1 zops (dom (Boxes exact_num 0)) a80 [7]%Z false) false [1]%Z [5; 7]%Z [([3; 1; 100], true); ([3; 4; 100], false)]%Q = true.
Proof. vm_compute. auto. Qed.
Example C83_example : shows (expand1 zops (dom (Boxes exact_num 0)) a80 5%Z [6; 2]%Z) false [1]%Z [2; 5; 6; 7]%Z [([3; 1; 0; 1; 4], true); ([3; 2; 0; 1; 4], false); ([3; 0; 0; 2; 4], false)]%Q = true /\
  shows (fold1 zops (dom (Boxes exact_num 0)) a80 [7; 5]%Z) false [1]%Z [7]%Z [([3; 0], true); ([3; 5], true); ([3; 6], false)]%Q = true /\ one_type (env [1] [5; 7])%Z [7; 5]%Z.
Proof. vm_compute. split; auto. split; auto. right. intros x [<-|[<-|[]]]; auto. Qed.
(** folding an integer variable and a real variable: the exception is raised, but the value given as result does
    not have the dimensions of its environment *)
Theorem C83_fold_mixed_refuted : exists (a : abs1 (dom (Boxes exact_num 0))) (e : environment Z) b, well zops (Boxes exact_num 0) a /\ NoDup [1; 5]%Z /\ (forall x, In x [1; 5]%Z -> In x (e_vars (fst a))) /\
  fold1 zops (dom (Boxes exact_num 0)) a [1; 5]%Z = Some (true, (e, b)) /\ (length (e_int e), length (e_real e)) <> (d_int (dom (Boxes exact_num 0)) b, d_real (dom (Boxes exact_num 0)) b).
Proof.
  assert (H : match fold1 zops (dom (Boxes exact_num 0)) a80 [1; 5]%Z with Some (true, (e, b)) => negb (length (e_int e) =? d_int (dom (Boxes exact_num 0)) b) | _ => false end = true) by (vm_compute; reflexivity).
  destruct (fold1 zops (dom (Boxes exact_num 0)) a80 [1; 5]%Z) as [[[|] [e b]]|] eqn:F; try discriminate H. exists a80, e, b. split. apply C80_well. split. repeat constructor; simpl; intuition discriminate. split. intros x [<-|[<-|[]]]; vm_compute; auto. split. exact F.
  apply negb_true_iff, Nat.eqb_neq in H. intros K. injection K as K1 K2. contradiction.
Qed.
Print Assumptions C83_fold_mixed_refuted.

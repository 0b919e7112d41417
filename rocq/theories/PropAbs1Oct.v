(** Abstract values with named variables over octagons, any number type and any value of the option "algorithm":
    C80-C84.  With exact numbers and algorithm >= 0 the exact forms are in PropAbs1.v (domain Octagons).

    [covers r e P]: the call succeeds without exception, its result is a well formed value on the environment [e] and
    contains all the valuations [P]. *)
From Coq Require Import Arith ZArith QArith Bool List Lia Sorted Reals Lra.
From Verif Require Import Bound Linexpr ItvFacts2 ApCore ApEnv ApEnvFacts ApEnvFacts2 PropApEnv OctMat Oct OctClose OctFacts OctGuard OctGuard4 OctGuard5 OctAssign6 OctSubst2 OctTransfer PropOctLattice PropOctTransfer Generic GenericFacts Abs1 Abs1Facts Abs1Ops Abs1Fold Abs1Lin Abs1InstOct PropAbs1 PropAbs1Lin.
From Verif Require OctGeom.
Import ListNotations.
Local Open Scope nat_scope.

Section Level1.
Context {V : Type} (ops : vops V) (N : numtype) (algo : Z) (tmp : hmat).
Notation env := (environment V).
Notation D := (oct_d0 N algo tmp).
Definition owell (a : abs1 D) : Prop := wf1 ops D wfo a.
Definition ovals (a : abs1 D) (rho : V -> R) : Prop := val D gamo a rho.
Definition covers (r : option (bool * abs1 D)) (e : env) (P : (V -> R) -> Prop) : Prop :=
  exists b, r = Some (false, (e, b)) /\ owell (e, b) /\ forall rho, P rho -> ovals (e, b) rho.
Definition orefuses (r : option (bool * abs1 D)) (e : env) : Prop := exists b, r = Some (true, (e, b)) /\ owell (e, b) /\ forall rho, ovals (e, b) rho.
Lemma DS : dspec false D wfo gamo.
Proof. apply (oct_dspec false). discriminate. Qed.
Lemma gives_covers : forall r e P, gives ops false D wfo gamo r e P -> covers r e P.
Proof. intros r e P (b & E & W & H). exists b. split; auto. split; auto. intros rho. apply (H rho). Qed.

(** ** C80 *)
Theorem C80_change_environment_oct : forall a nenv project, owell a -> good ops nenv -> ~ clash (fst a) nenv ->
  covers (change_environment ops D a nenv project) nenv (fun rho => exists sg, ovals a sg /\ (forall x, In x (e_vars (fst a)) -> In x (e_vars nenv) -> sg x = rho x) /\
    (project = true -> forall x, In x (e_vars nenv) -> ~ In x (e_vars (fst a)) -> rho x = 0%R)).
Proof. intros. apply gives_covers. apply change_environment_gives; auto. apply DS. Qed.
Theorem C80_change_environment_oct_refused : forall a nenv project, owell a -> good ops nenv -> clash (fst a) nenv -> orefuses (change_environment ops D a nenv project) nenv.
Proof. intros. eapply change_environment_refused; eauto. apply DS. Qed.
Theorem C80_minimize_environment_oct : forall a, owell a -> exists e, incl (e_int e) (e_int (fst a)) /\ incl (e_real e) (e_real (fst a)) /\ covers (minimize_environment ops D a) e (ovals a).
Proof.
  intros a W. destruct (minimize_gives ops false D wfo gamo DS a W) as (e & A & B & G). exists e. split. intros x X. apply A; auto. split. intros x X. apply B; auto. apply gives_covers; auto.
Qed.
(** ** C81 *)
Theorem C81_meet_oct : forall a b, owell a -> owell b -> fst a = fst b -> covers (meet1 ops D a b) (fst a) (fun rho => ovals a rho /\ ovals b rho).
Proof. intros. apply gives_covers. apply meet_gives; auto. apply DS. Qed.
Theorem C81_join_oct : forall a b, owell a -> owell b -> fst a = fst b -> covers (join1 ops D a b) (fst a) (fun rho => ovals a rho \/ ovals b rho).
Proof. intros a b A B E. destruct (join_gives ops false D wfo gamo DS a b A B E) as (c & C & W & S & L). exists c. split; auto. Qed.
Theorem C81_oct_refused : forall a b, owell a -> fst a <> fst b -> orefuses (meet1 ops D a b) (fst a) /\ orefuses (join1 ops D a b) (fst a) /\ orefuses (widening1 ops D a b) (fst a).
Proof. intros a b A E. split; [|split]; eapply binary_refused; eauto; apply DS. Qed.
Theorem C81_unify_oct : forall a b, owell a -> owell b -> ~ clash (fst a) (fst b) ->
  exists e, is_union ops (fst a) (fst b) e /\ covers (unify1 ops D a b) e (fun rho => ovals a rho /\ ovals b rho).
Proof. intros a b A B C. destruct (unify_gives ops false D wfo gamo DS a b A B C) as (e & U & G). exists e. split; auto. apply gives_covers; auto. Qed.
(** ** C82 *)
Theorem C82_rename_oct : forall a l (f : V -> V), owell a -> NoDup (map fst l) -> (forall x, In x (map fst l) -> In x (e_vars (fst a))) -> (forall x, In x (e_vars (fst a)) -> renamed l x (f x)) -> NoDup (map f (e_vars (fst a))) ->
  exists e, (forall y, In y (e_int e) <-> exists x, In x (e_int (fst a)) /\ y = f x) /\ (forall y, In y (e_real e) <-> exists x, In x (e_real (fst a)) /\ y = f x) /\
    covers (rename_array ops D a l) e (fun rho => ovals a (fun x => rho (f x))).
Proof. intros a l f A B C E F. destruct (rename_gives ops false D wfo gamo DS a l f A B C E F) as (e & X & Y & G). exists e. split; auto. split; auto. apply gives_covers; auto. Qed.
Theorem C82_forget_oct : forall a tvar project, owell a -> (forall x, In x tvar -> In x (e_vars (fst a))) ->
  covers (forget1 ops D a tvar project) (fst a) (fun rho => exists sg, ovals a sg /\ forall x, In x (e_vars (fst a)) -> (~ In x tvar -> rho x = sg x) /\ (In x tvar -> project = true -> rho x = 0%R)).
Proof. intros. apply gives_covers. apply forget_gives; auto. apply DS. Qed.
(** ** C83 *)
Theorem C83_expand_oct : forall a var tvar, owell a -> In var (e_vars (fst a)) -> NoDup tvar -> (forall x, In x tvar -> ~ In x (e_vars (fst a))) ->
  exists e, (forall x, In x (e_int e) <-> In x (e_int (fst a)) \/ (In var (e_int (fst a)) /\ In x tvar)) /\ (forall x, In x (e_real e) <-> In x (e_real (fst a)) \/ (In var (e_real (fst a)) /\ In x tvar)) /\
    covers (expand1 ops D a var tvar) e (fun rho => ovals a rho /\ forall y sg, In y tvar -> with_value rho var (rho y) sg -> ovals a sg).
Proof.
  intros a var tvar W I ND NI. destruct (expand_gives ops false D wfo gamo DS a var tvar W I ND NI) as (e & _ & X & Y & G). exists e. split; auto. split; auto. destruct (gives_covers _ _ _ G) as (b & E & WB & H). exists b. split; auto. split; auto.
  intros rho (A & B). apply H. split; auto. intros y Y'. apply (B y); auto. split. apply vset_same. intros z Z. apply vset_other; auto.
Qed.
Theorem C83_fold_oct : forall a x0 rest, owell a -> rest <> [] -> NoDup (x0 :: rest) -> one_type (fst a) (x0 :: rest) ->
  exists e, (forall x, In x (e_int e) <-> In x (e_int (fst a)) /\ ~ In x rest) /\ (forall x, In x (e_real e) <-> In x (e_real (fst a)) /\ ~ In x rest) /\
    covers (fold1 ops D a (x0 :: rest)) e (fun rho => exists t sg, In t (x0 :: rest) /\ ovals a sg /\ rho x0 = sg t /\ forall y, In y (e_vars (fst a)) -> ~ In y (x0 :: rest) -> rho y = sg y).
Proof.
  intros a x0 rest W NE ND OT. destruct (fold_gives ops false D wfo gamo DS a x0 rest W NE ND OT) as (e & b & A & B & C & E & S & L). exists e. split; auto. split; auto. exists b. split; auto.
Qed.
(** ** C84: linear constraints; a single substitution *)
Lemma owell_dim : forall (a : abs1 D), owell a -> wfo (snd a) /\ odim (snd a) = e_dim (fst a) /\ oint (snd a) = length (e_int (fst a)).
Proof. intros [e a] (G & W & A & B). simpl in *. pose proof (wfo_int _ W). split; auto. split; auto. unfold e_dim. change (oint a = length (e_int e)) in A. change (odim a - oint a = length (e_real e)) in B. lia. Qed.
Theorem C84_meet_lincons_oct : forall (a : abs1 D) (cenv : env) l, owell a -> good ops cenv -> sub cenv (fst a) -> 0 < e_dim (fst a) ->
  Forall (fun c => gexpr_ok (e_dim cenv) (fun _ => True) (lc_expr c) /\ (lc_typ c = CSup -> N = exact_num)) l ->
  covers (meet_lincons1 ops D a cenv l) (fst a) (fun rho => integral (fst a) rho /\ ovals a rho /\ Forall (fun c => sat_cons c (at_env cenv rho)) l).
Proof.
  intros [e pa] cenv l W GC S P F. cbn [fst snd] in *.
  destruct (meet_lincons_calls ops D wfo (fun _ => True) I (e, pa) cenv l W GC S P) as (l' & E & F2 & FO). { eapply Forall_impl; [|exact F]. intros c H. apply H. }
  rewrite E. destruct (owell_dim _ W) as (WP & D1 & D2). pose proof W as (G & _). cbn [fst snd] in *.
  assert (CO : forall c, In c l' -> wf_linexpr (odim pa) (lc_expr c)). { intros c C. rewrite Forall_forall in FO. rewrite D1. apply (FO c C). }
  exists (fst (oct_meet_lincons_array (N:=N) algo tmp pa l')). split. reflexivity. split. destruct (meet_lincons_dim (N:=N) algo tmp pa l') as (B1 & B2). destruct W as (_ & _ & X1 & X2). cbn [fst snd] in *. split; auto. split. apply meet_lincons_wfo; auto. split. exact (eq_trans B2 X1). change (odim (fst (oct_meet_lincons_array (N:=N) algo tmp pa l')) - oint (fst (oct_meet_lincons_array (N:=N) algo tmp pa l')) = length (e_real e)). rewrite B1, B2. exact X2.
  intros rho (IN & A & B). apply C31_meet_lincons_sound; auto.
  - intros c C. clear - F2 B C. induction F2 as [|c0 c' q q' M F2 IH]; inversion B; subst; [destruct C|]. destruct C as [<-|C]; auto. apply (cmeans_sat cenv e c0 c'); auto.
  - intros c C T. assert (K : exists c0, In c0 l /\ cmeans cenv e c0 c). { clear - F2 C. induction F2 as [|c0 c' q q' M F2 IH]; [destruct C|]. destruct C as [<-|C]. exists c0. split; simpl; auto. destruct (IH C) as (c1 & X & Y). exists c1. split; simpl; auto. }
    destruct K as (c0 & I0 & (T0 & _)). rewrite Forall_forall in F. destruct (F c0 I0) as (_ & EX). rewrite T in T0. rewrite (EX (eq_sym T0)). split. rewrite D2. intros d L. exact (integral_at _ e rho IN d L). apply repr_E.
Qed.
Theorem C84_substitute_oct : forall (a : abs1 D) x ev u dest, owell a -> asn_ok ops (fun _ => True) (fst a) [(x, (ev, u))] -> (forall b, dest = Some b -> owell b /\ fst b = fst a) ->
  covers (asssub1 ops D (d_subst D) a [(x, (ev, u))] dest) (fst a) (fun rho => (forall b, dest = Some b -> ovals b rho) /\ exists rho', assigned1 (fst a) [(x, (ev, u))] rho rho' /\ ovals a rho').
Proof.
  intros [e pa] x ev u dest W OK DE. cbn [fst snd] in *.
  destruct (asssub_calls ops D wfo (fun _ => True) I (d_subst D) (e, pa) [(x, (ev, u))] dest W) as (r & E & F2 & FO); auto. discriminate. rewrite E. destruct (owell_dim _ W) as (WP & D1 & D2). pose proof W as (G & _ & X1 & X2). cbn [fst snd] in *.
  assert (EQ : exists d t, r = [(d, t)]). { inversion F2 as [|? [d t] ? ? ? F2']; subst. inversion F2'; subst. eauto. } destruct EQ as (d & t & ->). inversion FO as [|? ? (LD & GX) _]; subst. cbn [fst snd] in *.
  change (d_subst D pa [(d, t)] (option_map snd dest)) with (oct_substitute_linexpr (N:=N) algo tmp pa d t (option_map snd dest)).
  assert (DO : dest_ok pa (option_map snd dest)). { destruct dest as [[eb vb]|]; simpl; auto. destruct (DE (eb, vb) eq_refl) as (Wb & Q). destruct (owell_dim _ Wb) as (Y1 & Y2 & _). cbn [fst snd] in *. subst eb. split; auto. congruence. }
  assert (WT : wf_linexpr (odim pa) t) by (rewrite D1; apply GX). rewrite <- D1 in LD.
  eexists. split. reflexivity. split.
  - destruct (subst_dim (N:=N) algo tmp pa d t (option_map snd dest)) as (B1 & B2). split; auto. split. apply subst_wfo; auto. split. exact (eq_trans B2 X1).
    change (odim (oct_substitute_linexpr (N:=N) algo tmp pa d t (option_map snd dest)) - oint (oct_substitute_linexpr (N:=N) algo tmp pa d t (option_map snd dest)) = length (e_real e)). rewrite B1, B2. exact X2.
  - intros rho (HD & rho' & U & GA). apply (assigned_updated ops e _ _ rho rho' G F2) in U. destruct U as (U1 & U2). apply (C33_substitute_sound N algo tmp pa d t (option_map snd dest) WP LD WT DO (at_env e rho) (at_env e rho' d)); [|apply U1; left; auto|].
    + apply (gamo_loc pa (at_env e rho')); auto. intros y Y. unfold OctGeom.vset. destruct (Nat.eqb_spec y d) as [->|NE]; auto. apply U2. rewrite <- D1; auto. simpl. intros [K|[]]; auto.
    + destruct dest as [[eb vb]|]; simpl; auto. destruct (DE (eb, vb) eq_refl) as (_ & Q). cbn [fst] in Q. subst eb. apply (HD (e, vb)); auto.
Qed.
End Level1.
Print Assumptions C80_change_environment_oct. Print Assumptions C80_change_environment_oct_refused. Print Assumptions C80_minimize_environment_oct. Print Assumptions C81_meet_oct. Print Assumptions C81_join_oct. Print Assumptions C81_oct_refused.
Print Assumptions C81_unify_oct. Print Assumptions C82_rename_oct. Print Assumptions C82_forget_oct. Print Assumptions C83_expand_oct. Print Assumptions C83_fold_oct. Print Assumptions C84_meet_lincons_oct. Print Assumptions C84_substitute_oct.

(** ** Examples: the triangle of PropOctLattice.v on the variables 5 and 7, numbers rounded to quarters and exact *)
Definition o80 : abs1 (oct_d0 quarters 0 junk) := (env [] [5; 7], exTri)%Z.
Definition oshows {N algo tmp} (r : option (bool * abs1 (oct_d0 N algo tmp))) (x : bool) (i j : list Z) (l : list (list Q * bool)) : bool :=
  match r with
  | Some (y, (e, b)) => Bool.eqb x y && environment_is_eq zops e (env i j) && forallb (fun p => Bool.eqb (match best b with Some m => gamb (odim b) m (fst p) | None => false end) (snd p)) l
  | None => false
  end.
Example C80_example_oct : owell zops quarters 0 junk o80 /\ well zops (Octagons 0 junk) (env [] [5; 7], exTri)%Z.
Proof. split; (split; [apply zgood; reflexivity|]; split; [|split; reflexivity]). apply exo_wf, exTri_exo. exact exTri_exo. Qed.
Definition o81 : abs1 (oct_d0 quarters 0 junk) := (env [] [6; 7], lbox 0 1 (1 # 2) 2)%Z.
Definition xcons : lincons := mkCons CSupEq (sp (-1 # 4) [(0, 1%Q)]) None.
Example C81_example_oct :
  oshows (change_environment zops (oct_d0 quarters 0 junk) o80 (env [1] [6; 7])%Z true) false [1]%Z [6; 7]%Z [([0; 0; 1 # 2], true); ([0; 0; 1], false); ([1; 0; 0], false); ([0; 1; 0], false)]%Q = true /\
  oshows (unify1 zops (oct_d0 quarters 0 junk) o80 o81) false [] [5; 6; 7]%Z [([1; 1; 1 # 2], true); ([1; 2; 1 # 2], false); ([1; 1; 1 # 4], false); ([1 # 2; 1; 1 # 2], false)]%Q = true /\
  oshows (meet1 zops (oct_d0 quarters 0 junk) o80 o81) true [] [5; 7]%Z [([100; 100], true)]%Q = true.
Proof. vm_compute. auto. Qed.
Example C82_example_oct : oshows (rename_array zops (oct_d0 quarters 0 junk) o80 [(5, 9)]%Z) false [] [7; 9]%Z [([1 # 2; 1], true); ([1; 1 # 2], false)]%Q = true /\
  oshows (forget1 zops (oct_d0 quarters 0 junk) o80 [5]%Z false) false [] [5; 7]%Z [([100; 1 # 2], true); ([100; 1], false)]%Q = true.
Proof. vm_compute. auto. Qed.
Example C83_example_oct : oshows (expand1 zops (oct_d0 quarters 0 junk) o80 5%Z [6]%Z) false [] [5; 6; 7]%Z [([1; 1; 1 # 2], true); ([1; 0; 1 # 2], false); ([0; 1; 1 # 2], false)]%Q = true /\
  oshows (fold1 zops (oct_d0 quarters 0 junk) o80 [7; 5]%Z) false [] [7]%Z [([0], true); ([1], true); ([2], false)]%Q = true.
Proof. vm_compute. auto. Qed.
Example C84_example_oct : good zops (env [] [7])%Z /\ sub (env [] [7])%Z (env [] [5; 7])%Z /\ gexpr_ok 1 (fun _ => True) (lc_expr xcons) /\
  oshows (meet_lincons1 zops (oct_d0 quarters 0 junk) o80 (env [] [7])%Z [xcons]) false [] [5; 7]%Z [([1; 1 # 2], true); ([1; 0], false)]%Q = true /\
  oshows (asssub1 zops (oct_d0 quarters 0 junk) (d_subst (oct_d0 quarters 0 junk)) o80 [(5%Z, (env [] [7]%Z, sp 1 [(0, 1%Q)]))] None) false [] [5; 7]%Z [([7; 0], true); ([7; 1 # 2], false)]%Q = true.
Proof.
  split. apply zgood; reflexivity. split. split; intros x; simpl; tauto. split.
  - apply (sparse_ok 1 [(0, Scal (Fin 1))]); simpl; auto; try (repeat constructor; fail). intuition lia.
  - split; vm_compute; reflexivity.
Qed.

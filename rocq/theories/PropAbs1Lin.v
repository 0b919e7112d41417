(** Abstract values with named variables (/repo/apron/ap_abstract1.c 694-726, 798-870), constraints and assignments
    whose expressions are on other environments: C84, for boxes and polyhedra.

    An expression comes with its environment, included in that of the value.  [assigned1 e l rho rho']: [rho'] is
    obtained from [rho] by all the assignments of [l] at once, each expression being evaluated in its environment. *)
From Coq Require Import Arith ZArith QArith Bool List Lia Sorted Reals Lra.
From Verif Require Import Bound Linexpr ItvLin ItvLinFacts LinexprFacts ItvLinCons ItvLinApi ApCore ApCoreFacts ApCheck ApEnv ApEnvFacts ApEnvFacts2 PropApEnv Box BoxFacts BoxOps BoxMeet Generic GenericFacts BoxSubst PropBox PropGeneric PkPoly PkPolyFacts Abs1 Abs1Facts Abs1Ops Abs1Lin Abs1Inst Abs1InstPk PropAbs1.
From Verif Require PropApCore PkUserMeet PropPkPoly PropPkUser PropPkAssign PkLinUser PropPkLin.
Import ListNotations.
Local Open Scope nat_scope.

Definition scal (c : coeff) : Prop := is_scal c = true.
Definition integral {V : Type} (e : environment V) (rho : V -> R) : Prop := forall x, In x (e_int e) -> exists z, rho x = IZR z.
Lemma integral_at : forall (V : Type) (e : environment V) rho, integral e rho -> ipoint (length (e_int e)) (at_env e rho).
Proof.
  intros V e rho I d L. unfold at_env, at_list, e_vars. rewrite nth_error_app1 by auto. destruct (nth_error (e_int e) d) as [x|] eqn:E. apply I. eapply nth_error_In; eauto. exists 0%Z. auto.
Qed.
Lemma gexpr_holes : forall n cok e, gexpr_ok n cok e -> wf_linexpr n e /\ holes_last (le_terms e).
Proof. intros n cok e (W & S & _). split; auto. destruct (le_terms e) as [l|ts]. exact I. apply lin_sorted_iff in S. apply S. Qed.
Lemma gexpr_scal : forall n e, gexpr_ok n scal e -> scalar_terms e.
Proof. intros n e ((W & T) & _ & _ & K). unfold scalar_terms. apply Forall_forall. intros [d c] I. apply (K d c). apply (foreach_lin n); auto. Qed.

Section Level1.
Context {V : Type} (ops : vops V).
Notation env := (environment V).
Lemma total_means : forall (ev e : env) u u', good ops e -> wf_terms (e_dim e) (le_terms u') -> means ev e u u' -> expr_total u -> expr_total u'.
Proof. intros ev e u u' G W (_ & M) T v. destruct (val_of ops e v (fun _ => 0%R) G) as (sg & S & _). destruct (T (at_env ev sg)) as (r & E). exists r. apply (expr_val_ext (e_dim e) u' (at_env e sg) v); auto. intros x L. symmetry. apply S; auto. apply M; auto. Qed.
(** ** Constraints *)
(** polyhedra, real variables, rational coefficients, equalities and large inequalities: the exact set *)
Theorem C84_meet_lincons_poly : forall lazy (a : abs1 (dom (Polyhedra lazy))) (cenv : env) l, well ops (Polyhedra lazy) a -> good ops cenv -> sub cenv (fst a) -> e_int (fst a) = [] -> e_real (fst a) <> [] ->
  Forall (fun c => gexpr_ok (e_dim cenv) scal (lc_expr c) /\ expr_total (lc_expr c) /\ PropPkUser.large c) l ->
  yields ops (Polyhedra lazy) (meet_lincons1 ops (dom (Polyhedra lazy)) a cenv l) (fst a) (fun rho => vals (Polyhedra lazy) a rho /\ Forall (fun c => sat_cons c (at_env cenv rho)) l).
Proof.
  intros lazy [e pa] cenv l W GC S EI ER F. cbn [fst snd] in *. assert (P : 0 < e_dim e). { unfold e_dim. destruct (e_real e). congruence. simpl. lia. }
  destruct (meet_lincons_calls ops (dom (Polyhedra lazy)) (dinv (Polyhedra lazy)) scal eq_refl (e, pa) cenv l W GC S P) as (l' & E & F2 & FO). { eapply Forall_impl; [|exact F]. intros c H. apply H. }
  rewrite E. pose proof W as (G & WP & D1 & D2). cbn [fst snd] in *. change (wfp pa) in WP. change (PkPoly.pint pa = length (e_int e)) in D1. change (PkPoly.preal pa = length (e_real e)) in D2. assert (PD : PkPoly.pdim pa = e_dim e) by (unfold PkPoly.pdim, e_dim; congruence).
  assert (CO : Forall (fun c => PropPkUser.cons_ok (PkPoly.pdim pa) c /\ PkUserMeet.scalar_cons c /\ PropPkUser.large c) l').
  { rewrite PD. clear E. revert F FO. induction F2 as [|c c' q q' (T & M & LC & MV) F2 IH]; intros F FO. constructor. inversion F as [|? ? (_ & TC & LG) F']; subst. inversion FO as [|? ? K FO']; subst. constructor; auto. assert (LG' : PropPkUser.large c') by (unfold PropPkUser.large in *; rewrite T; auto).
    split. split. apply (gexpr_holes _ _ _ K). intros TM. unfold PropPkUser.large in LG'. destruct LG'; congruence. split; auto. split. unfold ineq_typ. destruct LG' as [->| ->]; simpl; auto. split. apply (gexpr_scal _ _ K). rewrite LC. apply expr_total_cst; auto. }
  destruct (PropPkUser.C72_meet_lincons_exact lazy false pa l') as (po & pa' & ex & E2 & (W' & (D1' & D2') & PT) & _); auto.
  { rewrite D1, EI. auto. } { eapply Forall_impl; [|exact CO]. intros c H. apply H. } { eapply Forall_impl; [|exact CO]. intros c H. split; apply H. }
  exists po. split. simpl. rewrite E2. auto. split. split; auto. split; simpl; auto. split; congruence. intros rho. unfold vals, val. simpl. rewrite PT. split; intros (A & B); split; auto; clear - F2 B.
  - induction F2 as [|c c' q q' M F2 IH]; inversion B; subst; constructor; auto. apply (cmeans_sat cenv e c c'); auto.
  - induction F2 as [|c c' q q' M F2 IH]; inversion B; subst; constructor; auto. apply (cmeans_sat cenv e c c'); auto.
Qed.
(** polyhedra, any constraints (the modulus of a congruence is not zero): the solutions with integer values on the
    integer variables are kept, nothing is added *)
Theorem C84_meet_lincons_poly_sound : forall lazy (a : abs1 (dom (Polyhedra lazy))) (cenv : env) l, well ops (Polyhedra lazy) a -> good ops cenv -> sub cenv (fst a) -> 0 < e_dim (fst a) ->
  Forall (fun c => gexpr_ok (e_dim cenv) (fun _ => True) (lc_expr c) /\ PkUserMeet.mod_nz c) l ->
  exists b, meet_lincons1 ops (dom (Polyhedra lazy)) a cenv l = Some (false, (fst a, b)) /\ well ops (Polyhedra lazy) (fst a, b) /\
    (forall rho, vals (Polyhedra lazy) (fst a, b) rho -> vals (Polyhedra lazy) a rho) /\
    forall rho, integral (fst a) rho -> vals (Polyhedra lazy) a rho -> Forall (fun c => sat_cons c (at_env cenv rho)) l -> vals (Polyhedra lazy) (fst a, b) rho.
Proof.
  intros lazy [e pa] cenv l W GC S P F. cbn [fst snd] in *.
  destruct (meet_lincons_calls ops (dom (Polyhedra lazy)) (dinv (Polyhedra lazy)) (fun _ => True) I (e, pa) cenv l W GC S P) as (l' & E & F2 & FO). { eapply Forall_impl; [|exact F]. intros c H. apply H. }
  rewrite E. pose proof W as (G & WP & D1 & D2). cbn [fst snd] in *. change (wfp pa) in WP. change (PkPoly.pint pa = length (e_int e)) in D1. change (PkPoly.preal pa = length (e_real e)) in D2. assert (PD : PkPoly.pdim pa = e_dim e) by (unfold PkPoly.pdim, e_dim; congruence).
  assert (CO : Forall (PropPkUser.cons_ok (PkPoly.pdim pa)) l').
  { rewrite PD. clear E. revert F FO. induction F2 as [|c c' q q' (T & M & LC & MV) F2 IH]; intros F FO. constructor. inversion F as [|? ? (_ & TC) F']; subst. inversion FO as [|? ? K FO']; subst. constructor; auto.
    split. apply (gexpr_holes _ _ _ K). unfold PkUserMeet.mod_nz in *. rewrite T, M. auto. }
  destruct (PropPkUser.C72_meet_lincons lazy false pa l' WP CO) as (po & pa' & ex & E2 & W' & (D1' & D2') & _ & SB & SD & _).
  exists po. split. simpl. rewrite E2. auto. split. split; auto. split; simpl; auto. split; congruence. split. intros rho. apply SB. intros rho IN A B. apply SD; auto. rewrite D1. apply integral_at; auto.
  clear - F2 B. cbn [fst] in F2. induction F2 as [|c c' q q' M F2 IH]; inversion B; subst; constructor; auto. apply (cmeans_sat cenv e c c'); auto.
Qed.
(** boxes, any number type; the coefficients are representable when the number type is not exact.  When box_meet_lincons_array
    does not return (infinite propagation, C13) the model gives back the argument *)
Theorem C84_meet_lincons_box_sound : forall N algo (a : abs1 (dom (Boxes N algo))) (cenv : env) l, repr_coeff N czero -> well ops (Boxes N algo) a -> good ops cenv -> sub cenv (fst a) -> 0 < e_dim (fst a) ->
  Forall (fun c => gexpr_ok (e_dim cenv) (repr_coeff N) (lc_expr c) /\ mod_ok (N:=N) c) l ->
  exists b, meet_lincons1 ops (dom (Boxes N algo)) a cenv l = Some (false, (fst a, b)) /\ (Forall (fun c => expr_total (lc_expr c)) l -> well ops (Boxes N algo) (fst a, b)) /\ (forall rho, vals (Boxes N algo) (fst a, b) rho -> vals (Boxes N algo) a rho) /\
    forall rho, integral (fst a) rho -> vals (Boxes N algo) a rho -> Forall (fun c => sat_cons c (at_env cenv rho)) l -> vals (Boxes N algo) (fst a, b) rho.
Proof.
  intros N algo [e pa] cenv l R0 W GC S P F. cbn [fst snd] in *.
  destruct (meet_lincons_calls ops (dom (Boxes N algo)) (dinv (Boxes N algo)) (repr_coeff N) R0 (e, pa) cenv l W GC S P) as (l' & E & F2 & FO). { eapply Forall_impl; [|exact F]. intros c H. apply H. }
  rewrite E. pose proof W as (G & WP & D1 & D2). cbn [fst snd] in *. change (bx_int pa = length (e_int e)) in D1. change (bx_real pa = length (e_real e)) in D2. assert (PD : bx_dim pa = e_dim e) by (unfold bx_dim, e_dim; congruence).
  assert (CO : Forall (fun c => user_ok (N:=N) (bx_dim pa) c /\ (N = exact_num \/ repr_terms (N:=N) (lc_expr c))) l').
  { rewrite PD. clear E. revert F FO. induction F2 as [|c c' q q' (T & M & LC & MV) F2 IH]; intros F FO. constructor. inversion F as [|? ? (_ & TC) F']; subst. inversion FO as [|? ? K FO']; subst. constructor; auto.
    split. destruct (gexpr_holes _ _ _ K) as (K1 & K2). split; auto. split; auto. unfold mod_ok in *. rewrite T, M. auto.
    apply (gexpr_box N _ (mkCons CEq (lc_expr c') None) eq_refl eq_refl K). }
  eexists. split. reflexivity. simpl. destruct (box_meet_lincons_array (N:=N) algo pa l') as [b|] eqn:EB.
  - split. intros TO. destruct (meet_lincons_dim algo pa l' b EB) as (B1 & B2). split; auto. split; [|split; [exact (eq_trans B1 D1)|exact (eq_trans B2 D2)]]. apply (meet_lincons_nebox (N:=N) algo pa l' b); auto. rewrite PD in *. clear E EB FO. revert TO. induction F2 as [|c c' q q' (T & M & MM) F2 IH]; intros TO. constructor. inversion TO as [|? ? T1 TO']; subst. inversion F as [|? ? ((TW & _) & _) F']; subst. inversion CO as [|? ? C1 CO']; subst. constructor; auto. split; auto. apply (total_means cenv e (lc_expr c)); auto. apply C1.
    split. intros rho. apply (C13_meet_lincons_reductive N algo pa b l'); auto. intros rho IN A B. apply (C13_meet_lincons_sound_partial N algo pa b l' (at_env e rho) CO EB); auto. rewrite D1. apply integral_at; auto.
    clear - F2 B. cbn [fst] in F2. induction F2 as [|c c' q q' M F2 IH]; inversion B; subst; constructor; auto. apply (cmeans_sat cenv e c c'); auto.
  - split. intros _. exact W. split; intros rho; auto.
Qed.

(** ** Assignments and substitutions *)
Lemma dims_nodup : forall (e : env) l r, Forall2 (asn_means e) l r -> NoDup (map fst l) -> NoDup (map fst r).
Proof.
  intros e l r F. induction F as [|p q l r (N & M) F IH]; simpl; intros ND. constructor. inversion ND as [|? ? NI ND']; subst. constructor; auto. intros I. apply NI. apply in_map_iff in I. destruct I as (q' & E & I). clear - F N E I.
  induction F as [|p' q2 l r (N' & M') F IH]. destruct I. destruct I as [->|I]. left. rewrite E in N'. congruence. right. auto.
Qed.
Lemma updated_ext : forall n r x x' y, (forall d e, In (d, e) r -> wf_terms n (le_terms e)) -> (forall d, d < n -> x' d = x d) -> updated n r x y -> updated n r x' y.
Proof. intros n r x x' y W H (A & B). split. intros d e I. apply (expr_val_ext n e x x'); eauto. intros d D NI. rewrite H; auto. Qed.
(** names for the points before the assignment *)
Lemma named_before : forall (e : env) (l : list (V * (env * linexpr))) r (P : (nat -> R) -> Prop) rho', good ops e -> Forall2 (asn_means e) l r -> (forall d u, In (d, u) r -> wf_terms (e_dim e) (le_terms u)) -> (forall x x', (forall d, d < e_dim e -> x' d = x d) -> P x -> P x') ->
  ((exists x, P x /\ updated (e_dim e) r x (at_env e rho')) <-> exists rho, P (at_env e rho) /\ assigned1 e l rho rho').
Proof.
  intros e l r P rho' G F W PE. split.
  - intros (x & X & U). destruct (val_of ops e x (fun _ => 0%R) G) as (sg & S & _). exists sg. split. apply (PE x); auto. apply (assigned_updated ops e l r sg rho' G F). apply (updated_ext _ r x); auto.
  - intros (rho & X & U). exists (at_env e rho). split; auto. apply (assigned_updated ops e l r rho rho' G F); auto.
Qed.
Lemma named_after : forall (e : env) (l : list (V * (env * linexpr))) r (P : (nat -> R) -> Prop) rho, good ops e -> Forall2 (asn_means e) l r -> (forall d u, In (d, u) r -> d < e_dim e) -> (forall x x', (forall d, d < e_dim e -> x' d = x d) -> P x -> P x') ->
  ((exists y, P y /\ updated (e_dim e) r (at_env e rho) y) <-> exists rho', P (at_env e rho') /\ assigned1 e l rho rho').
Proof.
  intros e l r P rho G F W PE. split.
  - intros (y & Y & (U1 & U2)). destruct (val_of ops e y (fun _ => 0%R) G) as (sg & S & _). exists sg. split. apply (PE y); auto. apply (assigned_updated ops e l r rho sg G F). split. intros d u I. rewrite S. auto. eapply W; eauto. intros d D NI. rewrite S; auto.
  - intros (rho' & X & U). exists (at_env e rho'). split; auto. apply (assigned_updated ops e l r rho rho' G F); auto.
Qed.
Definition linear_asn (l : list (V * (env * linexpr))) : Prop := forall x ev u, In (x, (ev, u)) l -> scal (le_cst u).
Lemma asn_linear : forall (e : env) l r, Forall2 (asn_means e) l r -> Forall (fun q => fst q < e_dim e /\ gexpr_ok (e_dim e) scal (snd q)) r -> linear_asn l -> NoDup (map fst l) ->
  PropPkLin.asn_lin (e_dim e) r /\ forallb (fun p => linexpr_is_linear (snd p)) r = true.
Proof.
  intros e l r F2 FO LA ND. split. split. eapply dims_nodup; eauto. eapply Forall_impl; [|exact FO]. intros q (A & B). split; auto. apply (gexpr_holes _ _ _ B).
  clear ND. apply forallb_forall. revert FO. induction F2 as [|[x [ev u]] q l r (N & (LC & M)) F2 IH]; intros FO t T. destruct T. inversion FO as [|? ? (A & B) FO']; subst. destruct T as [<-|T].
  - unfold linexpr_is_linear. rewrite LC. simpl. rewrite (LA x ev u (or_introl eq_refl)). apply forallb_forall. pose proof (gexpr_scal _ _ B) as SC. unfold scalar_terms in SC. rewrite Forall_forall in SC. auto.
  - apply IH; auto. intros y ev' u' I. apply (LA y ev' u'). right; auto.
Qed.
(** polyhedra, rational coefficients: exactly the image, met with the destination *)
Theorem C84_assign_poly : forall lazy (a : abs1 (dom (Polyhedra lazy))) l dest, well ops (Polyhedra lazy) a -> l <> [] -> NoDup (map fst l) -> asn_ok ops scal (fst a) l -> linear_asn l ->
  (forall b, dest = Some b -> well ops (Polyhedra lazy) b /\ fst b = fst a) ->
  yields ops (Polyhedra lazy) (asssub1 ops (dom (Polyhedra lazy)) (d_assign (dom (Polyhedra lazy))) a l dest) (fst a)
    (fun rho' => (exists rho, vals (Polyhedra lazy) a rho /\ assigned1 (fst a) l rho rho') /\ forall b, dest = Some b -> vals (Polyhedra lazy) b rho').
Proof.
  intros lazy [e pa] l dest W NE ND OK LA DE. cbn [fst snd] in *.
  destruct (asssub_calls ops (dom (Polyhedra lazy)) (dinv (Polyhedra lazy)) scal eq_refl (d_assign (dom (Polyhedra lazy))) (e, pa) l dest W NE OK DE) as (r & -> & F2 & FO). cbn [fst snd] in *.
  pose proof W as (G & WP & D1 & D2). cbn [fst snd] in *. change (wfp pa) in WP. change (PkPoly.pint pa = length (e_int e)) in D1. change (PkPoly.preal pa = length (e_real e)) in D2. assert (PD : PkPoly.pdim pa = e_dim e) by (unfold PkPoly.pdim, e_dim; congruence).
  destruct (asn_linear e l r F2 FO LA ND) as (AL & LN). rewrite <- PD in AL.
  assert (DO : PropPkAssign.dest_ok pa (option_map snd dest)). { intros pb E. destruct dest as [b|]; [|discriminate]. injection E as <-. destruct (DE b eq_refl) as ((_ & A & B & C) & Q). split. exact A. split. rewrite D1, <- Q. symmetry. exact B. rewrite D2, <- Q. symmetry. exact C. }
  destruct (PropPkLin.C85_assign_linear lazy pa r _ WP AL LN DO) as (po & pa' & E & _ & (W' & (D1' & D2') & PT)). assert (EQ : d_assign (dom (Polyhedra lazy)) pa r (option_map snd dest) = po). { match type of E with ?t = _ => change (match t with Some (r0, _) => r0 | None => pa end = po) end. rewrite E. reflexivity. }
  exists po. split. rewrite EQ. reflexivity. split. split; auto. split; simpl; auto. split; congruence.
  intros rho. unfold vals, val. cbn [fst snd dgam]. rewrite PT, PD. rewrite (named_before e l r (PropPkPoly.points pa) rho G F2).
  - assert (ID : PropPkAssign.in_dest (option_map snd dest) (at_env e rho) <-> forall b, dest = Some b -> PropPkPoly.points (snd b) (at_env (fst b) rho)).
    { destruct dest as [[eb vb]|]; simpl. destruct (DE (eb, vb) eq_refl) as (_ & Q). cbn [fst] in Q. subst eb. split. intros H b' K. injection K as <-. exact H. intros H. apply (H (e, vb)); auto. split; intros; auto. discriminate. }
    rewrite ID. reflexivity.
  - intros d u I. rewrite Forall_forall in FO. destruct (FO (d, u) I) as (_ & ((_ & B) & _)). exact B.
  - intros x x' H. apply PropPkAssign.gamma_agree; auto. rewrite PD. intros i L. symmetry. auto.
Qed.

(** polyhedra, rational coefficients: exactly the inverse image, met with the destination.  With a destination and a
    manager which is not lazy the function of level 0 may abort (C85_substitute_linear) *)
Theorem C84_substitute_poly : forall lazy (a : abs1 (dom (Polyhedra lazy))) l dest, well ops (Polyhedra lazy) a -> l <> [] -> NoDup (map fst l) -> asn_ok ops scal (fst a) l -> linear_asn l ->
  (forall b, dest = Some b -> well ops (Polyhedra lazy) b /\ fst b = fst a) -> lazy = true \/ dest = None ->
  yields ops (Polyhedra lazy) (asssub1 ops (dom (Polyhedra lazy)) (d_subst (dom (Polyhedra lazy))) a l dest) (fst a)
    (fun rho => (exists rho', vals (Polyhedra lazy) a rho' /\ assigned1 (fst a) l rho rho') /\ forall b, dest = Some b -> vals (Polyhedra lazy) b rho).
Proof.
  intros lazy [e pa] l dest W NE ND OK LA DE LZ. cbn [fst snd] in *.
  destruct (asssub_calls ops (dom (Polyhedra lazy)) (dinv (Polyhedra lazy)) scal eq_refl (d_subst (dom (Polyhedra lazy))) (e, pa) l dest W NE OK DE) as (r & -> & F2 & FO). cbn [fst snd] in *.
  pose proof W as (G & WP & D1 & D2). cbn [fst snd] in *. change (wfp pa) in WP. change (PkPoly.pint pa = length (e_int e)) in D1. change (PkPoly.preal pa = length (e_real e)) in D2. assert (PD : PkPoly.pdim pa = e_dim e) by (unfold PkPoly.pdim, e_dim; congruence).
  destruct (asn_linear e l r F2 FO LA ND) as (AL & LN). rewrite <- PD in AL.
  assert (DO : PropPkAssign.dest_ok pa (option_map snd dest)). { intros pb E. destruct dest as [b|]; [|discriminate]. injection E as <-. destruct (DE b eq_refl) as ((_ & A & B & C) & Q). split. exact A. split. rewrite D1, <- Q. symmetry. exact B. rewrite D2, <- Q. symmetry. exact C. }
  pose proof (PropPkLin.C85_substitute_linear lazy pa r _ WP AL LN DO) as X. match type of X with match ?t with _ => _ end => destruct t as [[po pa']|] eqn:E end. 2: { exfalso. destruct X as (X1 & X2 & _). destruct LZ as [->| ->]. discriminate. apply X2; reflexivity. }
  destruct X as (_ & (W' & (D1' & D2') & PT)).
  assert (EQ : d_subst (dom (Polyhedra lazy)) pa r (option_map snd dest) = po). { match type of E with ?t = _ => change (match t with Some (r0, _) => r0 | None => pa end = po) end. rewrite E. reflexivity. }
  exists po. split. rewrite EQ. reflexivity. split. split; auto. split; simpl; auto. split; congruence.
  intros rho. unfold vals, val. cbn [fst snd dgam]. rewrite PT, PD. rewrite (named_after e l r (PropPkPoly.points pa) rho G F2).
  - assert (ID : PropPkAssign.in_dest (option_map snd dest) (at_env e rho) <-> forall b, dest = Some b -> PropPkPoly.points (snd b) (at_env (fst b) rho)).
    { destruct dest as [[eb vb]|]; simpl. destruct (DE (eb, vb) eq_refl) as (_ & Q). cbn [fst] in Q. subst eb. split. intros H b' K. injection K as <-. exact H. intros H. apply (H (e, vb)); auto. split; intros; auto. discriminate. }
    rewrite ID. reflexivity.
  - intros d u I. rewrite Forall_forall in FO. apply (FO (d, u) I).
  - intros x x' H. apply PropPkAssign.gamma_agree; auto. rewrite PD. intros i L. symmetry. auto.
Qed.
(** boxes, any coefficients, any number type *)
Theorem C84_assign_box_sound : forall N algo (a : abs1 (dom (Boxes N algo))) l dest, well ops (Boxes N algo) a -> l <> [] -> asn_ok ops (fun _ => True) (fst a) l -> (forall x ev u, In (x, (ev, u)) l -> expr_total u) ->
  (forall b, dest = Some b -> well ops (Boxes N algo) b /\ fst b = fst a) ->
  exists b, asssub1 ops (dom (Boxes N algo)) (d_assign (dom (Boxes N algo))) a l dest = Some (false, (fst a, b)) /\ well ops (Boxes N algo) (fst a, b) /\
    forall rho rho', vals (Boxes N algo) a rho -> assigned1 (fst a) l rho rho' -> (forall b, dest = Some b -> vals (Boxes N algo) b rho') -> vals (Boxes N algo) (fst a, b) rho'.
Proof.
  intros N algo [e pa] l dest W NE OK TO DE. cbn [fst snd] in *.
  destruct (asssub_calls ops (dom (Boxes N algo)) (dinv (Boxes N algo)) (fun _ => True) I (d_assign (dom (Boxes N algo))) (e, pa) l dest W NE OK DE) as (r & -> & F2 & FO). cbn [fst snd] in *.
  pose proof W as (G & WP & D1 & D2). cbn [fst snd] in *. change (nebox pa) in WP. change (bx_int pa = length (e_int e)) in D1. change (bx_real pa = length (e_real e)) in D2. assert (PD : bx_dim pa = e_dim e) by (unfold bx_dim, e_dim; congruence).
  assert (WF : Forall (fun t => wf_expr (bx_dim pa) (snd t) /\ expr_total (snd t)) r).
  { rewrite PD. revert TO FO. clear - F2 G. induction F2 as [|[x [ev u]] q l r (N1 & M) F2 IH]; intros TO FO. constructor. inversion FO as [|? ? (A & B) FO']; subst. constructor. pose proof (gexpr_holes _ _ _ B) as H. split. exact H. apply (total_means ev e u); auto. apply H. apply (TO x ev u). left; auto. apply IH; auto. intros y ev' u' I. apply (TO y ev' u'). right; auto. }
  eexists. split. reflexivity. set (b := d_assign (dom (Boxes N algo)) pa r (option_map snd dest)). change (box_assign_linexpr_array (N:=N) pa r (option_map snd dest)) in (value of b). destruct (assign_dim N pa r (option_map snd dest)) as (B1 & B2). split.
  - split; auto. split. apply (assign_nebox N pa r (option_map snd dest)); auto. destruct dest as [[eb vb]|]; simpl; auto. destruct (DE (eb, vb) eq_refl) as ((_ & X1 & X2 & X3) & Q). cbn [fst snd] in *. subst eb. split. exact X1. unfold bx_dim. change (bx_int vb = length (e_int e)) in X2. change (bx_real vb = length (e_real e)) in X3. congruence.
    cbn [fst snd]. split; [exact (eq_trans B1 D1)|exact (eq_trans B2 D2)].
  - intros rho rho' A U H. apply (assigned_updated ops e l r rho rho' G F2) in U. destruct U as (U1 & U2). apply (C19_assign_sound_partial N pa r (option_map snd dest) (at_env e rho) (at_env e rho')); auto.
    + eapply Forall_impl; [|exact WF]. intros t T. apply T.
    + intros d ND. destruct (Nat.lt_ge_cases d (e_dim e)) as [L|L]. auto. unfold at_env, at_list. replace (nth_error (e_vars e) d) with (@None V); auto. symmetry. apply nth_error_None. rewrite e_vars_len. auto.
    + intros b' E. destruct dest as [[eb vb]|]; [|discriminate]. injection E as <-. destruct (DE (eb, vb) eq_refl) as ((_ & X1 & X2 & X3) & Q). cbn [fst snd] in *. subst eb. change (bx_int vb = length (e_int e)) in X2. change (bx_real vb = length (e_real e)) in X3. split. unfold bx_dim. congruence. apply (H (e, vb)); auto.
Qed.
Theorem C84_substitute_box_sound : forall N algo (a : abs1 (dom (Boxes N algo))) l dest, repr_coeff N czero -> repr_coeff N (Scal (Fin (-1))) -> well ops (Boxes N algo) a -> l <> [] -> NoDup (map fst l) -> asn_ok ops (repr_coeff N) (fst a) l ->
  (forall b, dest = Some b -> well ops (Boxes N algo) b /\ fst b = fst a) ->
  exists r, asssub1 ops (dom (Boxes N algo)) (d_subst (dom (Boxes N algo))) a l dest = Some (false, (fst a, d_subst (dom (Boxes N algo)) (snd a) r (option_map snd dest))) /\
    forall b x rho rho', box_substitute_linexpr_array N algo false (snd a) r (option_map snd dest) = Some (b, x) -> integral (fst a) rho -> integral (fst a) rho' -> vals (Boxes N algo) a rho' -> assigned1 (fst a) l rho rho' ->
      (forall c, dest = Some c -> vals (Boxes N algo) c rho) -> vals (Boxes N algo) (fst a, b) rho.
Proof.
  intros N algo [e pa] l dest R0 R1 W NE ND OK DE. cbn [fst snd] in *.
  destruct (asssub_calls ops (dom (Boxes N algo)) (dinv (Boxes N algo)) (repr_coeff N) R0 (d_subst (dom (Boxes N algo))) (e, pa) l dest W NE OK DE) as (r & -> & F2 & FO). cbn [fst snd] in *.
  pose proof W as (G & WP & D1 & D2). cbn [fst snd] in *. change (nebox pa) in WP. change (bx_int pa = length (e_int e)) in D1. change (bx_real pa = length (e_real e)) in D2. assert (PD : bx_dim pa = e_dim e) by (unfold bx_dim, e_dim; congruence).
  exists r. split. reflexivity. intros b x rho rho' E I1 I2 A U H. apply (assigned_updated ops e l r rho rho' G F2) in U.
  apply (C19_substitute_sound_partial N algo false pa r (option_map snd dest) b x (at_env e rho) (at_env e rho')); auto.
  - eapply dims_nodup; eauto.
  - intros d u I. rewrite PD. rewrite Forall_forall in FO. apply (FO (d, u) I).
  - intros b' E'. destruct dest as [[eb vb]|]; [|discriminate]. injection E' as <-. destruct (DE (eb, vb) eq_refl) as ((_ & X1 & X2 & X3) & Q). cbn [fst snd] in *. subst eb. change (bx_int vb = length (e_int e)) in X2. change (bx_real vb = length (e_real e)) in X3. split. congruence. split. congruence. apply (H (e, vb)); auto.
  - rewrite D1. apply integral_at; auto.
  - rewrite D1. apply integral_at; auto.
  - rewrite PD. auto.
Qed.

End Level1.
Print Assumptions C84_meet_lincons_poly. Print Assumptions C84_meet_lincons_poly_sound. Print Assumptions C84_meet_lincons_box_sound.
Print Assumptions C84_assign_poly. Print Assumptions C84_substitute_poly. Print Assumptions C84_assign_box_sound. Print Assumptions C84_substitute_box_sound.

(** ** Examples: the value is on 1 (integer), 5, 7 (reals), the expressions are on 7 or on 5, 7 *)
Definition k84 : domain := Boxes exact_num 0.
Definition u84 : linexpr := mkLin (Scal (Fin 1)) (Sparse [(Some 0, Scal (Fin 1))]).
Definition c84 : lincons := mkCons CSupEq (mkLin (Scal (Fin (-9 # 2))) (Sparse [(Some 0, Scal (Fin 1))])) None.
Definition w84 : linexpr := mkLin (Scal (Fin 0)) (Sparse [(Some 0, Scal (Fin 1)); (Some 1, Scal (Fin 1))]).
Example C84_example : shows (meet_lincons1 zops (dom k84) a80 (env [] [7])%Z [c84]) false [1]%Z [5; 7]%Z [([3; 0; 5], true); ([3; 0; 4], false); ([4; 0; 5], false)]%Q = true /\
  shows (asssub1 zops (dom k84) (d_assign (dom k84)) a80 [(5, (env [] [7], u84)); (7, (env [] [5; 7], w84))]%Z None) false [1]%Z [5; 7]%Z [([3; 5; 4], true); ([3; 6; 6], true); ([3; 1; 4], false); ([3; 5; 7], false)]%Q = true /\
  shows (asssub1 zops (dom k84) (d_subst (dom k84)) a80 [(5, (env [] [7], u84))]%Z None) false [1]%Z [5; 7]%Z [([3; 9; 4], false)]%Q = true.
Proof. vm_compute. auto. Qed.
Lemma sub84 : (sub (env [] [7]) (env [1] [5; 7]) /\ good zops (env [] [7]) /\ sub (env [] [5; 7]) (env [1] [5; 7]) /\ good zops (env [] [5; 7]))%Z.
Proof. split. split; intros x; simpl; tauto. split. apply zgood; reflexivity. split. split; intros x; simpl; tauto. apply zgood; reflexivity. Qed.
Lemma sparse_ok : forall n ts c (cok : coeff -> Prop), wf_coeff c -> Forall (fun p => wf_coeff (snd p) /\ cok (snd p)) ts -> StronglySorted lt (map fst ts) -> (forall d, In d (map fst ts) -> d < n) -> gexpr_ok n cok (mkLin c (Sparse (map (fun p => (Some (fst p), snd p)) ts))).
Proof.
  intros n ts c cok WC F S B. assert (TD : term_dims (map (fun p : nat * coeff => (Some (fst p), snd p)) ts) = map fst ts) by (clear; induction ts; simpl; congruence).
  assert (ND : NoDup (map fst ts)). { clear - S. induction S; constructor; auto. rewrite Forall_forall in H. intros I. apply H in I. lia. }
  split. split; auto. simpl. rewrite TD. split. apply Forall_map. simpl. eapply Forall_impl; [|exact F]. simpl. tauto. split; auto. split.
  - simpl. exists ts, []. split; auto. unfold enc. simpl. rewrite app_nil_r. auto.
  - split. intros l E. discriminate. intros j k E. unfold lin_coeff in E. simpl in E. clear - F E. induction ts as [|[d x] q IH]; simpl in E. discriminate. inversion F as [|? ? (_ & A) F']; subst. simpl in A. destruct (Nat.eqb d j). injection E as <-; auto. auto.
Qed.
Example C84_hyps : asn_ok zops scal (fst a80) [(5, (env [] [7], u84)); (7, (env [] [5; 7], w84))]%Z /\ linear_asn [(5, (env [] [7], u84)); (7, (env [] [5; 7], w84))]%Z /\ gexpr_ok (e_dim (env [] [7]%Z)) scal (lc_expr c84) /\ PropPkUser.large c84 /\ expr_total (lc_expr c84).
Proof.
  destruct sub84 as (A & B & C & D). split; [|split; [|split; [|split]]].
  - intros x u ev [E|[E|[]]]; inversion E; subst; (split; [simpl; auto|]); (split; [auto|]); (split; [auto|]).
    + apply (sparse_ok 1 [(0, Scal (Fin 1))]); simpl; auto; try (repeat constructor; fail). intuition lia.
    + apply (sparse_ok 2 [(0, Scal (Fin 1)); (1, Scal (Fin 1))]); simpl; auto; try (repeat constructor; fail). intuition lia.
  - intros x ev u [E|[E|[]]]; inversion E; subst; reflexivity.
  - apply (sparse_ok 1 [(0, Scal (Fin 1))]); simpl; auto; try (repeat constructor; fail). intuition lia.
  - right. reflexivity.
  - intros v. eexists. exists (Q2R (-9 # 2)), (1 * v 0%nat + 0)%R. split. reflexivity. split. 2: reflexivity. simpl. exists [1%R]. split; auto. constructor; auto. intros _. simpl. unfold Q2R; simpl; lra.
Qed.

(** constraints on an environment which is not included in that of the value: no exception, the constraint 2 >= 5
    becomes 1 >= 5 *)
Theorem C84_not_included_refuted : exists (a : abs1 (dom k84)) (cenv : environment Z) c b rho, well zops k84 a /\ good zops cenv /\ ~ sub cenv (fst a) /\ gexpr_ok (e_dim cenv) scal (lc_expr c) /\
  meet_lincons1 zops (dom k84) a cenv [c] = Some (false, (fst a, b)) /\ integral (fst a) rho /\ vals k84 a rho /\ sat_cons c (at_env cenv rho) /\ ~ vals k84 (fst a, b) rho.
Proof.
  set (a := ((env [1; 2] [9])%Z, PropBox.bx 2 1 [(0, 9); (0, 9); (0, 1)]%Q) : abs1 (dom k84)). set (c := mkCons CSupEq (mkLin (Scal (Fin (-5))) (Sparse [(Some 0, Scal (Fin 1))])) None). set (cenv := (env [2; 3] [])%Z).
  set (rho := fun x : Z => if (x =? 2)%Z then 6%R else 0%R).
  assert (H : match meet_lincons1 zops (dom k84) a cenv [c] with Some (false, (e, b)) => environment_is_eq zops e (fst a) && negb (PropBox.gboxb b [0; 6; 0]%Q) | _ => false end = true) by (vm_compute; reflexivity).
  destruct (meet_lincons1 zops (dom k84) a cenv [c]) as [[[|] [e b]]|] eqn:F; try discriminate H. apply andb_true_iff in H. destruct H as (H1 & H2). apply C44_is_eq in H1. subst e. assert (AT : forall d, at_env (fst a) rho d = PropOctTransfer.qpt [0; 6; 0]%Q d).
  { intros d. unfold PropOctTransfer.qpt. destruct d as [|[|[|d]]]; cbn; unfold rho; simpl; unfold Q2R; simpl; try lra. destruct d; cbn; unfold Q2R; simpl; lra. }
  exists a, cenv, c, b, rho. split; [|split; [|split; [|split; [|split; [|split; [|split; [|split]]]]]]].
  - split. apply zgood; reflexivity. split; [|split; reflexivity]. intros d D. cbn in D. destruct d as [|[|[|d]]]; [exists 0%R|exists 0%R|exists 0%R|exfalso; cbn in D; lia]; split; cbn; unfold Q2R; simpl; lra.
  - apply zgood; reflexivity.
  - intros (I & _). specialize (I 3%Z (or_intror (or_introl eq_refl))). simpl in I. lia.
  - apply (sparse_ok 2 [(0, Scal (Fin 1))]); simpl; auto; try (repeat constructor; fail). intuition lia.
  - exact F.
  - intros x [<-|[<-|[]]]. exists 0%Z. reflexivity. exists 6%Z. reflexivity.
  - intros d D. cbn in D. destruct d as [|[|[|d]]]; [| | |exfalso; cbn in D; lia]; split; cbn; unfold rho, Q2R; simpl; lra.
  - exists 1%R. split. exists (-5)%R, 6%R. split. cbn. unfold Q2R; simpl; lra. split. exists [1%R]. split. constructor; auto. intros _. cbn. unfold Q2R; simpl; lra. cbn. unfold rho; simpl; lra. lra. simpl. lra.
  - intros K. apply negb_true_iff in H2. assert (T : PropBox.gboxb b [0; 6; 0]%Q = true). { apply PropBox.gboxb_ok. unfold vals, val in K. cbn [fst snd dgam k84] in K. apply (PropApCore.gbox_ext' b (at_env (fst a) rho)); auto. } rewrite T in H2. discriminate.
Qed.
Print Assumptions C84_not_included_refuted.

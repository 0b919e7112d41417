(** Linear constraints and expressions of level 1 (Abs1.v, meet_lincons1, asssub1): the operation of the domain is
    called with expressions of the same meaning. *)
From Coq Require Import Arith ZArith Bool List Lia Sorted Reals.
From Verif Require Import Linexpr ApCore ApCoreDim ApEnv ApEnvFacts ApEnvFacts2 PropApEnv ApCheck PropApCheck OctResize2 OctResize3 BoxDims Generic GenericFacts PropGeneric PropApCore LinexprFacts  Abs1 Abs1Facts Abs1Ops.
Import ListNotations.
Local Open Scope nat_scope.

Lemma expr_val_ext : forall n e v w r, wf_terms n (le_terms e) -> (forall x, x < n -> w x = v x) -> expr_val e v r -> expr_val e w r.
Proof.
  intros n e v w r W H A. rewrite (expr_val_lin n) in *; auto. destruct A as (c0 & k & A1 & A2 & A3). exists c0, k. split; auto. split; auto. rewrite A3. f_equal. apply lsum_ext. intros j J. rewrite H; auto.
Qed.
Lemma gexpr_check : forall i j cok e, 0 < i + j -> gexpr_ok (i + j) cok e -> check_linexpr (i, j) e = true.
Proof.
  intros i j cok e P ((_ & WT) & S & F & _). apply C47_linexpr_partial; auto. simpl. unfold expr_in_range. destruct (le_terms e) as [l|ts] eqn:T. rewrite (F l T); auto. simpl in WT. apply WT.
Qed.

Section Ops.
Context {V : Type} (ops : vops V) (D : dom0).
Notation good := (ApEnvFacts.good ops).
Notation env := (environment V).
(** [u], over the variables of [e], and [u'], over those of [e'], have the same values *)
Definition means (e e' : env) (u u' : linexpr) : Prop := le_cst u' = le_cst u /\ forall rho r, expr_val u' (at_env e' rho) r <-> expr_val u (at_env e rho) r.
Definition cmeans (e e' : env) (c c' : lincons) : Prop := lc_typ c' = lc_typ c /\ lc_mod c' = lc_mod c /\ means e e' (lc_expr c) (lc_expr c').
Lemma cmeans_sat : forall (e e' : env) c c' rho, cmeans e e' c c' -> (sat_cons c' (at_env e' rho) <-> sat_cons c (at_env e rho)).
Proof. intros e e' c c' rho (T & M & E). unfold sat_cons. rewrite T, M. split; intros (r & A & B); exists r; split; auto; apply (proj2 E rho r); auto. Qed.
Lemma to_env_ok : forall (cenv e : env), good cenv -> good e -> sub cenv e -> exists pos, to_env ops cenv e = Some (Some pos) /\
  forall (cok : coeff -> Prop) u, cok czero -> gexpr_ok (e_dim cenv) cok u -> gexpr_ok (e_dim e) cok (add_expr (environment_is_eq ops e cenv) pos u) /\ means cenv e u (add_expr (environment_is_eq ops e cenv) pos u).
Proof.
  intros cenv e G1 G2 S. unfold to_env. destruct (environment_is_eq ops e cenv) eqn:E.
  - apply C44_is_eq in E. subst cenv. exists []. split; auto. intros cok u _ K. simpl. split; auto. split; auto. intros rho r. tauto.
  - destruct (C45_dimchange ops cenv e G1 G2 S) as (c & -> & M). exists (dc_pos c). split; auto. intros cok u C0 ((WC & WT) & LS & F & CK). simpl. pose proof M as (AO & DM & _).
    destruct (add_coeffs (e_dim cenv) u (dc_pos c) WT LS AO F) as (A1 & A2 & A3 & A4 & A5). pose proof AO as (SP & BP).
    assert (AF : forall l, le_terms u = Dense l -> forall p, In p (dc_pos c) -> p <= length l). { intros l T. rewrite (F l T). intros p P. apply BP; auto. } split.
    + rewrite DM. split. split; auto. split. apply (C42_add_dimensions_partial (e_dim cenv) u (dc_pos c) (fun _ => 0%R) 0%R); auto. split; auto. intros j k H. destruct (A3 j k H) as [[->|(x & X & Q)] _]; eauto.
    + split. reflexivity. intros rho r. destruct (C42_add_dimensions_partial (e_dim cenv) u (dc_pos c) (at_env e rho) r) as (X & _); auto. rewrite X. split; apply (expr_val_ext (e_dim cenv)); auto; intros x L; rewrite (moves_at cenv e c); auto.
Qed.

Context (inv : dv D -> Prop) (cok : coeff -> Prop) (C0 : cok czero).
(** constraints on some of the variables *)
Theorem meet_lincons_calls : forall (a : abs1 D) (cenv : env) l, wf1 ops D inv a -> good cenv -> sub cenv (fst a) -> 0 < e_dim (fst a) -> Forall (fun c => gexpr_ok (e_dim cenv) cok (lc_expr c)) l ->
  exists l', meet_lincons1 ops D a cenv l = Some (false, (fst a, d_cons D (snd a) l')) /\ Forall2 (cmeans cenv (fst a)) l l' /\ Forall (fun c => gexpr_ok (e_dim (fst a)) cok (lc_expr c)) l'.
Proof.
  intros [e a] cenv l (G & F) GC S P FO. simpl in *. destruct (to_env_ok cenv e GC G S) as (pos & T & H). unfold meet_lincons1. simpl. rewrite T. set (l' := map _ l). exists l'.
  assert (F2 : Forall2 (cmeans cenv e) l l' /\ Forall (fun c => gexpr_ok (e_dim e) cok (lc_expr c)) l').
  { unfold l'. induction FO as [|c q K FO IH]; simpl. split; constructor. destruct IH as (IH1 & IH2). destruct (H cok (lc_expr c) C0 K) as (H1 & H2). split; constructor; auto. split; [reflexivity|split; [reflexivity|exact H2]]. }
  destruct F2 as (F2 & FO'). split; auto. unfold a0_cons, d_dim. pose proof F as (_ & A & B). assert (CK : check_linexpr_array (d_int D a, d_real D a) (map (fun c => Some (lc_expr c)) l') = true).
  { unfold check_linexpr_array. apply forallb_forall. intros o O. apply in_map_iff in O. destruct O as (c & <- & O). rewrite Forall_forall in FO'. rewrite A, B. apply (gexpr_check _ _ cok); auto. }
  rewrite CK. reflexivity.
Qed.
(** an assignment or a substitution whose expressions are on some of the variables *)
Definition asn_ok (e : env) (l : list (V * (env * linexpr))) : Prop := forall x u env, In (x, (env, u)) l -> In x (e_vars e) /\ good env /\ sub env e /\ gexpr_ok (e_dim env) cok u.
Definition asn_means (e : env) (p : V * (env * linexpr)) (q : nat * linexpr) : Prop := nth_error (e_vars e) (fst q) = Some (fst p) /\ means (fst (snd p)) e (snd (snd p)) (snd q).
Lemma asssub_args_ok : forall (e : env) l, good e -> asn_ok e l -> exists r, asssub_args ops e l = Some (Some r) /\ Forall2 (asn_means e) l r /\ Forall (fun q => fst q < e_dim e /\ gexpr_ok (e_dim e) cok (snd q)) r.
Proof.
  intros e l G. induction l as [|[x [ev u]] q IH]; intros OK; simpl. exists []. split; auto.
  destruct (OK x u ev (or_introl eq_refl)) as (I & GE & SE & KE). destruct (dim_of_var ops e x) as [d|] eqn:ED. 2: { apply (dim_none ops) in ED. tauto. } apply (dim_iff ops e x d G) in ED. destruct (to_env_ok ev e GE G SE) as (pos & -> & H).
  destruct IH as (r & -> & F2 & FO). { intros y u' ev' Y. apply (OK y u' ev'). right; auto. } destruct (H cok u C0 KE) as (H1 & H2). eexists. split. reflexivity. split. constructor; auto. split; auto. constructor; auto. split; auto. simpl. apply (var_lt _ _ _ ED).
Qed.
Theorem asssub_calls : forall op (a : abs1 D) l dest, wf1 ops D inv a -> l <> [] -> asn_ok (fst a) l -> (forall b, dest = Some b -> wf1 ops D inv b /\ fst b = fst a) ->
  exists r, asssub1 ops D op a l dest = Some (false, (fst a, op (snd a) r (option_map snd dest))) /\ Forall2 (asn_means (fst a)) l r /\ Forall (fun q => fst q < e_dim (fst a) /\ gexpr_ok (e_dim (fst a)) cok (snd q)) r.
Proof.
  intros op [e a] l dest (G & F) NE OK DE. simpl in *. destruct (asssub_args_ok e l G OK) as (r & AR & F2 & FO). exists r. split; auto. unfold asssub1. destruct l as [|p q]; [congruence|]. cbn [fst snd].
  assert (EQ : match dest with Some d => environment_is_eq ops e (fst d) | None => true end = true). { destruct dest as [b|]; auto. apply C44_is_eq. symmetry. apply (DE b); auto. } rewrite EQ, AR. unfold a0_asssub, d_dim. destruct r as [|t r]. inversion F2.
  pose proof F as (_ & A & B). assert (P : 0 < e_dim e) by (inversion FO as [|? ? (K & _)]; subst; lia).
  assert (CK : match option_map snd dest with Some d => check_abstract2 (d_int D a, d_real D a) (d_int D d, d_real D d) | None => true end = true).
  { destruct dest as [b|]; simpl; auto. apply C47_abstracts. destruct (DE b eq_refl) as ((_ & _ & A' & B') & E). rewrite A, B, A', B', E. auto. }
  assert (CD : check_dim_array (d_int D a, d_real D a) (map fst (t :: r)) = true). { apply C47_dims. intros x X. apply in_map_iff in X. destruct X as (y & <- & Y). rewrite Forall_forall in FO. rewrite A, B. apply FO; auto. }
  assert (CE : check_linexpr_array (d_int D a, d_real D a) (map (fun p => Some (snd p)) (t :: r)) = true).
  { unfold check_linexpr_array. apply forallb_forall. intros o O. apply in_map_iff in O. destruct O as (c & <- & O). rewrite Forall_forall in FO. rewrite A, B. apply (gexpr_check _ _ cok); auto. apply FO; auto. }
  simpl fst in *; simpl snd in *. rewrite CK, CD, CE. reflexivity.
Qed.
(** in particular the points named [rho'] obtained from [rho] by the assignments *)
Definition assigned1 (e : env) (l : list (V * (env * linexpr))) (rho rho' : V -> R) : Prop :=
  (forall x u ev, In (x, (ev, u)) l -> expr_val u (at_env ev rho) (rho' x)) /\ forall x, In x (e_vars e) -> ~ In x (map fst l) -> rho' x = rho x.
Lemma assigned_updated : forall (e : env) l r rho rho', good e -> Forall2 (asn_means e) l r -> (assigned1 e l rho rho' <-> updated (e_dim e) r (at_env e rho) (at_env e rho')).
Proof.
  intros e l r rho rho' G F2. assert (NM : forall d x, nth_error (e_vars e) d = Some x -> (In d (map fst r) <-> In x (map fst l))).
  { intros d x X. clear - G F2 X. induction F2 as [|p q l r (N & _) F2 IH]; simpl. tauto. rewrite IH. split; (intros [K|K]; [left|right; auto]). subst d. congruence. subst x. apply (var_inj ops e (fst q) d (fst p)); auto. }
  split.
  - intros (A & B). split.
    + intros d u I. clear B. assert (X : exists p, In p l /\ asn_means e p (d, u)). { clear - F2 I. induction F2 as [|p q l r M F2 IH]; simpl in *. tauto. destruct I as [->|I]. eauto. destruct (IH I) as (p' & P & Q). eauto. } destruct X as ([x [ev t]] & P & (N & M)). simpl in *. rewrite (at_var e _ _ _ N). apply M. apply A; auto.
    + intros d L N. destruct (lt_var e d L) as (x & X). rewrite !(at_var e d x) by auto. apply B. eapply nth_error_In; eauto. intros K. apply N. apply (NM d x X). auto.
  - intros (A & B). split.
    + intros x u ev I. assert (X : exists q, In q r /\ asn_means e (x, (ev, u)) q). { clear - F2 I. induction F2 as [|p q l r M F2 IH]; simpl in *. tauto. destruct I as [->|I]. eauto. destruct (IH I) as (p' & P & Q). eauto. } destruct X as ([d t] & P & (N & M)). simpl in *. rewrite <- (at_var e _ _ rho' N). apply M. apply A; auto.
    + intros x X N. apply In_nth_error in X. destruct X as (d & X). rewrite <- (at_var e d x rho X), <- (at_var e d x rho' X). destruct (var_lt _ _ _ X) as (L & _). apply B; auto. intros K. apply N. apply (NM d x X). auto.
Qed.
End Ops.

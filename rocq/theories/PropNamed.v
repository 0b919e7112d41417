(** Expressions, constraints and trees over named variables (ap_linexpr1.c, ap_lincons1.c, ap_texpr1.c): C92.

    A valuation gives a value to each name.  [lvalues u rho], [tvalues F a rho]: the values of a linear expression and
    of a tree when the dimension d is the value of the d-th name of the environment.  [lin_ok]: the linear expression is
    over the dimensions of its environment, terms sorted, a dense expression with one coefficient for each dimension. *)
From Coq Require Import Arith ZArith QArith Bool List Lia Sorted Reals Qreals Lra.
From Verif Require Import Bound BoundFacts Linexpr LinexprFacts ItvLin ItvLinFacts ApCore ApCoreFacts ApCoreDim PropApCore ApTexpr TexprSem PropTexpr ApEnv ApEnvFacts ApEnvFacts2 PropApEnv OctResize2 OctResize3 BoxDims GenericFacts Abs1Facts Abs1Lin FloatFmt Named.
Import ListNotations.
Local Open Scope nat_scope.

Section Named.
Context {V : Type} (ops : vops V).
Notation good := (ApEnvFacts.good ops).
Notation env := (environment V).

Definition lin_ok (u : lin1 (V:=V)) : Prop := good (fst u) /\ gexpr_ok (e_dim (fst u)) (fun _ => True) (snd u).
Definition tree_in (a : tree1 (V:=V)) : Prop := good (fst a) /\ forall d, occurs d (snd a) -> d < e_dim (fst a).
Definition lvalues (u : lin1 (V:=V)) (rho : V -> R) (r : R) : Prop := expr_val (snd u) (at_env (fst u) rho) r.
Definition tvalues (F : fmts) (a : tree1 (V:=V)) (rho : V -> R) (r : R) : Prop := xval F (at_env (fst a) rho) (snd a) r.
Definition csat (c : cons1 (V:=V)) (rho : V -> R) : Prop := sat_cons (snd c) (at_env (fst c) rho).
Definition sumR (l : list R) : R := fold_right Rplus 0%R l.

Lemma dim_in : forall (e : env) x, good e -> In x (e_vars e) -> exists d, dim_of_var ops e x = Some d /\ d < e_dim e /\ nth_error (e_vars e) d = Some x.
Proof.
  intros e x G I. apply In_nth_error in I. destruct I as (d & D). exists d. split. apply C44_dim_of_var; auto. split; auto. rewrite <- e_vars_len. apply nth_error_Some. congruence.
Qed.
Lemma dim_none : forall (e : env) x, good e -> (dim_of_var ops e x = None <-> ~ In x (e_vars e)).
Proof.
  intros e x G. split.
  - intros E I. destruct (dim_in e x G I) as (d & D & _). congruence.
  - intros N. destruct (dim_of_var ops e x) as [d|] eqn:E; auto. apply C44_dim_of_var in E; auto. apply nth_error_In in E. contradiction.
Qed.
Lemma ok_in_size : forall (e : env) u d, gexpr_ok (e_dim e) (fun _ => True) u -> d < e_dim e -> in_size u d.
Proof. intros e u d (_ & _ & F & _) L. unfold in_size. destruct (le_terms u) as [l|ts] eqn:T; auto. rewrite (F l T). auto. Qed.
Lemma get_at : forall (e : env) u x d, lin_ok (e, u) -> dim_of_var ops e x = Some d -> d < e_dim e -> lin1_get ops (e, u) x = Some (coeff_at u d).
Proof. intros e u x d (G & K) D L. unfold lin1_get. simpl in *. rewrite D. apply get_coeff_ok. apply K. eapply ok_in_size; eauto. Qed.

(** ** Coefficients by name *)
(** reading: an error exactly for an undeclared variable *)
Theorem C92_get : forall u x, lin_ok u -> (lin1_get ops u x = None <-> ~ In x (e_vars (fst u))).
Proof.
  intros [e u] x K. pose proof K as (G & _). simpl in *. split.
  - intros E I. destruct (dim_in e x G I) as (d & D & L & _). rewrite (get_at e u x d K D L) in E. discriminate.
  - intros N. unfold lin1_get. simpl. rewrite (proj2 (dim_none e x G) N). reflexivity.
Qed.
Print Assumptions C92_get.
(** writing: the coefficient of that variable, and no other *)
Theorem C92_set : forall u x c, lin_ok u -> wf_coeff c ->
  (lin1_set ops u x c = None <-> ~ In x (e_vars (fst u))) /\
  forall u', lin1_set ops u x c = Some u' -> lin_ok u' /\ fst u' = fst u /\ le_cst (snd u') = le_cst (snd u) /\ lin1_get ops u' x = Some c /\
    forall y, y <> x -> lin1_get ops u' y = lin1_get ops u y.
Proof.
  intros [e u] x c K W. pose proof K as (G & GE). pose proof GE as ((WC & WT) & S & F & _). simpl in *. split.
  - split.
    + intros E I. destruct (dim_in e x G I) as (d & D & L & _). unfold lin1_set in E. simpl in E. rewrite D in E. destruct (linexpr_set_coeff u d c) eqn:E2; [discriminate|]. apply set_coeff_none in E2. apply E2. eapply ok_in_size; eauto.
    + intros N. unfold lin1_set. simpl. rewrite (proj2 (dim_none e x G) N). reflexivity.
  - intros u' H. unfold lin1_set in H. simpl in H. destruct (dim_of_var ops e x) as [d|] eqn:D; [|discriminate].
    assert (ND : nth_error (e_vars e) d = Some x) by (apply (proj1 (C44_dim_of_var ops e x d G)); auto).
    assert (L : d < e_dim e). { rewrite <- e_vars_len. apply nth_error_Some. congruence. }
    destruct (set_coeff_ok u d c S (ok_in_size e u d GE L)) as (u1 & U1 & S1 & C1 & L1 & I1). rewrite U1 in H. simpl in H. injection H as <-. simpl.
    assert (K1 : lin_ok (e, u1)).
    { split; auto. simpl. assert (DF : dense_full (e_dim e) u1).
      { intros l T. destruct (Nat.lt_trichotomy (length l) (e_dim e)) as [H|[H|H]]; auto; exfalso.
        - assert (I : in_size u1 (length l)) by (apply I1; eapply ok_in_size; eauto). unfold in_size in I. rewrite T in I. lia.
        - assert (I : in_size u1 (e_dim e)) by (unfold in_size; rewrite T; lia). apply I1 in I. unfold in_size in I. destruct (le_terms u) as [l0|ts] eqn:T0. rewrite (F l0 T0) in I. lia.
          unfold linexpr_set_coeff in U1. rewrite T0 in U1. destruct (coeffref_sparse d ts). injection U1 as <-. discriminate T. }
      assert (Q : forall j k, lin_coeff u1 j = Some k -> wf_coeff k /\ j < e_dim e).
      { intros j k Hk. rewrite L1 in Hk. destruct (Nat.eqb_spec j d) as [->|N]. injection Hk as <-. auto. eapply wf_lin_coeff; eauto. }
      split; [|split; [|split]]; auto. split. rewrite C1; auto. apply sorted_wf; auto. intros l T. rewrite (DF l T). auto. }
    split; auto. split; auto. split; auto. split.
    + rewrite (get_at e u1 x d K1 D L). unfold coeff_at. rewrite L1, Nat.eqb_refl. reflexivity.
    + intros y N. destruct (dim_of_var ops e y) as [b|] eqn:B.
      * assert (NB : nth_error (e_vars e) b = Some y) by (apply (proj1 (C44_dim_of_var ops e y b G)); auto). assert (LB : b < e_dim e). { rewrite <- e_vars_len. apply nth_error_Some. congruence. }
        rewrite (get_at e u1 y b K1 B LB), (get_at e u y b K B LB). unfold coeff_at. rewrite L1. destruct (Nat.eqb_spec b d) as [->|]; auto. congruence.
      * unfold lin1_get. simpl. rewrite B. reflexivity.
Qed.
Print Assumptions C92_set.
Lemma sumR_app : forall a b, sumR (a ++ b) = (sumR a + sumR b)%R.
Proof. induction a as [|x a IH]; intros b; simpl. lra. unfold sumR in *. rewrite IH. lra. Qed.
Lemma lsum_names : forall (l : list V) (k rho : V -> R), lsum (length l) (fun j => match nth_error l j with Some x => k x | None => 0%R end) (at_list l rho) = sumR (map (fun x => k x * rho x)%R l).
Proof.
  induction l as [|x l IH] using rev_ind; intros k rho; auto. rewrite app_length. simpl. rewrite Nat.add_1_r. simpl. rewrite map_app, sumR_app. rewrite <- IH. simpl. unfold at_list at 2. rewrite nth_error_app2 by lia. rewrite Nat.sub_diag. simpl.
  f_equal; [|unfold sumR; simpl; lra]. apply lsum_ext. intros j J. unfold at_list. rewrite nth_error_app1 by lia. reflexivity.
Qed.
(** the values: the constant plus, for each declared variable, its coefficient times its value *)
Theorem C92_values : forall u rho r, lin_ok u ->
  (lvalues u rho r <-> exists c0 k, coeff_in c0 (le_cst (snd u)) /\ (forall x, In x (e_vars (fst u)) -> exists c, lin1_get ops u x = Some c /\ coeff_in (k x) c) /\
     r = (c0 + sumR (map (fun x => k x * rho x) (e_vars (fst u))))%R).
Proof.
  intros [e u] rho r K. pose proof K as (G & (WC & WT) & S & F & _). unfold lvalues. simpl in *. rewrite (expr_val_lin (e_dim e)) by auto.
  assert (OC : forall d c, ocoeff_in c (lin_coeff u d) <-> coeff_in c (coeff_at u d)).
  { intros d c. unfold coeff_at. destruct (lin_coeff u d); simpl; [tauto|]. unfold Q2R; simpl. split; intros; lra. }
  split.
  - intros (c0 & c & A & B & ->). exists c0, (fun x => match dim_of_var ops e x with Some d => c d | None => 0%R end). split; auto. split.
    + intros x I. destruct (dim_in e x G I) as (d & D & L & _). exists (coeff_at u d). split. apply get_at; auto. rewrite D. apply OC. auto.
    + f_equal. rewrite <- lsum_names, e_vars_len. apply lsum_ext. intros j J. destruct (lt_var e j J) as (v & E). rewrite E. rewrite (proj2 (C44_dim_of_var ops e v j G) E). reflexivity.
  - intros (c0 & k & A & B & ->). exists c0, (fun j => match nth_error (e_vars e) j with Some x => k x | None => 0%R end). split; auto. split.
    + intros j J. destruct (lt_var e j J) as (v & E). rewrite E. destruct (B v (nth_error_In _ _ E)) as (c & C1 & C2). apply OC. rewrite (get_at e u v j K) in C1; auto. congruence. apply C44_dim_of_var; auto.
    + f_equal. rewrite <- lsum_names, e_vars_len. reflexivity.
Qed.
Print Assumptions C92_values.

(** ** Extension of the environment *)
(** to an environment with the same variables and more: the same coefficient for the old variables, 0 for the new ones,
    hence the same values *)
Theorem C92_extend_linexpr : forall u ne, lin_ok u -> good ne -> subenv (fst u) ne ->
  exists u', lin1_extend ops u ne = Some (Some u') /\ fst u' = ne /\ lin_ok u' /\ le_cst (snd u') = le_cst (snd u) /\
    (forall x, In x (e_vars (fst u)) -> exists c, lin1_get ops u x = Some c /\ lin1_get ops u' x = Some c) /\
    (forall x, In x (e_vars ne) -> ~ In x (e_vars (fst u)) -> lin1_get ops u' x = Some (Scal (Fin 0))) /\
    forall rho r, lvalues u' rho r <-> lvalues u rho r.
Proof.
  intros [e u] ne K GN SB. pose proof K as (G & (WC & WT) & S & F & CK). simpl in *. unfold lin1_extend, extend. simpl. destruct (C45_dimchange ops e ne G GN SB) as (c & -> & M). eexists. split. reflexivity. simpl. split; auto.
  pose proof M as (AO & DM & _ & _ & _ & MV). destruct (add_coeffs (e_dim e) u (dc_pos c) WT S AO F) as (A1 & A2 & A3 & A4 & A5). pose proof AO as (SP & BP).
  assert (AF : forall l, le_terms u = Dense l -> forall p, In p (dc_pos c) -> p <= length l). { intros l T. rewrite (F l T). intros p P. apply BP; auto. }
  assert (K' : lin_ok (ne, linexpr_add_dimensions u (dc_pos c))).
  { split; auto. simpl. rewrite DM. split. split; auto. split. apply (C42_add_dimensions_partial (e_dim e) u (dc_pos c) (fun _ => 0%R) 0%R); auto. split; auto. }
  split; auto. split; auto. split; [|split].
  - intros x I. destruct (dim_in e x G I) as (d & D & L & N). assert (N' := MV d x N). exists (coeff_at u d). split. apply get_at; auto. rewrite (get_at ne _ x (d + cle (dc_pos c) d) K').
    + unfold coeff_at. change (d + cle (dc_pos c) d) with (shift (dc_pos c) d). rewrite (A1 d L). reflexivity.
    + apply C44_dim_of_var; auto.
    + rewrite <- e_vars_len. apply nth_error_Some. congruence.
  - intros x I NI. destruct (dim_in ne x GN I) as (d & D & L & N). rewrite (get_at ne _ x d K' D L). destruct (invert_cases e ne c d M L) as [(y & Y1 & Y2 & _)|(t & _ & _ & IN)].
    + exfalso. destruct (lt_var e y Y1) as (v & E). assert (E' := MV y v E). rewrite <- Y2 in E'. assert (v = x) by congruence. subst v. apply NI. eapply nth_error_In; eauto.
    + unfold coeff_at. destruct (A2 d IN) as [->| ->]; reflexivity.
  - intros rho r. unfold lvalues. simpl. destruct (C42_add_dimensions_partial (e_dim e) u (dc_pos c) (at_env ne rho) r) as (X & _); auto. rewrite X. split; apply (expr_val_ext (e_dim e)); auto; intros x L; rewrite (moves_at e ne c); auto.
Qed.
Print Assumptions C92_extend_linexpr.
(** constraints: the same type, the same solutions *)
Definition cons_ok (c : cons1 (V:=V)) : Prop := lin_ok (fst c, lc_expr (snd c)).
Lemma extend_change : forall A (add : A -> list nat -> A) e (u : A) ne, good e -> good ne -> subenv e ne -> exists c, environment_dimchange ops e ne = Some (Some c) /\ moves e ne c /\ extend ops add (e, u) ne = Some (Some (ne, add u (dc_pos c))).
Proof. intros A add e u ne G GN S. destruct (C45_dimchange ops e ne G GN S) as (c & E & M). exists c. split; auto. split; auto. unfold extend. simpl. rewrite E. reflexivity. Qed.
Theorem C92_extend_lincons : forall c ne, cons_ok c -> good ne -> subenv (fst c) ne ->
  exists c', cons1_extend ops c ne = Some (Some c') /\ fst c' = ne /\ cons_ok c' /\ lc_typ (snd c') = lc_typ (snd c) /\ forall rho, csat c' rho <-> csat c rho.
Proof.
  intros [e c] ne K GN S. pose proof K as (G & _). simpl in *. destruct (extend_change _ lincons_add e c ne G GN S) as (ch & D & _ & E). unfold cons1_extend. rewrite E. eexists. split. reflexivity. split; auto.
  destruct (C92_extend_linexpr (e, lc_expr c) ne K GN S) as (u' & U & _ & OK & _ & _ & _ & VAL). unfold lin1_extend, extend in U. simpl in U. rewrite D in U. injection U as <-. split. exact OK. split; auto.
  intros rho. unfold csat, sat_cons. simpl. split; intros (r & A & B); exists r; split; auto; apply VAL; exact A.
Qed.
Print Assumptions C92_extend_lincons.
Theorem C92_extend_array : forall l ne, Forall (fun c => cons_ok (fst l, c)) (snd l) -> good (fst l) -> good ne -> subenv (fst l) ne ->
  exists l', conss1_extend ops l ne = Some (Some l') /\ fst l' = ne /\ Forall2 (fun c c' => cons1_extend ops (fst l, c) ne = Some (Some (ne, c')) /\ forall rho, csat (ne, c') rho <-> csat (fst l, c) rho) (snd l) (snd l').
Proof.
  intros [e l] ne K G GN S. simpl in *. unfold conss1_extend. destruct (extend_change _ (fun l pos => map (fun c => lincons_add c pos) l) e l ne G GN S) as (ch & D & _ & ->). eexists. split. reflexivity. simpl. split; auto.
  induction K as [|c q KC KQ IH]; simpl; constructor; auto. destruct (C92_extend_lincons (e, c) ne KC GN S) as (c' & E & F & _ & _ & H). assert (E' := E). unfold cons1_extend, extend in E'. simpl in E'. rewrite D in E'. injection E' as <-. auto.
Qed.
Print Assumptions C92_extend_array.
(** trees *)
Theorem C92_extend_tree : forall a ne, tree_in a -> good ne -> subenv (fst a) ne ->
  exists a', tree1_extend ops a ne = Some (Some a') /\ fst a' = ne /\ tree_in a' /\ (forall x, tree1_has_var ops a' x = tree1_has_var ops a x) /\ forall F rho r, tvalues F a' rho r <-> tvalues F a rho r.
Proof.
  intros [e a] ne (G & K) GN S. simpl in *. unfold tree1_extend. destruct (extend_change _ texpr_add_dimensions e a ne G GN S) as (ch & D & M & ->). eexists. split. reflexivity. simpl. split; auto. pose proof M as ((SP & BP) & DM & _ & _ & _ & MV).
  assert (OC : forall d, occurs d (texpr_add_dimensions a (dc_pos ch)) <-> exists x, occurs x a /\ d = x + cle (dc_pos ch) x).
  { intros d. clear - SP. induction a as [c|y|o t q a IH|o t q a IHa b IHb]; simpl.
    - split. intros H; inversion H. intros (x & H & _). inversion H.
    - rewrite dim_while_ok by (auto; lia). split. intros H; inversion H; subst. exists y. split; auto. constructor. intros (x & H & ->). inversion H; subst. constructor.
    - split. intros H; inversion H; subst. apply IH in H1. destruct H1 as (x & A & B). exists x. split; auto. constructor; auto. intros (x & A & B). inversion A; subst. constructor. apply IH. eauto.
    - split. intros H; inversion H; subst; [apply IHa in H1|apply IHb in H1]; destruct H1 as (x & A & B); exists x; split; auto; [apply oc_l|apply oc_r]; auto.
      intros (x & A & B). inversion A; subst; [apply oc_l; apply IHa|apply oc_r; apply IHb]; eauto. }
  assert (LT : forall x, x < e_dim e -> x + cle (dc_pos ch) x < e_dim ne). { intros x L. destruct (lt_var e x L) as (v & E). apply MV in E. rewrite <- e_vars_len. apply nth_error_Some. congruence. }
  split; [|split].
  - split; auto. simpl. intros d O. apply OC in O. destruct O as (x & O & ->). auto.
  - intros x. unfold tree1_has_var. simpl. apply eq_true_iff_eq. destruct (dim_of_var ops ne x) as [b|] eqn:B.
    + apply C44_dim_of_var in B; auto. rewrite has_dim_iff, OC. destruct (dim_of_var ops e x) as [d|] eqn:DD.
      * apply C44_dim_of_var in DD; auto. rewrite has_dim_iff. assert (b = d + cle (dc_pos ch) d). { eapply (var_inj ops ne); eauto. } subst b. split; [|eauto]. intros (y & O & Q).
        destruct (lt_var e y (K y O)) as (v & E). assert (E' := MV y v E). rewrite <- Q in E'. assert (v = x) by congruence. subst v. assert (y = d) by (eapply (var_inj ops e); eauto). congruence.
      * split; [|discriminate]. intros (y & O & ->). exfalso. destruct (lt_var e y (K y O)) as (v & E). assert (E' := MV y v E). assert (v = x) by congruence. subst v. apply dim_none in DD; auto. apply DD. eapply nth_error_In; eauto.
    + split; [discriminate|]. destruct (dim_of_var ops e x) as [d|] eqn:DD; auto. apply C44_dim_of_var in DD; auto. apply MV in DD. apply dim_none in B; auto. exfalso. apply B. eapply nth_error_In; eauto.
  - intros F rho r. unfold tvalues. simpl. apply C42_tree_add; auto. intros d O. apply (moves_at e ne ch); auto.
Qed.
Print Assumptions C92_extend_tree.

(** ** Trees *)
Theorem C92_var : forall e x, good e -> (tree1_var ops e x = None <-> ~ In x (e_vars e)) /\
  forall a, tree1_var ops e x = Some a -> fst a = e /\ tree_in a /\ (forall y, tree1_has_var ops a y = true <-> y = x) /\ forall F rho r, tvalues F a rho r <-> r = rho x.
Proof.
  intros e x G. unfold tree1_var. split.
  - rewrite <- (dim_none e x G). destruct (dim_of_var ops e x); simpl; [split; discriminate|tauto].
  - intros a E. destruct (dim_of_var ops e x) as [d|] eqn:D; [|discriminate]. simpl in E. injection E as <-. assert (N := proj1 (C44_dim_of_var ops e x d G) D). split; auto. split; [|split].
    + split; auto. simpl. intros b O. inversion O; subst. rewrite <- e_vars_len. apply nth_error_Some. congruence.
    + intros y. unfold tree1_has_var. simpl. destruct (dim_of_var ops e y) as [b|] eqn:B.
      * apply C44_dim_of_var in B; auto. rewrite Nat.eqb_eq. split. intros ->. congruence. intros ->. symmetry. eapply (var_inj ops e); eauto.
      * split; [discriminate|]. congruence.
    + intros F rho r. unfold tvalues. simpl. rewrite xval_dim. rewrite (at_var _ _ _ _ N). tauto.
Qed.
Print Assumptions C92_var.
(** an operator is refused exactly when the environments of its arguments are different *)
Theorem C92_node : forall o t d a b, (tree1_bin ops o t d a b = None <-> fst a <> fst b) /\
  forall c, tree1_bin ops o t d a b = Some c -> fst c = fst a /\ (tree_in a -> tree_in b -> tree_in c) /\ (forall x, tree1_has_var ops c x = tree1_has_var ops a x || tree1_has_var ops b x) /\
    forall F rho r, tvalues F c rho r <-> exists x y, tvalues F a rho x /\ tvalues F b rho y /\ bin_val F o t d x y r.
Proof.
  intros o t d [e a] [e' b]. unfold tree1_bin. simpl. destruct (environment_is_eq ops e e') eqn:E.
  - apply C44_is_eq in E. subst e'. split. split; [discriminate|congruence]. intros c H. injection H as <-. simpl. split; auto. split; [|split].
    + intros (G & A) (_ & B). split; auto. simpl in *. intros k O. inversion O; subst; auto.
    + intros x. unfold tree1_has_var. simpl. destruct (dim_of_var ops e x); reflexivity.
    + intros F rho r. unfold tvalues. simpl. apply xval_bin.
  - split; [|discriminate]. split; auto. intros _ H. rewrite (proj2 (C44_is_eq ops e e') H) in E. discriminate.
Qed.
Print Assumptions C92_node.
Theorem C92_unop : forall o t d a, exists c, tree1_un o t d a = Some c /\ fst c = fst a /\ (tree_in a -> tree_in c) /\ (forall x, tree1_has_var ops c x = tree1_has_var ops a x) /\
  forall F rho r, tvalues F c rho r <-> exists x, tvalues F a rho x /\ un_val F o t d x r.
Proof.
  intros o t d [e a]. eexists. split. reflexivity. simpl. split; auto. split; [|split].
  - intros (G & A). split; auto. simpl in *. intros k O. inversion O; subst; auto.
  - intros x. reflexivity.
  - intros F rho r. unfold tvalues. simpl. apply xval_un.
Qed.
Print Assumptions C92_unop.
(** the tree of a linear expression *)
Theorem C92_of_linexpr : forall u F rho r, holes_last (le_terms (snd u)) -> (tvalues F (tree1_of_lin u) rho r <-> lvalues u rho r).
Proof. intros [e u] F rho r H. unfold tvalues, lvalues. simpl. apply C43_from_linexpr. exact H. Qed.
Print Assumptions C92_of_linexpr.
(** the values depend on the variables of the tree only *)
Theorem C92_has_var : forall a, tree_in a ->
  (forall x, tree1_has_var ops a x = true -> In x (e_vars (fst a))) /\
  forall rho rho', (forall x, tree1_has_var ops a x = true -> rho x = rho' x) -> forall F r, tvalues F a rho r <-> tvalues F a rho' r.
Proof.
  intros [e a] (G & K). simpl in *. split.
  - intros x H. unfold tree1_has_var in H. simpl in H. destruct (dim_of_var ops e x) as [d|] eqn:D; [|discriminate]. apply C44_dim_of_var in D; auto. eapply nth_error_In; eauto.
  - intros rho rho' H F r. unfold tvalues. simpl. apply C43_depends. intros d HD. assert (O := proj1 (has_dim_iff a d) HD). destruct (lt_var e d (K d O)) as (v & E). rewrite !(at_var _ _ _ _ E). apply H. unfold tree1_has_var. simpl. rewrite (proj2 (C44_dim_of_var ops e v d G) E). exact HD.
Qed.
Print Assumptions C92_has_var.
(** substitution: refused for different environments and for an undeclared variable.  Otherwise the values include those
    with the variable bound to a value of the substituted tree, and are these when that tree has only one *)
Theorem C92_substitute : forall a x b, tree_in a -> tree_in b ->
  (tree1_substitute ops a x b = None <-> fst a <> fst b \/ ~ In x (e_vars (fst a))) /\
  forall c, tree1_substitute ops a x b = Some c -> fst c = fst a /\ tree_in c /\ forall F rho rho' z, (forall y, y <> x -> rho' y = rho y) -> rho' x = z ->
    (tvalues F b rho z -> forall r, tvalues F a rho' r -> tvalues F c rho r) /\
    ((forall z', tvalues F b rho z' -> z' = z) -> forall r, tvalues F c rho r -> tvalues F a rho' r).
Proof.
  intros [e a] x [e' b] (G & KA) (G' & KB). simpl in *. unfold tree1_substitute. simpl. destruct (environment_is_eq ops e e') eqn:E.
  - apply C44_is_eq in E. subst e'. split.
    + destruct (dim_of_var ops e x) as [d|] eqn:D. split; [discriminate|]. intros [H|H]. congruence. exfalso. apply (dim_none e x G) in H. congruence. split; auto. intros _. right. apply dim_none; auto.
    + intros c H. destruct (dim_of_var ops e x) as [d|] eqn:D; [|discriminate]. injection H as <-. assert (N := proj1 (C44_dim_of_var ops e x d G) D). simpl. split; auto. split.
      * split; auto. simpl. intros k O. destruct (C43_substitute ieee_fmts a d b (fun _ => 0%R)) as (_ & _ & _ & OC). apply OC in O. destruct O as [(_ & O)|(_ & O)]; auto.
      * intros F rho rho' z R1 R2. unfold tvalues. simpl. destruct (C43_substitute F a d b (at_env e rho)) as (A & B & _ & _).
        assert (EX : forall r, xval F (upd1 (at_env e rho) d z) a r <-> xval F (at_env e rho') a r).
        { intros r. apply C43_depends. intros k HK. assert (O := proj1 (has_dim_iff a k) HK). destruct (lt_var e k (KA k O)) as (v & EV). unfold upd1. rewrite !(at_var _ _ _ _ EV). destruct (Nat.eqb_spec k d) as [->|ND]. congruence.
          symmetry. apply R1. intros ->. apply ND. eapply (var_inj ops e); eauto. }
        split. intros HZ r HR. apply (A z); auto. apply EX; auto. intros U r HR. apply EX. apply B; auto.
  - split; [|discriminate]. split; auto. intros _. left. intros H. rewrite (proj2 (C44_is_eq ops e e') H) in E. discriminate.
Qed.
Print Assumptions C92_substitute.
Theorem C92_equal : forall a b, tree1_equal ops a a = true /\
  (tree1_equal ops a b = true -> fst a = fst b /\ (forall x, tree1_has_var ops a x = tree1_has_var ops b x) /\ forall F rho r, tvalues F a rho r <-> tvalues F b rho r).
Proof.
  intros [e a] [e' b]. unfold tree1_equal. simpl. split.
  - rewrite (proj2 (C44_is_eq ops e e) eq_refl). apply (C43_equal a a).
  - intros H. apply andb_true_iff in H. destruct H as (E & H). apply C44_is_eq in E. subst e'. destruct (C43_equal a b) as (_ & Q). destruct (Q H) as (Q1 & Q2 & _). split; auto. split.
    + intros x. unfold tree1_has_var. simpl. destruct (dim_of_var ops e x); auto. apply eq_true_iff_eq. rewrite !has_dim_iff. auto.
    + intros F rho r. unfold tvalues. simpl. auto.
Qed.
Print Assumptions C92_equal.
End Named.

(** ** Cases *)
Definition zenv (i r : list Z) : environment Z := mkEnv i r.
Definition one : coeff := Scal (Fin 1).
(** x2 + 3 x4 + 1, declared integer variables 2 and 4 *)
Definition ux : lin1 (V:=Z) := (zenv [2; 4]%Z [], mkLin one (Dense [one; Scal (Fin 3)])).
Example C92_example_ok : lin_ok zops ux /\ ApEnvFacts.good zops (zenv [1; 2; 4] [9])%Z /\ subenv (fst ux) (zenv [1; 2; 4] [9])%Z /\ wf_coeff one.
Proof.
  split; [|split; [|split]].
  - split. apply zgood; reflexivity. simpl. split; [|split; [|split]]; simpl; auto. split; simpl; auto. split. unfold e_dim; simpl; lia. repeat constructor. intros l T. injection T as <-. reflexivity.
  - apply zgood; reflexivity.
  - split; intros x X; simpl in *; intuition.
  - exact I.
Qed.
Example C92_example_extend : lin1_extend zops ux (zenv [1; 2; 4] [9])%Z = Some (Some (zenv [1; 2; 4] [9], mkLin one (Dense [czero; one; Scal (Fin 3); czero])))%Z /\
  lin1_get zops ux 4%Z = Some (Scal (Fin 3)) /\ lin1_get zops ux 9%Z = None /\ lin1_set zops ux 2%Z (Scal (Fin 7)) = Some (fst ux, mkLin one (Dense [Scal (Fin 7); Scal (Fin 3)])).
Proof. vm_compute. auto. Qed.
(** the tree x4 - x2 *)
Definition tx : tree1 (V:=Z) := (zenv [2; 4]%Z [], TBin BSub RReal DRnd (TDim 1) (TDim 0)).
Example C92_example_tree : tree_in zops tx /\ tree1_has_var zops tx 4%Z = true /\ tree1_has_var zops tx 1%Z = false /\
  tree1_extend zops tx (zenv [1; 2; 4] [9])%Z = Some (Some (zenv [1; 2; 4] [9], TBin BSub RReal DRnd (TDim 2) (TDim 1)))%Z /\
  tree1_substitute zops tx 2%Z tx = Some (fst tx, TBin BSub RReal DRnd (TDim 1) (TBin BSub RReal DRnd (TDim 1) (TDim 0))) /\
  tree1_substitute zops tx 7%Z tx = None /\ tree1_bin zops BAdd RReal DRnd tx (zenv [1] [], TDim 0)%Z = None.
Proof.
  split; [|vm_compute; auto 10]. split. apply zgood; reflexivity. simpl. intros d O. unfold e_dim. simpl. inversion O as [| |? ? ? ? ? O1|? ? ? ? ? O1]; subst; inversion O1; subst; lia.
Qed.

(** ** Where the library fails *)
(** the new environment lacks a variable of the expression: the error is not reported and the coefficient goes to another
    variable.  x3 over (x2, x3) becomes x2 over (x1, x2, x9) *)
Theorem C92_extend_refuted : exists u ne u' rho, lin_ok zops u /\ ApEnvFacts.good zops ne /\ ~ In 3%Z (e_vars ne) /\ lin1_get zops u 3%Z = Some one /\
  lin1_extend zops u ne = Some (Some u') /\ lvalues u rho 1%R /\ ~ lvalues u' rho 1%R.
Proof.
  exists (zenv [2; 3]%Z [], mkLin czero (Dense [czero; one])), (zenv [1; 2] [9])%Z, (zenv [1; 2] [9], mkLin czero (Dense [czero; one; czero]))%Z, (fun x => if Z.eqb x 3 then 1%R else 0%R).
  split; [|split; [|split; [|split; [|split; [|split]]]]].
  - split. apply zgood; reflexivity. simpl. split; [|split; [|split]]; simpl; auto. split; simpl; auto. split. unfold e_dim; simpl; lia. repeat constructor. intros l T. injection T as <-. reflexivity.
  - apply zgood; reflexivity.
  - simpl. lia.
  - reflexivity.
  - vm_compute. reflexivity.
  - exists 0%R, 1%R. simpl. unfold Q2R; simpl. split. lra. split; [|lra]. exists [0%R; 1%R]. split. repeat constructor; simpl; unfold Q2R; simpl; lra. simpl. unfold at_env, at_list; simpl. lra.
  - intros (c0 & r1 & A & (cs & FA & ->) & E). simpl in *. inversion FA as [|? ? ? ? F1 F2]; subst. inversion F2 as [|? ? ? ? F3 F4]; subst. inversion F4 as [|? ? ? ? F5 F6]; subst. inversion F6; subst. simpl in *. unfold at_env, at_list, Q2R in *; simpl in *. lra.
Qed.
(** ... or the array of the new dimensions is written outside of its bounds *)
Theorem C92_extend_bounds_refuted : exists u ne, lin_ok zops u /\ ApEnvFacts.good zops ne /\ lin1_extend zops u ne = None.
Proof.
  exists (zenv [2; 3]%Z [], mkLin czero (Dense [czero; one])), (zenv [1; 2]%Z []). split; [|split; [apply zgood; reflexivity|reflexivity]].
  split. apply zgood; reflexivity. simpl. split; [|split; [|split]]; simpl; auto. split; simpl; auto. split. unfold e_dim; simpl; lia. repeat constructor. intros l T. injection T as <-. reflexivity.
Qed.
(** a dense expression with fewer coefficients than the environment has variables: a coefficient is duplicated.  5 x2 over
    (x2, x4) becomes 5 x2 + 5 x4 over (x2, x4, x9) *)
Theorem C92_extend_short_refuted : exists u ne u' rho, ApEnvFacts.good zops (fst u) /\ wf_linexpr (e_dim (fst u)) (snd u) /\ ApEnvFacts.good zops ne /\ subenv (fst u) ne /\
  lin1_extend zops u ne = Some (Some u') /\ lvalues u rho 5%R /\ ~ lvalues u' rho 5%R.
Proof.
  exists (zenv [2; 4]%Z [], mkLin czero (Dense [Scal (Fin 5)])), (zenv [2; 4] [9])%Z. eexists. exists (fun _ => 1%R). split; [|split; [|split; [|split; [|split; [|split]]]]].
  - apply zgood; reflexivity.
  - split; simpl; auto. split. unfold e_dim; simpl; lia. repeat constructor.
  - apply zgood; reflexivity.
  - split; intros x X; simpl in *; intuition.
  - vm_compute. reflexivity.
  - exists 0%R, 5%R. simpl. unfold Q2R; simpl. split. lra. split; [|lra]. exists [5%R]. split. repeat constructor; simpl; unfold Q2R; simpl; lra. simpl. unfold at_env, at_list; simpl. lra.
  - intros (c0 & r1 & A & (cs & FA & ->) & E). simpl in *. inversion FA as [|? ? ? ? F1 F2]; subst. inversion F2 as [|? ? ? ? F3 F4]; subst. inversion F4; subst. simpl in *. unfold at_env, at_list, Q2R in *; simpl in *. lra.
Qed.

(** ** Coefficients: ap_coeff_zero, ap_coeff_equal_int (ap_coeff.c 300-322) *)
Lemma sgn_zero : forall q, scalar_sgn (Fin q) = 0%Z <-> Q2R q = 0%R.
Proof.
  intros q. assert (S : scalar_sgn (Fin q) = 0%Z <-> (q == 0)%Q) by (unfold scalar_sgn; destruct q as [[|p|p] d]; unfold Qeq; simpl; split; intros; try lia; discriminate). rewrite S. split.
  - intros E. rewrite (Qeq_eqR _ _ E). unfold Q2R; simpl. lra.
  - intros E. apply eqR_Qeq. rewrite E. unfold Q2R; simpl. lra.
Qed.
(** the test to zero: the coefficient denotes 0 and nothing else *)
Theorem C48_coeff_zero : forall c, coeff_zero c = true <-> forall r, coeff_in r c <-> r = 0%R.
Proof.
  intros [b|l u]; unfold coeff_zero.
  - rewrite Z.eqb_eq. destruct b as [|q|]. split; [discriminate|]. intros H. destruct (proj2 (H 0%R) eq_refl). 2: split; [discriminate|]; intros H; destruct (proj2 (H 0%R) eq_refl).
    rewrite sgn_zero. simpl. split. intros E r. rewrite E. tauto. intros H. apply (H (Q2R q)). reflexivity.
  - rewrite andb_true_iff, !Z.eqb_eq. simpl coeff_in. split.
    + destruct l as [|p|], u as [|q|]; intros (A & B); try discriminate. apply sgn_zero in A. apply sgn_zero in B. intros r. simpl. rewrite A, B. split; intros; lra.
    + intros H. destruct (proj2 (H 0%R) eq_refl) as (A & B).
      assert (HL : forall r, (r <= 0)%R -> le_rb r u). { intros r L. destruct u; simpl in *; auto. lra. }
      assert (HU : forall r, (0 <= r)%R -> ge_rb r l). { intros r L. destruct l; simpl in *; auto. lra. }
      split.
      * destruct l as [|p|]; simpl in A; [|apply sgn_zero|contradiction]. exfalso. assert (K : (-1)%R = 0%R) by (apply H; split; [exact I|apply HL; lra]). lra. apply H. split. simpl; lra. apply HL; lra.
      * destruct u as [|p|]; simpl in B; [contradiction|apply sgn_zero|]. apply H. split. apply HU; lra. simpl; lra. exfalso. assert (K : 1%R = 0%R) by (apply H; split; [apply HU; lra|exact I]). lra.
Qed.
Print Assumptions C48_coeff_zero.
Example C48_coeff_zero_ex : coeff_zero (Intv (Fin 0) (Fin 0)) = true /\ coeff_zero (Intv (Fin 0) (Fin 1)) = false /\ coeff_zero (Scal (Fin (0 # 3))) = true.
Proof. vm_compute. auto. Qed.
(** the comparison with an integer answers the contrary: for a scalar, true exactly when it is another number; never true
    of the interval [n, n] *)
Theorem C48_coeff_equal_int_refuted : (forall q n, coeff_equal_int (Scal (Fin q)) n = true <-> Q2R q <> IZR n) /\ (forall n, coeff_equal_int (Intv (Fin (inject_Z n)) (Fin (inject_Z n))) n = false) /\
  exists c n, coeff_equal_int c n = true /\ ~ coeff_in (IZR n) c.
Proof.
  assert (E : forall q n, scalar_equal_int (Fin q) n = true <-> Q2R q = IZR n).
  { intros q n. simpl. rewrite Qeq_bool_iff. assert (Z1 : Q2R (inject_Z n) = IZR n) by (unfold Q2R, inject_Z; simpl; lra). rewrite <- Z1. split. apply Qeq_eqR. apply eqR_Qeq. }
  split; [|split].
  - intros q n. unfold coeff_equal_int. rewrite <- E. destruct (scalar_equal_int (Fin q) n); simpl; split; congruence.
  - intros n. unfold coeff_equal_int. assert (H : scalar_equal_int (Fin (inject_Z n)) n = true) by (simpl; apply Qeq_bool_iff; reflexivity). rewrite H. reflexivity.
  - exists (Scal (Fin 3)), 5%Z. split. reflexivity. simpl. unfold Q2R; simpl. lra.
Qed.
Print Assumptions C48_coeff_equal_int_refuted.

(** Boxes: assignment, bounds, satisfaction tests, conversions, rays. *)
From Coq Require Import Arith ZArith QArith Qround Qreals Reals Lra Lia Bool List Sorted.
From Verif Require Import Bound BoundFacts Util Itv ItvFacts ItvFacts2 ItvHistory Linexpr ItvLin ItvLinFacts ItvLinExact ItvLinCons ItvLinInt ItvLinApi Box BoxizeFacts BoxFacts BoxDims.
Import ListNotations.
Open Scope Z_scope.
Local Notation E := exact_num.

(** the expression has a value at each point (no empty interval among its coefficients) *)
Definition expr_total (e : linexpr) : Prop := forall v, exists r, expr_val e v r.
Definition wf_expr (n : nat) (e : linexpr) : Prop := wf_linexpr n e /\ holes_last (le_terms e).
Lemma expr_total_cst : forall e, expr_total e -> exists x, coeff_in x (le_cst e).
Proof. intros e T. destruct (T (fun _ => 0%R)) as (r & c & r1 & C & _). eauto. Qed.

(** ** Evaluation: with numbers as coefficients each value of the interval is reached *)
Lemma sparse_nodup : forall ts, NoDup (term_dims ts) -> NoDup (map fst (sparse_terms ts)).
Proof.
  assert (SUB : forall ts d, In d (map fst (sparse_terms ts)) -> In d (term_dims ts)).
  { induction ts as [|[[x|] c] ts IH]; simpl; intros d H; auto; try tauto. destruct H; auto. }
  induction ts as [|[[x|] c] ts IH]; simpl; intro H; [constructor| |constructor]. apply NoDup_cons_iff in H. destruct H as [A B].
  constructor; auto.
Qed.
Lemma dense_nodup : forall l i, NoDup (map fst (dense_terms i l)) /\ Forall (fun d => (i <= d)%nat) (map fst (dense_terms i l)).
Proof.
  induction l as [|c l IH]; intros i; simpl. split; constructor. destruct (IH (S i)) as [A B]. split.
  - constructor; auto. intro H. rewrite Forall_forall in B. apply B in H. lia.
  - constructor; [lia|]. eapply Forall_impl; [|exact B]. simpl; intros; lia.
Qed.
Lemma foreach_nodup : forall n t, wf_terms n t -> NoDup (map fst (foreach t)).
Proof. intros n [l|ts] W; simpl in *. apply dense_nodup. apply sparse_nodup. apply W. Qed.

Definition raw_terms (l : list (nat * coeff)) : list iterm := map (fun p => mkT (fst (itv_set_coeff (N:=E) (snd p))) true (fst p)) l.
Lemma set_coeff_scal : forall c, wf_coeff c -> is_scal c = true -> snd (itv_set_coeff (N:=E) c) = true.
Proof.
  intros [b|l u] W H; try discriminate. destruct b as [|q|]; try (simpl in W; tauto). simpl.
  replace (bexact (N:=E) (Fin q)) with true. auto. unfold bexact; simpl. symmetry. apply Qeq_bool_iff. reflexivity.
Qed.
Lemma eval_raw : forall env l acc, Forall (fun p => wf_coeff (snd p) /\ is_scal (snd p) = true) l ->
  eval_ap_terms (N:=E) env l acc = eval_terms (N:=E) env (raw_terms l) acc.
Proof.
  intros env l. induction l as [|[d c] l IH]; intros acc F; simpl; auto. inversion F as [|? ? [W S] F']; subst. simpl in *.
  pose proof (set_coeff_scal c W S) as X. destruct (itv_set_coeff (N:=E) c) as [i ex]. simpl in *. subst ex. rewrite S. simpl.
  destruct (itv_is_top _); auto.
Qed.
Lemma eval_terms_env : forall env env' ts acc, (forall t, In t ts -> env (t_dim t) = env' (t_dim t)) -> eval_terms (N:=E) env ts acc = eval_terms (N:=E) env' ts acc.
Proof.
  intros env env' ts. induction ts as [|t ts IH]; intros acc H; simpl; auto. rewrite (H t) by (simpl; auto).
  match goal with |- context [itv_is_top ?x] => destruct (itv_is_top x) end; auto. apply IH. intros; apply H; simpl; auto.
Qed.
Lemma raw_val : forall v l r, Forall (fun p => wf_coeff (snd p)) l -> tval v (raw_terms l) r -> cval v l r.
Proof.
  intros v l. induction l as [|[d c] l IH]; intros r F T; inversion T; subst. constructor. inversion F; subst. simpl in *.
  constructor; auto. apply itv_set_coeff_exact; auto.
Qed.
Lemma eval_ap_exact : forall n env e z, wf_expr n e -> scalar_terms e -> expr_total e -> (forall d, (d < n)%nat -> nonempty (env d)) ->
  in_itv z (itv_eval_ap_linexpr0 (N:=E) env e) -> exists v, (forall d, (d < n)%nat -> in_itv (v d) (env d)) /\ expr_val e v z.
Proof.
  intros n env e z [[W1 W2] HL] SC TO NE H. pose proof (foreach_wf _ _ W2) as FW. pose proof (foreach_nodup _ _ W2) as ND.
  assert (FS : Forall (fun p => wf_coeff (snd p) /\ is_scal (snd p) = true) (foreach (le_terms e))).
  { unfold scalar_terms in SC. rewrite Forall_forall in *. intros p P. split; auto. apply FW; auto. }
  unfold itv_eval_ap_linexpr0 in H. rewrite eval_raw in H by auto.
  set (env' := fun d => if Nat.ltb d n then env d else itv_top).
  assert (NE' : forall d, nonempty (env' d)). { intro d. unfold env'. destruct (Nat.ltb_spec d n); auto. exists 0%R. split; simpl; auto. }
  rewrite (eval_terms_env env env') in H.
  2: { intros t I. unfold raw_terms in I. apply in_map_iff in I. destruct I as (p & <- & I). simpl. rewrite Forall_forall in FW. apply FW in I. unfold env'.
       destruct (Nat.ltb_spec (fst p) n); auto. lia. }
  destruct (eval_terms_exact env' (raw_terms (foreach (le_terms e))) (fst (itv_set_coeff (N:=E) (le_cst e))) z (bpoint env')) as (v & a & r & V & _ & A & T & ->); auto.
  - unfold raw_terms. apply Forall_map. apply Forall_forall. auto.
  - unfold raw_terms, flags_ok. apply Forall_map. eapply Forall_impl; [|exact FS]. simpl. intros p [P1 P2] _. apply itv_set_coeff_point; auto. apply set_coeff_scal; auto.
  - unfold raw_terms. rewrite map_map. simpl. auto.
  - intro d. apply pick_in. auto.
  - destruct (expr_total_cst e TO) as [x X]. exists x. apply itv_set_coeff_sound; auto.
  - exists v. split.
    + intros d D. specialize (V d). unfold env' in V. destruct (Nat.ltb_spec d n); auto. lia.
    + exists a, r. split; [apply itv_set_coeff_exact; auto|]. split; auto. apply foreach_val; auto. apply raw_val; auto.
      eapply Forall_impl; [|exact FS]. simpl; tauto.
Qed.

(** ** Bounds *)
Definition in_uitv (x : R) (i : bound * bound) : Prop := ge_rb x (fst i) /\ le_rb x (snd i).
Lemma user_of_itv_in : forall i x, in_uitv x (user_of_itv i) <-> in_itv x i.
Proof. intros [[|p|] s] x; unfold in_uitv, in_itv; simpl; try rewrite Q2R_opp; intuition lra. Qed.
Lemma bound_dimension_exact : forall a d x, (d < bx_dim a)%nat -> nebox a ->
  (in_uitv x (box_bound_dimension a d) <-> exists v, gbox a v /\ v d = x).
Proof.
  intros a d x D W. destruct (nebox_point a W) as [P|[v G]].
  - unfold box_bound_dimension, gbox. rewrite P. split; [|intros (v & F & _); tauto]. unfold in_uitv, uitv_bottom; simpl. unfold Q2R; simpl. lra.
  - unfold box_bound_dimension, gbox in *. destruct (bx_p a) as [p|]; [|tauto]. rewrite user_of_itv_in. split.
    + intro H. exists (upd v d x). split; [|apply upd_same]. intros j J. unfold upd. destruct (Nat.eqb_spec j d); subst; auto.
    + intros (w & H & <-). auto.
Qed.
Lemma uitv_leq_sound : forall i j, uitv_is_leq i j = true -> forall x, in_uitv x i -> in_uitv x j.
Proof.
  intros i j H x [X1 X2]. unfold uitv_is_leq in H. apply orb_true_iff in H. destruct H as [H|H].
  - apply andb_true_iff in H. destruct H as [A B]. apply Z.leb_le in A, B. apply bcmp_le in B. split.
    + assert (A' : bcmp (fst j) (fst i) <= 0) by (rewrite bcmp_anti; lia). apply bcmp_le in A'. destruct (fst i), (fst j); simpl in *; try tauto. apply Qle_Rle in A'. lra.
    + eapply le_rb_mono; eauto.
  - exfalso. unfold uitv_is_bottom in H. apply Z.ltb_lt in H. assert (A' : bcmp (snd i) (fst i) < 0) by (rewrite bcmp_anti; lia).
    destruct i as [[|p|] [|q|]]; simpl in *; try lia; try tauto. apply qcmp_lt in A'. lra.
Qed.
Lemma uitv_leq_iff : forall i j, (exists x, in_uitv x i) -> (uitv_is_leq i j = true <-> forall x, in_uitv x i -> in_uitv x j).
Proof.
  intros i j [x0 X0]. split; [apply uitv_leq_sound|]. intro H. unfold uitv_is_leq. apply orb_true_iff. left. apply andb_true_iff.
  destruct i as [l u], j as [l' u']. unfold in_uitv in *. simpl in *. destruct X0 as [A B]. split; apply Z.leb_le.
  - assert (G : bcmp l' l <= 0); [|rewrite bcmp_anti; lia]. apply bcmp_le. destruct l as [|p|]; [|destruct l' as [|p'|]; simpl; auto|simpl in A; tauto].
    + destruct l' as [|p'|]; simpl; auto; exfalso.
      * destruct (H (Rmin x0 (Q2R p' - 1))%R) as [C _]. split; auto. eapply le_rb_le; [apply Rmin_l|auto]. simpl in C. pose proof (Rmin_r x0 (Q2R p' - 1)). lra.
      * destruct (H x0) as [C _]; auto.
    + simpl in A. destruct (H (Q2R p)) as [C _]. split; simpl; [lra|]. eapply le_rb_le; eauto. simpl in C. apply Rle_Qle. auto.
    + destruct (H x0) as [C _]; auto.
  - apply bcmp_le. destruct u as [|p|]; [simpl in B; tauto|destruct u' as [|p'|]; simpl; auto|].
    + destruct (H x0) as [_ C]; auto.
    + simpl in B. destruct (H (Q2R p)) as [_ C]. split; simpl; [|lra]. eapply ge_rb_le; eauto. simpl in C. apply Rle_Qle. auto.
    + destruct u' as [|p'|]; simpl; auto; exfalso.
      * destruct (H x0) as [_ C]; auto.
      * destruct (H (Rmax x0 (Q2R p' + 1))%R) as [_ C]. split; auto. eapply ge_rb_le; [apply Rmax_l|auto]. simpl in C. pose proof (Rmax_r x0 (Q2R p' + 1)). lra.
Qed.
Lemma sat_interval_iff : forall a d i, (d < bx_dim a)%nat -> nebox a ->
  (box_sat_interval a d i = true <-> forall v, gbox a v -> in_uitv (v d) i).
Proof.
  intros a d i D W. destruct (nebox_point a W) as [P|[v G]].
  - unfold box_sat_interval, gbox. rewrite P. split; auto. tauto.
  - unfold box_sat_interval, gbox in *. destruct (bx_p a) as [p|] eqn:P; [|tauto]. rewrite uitv_leq_iff.
    + split.
      * intros H w X. apply H. apply user_of_itv_in. auto.
      * intros H x X. apply user_of_itv_in in X. specialize (H (upd v d x)). rewrite upd_same in H. apply H. intros j J. unfold upd. destruct (Nat.eqb_spec j d); subst; auto.
    + exists (v d). apply user_of_itv_in. auto.
Qed.

Section OpsN.
Context {N : numtype}.
Lemma bound_linexpr_sound : forall a e v r, wf_expr (bx_dim a) e -> gbox a v -> expr_val e v r -> in_uitv r (box_bound_linexpr (N:=N) a e).
Proof.
  intros a e v r [W H] G X. unfold box_bound_linexpr, gbox in *. destruct (bx_p a) as [p|]; [|tauto]. apply user_of_itv_in.
  eapply eval_ap_linexpr0_sound; eauto.
Qed.
(** ** Satisfaction of a linear constraint *)
Lemma sat_lincons_sound : forall a c v, user_ok (N:=N) (bx_dim a) c -> box_sat_lincons (N:=N) a c = Some true -> gbox a v -> sat_all c v.
Proof.
  intros a c v (W & HL & M) H G r X. unfold box_sat_lincons, gbox in *. destruct (bx_p a) as [p|]; [|tauto].
  assert (I : in_itv r (itv_eval_ap_linexpr0 (N:=N) p (lc_expr c))) by (eapply eval_ap_linexpr0_sound; eauto).
  set (cst := itv_eval_ap_linexpr0 (N:=N) p (lc_expr c)) in *. set (k := mkIC _ _ _) in H.
  destruct (eval_cst k) eqn:EV; simpl in H; try discriminate.
  pose proof (eval_cst_true k v eq_refl) as S. assert (F : eqm_flag_ok k) by (intros _ _ Q; exact Q). specialize (S F EV r).
  apply (mod_conv (N:=N)); auto. apply S. simpl. apply ival_nil. auto.
Qed.
End OpsN.
Lemma bound_linexpr_exact : forall a e x, wf_expr (bx_dim a) e -> scalar_terms e -> expr_total e -> nebox a ->
  (in_uitv x (box_bound_linexpr (N:=E) a e) <-> exists v, gbox a v /\ expr_val e v x).
Proof.
  intros a e x W S T NB. split; [|intros (v & G & X); apply (bound_linexpr_sound a e v); auto].
  unfold box_bound_linexpr, nebox, gbox in *. destruct (bx_p a) as [p|].
  - rewrite user_of_itv_in. intro H. destruct (eval_ap_exact _ _ _ _ W S T NB H) as (v & G & X). exists v; auto.
  - unfold in_uitv, uitv_bottom; simpl. unfold Q2R; simpl. lra.
Qed.
(** for the rational instance and numbers as coefficients the test is complete, equalities modulo apart *)
Lemma range_cases : forall i, nonempty i -> 
  ((bsgn (inf i) <= 0) -> forall x, in_itv x i -> (0 <= x)%R) /\ (0 < bsgn (inf i) -> exists x, in_itv x i /\ (x < 0)%R) /\
  ((bsgn (inf i) < 0) -> forall x, in_itv x i -> (0 < x)%R) /\ (0 <= bsgn (inf i) -> exists x, in_itv x i /\ (x <= 0)%R).
Proof.
  intros i [x0 [A B]]. destruct i as [[|p|] s]; simpl in *; try tauto.
  - split; [|split; [|split]]; intro H.
    + intros x [C D]. simpl in *. assert (Q2R p <= 0)%R; [|lra]. destruct (Rle_dec (Q2R p) 0); auto. assert (0 < Q2R p)%R by lra. apply sgn_Q_pos in H0. lia.
    + exists (- Q2R p)%R. apply sgn_Q_pos in H. split; [|lra]. split; simpl; [lra|]. eapply le_rb_le; [|exact B]. lra.
    + intros x [C D]. simpl in *. apply sgn_Q_neg in H. lra.
    + exists (- Q2R p)%R. split. split; simpl; [lra|]. eapply le_rb_le; [|exact B]. lra.
      destruct (Rle_dec (- Q2R p) 0); auto. assert (Q2R p < 0)%R by lra. apply sgn_Q_neg in H0. lia.
  - split; [|split; [|split]]; intro H; try (exfalso; lia).
    + exists (Rmin x0 (-1))%R. split; [split; simpl; auto|]. eapply le_rb_le; [apply Rmin_l|auto]. pose proof (Rmin_r x0 (-1)). lra.
    + exists (Rmin x0 (-1))%R. split; [split; simpl; auto|]. eapply le_rb_le; [apply Rmin_l|auto]. pose proof (Rmin_r x0 (-1)). lra.
Qed.
Lemma only_zero_point : forall i, nonempty i -> (forall x, in_itv x i -> x = 0%R) -> itv_is_point i = true /\ bsgn (sup i) = 0.
Proof.
  intros i [x0 X0] H. assert (x0 = 0%R) by auto. subst x0. destruct X0 as [A B]. destruct i as [[|p|] [|q|]]; simpl in *; try tauto.
  - assert (P : Q2R p = 0%R). { specialize (H (- Q2R p)%R). assert (- Q2R p = 0)%R; [|lra]. apply H. split; simpl; lra. }
    assert (Q : Q2R q = 0%R). { apply H. split; simpl; lra. }
    split; [|apply sgn_Q_zero; auto]. apply point_iff. exists p, q. simpl. repeat split; auto. lra.
  - exfalso. assert (X : 1%R = 0%R); [|lra]. apply H. split; simpl; auto; lra.
  - exfalso. assert (X : (-1)%R = 0%R); [|lra]. apply H. split; simpl; auto; lra.
  - exfalso. assert (X : 1%R = 0%R); [|lra]. apply H. split; simpl; auto.
Qed.
Lemma sat_lincons_complete : forall a c, wf_expr (bx_dim a) (lc_expr c) -> scalar_terms (lc_expr c) -> expr_total (lc_expr c) -> nebox a ->
  lc_typ c <> CEqMod -> (forall v, gbox a v -> sat_all c v) -> box_sat_lincons (N:=E) a c = Some true.
Proof.
  intros a c W S T NB TY H. unfold box_sat_lincons, nebox, gbox in *. destruct (bx_p a) as [p|]; auto.
  assert (VAL : forall z, in_itv z (itv_eval_ap_linexpr0 (N:=E) p (lc_expr c)) -> sat_typ (lc_typ c) (lc_mod c) z).
  { intros z Z. destruct (eval_ap_exact _ _ _ _ W S T NB Z) as (v & G & X). apply (H v); auto. }
  assert (NE : nonempty (itv_eval_ap_linexpr0 (N:=E) p (lc_expr c))).
  { destruct (T (bpoint p)) as [r R]. exists r. destruct W. eapply eval_ap_linexpr0_sound; eauto. intros d D. apply pick_in. auto. }
  set (i := itv_eval_ap_linexpr0 (N:=E) p (lc_expr c)) in *. unfold eval_cst. simpl.
  assert (BO : itv_is_bottom i = false). { apply nonempty_iff in NE. apply NE. }
  rewrite BO. destruct (range_cases i NE) as (R1 & R2 & R3 & R4). destruct (lc_typ c) eqn:TE; simpl in VAL; try congruence.
  - destruct (only_zero_point i NE VAL) as [P1 P2]. rewrite P1, P2. auto.
  - destruct (Z.leb_spec (bsgn (inf i)) 0); auto. exfalso. destruct R2 as (x & X & L); auto. apply VAL in X. lra.
  - destruct (Z.ltb_spec (bsgn (inf i)) 0); auto. exfalso. destruct R4 as (x & X & L); auto. apply VAL in X. lra.
  - replace ((bsgn (inf i) <? 0) || (bsgn (sup i) <? 0)) with true; auto. symmetry. destruct (Z.ltb_spec (bsgn (inf i)) 0); auto. simpl. apply Z.ltb_lt.
    destruct (Z_lt_ge_dec (bsgn (sup i)) 0); auto. exfalso. apply (VAL 0%R); auto. destruct i as [[|p0|] [|q|]]; simpl in *; try lia; split; simpl; auto.
    + destruct (Rle_dec (- 0) (Q2R p0)); auto. assert (L : (Q2R p0 < 0)%R) by lra. apply sgn_Q_neg in L. lia.
    + destruct (Rle_dec 0 (Q2R q)); auto. assert (L : (Q2R q < 0)%R) by lra. apply sgn_Q_neg in L. lia.
    + destruct (Rle_dec (- 0) (Q2R p0)); auto. assert (L : (Q2R p0 < 0)%R) by lra. apply sgn_Q_neg in L. lia.
    + destruct (Rle_dec 0 (Q2R q)); auto. assert (L : (Q2R q < 0)%R) by lra. apply sgn_Q_neg in L. lia.
Qed.

(** ** Parallel assignment *)
(** [w] is a point reached from [v] by the simultaneous assignments *)
Definition assigned (asn : list (nat * linexpr)) (v w : nat -> R) : Prop :=
  (forall d e, In (d, e) asn -> expr_val e v (w d)) /\ (forall d, ~ In d (map fst asn) -> w d = v d).
Definition asn_cells (N : numtype) (p : nat -> itv) (asn : list (nat * linexpr)) (r : nat -> itv) : nat -> itv :=
  fold_left (fun r t => eset r (fst t) (itv_eval_ap_linexpr0 (N:=N) p (snd t))) asn r.
Lemma asn_cell : forall N p asn r d,
  (~ In d (map fst asn) /\ asn_cells N p asn r d = r d) \/
  (exists e, In (d, e) asn /\ asn_cells N p asn r d = itv_eval_ap_linexpr0 (N:=N) p e).
Proof.
  intros N p asn. unfold asn_cells. induction asn as [|[t e] asn IH]; intros r d; simpl. left; split; auto.
  destruct (IH (eset r t (itv_eval_ap_linexpr0 (N:=N) p e)) d) as [[A B]|(e' & A & B)].
  - destruct (Nat.eq_dec t d) as [->|ND].
    + right. exists e. split; auto. rewrite B. apply eset_same.
    + left. split; [intros [X|X]; auto|]. rewrite B. apply eset_other. auto.
  - right. exists e'. auto.
Qed.
Lemma assign_dim : forall N a asn dest, bx_int (box_assign_linexpr_array (N:=N) a asn dest) = bx_int a /\ bx_real (box_assign_linexpr_array (N:=N) a asn dest) = bx_real a.
Proof.
  intros. unfold box_assign_linexpr_array. destruct (bx_p a); auto. destruct (match dest with Some b => box_is_bottom b | None => false end); auto.
  destruct dest as [b|]; auto. match goal with |- context [box_meet ?x b] => destruct (meet_dim x b) as [-> ->] end. auto.
Qed.
Lemma assign_sound : forall N a asn dest v w, Forall (fun t => wf_expr (bx_dim a) (snd t)) asn ->
  gbox a v -> assigned asn v w -> match dest with Some b => bx_dim b = bx_dim a /\ gbox b w | None => True end ->
  gbox (box_assign_linexpr_array (N:=N) a asn dest) w.
Proof.
  intros N a asn dest v w F G [A B] D. unfold box_assign_linexpr_array.
  assert (G0 := G). unfold gbox in G. destruct (bx_p a) as [p|] eqn:P; [|tauto].
  assert (R : gbox (set_p a (Some (asn_cells N p asn p))) w).
  { unfold gbox, set_p, bx_dim. simpl. intros d DD. destruct (asn_cell N p asn p d) as [[X Y]|(e & X & Y)]; rewrite Y.
    - rewrite B; auto.
    - rewrite Forall_forall in F. destruct (F _ X). eapply eval_ap_linexpr0_sound; eauto. }
  destruct dest as [b|]; [|exact R]. destruct D as [DE GB]. destruct (box_is_bottom b) eqn:BB.
  - unfold box_is_bottom, gbox in *. destruct (bx_p b); [discriminate|tauto].
  - apply meet_exact; auto.
Qed.
Lemma assign_nebox : forall N a asn dest, Forall (fun t => wf_expr (bx_dim a) (snd t) /\ expr_total (snd t)) asn -> nebox a ->
  match dest with Some b => nebox b /\ bx_dim b = bx_dim a | None => True end -> nebox (box_assign_linexpr_array (N:=N) a asn dest).
Proof.
  intros N a asn dest F W D. unfold box_assign_linexpr_array. destruct (bx_p a) as [p|] eqn:P; auto.
  assert (W0 := W). unfold nebox in W. rewrite P in W.
  assert (R : nebox (set_p a (Some (asn_cells N p asn p)))).
  { unfold nebox, set_p. simpl. intros d DD. destruct (asn_cell N p asn p d) as [[X Y]|(e & X & Y)]; rewrite Y; auto.
    rewrite Forall_forall in F. destruct (F _ X) as [[A B] T]. destruct (T (bpoint p)) as [r R]. exists r. eapply eval_ap_linexpr0_sound; eauto.
    intros j J. apply pick_in. auto. }
  destruct dest as [b|]; [|exact R]. destruct (box_is_bottom b); auto. destruct D as [NB DE]. apply meet_nebox; auto.
Qed.
Lemma assigned_ex : forall asn v d e x, NoDup (map fst asn) -> Forall (fun t => expr_total (snd t)) asn -> In (d, e) asn -> expr_val e v x ->
  exists w, assigned asn v w /\ w d = x.
Proof.
  assert (ANY : forall asn v, NoDup (map fst asn) -> Forall (fun t => expr_total (snd t)) asn -> exists w, assigned asn v w).
  { induction asn as [|[t e] asn IH]; intros v ND F. exists v. split; simpl; auto; tauto.
    simpl in ND. apply NoDup_cons_iff in ND. destruct ND as [N1 N2]. inversion F as [|? ? F1 F2]; subst. destruct (IH v N2 F2) as (w & A & B). destruct (F1 v) as [x X].
    exists (upd w t x). split; simpl.
    - intros d e' [Q|Q]. inversion Q; subst. rewrite upd_same; auto. rewrite upd_other; auto. intros ->. apply N1. apply in_map_iff. exists (t, e'); auto.
    - intros d H. rewrite upd_other; [apply B; tauto|]. intro; subst; tauto. }
  intros asn v d e x ND F I X. destruct (ANY asn v ND F) as (w & A & B). exists (upd w d x). split; [|apply upd_same]. split.
  - intros d' e' I'. destruct (Nat.eq_dec d' d) as [->|NE]; [|rewrite upd_other; auto]. rewrite upd_same.
    assert (e' = e); [|subst; auto]. clear - ND I I'. induction asn as [|[t f] asn IH]; simpl in *; [tauto|]. apply NoDup_cons_iff in ND. destruct ND as [N1 N2].
    destruct I as [I|I], I' as [I'|I']; auto.
    + congruence.
    + inversion I; subst. exfalso. apply N1. apply in_map_iff. exists (d, e'); auto.
    + inversion I'; subst. exfalso. apply N1. apply in_map_iff. exists (d, e); auto.
  - intros d' H. rewrite upd_other; auto. intros ->. apply H. apply in_map_iff. exists (d, e); auto.
Qed.
Lemma assign_best : forall a asn b, Forall (fun t => wf_expr (bx_dim a) (snd t) /\ scalar_terms (snd t) /\ expr_total (snd t)) asn -> NoDup (map fst asn) ->
  nebox a -> bx_dim b = bx_dim a -> (forall v w, gbox a v -> assigned asn v w -> gbox b w) ->
  forall w, gbox (box_assign_linexpr_array (N:=E) a asn None) w -> gbox b w.
Proof.
  intros a asn b F ND W DE H w G. assert (FT : Forall (fun t => expr_total (snd t)) asn) by (eapply Forall_impl; [|exact F]; simpl; tauto).
  destruct (nebox_point a W) as [P|[v0 G0]].
  { unfold box_assign_linexpr_array, gbox in G. rewrite P in G. rewrite P in G. tauto. }
  unfold box_assign_linexpr_array in G. unfold nebox in W. assert (G0' := G0). unfold gbox in G0'. destruct (bx_p a) as [p|] eqn:P; [|tauto].
  fold (asn_cells E p asn p) in G. unfold gbox, set_p, bx_dim in G. simpl in G.
  (* the points needed *)
  assert (PT : forall d, (d < bx_dim a)%nat -> exists v w', gbox a v /\ assigned asn v w' /\ w' d = w d).
  { intros d D. specialize (G d D). destruct (asn_cell E p asn p d) as [[X Y]|(e & X & Y)]; rewrite Y in G.
    - assert (GV : gbox a (upd v0 d (w d))). { apply (gbox_upd a p); auto. }
      destruct asn as [|[t e] asn].
      + exists (upd v0 d (w d)), (upd v0 d (w d)). split; auto. split; [|apply upd_same]. split; simpl; auto; tauto.
      + inversion FT as [|? ? T1 T2]; subst. destruct (T1 (upd v0 d (w d))) as [x XV]. destruct (assigned_ex ((t, e) :: asn) (upd v0 d (w d)) t e x) as (w' & A & _); simpl; auto.
        exists (upd v0 d (w d)), w'. split; auto. split; auto. destruct A as [_ A]. rewrite A; auto. apply upd_same.
    - rewrite Forall_forall in F. destruct (F _ X) as (F1 & F2 & F3). simpl in *. destruct (eval_ap_exact _ _ _ _ F1 F2 F3 W G) as (v & V & XV).
      destruct (assigned_ex asn v d e (w d)) as (w' & A & B); auto. exists v, w'. split; auto. unfold gbox. rewrite P. auto. }
  unfold gbox. destruct (bx_p b) as [q|] eqn:Q.
  - intros d D. rewrite DE in D. destruct (PT d D) as (v & w' & A & B & <-). specialize (H v w' A B). unfold gbox in H. rewrite Q in H. apply H. rewrite DE; auto.
  - destruct asn as [|[t e] asn].
    + specialize (H v0 v0 G0). unfold gbox in H. rewrite Q in H. apply H. split; simpl; auto; tauto.
    + inversion FT as [|? ? T1 T2]; subst. destruct (T1 v0) as [x XV]. destruct (assigned_ex ((t, e) :: asn) v0 t e x) as (w' & A & _); simpl; auto.
      specialize (H v0 w' G0 A). unfold gbox in H. rewrite Q in H. auto.
Qed.

(** ** Conversions *)
Lemma bneg_not : forall b, b <> PInf -> bneg b <> MInf.
Proof. destruct b; simpl; congruence. Qed.
Lemma bconv_not : forall N b, b <> MInf -> bconv (N:=N) b <> MInf.
Proof.
  intros N [|q|] H; simpl; try congruence. intro X. pose proof (rnd_up N q) as U. rewrite X in U. simpl in U. auto.
Qed.
Lemma of_box_dim : forall N i r t, bx_int (box_of_box (N:=N) i r t) = i /\ bx_real (box_of_box (N:=N) i r t) = r.
Proof. intros; split; reflexivity. Qed.
Lemma of_box_sound : forall N i r t v, int_point i v -> (forall d, (d < i + r)%nat -> in_uitv (v d) (t d)) -> gbox (box_of_box (N:=N) i r t) v.
Proof.
  intros N i r t v I H. unfold box_of_box, gbox. simpl.
  assert (C : forall d, (d < i + r)%nat -> in_itv (v d) (fst (itv_canonicalize (Nat.ltb d i) (uitv_conv (N:=N) (t d)))) /\ snd (itv_canonicalize (Nat.ltb d i) (uitv_conv (N:=N) (t d))) = false).
  { intros d D. apply canon_sound. intro L. apply I. apply Nat.ltb_lt; auto. destruct (H d D) as [A B]. split; simpl; apply bconv_sound; auto.
    destruct (fst (t d)); simpl in *; auto. rewrite Q2R_opp. lra. }
  replace (all_dims _ _) with true. intros d D. apply C; auto.
  symmetry. apply all_dims_iff. intros d D. destruct (C d D) as [_ X]. apply negb_true_iff. exact X.
Qed.
Lemma of_box_exact : forall i r t v, gbox (box_of_box (N:=E) i r t) v -> forall d, (d < i + r)%nat -> in_uitv (v d) (t d).
Proof.
  intros i r t v G d D. unfold box_of_box, gbox in G. simpl in G. destruct (all_dims _ _); [|tauto]. specialize (G d D).
  assert (X : in_itv (v d) (uitv_conv (N:=E) (t d))).
  { destruct (canon_le (Nat.ltb d i) (uitv_conv (N:=E) (t d))) as [L1 L2]. destruct G as [G1 G2]. split; eapply le_rb_mono; eauto. }
  destruct X as [X1 X2]. simpl in X1, X2. split.
  - destruct (fst (t d)); simpl in *; auto. rewrite Q2R_opp in X1. lra.
  - destruct (snd (t d)); simpl in *; auto.
Qed.
Lemma of_box_nebox : forall N i r t, (forall d, (d < i + r)%nat -> fst (t d) <> PInf /\ snd (t d) <> MInf) -> nebox (box_of_box (N:=N) i r t).
Proof.
  intros N i r t H. unfold box_of_box, nebox. simpl. destruct (all_dims _ _) eqn:A; auto. intros d D. destruct (H d D) as [H1 H2].
  rewrite all_dims_iff in A. specialize (A d D). apply negb_true_iff in A. apply nonempty_iff.
  assert (B1 : bconv (N:=N) (bneg (fst (t d))) <> MInf) by (apply bconv_not; apply bneg_not; auto).
  assert (B2 : bconv (N:=N) (snd (t d)) <> MInf) by (apply bconv_not; auto).
  unfold itv_canonicalize in *. unfold uitv_conv in *. simpl in *. split; [|split; auto].
  - destruct (Nat.ltb d i); simpl; auto. destruct (bconv (N:=N) (bneg (fst (t d)))); simpl; congruence.
  - destruct (Nat.ltb d i); simpl; auto. destruct (bconv (N:=N) (snd (t d))); simpl; congruence.
Qed.

Lemma x_cons_sat : forall ty d k b v q, b = Fin q -> (sat_cons (x_cons ty d k b) v <-> sat_typ ty None (Q2R q + Q2R k * v d)%R).
Proof.
  intros ty d k b v q ->. unfold sat_cons, x_cons. simpl. split.
  - intros (r & (c0 & r1 & C & (cs & F & T) & ->) & S). simpl in C. subst c0 r1. inversion F as [|c ? cs' ? F1 F2]; subst. inversion F2; subst.
    assert (c = Q2R k) by (apply F1; simpl; congruence). subst c. simpl in S. rewrite Rplus_0_r in S. auto.
  - intro S. exists (Q2R q + Q2R k * v d)%R. split; auto. exists (Q2R q), (Q2R k * v d)%R. split; simpl; auto. split; auto.
    exists [Q2R k]. split. constructor; simpl; auto. simpl. lra.
Qed.
Lemma itv_lincons_exact : forall d i v, nonempty i -> (Forall (fun c => sat_cons c v) (itv_lincons d i) <-> in_itv (v d) i).
Proof.
  intros d i v W. destruct (nonempty_not_MInf i W) as [N1 N2]. unfold itv_lincons.
  assert (K1 : Q2R 1 = 1%R) by (unfold Q2R; simpl; lra). assert (K2 : Q2R (-1) = (-1)%R) by (unfold Q2R; simpl; lra).
  destruct i as [[|p|] [|q|]]; simpl in *; try congruence; unfold itv_is_point; simpl.
  - match goal with |- context [if ?x then CEq else CSupEq] => destruct x eqn:PT end; simpl.
    + rewrite Forall_cons_iff, (x_cons_sat _ _ _ _ _ p eq_refl), K1. simpl.
      assert (PQ : (Q2R q = - Q2R p)%R). { apply bequal_R in PT || idtac. revert PT. intro PT. apply Qeq_bool_iff in PT. apply Qeq_Q2R in PT. rewrite Q2R_opp in PT. lra. }
      split. intros [S _]. split; simpl; lra. intros [A B]. simpl in *. split; auto. lra.
    + rewrite !Forall_cons_iff, (x_cons_sat _ _ _ _ _ p eq_refl), (x_cons_sat _ _ _ _ _ q eq_refl), K1, K2. simpl.
      split. intros (S1 & S2 & _). split; simpl; lra. intros [A B]. simpl in *. repeat split; auto; lra.
  - rewrite !Forall_cons_iff, (x_cons_sat _ _ _ _ _ p eq_refl), K1. simpl. split. intros [S1 _]. split; simpl; auto; lra. intros [A B]. simpl in *. split; auto; lra.
  - rewrite !Forall_cons_iff, (x_cons_sat _ _ _ _ _ q eq_refl), K2. simpl. split. intros [S1 _]. split; simpl; auto; lra. intros [A B]. simpl in *. split; auto; lra.
  - split; auto. intros _. split; simpl; auto.
Qed.
Lemma to_lincons_exact : forall a v, nebox a -> (Forall (fun c => sat_cons c v) (box_to_lincons_array a) <-> gbox a v).
Proof.
  intros a v W. unfold box_to_lincons_array, gbox, nebox in *. destruct (bx_p a) as [p|].
  - rewrite Forall_flat_map. rewrite Forall_forall. split.
    + intros H d D. apply (itv_lincons_exact d); auto. apply H. apply in_seq. lia.
    + intros H d D. apply in_seq in D. apply itv_lincons_exact. apply W; lia. apply H; lia.
  - split; [|tauto]. intro F. inversion F as [|? ? S _]; subst. destruct S as (r & (c0 & r1 & C & (cs & F2 & ->) & ->) & T). simpl in *. subst c0.
    inversion F2; subst. unfold Q2R in T. simpl in T. lra.
Qed.

(** ** Rays and lines *)
(** coefficient vector of the linear part of an expression *)
Definition dir_of (e : linexpr) (u : nat -> R) : Prop :=
  forall d, terms_val (le_terms e) (fun j => if Nat.eqb j d then 1%R else 0%R) (u d).
(** points reached from [v]: [(true, e)] is a line, [(false, e)] a ray *)
Inductive ray_reach (l : list (bool * linexpr)) (v : nat -> R) : (nat -> R) -> Prop :=
| rr_refl : ray_reach l v v
| rr_step : forall w x g u t, ray_reach l v w -> In g l -> dir_of (snd g) u -> fst g = true \/ (0 <= t)%R ->
    (forall d, x d = (w d + t * u d)%R) -> ray_reach l v x.
Definition ray_ok (n : nat) (g : bool * linexpr) : Prop := wf_expr n (snd g) /\ scalar_terms (snd g).

Lemma cval_unit_out : forall d ts r, ~ In d (map fst ts) -> cval (fun j => if Nat.eqb j d then 1%R else 0%R) ts r -> r = 0%R.
Proof.
  intros d ts r NI C. induction C as [|x d' c ts r Hx C IH]; auto. simpl in NI. rewrite IH by tauto.
  destruct (Nat.eqb_spec d' d); [tauto|lra].
Qed.
Lemma cval_unit : forall d ts r q, NoDup (map fst ts) -> In (d, Scal (Fin q)) ts -> cval (fun j => if Nat.eqb j d then 1%R else 0%R) ts r -> r = Q2R q.
Proof.
  intros d ts r q ND I C. induction C as [|x d' c ts r Hx C IH]; simpl in *; [tauto|]. apply NoDup_cons_iff in ND. destruct ND as [N1 N2]. destruct I as [I|I].
  - inversion I; subst. simpl in Hx. subst x. rewrite (cval_unit_out d ts r); auto. rewrite Nat.eqb_refl. lra.
  - rewrite IH; auto. destruct (Nat.eqb_spec d' d); [|lra]. subst. exfalso. apply N1. apply in_map_iff. exists (d, Scal (Fin q)); auto.
Qed.
Lemma dir_ex : forall n e, wf_expr n e -> scalar_terms e -> exists u, dir_of e u.
Proof.
  intros n e [[W1 W2] HL] SC. apply foreach_wf in W2. unfold scalar_terms in SC.
  assert (G : forall ts, Forall (fun p => wf_coeff (snd p) /\ (fst p < n)%nat) ts -> Forall (fun p => is_scal (snd p) = true) ts ->
     exists f : nat -> R, forall d, cval (fun j => if Nat.eqb j d then 1%R else 0%R) ts (f d)).
  { clear. induction ts as [|[x c] ts IH]; intros F1 F2. exists (fun _ => 0%R). intro; constructor.
    inversion F1 as [|? ? [WC _] F1']; inversion F2 as [|? ? SC F2']; subst. destruct (IH F1' F2') as [f F]. destruct c as [b|]; [|discriminate]. destruct b as [|q|]; simpl in WC; try tauto.
    exists (fun d => (Q2R q * (if Nat.eqb x d then 1 else 0) + f d)%R). intro d. apply (cv_cons (fun j => if Nat.eqb j d then 1%R else 0%R) (Q2R q) x); simpl; auto. }
  destruct (G _ W2 SC) as [f F]. exists f. intro d. apply foreach_val; auto.
Qed.
(** cells after the treatment of a list of terms *)
Definition ray_cells (line : bool) (ts : list (nat * coeff)) (p : nat -> itv) : nat -> itv := fold_left (add_ray1 line) ts p.
Lemma add_ray1_other : forall line p t d, fst t <> d -> add_ray1 line p t d = p d.
Proof. intros line p [x c] d H. unfold add_ray1. simpl in *. destruct c; auto. destruct (_ =? _); auto. apply eset_other. auto. Qed.
Lemma ray_cells_out : forall line ts p d, ~ In d (map fst ts) -> ray_cells line ts p d = p d.
Proof.
  intros line. unfold ray_cells. induction ts as [|t ts IH]; intros p d H; simpl in *; auto. rewrite IH by tauto. apply add_ray1_other. tauto.
Qed.
Lemma ray_cells_in : forall line ts p d q, NoDup (map fst ts) -> In (d, Scal (Fin q)) ts ->
  ray_cells line ts p d = if Z.sgn (Qnum q) =? 0 then p d else
    mkItv (if (Z.sgn (Qnum q) <? 0) || line then PInf else inf (p d)) (if (0 <? Z.sgn (Qnum q)) || line then PInf else sup (p d)).
Proof.
  intros line. unfold ray_cells. induction ts as [|t ts IH]; intros p d q ND I; simpl in *; [tauto|]. apply NoDup_cons_iff in ND. destruct ND as [N1 N2]. destruct I as [I|I].
  - subst t. simpl in *. fold (ray_cells line ts (add_ray1 line p (d, Scal (Fin q)))). rewrite ray_cells_out by auto. unfold add_ray1. simpl. destruct (_ =? 0); auto. apply eset_same.
  - rewrite (IH _ d q); auto. rewrite add_ray1_other; auto. intro X. apply N1. rewrite X. apply in_map_iff. exists (d, Scal (Fin q)); auto.
Qed.
(** one generator: the bounds of a dimension are dropped according to the sign of the direction *)
Lemma add_ray_cell : forall n g p u d, ray_ok n g -> dir_of (snd g) u ->
  (u d = 0%R /\ add_ray p g d = p d) \/
  (u d <> 0%R /\ add_ray p g d = mkItv (if fst g then PInf else if Rlt_dec (u d) 0 then PInf else inf (p d)) (if fst g then PInf else if Rlt_dec 0 (u d) then PInf else sup (p d))).
Proof.
  intros n [line e] p u d [[[W1 W2] HL] SC] U. simpl in *. specialize (U d). apply foreach_val in U; auto.
  pose proof (foreach_nodup _ _ W2) as ND. apply foreach_wf in W2. unfold scalar_terms in SC. unfold add_ray. simpl. fold (ray_cells line (foreach (le_terms e)) p).
  destruct (in_dec Nat.eq_dec d (map fst (foreach (le_terms e)))) as [I|I].
  - apply in_map_iff in I. destruct I as ([x c] & EX & I). simpl in EX. subst x. rewrite Forall_forall in W2, SC. destruct (W2 _ I) as [WC _]. specialize (SC _ I). simpl in *.
    destruct c as [b|]; [|discriminate]. destruct b as [|q|]; simpl in WC; try tauto. rewrite (ray_cells_in _ _ _ _ q); auto. rewrite (cval_unit d _ (u d) q ND I U).
    destruct (Z.eqb_spec (Z.sgn (Qnum q)) 0) as [Z|Z].
    + left. split; auto. apply sgn_Q_zero; auto.
    + right. split. intro X. apply Z. apply sgn_Q_zero; auto. f_equal.
      * destruct line; [rewrite orb_true_r; auto|rewrite orb_false_r]. destruct (Z.ltb_spec (Z.sgn (Qnum q)) 0) as [L|L], (Rlt_dec (Q2R q) 0) as [L'|L']; auto; exfalso.
        apply sgn_Q_neg in L; lra. apply sgn_Q_neg in L'; lia.
      * destruct line; [rewrite orb_true_r; auto|rewrite orb_false_r]. destruct (Z.ltb_spec 0 (Z.sgn (Qnum q))) as [L|L], (Rlt_dec 0 (Q2R q)) as [L'|L']; auto; exfalso.
        apply sgn_Q_pos in L; lra. apply sgn_Q_pos in L'; lia.
  - left. split. eapply cval_unit_out; eauto. apply ray_cells_out; auto.
Qed.
(** all the generators *)
Lemma rays_mono : forall n l p d, Forall (ray_ok n) l ->
  (inf (p d) = PInf -> inf (fold_left add_ray l p d) = PInf) /\ (sup (p d) = PInf -> sup (fold_left add_ray l p d) = PInf) /\
  (inf (fold_left add_ray l p d) = PInf \/ inf (fold_left add_ray l p d) = inf (p d)) /\ (sup (fold_left add_ray l p d) = PInf \/ sup (fold_left add_ray l p d) = sup (p d)).
Proof.
  intros n. induction l as [|g l IH]; intros p d F; simpl. auto. inversion F as [|? ? F1 F2]; subst. destruct (IH (add_ray p g) d F2) as (A & B & C & D).
  destruct F1 as [F1 F1']. destruct (dir_ex _ _ F1 F1') as [u U]. destruct (add_ray_cell n g p u d (conj F1 F1') U) as [[_ X]|[_ X]]; rewrite X in *; auto.
  simpl in *. destruct (fst g).
  - split; [auto|]. split; [auto|]. split; left; auto.
  - destruct (Rlt_dec (u d) 0), (Rlt_dec 0 (u d)); try lra; tauto.
Qed.
Lemma rays_drop : forall n l p g u d, Forall (ray_ok n) l -> In g l -> dir_of (snd g) u ->
  ((u d < 0 \/ fst g = true /\ u d <> 0)%R -> inf (fold_left add_ray l p d) = PInf) /\ ((0 < u d \/ fst g = true /\ u d <> 0)%R -> sup (fold_left add_ray l p d) = PInf).
Proof.
  intros n. induction l as [|h l IH]; intros p g u d F I U; simpl in *; [tauto|]. inversion F as [|? ? F1 F2]; subst. destruct I as [->|I]; [|eapply IH; eauto].
  destruct (rays_mono n l (add_ray p g) d F2) as (A & B & _). destruct (add_ray_cell n g p u d F1 U) as [[X Y]|[X Y]].
  - split; intros [H|[_ H]]; lra.
  - rewrite Y in A, B. simpl in *. split; intro H; [apply A|apply B]; destruct (fst g); auto; destruct H as [H|[H _]]; try discriminate.
    destruct (Rlt_dec (u d) 0); auto; lra. destruct (Rlt_dec 0 (u d)); auto; lra.
Qed.
Lemma rays_why : forall n l p d, Forall (ray_ok n) l ->
  (inf (fold_left add_ray l p d) = inf (p d) \/ exists g u, In g l /\ dir_of (snd g) u /\ (u d < 0 \/ fst g = true /\ u d <> 0)%R) /\
  (sup (fold_left add_ray l p d) = sup (p d) \/ exists g u, In g l /\ dir_of (snd g) u /\ (0 < u d \/ fst g = true /\ u d <> 0)%R).
Proof.
  intros n. induction l as [|g l IH]; intros p d F; simpl. auto. inversion F as [|? ? F1 F2]; subst. destruct F1 as [F1 F1']. destruct (dir_ex _ _ F1 F1') as [u U].
  destruct (IH (add_ray p g) d F2) as [A B]. destruct (add_ray_cell n g p u d (conj F1 F1') U) as [[X Y]|[X Y]]; rewrite Y in A, B; simpl in A, B; (split; [destruct A as [A|(g' & u' & A1 & A2 & A3)]|destruct B as [B|(g' & u' & A1 & A2 & A3)]]).
  all: try (right; exists g', u'; split; [right; exact A1|split; [exact A2|exact A3]]).
  - left; auto.
  - left; auto.
  - destruct (fst g) eqn:L. { right. exists g, u. repeat split; auto. } destruct (Rlt_dec (u d) 0); auto. right. exists g, u. repeat split; auto.
  - destruct (fst g) eqn:L. { right. exists g, u. repeat split; auto. } destruct (Rlt_dec 0 (u d)); auto. right. exists g, u. repeat split; auto.
Qed.
Lemma add_ray_dim : forall a l, bx_int (box_add_ray_array a l) = bx_int a /\ bx_real (box_add_ray_array a l) = bx_real a.
Proof. intros. unfold box_add_ray_array. destruct (bx_p a); auto. Qed.
Lemma add_ray_sound : forall a l v w, Forall (ray_ok (bx_dim a)) l -> gbox a v -> ray_reach l v w -> gbox (box_add_ray_array a l) w.
Proof.
  intros a l v w F G R. unfold box_add_ray_array. unfold gbox in G. destruct (bx_p a) as [p|] eqn:P; [|tauto]. induction R as [|w x g u t R IH I U T X].
  - unfold gbox, set_p, bx_dim; simpl. intros d D. destruct (rays_mono _ l p d F) as (_ & _ & A & B). destruct (G d D) as [G1 G2].
    split; [destruct A as [->| ->]|destruct B as [->| ->]]; simpl; auto.
  - unfold gbox, set_p, bx_dim in *; simpl in *. intros d D. destruct (IH d D) as [G1 G2]. destruct (rays_drop _ l p g u d F I U) as [A B]. rewrite X.
    destruct (Req_dec (u d) 0) as [Z|Z]. { rewrite Z, Rmult_0_r, Rplus_0_r. split; auto. }
    destruct (fst g) eqn:L. { split; [rewrite A by auto|rewrite B by auto]; simpl; auto. }
    destruct T as [T|T]; [discriminate|]. destruct (Rlt_dec 0 (u d)) as [S|S].
    + split; [|rewrite B by auto; simpl; auto]. eapply le_rb_le; [|exact G1]. assert (0 <= t * u d)%R by (apply Rmult_le_pos; lra). lra.
    + split; [rewrite A by (left; lra); simpl; auto|]. eapply le_rb_le; [|exact G2]. assert (0 <= t * - u d)%R by (apply Rmult_le_pos; lra). lra.
Qed.
Lemma add_ray_nebox : forall a l, Forall (ray_ok (bx_dim a)) l -> nebox a -> nebox (box_add_ray_array a l).
Proof.
  intros a l F W. destruct (nebox_point a W) as [P|[v G]].
  - unfold box_add_ray_array, nebox. rewrite P. rewrite P. exact I.
  - pose proof (add_ray_sound a l v v F G (rr_refl l v)) as G'. unfold box_add_ray_array, gbox, nebox in *. destruct (bx_p a) as [p|]; [|tauto]. simpl in *.
    intros d D. exists (v d). apply G'; auto.
Qed.
Lemma add_ray_best : forall a l b, Forall (ray_ok (bx_dim a)) l -> bx_dim b = bx_dim a -> nebox a ->
  (forall v w, gbox a v -> ray_reach l v w -> gbox b w) -> forall w, gbox (box_add_ray_array a l) w -> gbox b w.
Proof.
  intros a l b F DE W H w G. destruct (nebox_point a W) as [P|[v0 G0]].
  { unfold box_add_ray_array, gbox in G. rewrite P in G. rewrite P in G. tauto. }
  assert (Q : exists q, bx_p b = Some q). { specialize (H v0 v0 G0 (rr_refl _ _)). unfold gbox in H. destruct (bx_p b); eauto. tauto. }
  destruct Q as [q Q]. unfold box_add_ray_array in G. assert (G0' := G0). unfold gbox in G0'. destruct (bx_p a) as [p|] eqn:P; [|tauto]. unfold gbox, set_p, bx_dim in G. simpl in G.
  assert (PT : forall d, (d < bx_dim a)%nat -> exists v w', gbox a v /\ ray_reach l v w' /\ w' d = w d).
  { intros d D. destruct (G d D) as [G1 G2]. destruct (rays_why _ l p d F) as [A B].
    assert (STEP : forall x g u, in_itv x (p d) -> In g l -> dir_of (snd g) u -> u d <> 0%R -> (fst g = true \/ (0 <= (w d - x) / u d)%R) -> exists v w', gbox a v /\ ray_reach l v w' /\ w' d = w d).
    { intros x g u X I U NZ T. exists (upd v0 d x), (fun j => (upd v0 d x j + (w d - x) / u d * u j)%R). split; [apply (gbox_upd a p); auto|]. split.
      - eapply rr_step with (t := ((w d - x) / u d)%R); [apply rr_refl|exact I|exact U|exact T|]. intro; reflexivity.
      - rewrite upd_same. field. auto. }
    assert (INS : in_itv (w d) (p d) -> exists v w', gbox a v /\ ray_reach l v w' /\ w' d = w d).
    { intro X. exists (upd v0 d (w d)), (upd v0 d (w d)). split; [apply (gbox_upd a p); auto|]. split; [apply rr_refl|apply upd_same]. }
    pose proof (G0' d D) as [V1 V2].
    destruct (Rle_dec (v0 d) (w d)) as [L|L].
    - destruct B as [B|(g & u & I & U & S)].
      + apply INS. split; [|rewrite <- B; auto]. eapply le_rb_le; [|exact V1]. lra.
      + apply (STEP (v0 d) g u); [apply G0'; exact D|exact I|exact U|intro; destruct S as [S|[_ S]]; lra|]. destruct S as [S|[S _]]; auto. right. apply Rmult_le_pos; [lra|]. left. apply Rinv_0_lt_compat; auto.
    - destruct A as [A|(g & u & I & U & S)].
      + apply INS. split; [rewrite <- A; auto|]. eapply le_rb_le; [|exact V2]. lra.
      + apply (STEP (v0 d) g u); [apply G0'; exact D|exact I|exact U|intro; destruct S as [S|[_ S]]; lra|]. destruct S as [S|[S _]]; auto. right.
        replace ((w d - v0 d) / u d)%R with ((v0 d - w d) * / - u d)%R by (field; lra). apply Rmult_le_pos; [lra|]. left. apply Rinv_0_lt_compat; lra. }
  unfold gbox. rewrite Q. intros d D. rewrite DE in D. destruct (PT d D) as (v & w' & A & B & <-). specialize (H v w' A B). unfold gbox in H. rewrite Q in H. apply H. rewrite DE; auto.
Qed.

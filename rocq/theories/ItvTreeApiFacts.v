(** Soundness of the linearisation of tree expressions and constraints as offered to the domains. *)
From Coq Require Import Arith ZArith QArith Qround Qreals Reals Bool List Lra Lia Psatz.
From Verif Require Import Bound BoundFacts Itv ItvFacts ItvFacts2 Linexpr ItvLin ItvLinFacts ItvLinCons ItvLinApi ItvLinInt ApCheck ApTexpr TexprSem ItvTree ItvTreeFacts Box BoxizeFacts ItvTreeFlags ItvTreeApi.
Import ListNotations.
Open Scope Z_scope.

(** a point satisfies a tree constraint if some value of the expression there does *)
Definition sat_tcons (F : fmts) (c : tcons) (v : nat -> R) : Prop := exists r, xval F v (tc_expr c) r /\ sat_typ (tc_typ c) (tc_mod c) r.
Definition sat_tcons_all (F : fmts) (c : tcons) (v : nat -> R) : Prop := forall r, xval F v (tc_expr c) r -> sat_typ (tc_typ c) (tc_mod c) r.

Section Facts.
Context {N : numtype} {F : fmts}.
Lemma cst_no_occurs : forall d e, is_interval_cst e = true -> ~ occurs d e.
Proof.
  intros d e H O. induction O; simpl in H; try discriminate; auto; apply andb_true_iff in H; destruct H; auto.
Qed.
Lemma cst_eval_sound : forall v e r, is_interval_cst e = true -> pow_ok (N:=N) (F:=F) no_env e -> xval F v e r -> in_itv r (eval_texpr (N:=N) (F:=F) no_env e).
Proof. intros v e r C P X. eapply eval_texpr_sound; eauto. intros d O. exfalso. eapply cst_no_occurs; eauto. Qed.
Lemma ap_eval_sound : forall env v e r, (forall d, occurs d e -> in_itv (v d) (env d)) -> pow_ok (N:=N) (F:=F) env e -> pow_ok (N:=N) (F:=F) no_env e ->
  xval F v e r -> in_itv r (ap_eval_texpr0 (N:=N) (F:=F) env e).
Proof. intros env v e r I P P' X. unfold ap_eval_texpr0. destruct (is_interval_cst e) eqn:C. apply cst_eval_sound with v; auto. eapply eval_texpr_sound; eauto. Qed.

(** ** Interval linear trees *)
Lemma intlinear_sound : forall eq0 e, is_interval_linear e = true -> pow_ok (N:=N) (F:=F) no_env e ->
  exists l, intlinear_texpr (N:=N) (F:=F) eq0 e = Some l /\ flags_ok (il_terms l) /\ dims_in (fun d => occurs d e) (il_terms l) /\
    forall v r, xval F v e r -> ival l v r.
Proof.
  intros eq0. induction e as [c|k|o t d a IH|o t d a IHa b IHb]; intros L P.
  - simpl. eexists. split; eauto. split. constructor. split. constructor. intros v r X. apply cst_form_val. apply xval_cst in X. apply itv_set_coeff_sound; auto.
  - simpl. eexists. split; eauto. split. repeat constructor. split. repeat constructor. intros v r X. apply xval_dim in X. subst.
    exists 0%R, (1 * v k + 0)%R. split; [|split; [|lra]]. split; simpl; unfold Q2R; simpl; lra. apply (tv_cons v 1%R (mkT _ true k)). split; simpl; unfold Q2R; simpl; lra. constructor.
  - cbn [intlinear_texpr]. destruct (is_interval_cst (TUn o t d a)) eqn:C.
    { eexists. split; eauto. split. constructor. split. constructor. intros v r X. apply cst_form_val. apply cst_eval_sound with v; auto. }
    assert (L' : is_interval_linear a = true /\ (o = UNeg \/ o = UCast /\ t = RReal)).
    { destruct o; simpl in L; try discriminate; auto. apply andb_true_iff in L. destruct L as [L1 L2]. unfold un_exact in L1. simpl in L1. apply rtype_eqb_eq in L1. auto. }
    destruct L' as [LA K]. simpl in P. destruct (IH LA P) as (l & E & FL & D & S). rewrite E.
    assert (M : dims_in (fun d0 => occurs d0 (TUn o t d a)) (il_terms l)) by (eapply Forall_impl; [|exact D]; simpl; intros; constructor; auto).
    destruct K as [->|[-> ->]]; simpl.
    + rewrite andb_false_r. eexists. split; eauto. split. apply ilin_neg_flags; auto. split. apply (ilin_neg_dims _ _ M).
      intros v r X. apply xval_un in X. destruct X as (x & X & K). simpl in K. subst r. apply ilin_neg_iff. rewrite Ropp_involutive. auto.
    + eexists. split; eauto. split; auto. split; auto. intros v r X. apply xval_un in X. destruct X as (x & X & K). simpl in K. subst. auto.
  - cbn [intlinear_texpr]. destruct (is_interval_cst (TBin o t d a b)) eqn:C.
    { eexists. split; eauto. split. constructor. split. constructor. intros v r X. apply cst_form_val. apply cst_eval_sound with v; auto. }
    simpl in P. destruct P as (PA & PB & _).
    assert (ML : forall l, dims_in (fun d0 => occurs d0 a) (il_terms l) -> dims_in (fun d0 => occurs d0 (TBin o t d a b)) (il_terms l)) by (intros l D; eapply Forall_impl; [|exact D]; simpl; intros; apply oc_l; auto).
    assert (MR : forall l, dims_in (fun d0 => occurs d0 b) (il_terms l) -> dims_in (fun d0 => occurs d0 (TBin o t d a b)) (il_terms l)) by (intros l D; eapply Forall_impl; [|exact D]; simpl; intros; apply oc_r; auto).
    assert (T : t = RReal). { destruct o; simpl in L; try discriminate; repeat (apply andb_true_iff in L; destruct L as [L ?]); unfold bin_exact in *; simpl in *; apply rtype_eqb_eq; auto. }
    subst t. simpl. destruct o; simpl in L; try discriminate.
    + apply andb_true_iff in L. destruct L as [LA LB]. destruct (IHa LA PA) as (la & EA & FA & DA & SA), (IHb LB PB) as (lb & EB & FB & DB & SB). rewrite EA, EB. eexists. split; eauto.
      split. apply ilin_add_flags; auto. split. apply ilin_add_dims; auto. intros v r X. apply xval_bin in X. destruct X as (x & y & X & Y & K). simpl in K. subst. apply ilin_add_sound; auto.
    + apply andb_true_iff in L. destruct L as [LA LB]. destruct (IHa LA PA) as (la & EA & FA & DA & SA), (IHb LB PB) as (lb & EB & FB & DB & SB). rewrite EA, EB. eexists. split; eauto.
      split. apply ilin_add_flags; auto. apply ilin_neg_flags; auto. split. apply ilin_add_dims; auto. apply ilin_neg_dims; auto. intros v r X. apply xval_bin in X. destruct X as (x & y & X & Y & K). simpl in K. subst. apply ilin_sub_sound; auto.
    + destruct (is_interval_cst b) eqn:CB.
      * assert (LA : is_interval_linear a = true). { apply orb_true_iff in L. destruct L as [L|L]; apply andb_true_iff in L; destruct L as [L1 L2]; auto. exfalso. simpl in C. rewrite L2, CB in C. discriminate. }
        destruct (IHa LA PA) as (la & EA & FA & DA & SA). rewrite EA. eexists. split; eauto. split. apply ilin_scale_flags. split. apply ilin_scale_dims; auto.
        intros v r X. apply xval_bin in X. destruct X as (x & y & X & Y & K). simpl in K. subst. apply ilin_scale_sound; auto. apply cst_eval_sound with v; auto.
      * rewrite andb_false_r in L. simpl in L. apply andb_true_iff in L. destruct L as [LB CA]. rewrite CA. destruct (IHb LB PB) as (lb & EB & FB & DB & SB). rewrite EB. eexists. split; eauto. split. apply ilin_scale_flags. split. apply ilin_scale_dims; auto.
        intros v r X. apply xval_bin in X. destruct X as (x & y & X & Y & K). simpl in K. subst. rewrite Rmult_comm. apply ilin_scale_sound; auto. apply cst_eval_sound with v; auto.
    + apply andb_true_iff in L. destruct L as [LA CB]. rewrite CB. destruct (IHa LA PA) as (la & EA & FA & DA & SA). rewrite EA. eexists. split; eauto. split. apply ilin_scale_flags. split. apply ilin_scale_dims; auto.
      intros v r X. apply xval_bin in X. destruct X as (x & y & X & Y & K). simpl in K. destruct K as [NY K]. subst. unfold Rdiv. apply ilin_scale_sound; auto. rewrite <- (Rmult_1_l (/ y)). apply itv_div_sound; auto.
      split; simpl; unfold Q2R; simpl; lra. apply cst_eval_sound with v; auto.
Qed.

(** ** Any tree *)
(** what is asked of the powers of a tree: everything is right without powers *)
Definition tree_pow_ok (eq0 : bool) (env : nat -> itv) (intdim : nat) (e : texpr) : Prop :=
  if is_interval_linear e then pow_ok (N:=N) (F:=F) no_env e else lin_pow_ok (N:=N) (F:=F) eq0 env intdim e.
Lemma intlin_form_sound : forall eq0 env intdim v e r, pt_ok env intdim v e -> lin_pow_ok (N:=N) (F:=F) eq0 env intdim e -> xval F v e r ->
  shape (fun d => occurs d e) (intlin_form (N:=N) (F:=F) eq0 env intdim e) /\ ival (intlin_form (N:=N) (F:=F) eq0 env intdim e) v r.
Proof.
  intros eq0 env intdim v e r PT PO X. destruct (intlin_texpr_sound eq0 env intdim v e r PT PO X) as (l & E & S & I). unfold intlin_texpr in E. unfold intlin_form.
  destruct (intlin_rec eq0 env intdim e) as [[t l0] i]. destruct (negb (itv_is_bottom i) && negb (itv_is_bottom (il_cst l0))); inversion E; subst; auto.
Qed.
Lemma intlin_any_sound : forall eq0 env intdim v e r, pt_ok env intdim v e -> tree_pow_ok eq0 env intdim e -> xval F v e r ->
  exists l, intlin_any (N:=N) (F:=F) eq0 env intdim e = Some l /\ flags_ok (il_terms l) /\ dims_in (fun d => occurs d e) (il_terms l) /\ ival l v r.
Proof.
  intros eq0 env intdim v e r PT PO X. unfold intlin_any, tree_pow_ok in *. destruct (is_interval_linear e) eqn:L.
  - destruct (intlinear_sound eq0 e L PO) as (l & E & A & B & C). exists l. auto.
  - destruct (intlin_form_sound eq0 env intdim v e r PT PO X) as [(A & B & _) I]. eexists; eauto.
Qed.
Lemma dims_env : forall env intdim v e l, pt_ok env intdim v e -> dims_in (fun d => occurs d e) l -> in_env v env l.
Proof. intros env intdim v e l PT D. eapply Forall_impl; [|exact D]. simpl. intros t T. apply PT; auto. Qed.
(** the linear expression covers the tree *)
Lemma ap_intlinearize_sound : forall eq0 env intdim quasi v e r, pt_ok env intdim v e -> tree_pow_ok eq0 env intdim e -> xval F v e r ->
  exists x, ap_intlinearize_texpr0 (N:=N) (F:=F) eq0 env intdim quasi e = Some x /\ expr_val x v r.
Proof.
  intros eq0 env intdim quasi v e r PT PO X. destruct (intlin_any_sound eq0 env intdim v e r PT PO X) as (l & E & A & B & I). unfold ap_intlinearize_texpr0. rewrite E. eexists. split; eauto.
  apply linexpr_of_ilin_iff. destruct (quasi && _); auto. apply quasilinearize_sound; auto. eapply dims_env; eauto.
Qed.
(** with [quasi] all its coefficients are scalars *)
Lemma ap_intlinearize_shape : forall eq0 env intdim e x, flags_ok (il_terms (match intlin_any (N:=N) (F:=F) eq0 env intdim e with Some l => l | None => cst_form itv_top end)) ->
  ap_intlinearize_texpr0 (N:=N) (F:=F) eq0 env intdim true e = Some x -> scalar_terms x.
Proof.
  intros eq0 env intdim e x FL H. unfold ap_intlinearize_texpr0 in H. destruct (intlin_any eq0 env intdim e) as [l|] eqn:E; inversion H; subst. clear H. simpl.
  assert (G : forall l', Forall (fun t => itv_is_point (t_itv t) = true) (il_terms l') -> scalar_terms (linexpr_of_ilin l')).
  { intros l' K. unfold scalar_terms, linexpr_of_ilin. simpl. clear -K. induction K; simpl; constructor; auto. simpl. unfold coeff_of_itv. rewrite H. auto. }
  apply G. destruct (is_quasilinear l) eqn:Q; simpl.
  - unfold is_quasilinear in Q. rewrite forallb_forall in Q. unfold flags_ok in FL. rewrite Forall_forall in *. auto.
  - eapply Forall_impl; [|apply quasilinearize_shape; auto]. simpl. tauto.
Qed.

(** ** Constraints *)
Definition tmod_ok (c : tcons) : Prop := tc_typ c = CEqMod -> match tc_mod c with Some (Fin q) => rnd N q = Fin q | _ => True end.
Lemma tmod_conv : forall c r, tmod_ok c -> (sat_typ (tc_typ c) (tc_mod c) r <-> sat_typ (tc_typ c) (Some (Fin (mod_num (N:=N) (tc_mod c)))) r).
Proof.
  intros c r H. pose proof (mod_conv (N:=N) (mkCons (tc_typ c) (mkLin (Scal (Fin 0)) (Dense [])) (tc_mod c)) r H) as G. exact G.
Qed.
Lemma tcons_not_bottom : forall ty m i r, in_itv r i -> sat_typ ty m r -> tcons_bound_bottom ty i = false.
Proof.
  intros ty m i r I S. unfold tcons_bound_bottom. destruct ty; auto; apply (not_bottom r); apply itv_meet_spec; split; auto; simpl in S; split; simpl; auto; unfold Q2R; simpl; try lra.
Qed.
Lemma intlin_tcons_sound : forall eq0 env intdim v c r, pt_ok env intdim v (tc_expr c) -> lin_pow_ok (N:=N) (F:=F) eq0 env intdim (tc_expr c) ->
  xval F v (tc_expr c) r -> 
  let '(k, b) := intlin_tcons (N:=N) (F:=F) eq0 env intdim c in
  (b = true -> k = icons_bool k false /\ ~ sat_typ (tc_typ c) (tc_mod c) r) /\
  (b = false -> ic_typ k = tc_typ c /\ ic_num k = mod_num (N:=N) (tc_mod c) /\ flags_ok (il_terms (ic_expr k)) /\ dims_in (fun d => occurs d (tc_expr c)) (il_terms (ic_expr k)) /\ ival (ic_expr k) v r).
Proof.
  intros eq0 env intdim v c r PT PO X. unfold intlin_tcons. destruct (intlin_rec_sound eq0 env intdim v _ r PT PO X) as (A & B & _). pose proof (intlin_rec_shape (N:=N) (F:=F) eq0 env intdim (tc_expr c)) as (S1 & S2 & _).
  destruct (intlin_rec eq0 env intdim (tc_expr c)) as [[t l] i]. simpl in *.
  assert (C : itv_is_bottom (il_cst l) = false) by (destruct A as (k & y & K & _); eapply not_bottom; eauto). rewrite C. rewrite andb_true_r.
  destruct (tcons_bound_bottom (tc_typ c) i) eqn:TB; simpl.
  - split; [|discriminate]. intros _. split; auto. intro S. rewrite (tcons_not_bottom _ _ _ _ B S) in TB. discriminate.
  - split; [discriminate|]. intros _. split; auto. split; auto. destruct (il_terms l) eqn:T.
    + split. constructor. split. constructor. apply cst_form_val. apply itv_meet_spec. split; auto. apply (ival_nil' l v); auto.
    + rewrite T. auto.
Qed.
Lemma any_tcons_sound : forall eq0 env intdim v c r, pt_ok env intdim v (tc_expr c) -> tree_pow_ok eq0 env intdim (tc_expr c) ->
  xval F v (tc_expr c) r -> 
  let k := fst (if is_interval_linear (tc_expr c) then intlinear_tcons (N:=N) (F:=F) eq0 c else intlin_tcons (N:=N) (F:=F) eq0 env intdim c) in
  (k = icons_bool k false /\ ~ sat_typ (tc_typ c) (tc_mod c) r) \/
  (ic_typ k = tc_typ c /\ ic_num k = mod_num (N:=N) (tc_mod c) /\ flags_ok (il_terms (ic_expr k)) /\ dims_in (fun d => occurs d (tc_expr c)) (il_terms (ic_expr k)) /\ ival (ic_expr k) v r).
Proof.
  intros eq0 env intdim v c r PT PO X. unfold tree_pow_ok in PO. destruct (is_interval_linear (tc_expr c)) eqn:L.
  - destruct (intlinear_sound eq0 _ L PO) as (l & E & A & B & C). unfold intlinear_tcons. rewrite E. simpl. right. auto 8.
  - pose proof (intlin_tcons_sound eq0 env intdim v c r PT PO X) as G. destruct (intlin_tcons eq0 env intdim c) as [k b]. destruct G as [G1 G2]. simpl. destruct b; auto.
Qed.
Lemma ql_cons_crash : forall env meet k, il_terms (ic_expr k) <> [] -> exists k', quasilinearize_lincons (N:=N) env meet k = Some k'.
Proof. intros env meet k H. unfold quasilinearize_lincons. destruct (il_terms (ic_expr k)); [congruence|eauto]. Qed.
Lemma nql_terms : forall e, is_quasilinear e = false -> il_terms e <> [].
Proof. intros e H E. unfold is_quasilinear in H. rewrite E in H. discriminate. Qed.
(** no abort, and a point that satisfies the tree constraint satisfies the linear one *)
Lemma ap_intlinearize_tcons0_meet : forall eq0 env intdim quasi meet v c, tmod_ok c -> pt_ok env intdim v (tc_expr c) -> tree_pow_ok eq0 env intdim (tc_expr c) ->
  sat_tcons F c v -> exists c', ap_intlinearize_tcons0 (N:=N) (F:=F) eq0 env intdim quasi meet c = Some c' /\ sat_cons c' v.
Proof.
  intros eq0 env intdim quasi meet v c MO PT PO (r & X & S). unfold ap_intlinearize_tcons0. pose proof (any_tcons_sound eq0 env intdim v c r PT PO X) as G. cbv zeta in G. set (k := fst _) in *.
  destruct G as [[_ G]|(G1 & G2 & G3 & G4 & G5)]; [tauto|].
  assert (SS : sat_some k v). { exists r. split; auto. rewrite G1, G2. apply tmod_conv; auto. }
  destruct (quasi && negb (is_quasilinear (ic_expr k))) eqn:Q.
  - apply andb_true_iff in Q. destruct Q as [_ Q]. apply negb_true_iff in Q. destruct (ql_cons_crash env meet k (nql_terms _ Q)) as [k' E]. rewrite E. simpl. eexists; split; eauto. apply lincons_of_icons_some.
    eapply quasilinearize_lincons_some; eauto. eapply dims_env; eauto. intros _ K. congruence.
  - simpl. eexists; split; eauto. apply lincons_of_icons_some; auto.
Qed.
(** if every value of the linear form satisfies the linear constraint, so does every value of the tree *)
Lemma ap_intlinearize_tcons0_test : forall eq0 env intdim quasi meet v c c', tmod_ok c -> pt_ok env intdim v (tc_expr c) -> tree_pow_ok eq0 env intdim (tc_expr c) ->
  ap_intlinearize_tcons0 (N:=N) (F:=F) eq0 env intdim quasi meet c = Some c' -> sat_all c' v -> sat_tcons_all F c v.
Proof.
  intros eq0 env intdim quasi meet v c c' MO PT PO H SA r X. unfold ap_intlinearize_tcons0 in H. pose proof (any_tcons_sound eq0 env intdim v c r PT PO X) as G. cbv zeta in G. set (k := fst _) in *.
  assert (SE : sat_each k v \/ il_terms (ic_expr k) = [] /\ sat_each k v).
  { destruct (quasi && negb (is_quasilinear (ic_expr k))) eqn:Q.
    - apply andb_true_iff in Q. destruct Q as [_ Q]. apply negb_true_iff in Q. destruct (ql_cons_crash env meet k (nql_terms _ Q)) as [k' E]. rewrite E in H. simpl in H. inversion H; subst. apply lincons_of_icons_each in SA. left.
      destruct G as [[G _]|(G1 & G2 & G3 & G4 & G5)]. exfalso. rewrite G in Q. discriminate.
      eapply quasilinearize_lincons_each; eauto. eapply dims_env; eauto. intros _ K. congruence.
    - simpl in H. inversion H; subst. apply lincons_of_icons_each in SA. auto. }
  assert (SE' : sat_each k v) by tauto. destruct G as [[G _]|(G1 & G2 & G3 & G4 & G5)]. exfalso. rewrite G in SE'. eapply icons_false_each; eauto.
  apply tmod_conv; auto. rewrite <- G1, <- G2. apply SE'; auto.
Qed.
(** the bounds of a single-constraint test are never an abort *)
Lemma ap_intlinearize_tcons0_total : forall eq0 env intdim quasi meet c, exists c', ap_intlinearize_tcons0 (N:=N) (F:=F) eq0 env intdim quasi meet c = Some c'.
Proof.
  intros. unfold ap_intlinearize_tcons0. set (k := fst _). destruct (quasi && negb (is_quasilinear (ic_expr k))) eqn:Q; simpl; eauto.
  apply andb_true_iff in Q. destruct Q as [_ Q]. apply negb_true_iff in Q. destruct (ql_cons_crash env meet k (nql_terms _ Q)) as [k' E]. rewrite E. simpl. eauto.
Qed.

(** ** Arrays of constraints *)
Lemma loop_sound : forall eq0 env intdim v l, Forall (fun c => tmod_ok c /\ pt_ok env intdim v (tc_expr c) /\ lin_pow_ok (N:=N) (F:=F) eq0 env intdim (tc_expr c) /\ sat_tcons F c v) l ->
  exists t, intlin_tcons_loop (N:=N) (F:=F) eq0 env intdim l = Some t /\
   Forall2 (fun c k => ic_typ k = tc_typ c /\ shape (fun d => occurs d (tc_expr c)) (ic_expr k) /\ (il_terms (ic_expr k) = [] -> cst_flag_ok (ic_expr k)) /\ sat_some k v /\
      ic_expr k = snd (fst (intlin_rec (N:=N) (F:=F) eq0 env intdim (tc_expr c)))) l t.
Proof.
  intros eq0 env intdim v. induction l as [|c l IH]; intros H. exists []. split; auto. inversion H as [|? ? (MO & PT & PO & r & X & S) H']; subst. destruct (IH H') as (t & E & G). simpl.
  destruct (intlin_rec_sound eq0 env intdim v _ r PT PO X) as (A & B & _). pose proof (intlin_rec_shape (N:=N) (F:=F) eq0 env intdim (tc_expr c)) as SH. destruct (intlin_rec eq0 env intdim (tc_expr c)) as [[ty l0] i] eqn:ER. simpl in *.
  assert (C : itv_is_bottom (il_cst l0) = false) by (destruct A as (k & y & K & _); eapply not_bottom; eauto). rewrite C, (tcons_not_bottom _ _ _ _ B S). simpl.
  set (k := mkIC l0 (tc_typ c) (mod_num (N:=N) (tc_mod c))).
  assert (SS : sat_some k v). { exists r. split; auto. simpl. apply tmod_conv; auto. }
  assert (FL : il_terms l0 = [] -> cst_flag_ok l0). { intros T. destruct SH as (_ & _ & SH). destruct (SH T) as [K|K]; auto. congruence. }
  destruct (is_nil (il_terms l0) && tfalse (eval_cst k)) eqn:Z.
  - exfalso. apply andb_true_iff in Z. destruct Z as [Z1 Z2]. assert (T : il_terms l0 = []) by (destruct (il_terms l0); auto; discriminate). apply (eval_cst_false k v); auto. intros _ _. apply FL; auto. destruct (eval_cst k); auto; discriminate.
  - rewrite E. eexists. split; eauto. constructor; auto. split; [reflexivity|]. split; [exact SH|]. split; [exact FL|]. split; [exact SS|]. rewrite ER. reflexivity.
Qed.
Lemma bound_row_sat : forall d coef cst ty v x, in_itv x cst -> sat_typ ty (Some (Fin 0)) (x + IZR coef * v d) -> sat_some (bound_row d coef cst ty) v.
Proof.
  intros d coef cst ty v x X S. exists (x + IZR coef * v d)%R. split; auto. exists x, (IZR coef * v d + 0)%R. split; auto. split; [|lra]. simpl.
  apply (tv_cons v (IZR coef) (mkT (itv_of_int coef) true d)). split; simpl; try rewrite Q2R_opp; rewrite Q2R_inject; lra. constructor.
Qed.
Lemma all_rows_sound : forall tch env v n, (forall d, In d n -> in_itv (v d) (env d)) -> forall r, all_rows tch env n = Some r -> Forall (fun k => sat_some k v) r.
Proof.
  intros tch env v. induction n as [|d n IH]; simpl; intros I r H. inversion H; constructor.
  destruct (rows_of tch env d) as [a|] eqn:A; try discriminate. destruct (all_rows tch env n) as [b|] eqn:B; inversion H; subst. apply Forall_app. split; [|apply IH; auto].
  assert (ID : in_itv (v d) (env d)) by auto. unfold rows_of in A. destruct (tch d) as [ci cs]. destruct ((ci || cs) && itv_is_point (env d)).
  - inversion A; subst. constructor; auto. apply bound_row_sat with (v d); auto. simpl. lra.
  - assert (G1 : forall a1, (if ci then match inf (env d) with Fin q => Some [bound_row d 1 (itv_of_num q) CSupEq] | _ => None end else Some []) = Some a1 -> Forall (fun k => sat_some k v) a1).
    { intros a1 K. destruct ci; [|inversion K; constructor]. destruct (inf (env d)) as [|q|] eqn:Q; inversion K; subst. constructor; auto. apply bound_row_sat with (Q2R q). split; simpl; try rewrite Q2R_opp; lra. destruct ID as [K1 _]. rewrite Q in K1. simpl in *. lra. }
    assert (G2 : forall a1, (if cs then match sup (env d) with Fin q => Some [bound_row d (-1) (itv_of_num q) CSupEq] | _ => None end else Some []) = Some a1 -> Forall (fun k => sat_some k v) a1).
    { intros a1 K. destruct cs; [|inversion K; constructor]. destruct (sup (env d)) as [|q|] eqn:Q; inversion K; subst. constructor; auto. apply bound_row_sat with (Q2R q). split; simpl; try rewrite Q2R_opp; lra. destruct ID as [_ K1]. rewrite Q in K1. simpl in *. lra. }
    destruct (if ci then _ else _) as [a1|]; try discriminate. destruct (if cs then _ else _) as [a2|]; inversion A; subst. apply Forall_app; auto.
Qed.
End Facts.

(** with exact numbers; or with any numbers when the boxing is not used and no equality is quasi-linearised *)
Definition array_num_ok (N : numtype) (lt : ltype) (boxize : bool) (l : list tcons) : Prop :=
  N = exact_num \/ boxize = false /\ (lt = TIntlinear \/ Forall (fun c => tc_typ c <> CEq) l).
Lemma Forall2_r : forall {A B} (P : B -> Prop) (Q : A -> B -> Prop) l t, Forall2 Q l t -> (forall a b, In a l -> Q a b -> P b) -> Forall P t.
Proof. intros A B P Q l t H. induction H; intros G; constructor. eapply G; eauto. left; auto. apply IHForall2. intros. eapply G; eauto. right; auto. Qed.
Lemma ap_tcons_array_meet : forall (N : numtype) (F : fmts) eq0 env intdim n lt boxize kmax ionly tch v l t,
  array_num_ok N lt boxize l -> (intdim <= n)%nat ->
  Forall (fun c => tmod_ok (N:=N) c /\ (forall d, occurs d (tc_expr c) -> (d < n)%nat) /\ lin_pow_ok (N:=N) (F:=F) eq0 env intdim (tc_expr c)) l ->
  in_dims v n env -> int_point intdim v -> Forall (fun c => sat_tcons F c v) l ->
  ap_intlinearize_tcons0_array (N:=N) (F:=F) eq0 env intdim n lt true boxize kmax ionly tch l = Some t -> Forall (fun c => sat_cons c v) t.
Proof.
  intros N F eq0 env intdim n lt boxize kmax ionly tch v l t NU LE HY EN IP SA H.
  assert (PRE : Forall (fun c => tmod_ok (N:=N) c /\ pt_ok env intdim v (tc_expr c) /\ lin_pow_ok (N:=N) (F:=F) eq0 env intdim (tc_expr c) /\ sat_tcons F c v) l).
  { rewrite Forall_forall in *. intros c C. destruct (HY c C) as (A & B & D). split; auto. split; [|split; auto]. intros d O. split; auto. }
  destruct (loop_sound eq0 env intdim v l PRE) as (t0 & E & G). unfold ap_intlinearize_tcons0_array, intlin_tcons_array in H. rewrite E in H. simpl in H.
  assert (SO : Forall (fun k => sat_some k v) t0) by (eapply Forall2_r; [exact G|]; intros a b _ K; apply K).
  assert (FO : Forall (fun k => flags_ok (il_terms (ic_expr k)) /\ Forall (fun t => (t_dim t < n)%nat) (il_terms (ic_expr k))) t0).
  { eapply Forall2_r; [exact G|]. intros a b I (_ & (K1 & K2 & _) & _). split; auto. rewrite Forall_forall in HY. destruct (HY a I) as (_ & D & _). eapply Forall_impl; [|exact K2]. simpl. auto. }
  assert (OUT : forall r, Forall (fun k => sat_some k v) r -> Forall (fun c => sat_cons c v) (map lincons_of_icons r)).
  { intros r R. apply Forall_map. eapply Forall_impl; [|exact R]. intros a A. apply lincons_of_icons_some; auto. }
  destruct (single_cst t0). { simpl in H. inversion H; subst. auto. }
  assert (EQF : N = exact_num -> Forall eq_flag_ok t0).
  { intros ->. eapply Forall2_r; [exact G|]. intros a b I (K1 & K2 & K3 & K4 & K5) _ Q. rewrite Forall_forall in PRE. destruct (PRE a I) as (_ & PT & PO & r & X & _).
    destruct (il_terms (ic_expr b)) eqn:T; [auto|]. apply okl_flag; auto. rewrite K5. eapply okl_rec; eauto. apply K2. congruence. }
  assert (BX : exists env' ch em, (if boxize && (if ionly then negb (forallb (fun c => is_quasilinear (ic_expr c)) t0) else true)
       then boxize_lincons_array (N:=N) true intdim kmax ionly t0 env env else (env, false, false)) = (env', ch, em) /\ em = false /\ in_dims v n env').
  { destruct boxize; simpl; [|exists env, false, false; auto]. destruct NU as [NU|[NU _]]; [|discriminate]. destruct (if ionly then _ else true); [|exists env, false, false; auto].
    pose proof (bz_iter_sound (N:=N) v n true intdim ionly env t0 (Nat.max kmax 1) env false IP) as B. unfold boxize_lincons_array.
    destruct (bz_iter _ _ _ _ _ _ _ _) as [[env' ch] em]. exists env', ch, em. split; auto. apply B; auto. clear B. specialize (EQF NU).
    rewrite Forall_forall in *. intros k K _. destruct (FO k K) as [K1 K2]. split; [|auto]. split; auto. split; [left; auto|]. split; auto. }
  destruct BX as (env' & ch & em & EB & -> & EN'). simpl in EB. rewrite EB in H.
  assert (CE : Forall (cons_in_env v env') t0). { eapply Forall_impl; [|exact FO]. simpl. intros k [_ K]. apply (in_dims_env v n env'); auto. }
  assert (MO : lt <> TIntlinear -> Forall (meet_ok (N:=N)) t0).
  { intros NL. destruct NU as [->|[_ [K|K]]]; [| congruence|].
    - specialize (EQF eq_refl). rewrite Forall_forall in *. intros k J. split; [apply FO; auto|]. split; auto.
    - eapply Forall2_r with (l := l); [exact G|]. intros a b I (K1 & (K2 & _) & _). assert (ic_typ b <> CEq) by (rewrite K1; rewrite Forall_forall in K; auto). split; auto. split; auto. intro; contradiction. }
  assert (QL : forall r, (match lt with TIntlinear => Some t0 | TQuasilinear => quasilinearize_lincons0_array (N:=N) env' false true t0 | TLinear => quasilinearize_lincons0_array (N:=N) env' true true t0 end) = Some r -> Forall (fun k => sat_some k v) r).
  { intros r R. destruct lt. inversion R; subst; auto. assert (M' := MO ltac:(discriminate)). exact (quasilinearize_lincons0_array_meet (N:=N) env' false v t0 r M' CE SO R). assert (M' := MO ltac:(discriminate)). exact (quasilinearize_lincons0_array_meet (N:=N) env' true v t0 r M' CE SO R). }
  destruct (match lt with TIntlinear => _ | TQuasilinear => _ | TLinear => _ end) as [t1|]; [|discriminate]. specialize (QL t1 eq_refl).
  destruct (single_false t1). { simpl in H. inversion H; subst; auto. }
  destruct ch; [|simpl in H; inversion H; subst; auto].
  destruct (all_rows tch env' (seq 0 n)) as [r|] eqn:R; simpl in H; inversion H; subst. apply OUT. apply Forall_app. split; auto. eapply all_rows_sound; eauto. intros d D. apply in_seq in D. apply EN'. lia.
Qed.

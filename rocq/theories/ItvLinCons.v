(** Soundness of the evaluation and transformation of interval linear constraints. *)
From Coq Require Import ZArith Znumtheory QArith Qround Qreals Reals Lra Lia Bool List Permutation Sorted.
From Verif Require Import Bound BoundFacts Itv ItvFacts ItvFacts2 Linexpr ItvLin ItvLinFacts ItvLinExact.
Import ListNotations.
Open Scope Z_scope.

(** the flag of the constant matters for equalities and congruences with scalar coefficients only *)
Definition eq_flag_ok (c : icons) : Prop := ic_typ c = CEq -> is_quasilinear (ic_expr c) = true -> cst_flag_ok (ic_expr c).
Definition eqm_flag_ok (c : icons) : Prop := ic_typ c = CEq \/ ic_typ c = CEqMod -> is_quasilinear (ic_expr c) = true -> cst_flag_ok (ic_expr c).

Lemma ql_nil : forall e, il_terms e = [] -> is_quasilinear e = true.
Proof. intros e H. unfold is_quasilinear. rewrite H. reflexivity. Qed.
Lemma ival_nil : forall c q v r, ival (mkIL [] c q) v r <-> in_itv r c.
Proof.
  intros. split.
  - intros (x & r1 & A & T & ->). simpl in *. inversion T; subst. rewrite Rplus_0_r. auto.
  - intro H. exists r, 0%R. simpl. repeat split; try apply H. constructor. lra.
Qed.
Lemma ival_nil' : forall e v r, il_terms e = [] -> (ival e v r <-> in_itv r (il_cst e)).
Proof. intros [ts c q] v r H. simpl in *. subst. apply ival_nil. Qed.

(** ** C08 *)
Lemma eval_cst_false : forall c v, il_terms (ic_expr c) = [] -> eq_flag_ok c -> eval_cst c = TFalse -> ~ sat_some c v.
Proof.
  intros c v T F H (r & V & S). apply ival_nil' in V; auto. unfold eval_cst in H.
  destruct (itv_is_bottom (il_cst (ic_expr c))) eqn:B. apply (itv_empty_test_sound _ B r V).
  unfold eq_flag_ok in F. destruct V as [V1 V2]. destruct (ic_typ c); simpl in S.
  - subst r. destruct (il_eq (ic_expr c)) eqn:EQ.
    + destruct (Z.eqb_spec (bsgn (sup (il_cst (ic_expr c)))) 0) as [Z|Z]; try discriminate.
      specialize (F eq_refl (ql_nil _ T) EQ). apply point_iff in F. destruct F as (p & q & E1 & E2 & E3). rewrite E1, E2 in *. simpl in *.
      apply Z. apply sgn_Q_zero. lra.
    + destruct ((bsgn (sup (il_cst (ic_expr c))) <? 0) || (bsgn (inf (il_cst (ic_expr c))) <? 0)) eqn:O; try discriminate.
      apply orb_true_iff in O. rewrite !Z.ltb_lt in O. destruct O as [O|O].
      * pose proof (bsgn_lt0 _ O _ V2). lra.
      * pose proof (bsgn_lt0 _ O _ V1). lra.
  - destruct (Z.leb_spec (bsgn (inf (il_cst (ic_expr c)))) 0); try discriminate.
    destruct (Z.ltb_spec (bsgn (sup (il_cst (ic_expr c)))) 0); try discriminate. pose proof (bsgn_lt0 _ H1 _ V2). lra.
  - destruct (Z.ltb_spec (bsgn (inf (il_cst (ic_expr c)))) 0); try discriminate.
    destruct (Z.leb_spec (bsgn (sup (il_cst (ic_expr c)))) 0); try discriminate. pose proof (bsgn_le0 _ H1 _ V2). lra.
  - destruct (il_eq (ic_expr c)); try discriminate.
    destruct (bsgn (sup (il_cst (ic_expr c))) =? 0); try discriminate. destruct (negb (Qeq_bool (ic_num c) 0)); discriminate.
  - destruct ((bsgn (inf (il_cst (ic_expr c))) <? 0) || (bsgn (sup (il_cst (ic_expr c))) <? 0)); discriminate.
Qed.
Lemma is_int_0 : forall q, is_integer (0 / Q2R q).
Proof. intros. exists 0%Z. simpl. unfold Rdiv. lra. Qed.
Lemma eval_cst_true : forall c v, il_terms (ic_expr c) = [] -> eqm_flag_ok c -> eval_cst c = TTrue -> sat_each c v.
Proof.
  intros c v T F H r V. apply ival_nil' in V; auto. unfold eval_cst in H.
  destruct (itv_is_bottom (il_cst (ic_expr c))) eqn:B. discriminate.
  unfold eqm_flag_ok in F. destruct V as [V1 V2]. 
  assert (G : (ic_typ c = CEq \/ ic_typ c = CEqMod) -> il_eq (ic_expr c) = true -> bsgn (sup (il_cst (ic_expr c))) = 0 -> r = 0%R).
  { intros K EQ Z. specialize (F K (ql_nil _ T) EQ). apply point_iff in F. destruct F as (p & q & E1 & E2 & E3). rewrite E1, E2 in *. simpl in *.
    apply sgn_Q_zero in Z. lra. }
  destruct (ic_typ c); simpl.
  - destruct (il_eq (ic_expr c)) eqn:EQ.
    + destruct (Z.eqb_spec (bsgn (sup (il_cst (ic_expr c)))) 0) as [Z|Z]; try discriminate. auto.
    + destruct ((bsgn (sup (il_cst (ic_expr c))) <? 0) || (bsgn (inf (il_cst (ic_expr c))) <? 0)) eqn:O; try discriminate.
  - destruct (Z.leb_spec (bsgn (inf (il_cst (ic_expr c)))) 0).
    + pose proof (bsgn_le0 _ H0 _ V1). lra.
    + destruct (bsgn (sup (il_cst (ic_expr c))) <? 0); discriminate.
  - destruct (Z.ltb_spec (bsgn (inf (il_cst (ic_expr c)))) 0).
    + pose proof (bsgn_lt0 _ H0 _ V1). lra.
    + destruct (bsgn (sup (il_cst (ic_expr c))) <=? 0); discriminate.
  - destruct (il_eq (ic_expr c)) eqn:EQ; try discriminate.
    destruct (Z.eqb_spec (bsgn (sup (il_cst (ic_expr c)))) 0) as [Z|Z].
    + assert (r = 0%R) by auto. subst r. destruct (Qeq_bool (ic_num c) 0); auto. apply is_int_0.
    + destruct (negb (Qeq_bool (ic_num c) 0)); discriminate.
  - destruct ((bsgn (inf (il_cst (ic_expr c))) <? 0) || (bsgn (sup (il_cst (ic_expr c))) <? 0)) eqn:O; try discriminate.
    apply orb_true_iff in O. rewrite !Z.ltb_lt in O. destruct O as [O|O].
    * pose proof (bsgn_lt0 _ O _ V1). lra.
    * pose proof (bsgn_lt0 _ O _ V2). lra.
Qed.
(** "false" is answered whenever it is right, for = >= > *)
Definition ineq_typ (t : constyp) : Prop := t = CEq \/ t = CSupEq \/ t = CSup.
Lemma in_large : forall a x y, in_itv x a -> sup a = PInf -> (x <= y)%R -> in_itv y a.
Proof. intros a x y [X1 X2] S L. split. eapply le_rb_le; [|exact X1]. lra. rewrite S; simpl; auto. Qed.
Lemma in_sup : forall a x q, in_itv x a -> sup a = Fin q -> in_itv (Q2R q) a.
Proof. intros a x q [X1 X2] S. rewrite S in X2. simpl in X2. split. eapply le_rb_le; [|exact X1]. lra. rewrite S; simpl; lra. Qed.
Lemma eval_cst_some : forall c v, il_terms (ic_expr c) = [] -> ineq_typ (ic_typ c) -> eq_flag_ok c ->
  (exists x, in_itv x (il_cst (ic_expr c))) -> eval_cst c <> TFalse -> sat_some c v.
Proof.
  intros c v T K F [x X] H. unfold eval_cst in H. 
  destruct (itv_is_bottom (il_cst (ic_expr c))) eqn:B. congruence.
  assert (G : forall r, in_itv r (il_cst (ic_expr c)) -> sat_typ (ic_typ c) (Some (Fin (ic_num c))) r -> sat_some c v).
  { intros r R S. exists r. split; auto. apply ival_nil'; auto. }
  destruct K as [K|[K|K]]; unfold eq_flag_ok in F; rewrite K in *; simpl in G.
  - destruct (il_eq (ic_expr c)) eqn:EQ.
    + destruct (Z.eqb_spec (bsgn (sup (il_cst (ic_expr c)))) 0) as [Z|Z]; [|congruence].
      pose proof (F eq_refl (ql_nil _ T) EQ) as P. apply (G _ (point_ex _ P)). destruct (point_sup _ P) as [q ES]. rewrite ES in *. simpl in *. apply sgn_Q_zero; auto.
    + destruct (Z.ltb_spec (bsgn (sup (il_cst (ic_expr c)))) 0) as [L|L]; [simpl in H; congruence|].
      destruct (Z.ltb_spec (bsgn (inf (il_cst (ic_expr c)))) 0) as [L2|L2]; [simpl in H; congruence|].
      apply (G 0%R); auto. split. rewrite Ropp_0. apply bsgn_ge0; auto. apply bsgn_ge0; auto.
  - destruct (Z.leb_spec (bsgn (inf (il_cst (ic_expr c)))) 0) as [L|L].
    + destruct X as [X1 X2]. apply (G x). split; auto. pose proof (bsgn_le0 _ L _ X1). lra.
    + destruct (Z.ltb_spec (bsgn (sup (il_cst (ic_expr c)))) 0) as [L2|L2]; [congruence|].
      destruct (sup (il_cst (ic_expr c))) as [|q|] eqn:ES; simpl in L2; try lia.
      * apply (G _ (in_sup _ _ _ X ES)). apply sgn_Q_ge in L2. lra.
      * apply (G _ (in_large _ x (Rmax x 0) X ES (Rmax_l _ _))). apply Rmax_r.
  - destruct (Z.ltb_spec (bsgn (inf (il_cst (ic_expr c)))) 0) as [L|L].
    + destruct X as [X1 X2]. apply (G x). split; auto. pose proof (bsgn_lt0 _ L _ X1). lra.
    + destruct (Z.leb_spec (bsgn (sup (il_cst (ic_expr c)))) 0) as [L2|L2]; [congruence|].
      destruct (sup (il_cst (ic_expr c))) as [|q|] eqn:ES; simpl in L2; try lia.
      * apply (G _ (in_sup _ _ _ X ES)). apply sgn_Q_pos in L2. lra.
      * apply (G _ (in_large _ x (Rmax x 1) X ES (Rmax_l _ _))). pose proof (Rmax_r x 1). lra.
Qed.

(** ** Array simplification *)
Lemma reduce_loop_meet : forall (P : icons -> Prop) v fuel acc todo l b, Forall eq_flag_ok todo ->
  Forall (fun c => sat_some c v /\ P c) (acc ++ todo) -> reduce_loop fuel true acc todo = Some (l, b) ->
  Forall (fun c => sat_some c v /\ P c) l.
Proof.
  intros P v. induction fuel as [|fuel IH]; intros acc todo l b FO FS H.
  - destruct todo; simpl in H; inversion H; subst. apply Forall_rev. rewrite app_nil_r in FS. auto.
  - destruct todo as [|c rest]; simpl in H. inversion H; subst. apply Forall_rev. rewrite app_nil_r in FS. auto.
    apply Forall_app in FS. destruct FS as [FA FS]. inversion FS as [|? ? S1 S2]; subst. inversion FO as [|? ? O1 O2]; subst.
    assert (REM : reduce_loop fuel true acc (swap_out rest) = Some (l, b) -> Forall (fun c => sat_some c v /\ P c) l).
    { apply IH. eapply Permutation_Forall; [apply Permutation_sym; apply swap_out_perm|auto].
      apply Forall_app; split; auto. eapply Permutation_Forall; [apply Permutation_sym; apply swap_out_perm|auto]. }
    assert (KEEP : reduce_loop fuel true (c :: acc) rest = Some (l, b) -> Forall (fun c => sat_some c v /\ P c) l).
    { apply IH; auto. simpl. constructor; auto. apply Forall_app; auto. }
    destruct (il_terms (ic_expr c)) eqn:T.
    + destruct (eval_cst c) eqn:EV; auto; try discriminate.
      * exfalso. apply (eval_cst_false c v T O1 EV (proj1 S1)).
      * simpl in H. destruct (useless_for_meet c); auto.
    + simpl in H. destruct (useless_for_meet c); auto.
Qed.
Lemma reduce_loop_sub : forall (P : icons -> Prop) meet fuel acc todo l b, (forall c, P (icons_bool c false)) -> Forall P acc -> Forall P todo ->
  reduce_loop fuel meet acc todo = Some (l, b) -> Forall P l.
Proof.
  intros P meet. induction fuel as [|fuel IH]; intros acc todo l b PB FA FT H.
  - destruct todo; simpl in H; inversion H; subst. apply Forall_rev; auto.
  - destruct todo as [|c rest]; simpl in H. inversion H; subst. apply Forall_rev; auto. inversion FT; subst.
    assert (REM : reduce_loop fuel meet acc (swap_out rest) = Some (l, b) -> Forall P l).
    { apply IH; auto. eapply Permutation_Forall; [apply Permutation_sym; apply swap_out_perm|auto]. }
    assert (KEEP : reduce_loop fuel meet (c :: acc) rest = Some (l, b) -> Forall P l) by (apply IH; auto).
    assert (FF : Some ([icons_bool c false], true) = Some (l, b) -> Forall P l) by (intro X; inversion X; subst; constructor; auto).
    destruct (match il_terms (ic_expr c) with [] => eval_cst c | _ :: _ => TTop end); auto; try discriminate.
    destruct (meet && useless_for_meet c); auto. destruct (negb meet && sat_is_false c); auto.
Qed.
Lemma array_reduce_meet : forall (P : icons -> Prop) v l l' t, Forall eq_flag_ok l -> Forall (fun c => sat_some c v /\ P c) l ->
  array_reduce true l = Some (l', t) -> Forall (fun c => sat_some c v /\ P c) l'.
Proof.
  intros P v l l' t FO FS H. unfold array_reduce in H. destruct (reduce_loop (length l) true [] l) as [[r b]|] eqn:R; try discriminate.
  assert (r = l') by (destruct b; inversion H; auto). subst r. eapply (reduce_loop_meet P v _ [] l); eauto.
Qed.
Lemma array_reduce_sub : forall (P : icons -> Prop) meet l l' t, (forall c, P (icons_bool c false)) -> Forall P l -> array_reduce meet l = Some (l', t) -> Forall P l'.
Proof.
  intros P meet l l' t PB F H. unfold array_reduce in H. destruct (reduce_loop (length l) meet [] l) as [[r b]|] eqn:R; try discriminate.
  assert (r = l') by (destruct b; inversion H; auto). subst r. eapply reduce_loop_sub with (acc := []); eauto.
Qed.

(** tests: a point for which every constraint of the result holds for each choice is
    such a point for the argument *)
Lemma icons_false_each : forall c v, ~ sat_each (icons_bool c false) v.
Proof.
  intros c v H. specialize (H 1%R). assert (X : sat_typ CEq (Some (Fin (ic_num c))) 1%R).
  { apply H. apply ival_nil. unfold in_itv, itv_of_int, itv_of_num; simpl. rewrite Q2R_opp. unfold Q2R; simpl. lra. }
  simpl in X. lra.
Qed.
Lemma reduce_loop_sat : forall v fuel acc todo l b, Forall eqm_flag_ok todo ->
  reduce_loop fuel false acc todo = Some (l, b) -> Forall (fun c => sat_each c v) l ->
  Forall (fun c => sat_each c v) (acc ++ todo).
Proof.
  intros v. induction fuel as [|fuel IH]; intros acc todo l b FO H FS.
  - destruct todo; simpl in H; inversion H; subst. apply Forall_rev in FS. rewrite rev_involutive in FS. rewrite app_nil_r. auto.
  - destruct todo as [|c rest]; simpl in H. inversion H; subst. apply Forall_rev in FS. rewrite rev_involutive in FS. rewrite app_nil_r. auto.
    inversion FO as [|? ? O1 O2]; subst.
    assert (FF : Some ([icons_bool c false], true) = Some (l, b) -> Forall (fun c => sat_each c v) (acc ++ c :: rest)).
    { intro X; inversion X; subst. inversion FS; subst. exfalso. eapply icons_false_each; eauto. }
    assert (KEEP : reduce_loop fuel false (c :: acc) rest = Some (l, b) -> Forall (fun c => sat_each c v) (acc ++ c :: rest)).
    { intro X. apply IH in X; auto. simpl in X. inversion X; subst. apply Forall_app in H3. apply Forall_app. split; try tauto. constructor; tauto. }
    destruct (il_terms (ic_expr c)) eqn:T.
    + destruct (eval_cst c) eqn:EV; auto; try discriminate.
      * apply IH in H; auto. 2: eapply Permutation_Forall; [apply Permutation_sym; apply swap_out_perm|auto].
        apply Forall_app in H. destruct H as [HA HT]. apply Forall_app; split; auto. constructor. apply eval_cst_true; auto.
        eapply Permutation_Forall; [apply swap_out_perm|auto].
      * simpl in H. destruct (sat_is_false c); auto.
    + simpl in H. destruct (sat_is_false c); auto.
Qed.
Lemma array_reduce_sat : forall v l l' t, Forall eqm_flag_ok l -> array_reduce false l = Some (l', t) ->
  Forall (fun c => sat_each c v) l' -> Forall (fun c => sat_each c v) l.
Proof.
  intros v l l' t FO H FS. unfold array_reduce in H. destruct (reduce_loop (length l) false [] l) as [[r b]|] eqn:R; try discriminate.
  assert (r = l') by (destruct b; inversion H; auto). subst r. eapply (reduce_loop_sat v _ [] l); eauto.
Qed.

(** what is left by a reduction *)
Definition kept (meet : bool) (c : icons) : Prop :=
  if meet then il_terms (ic_expr c) <> [] /\ useless_for_meet c = false else sat_is_false c = false.
Lemma reduce_loop_kept : forall meet fuel acc todo l, Forall (kept meet) acc ->
  reduce_loop fuel meet acc todo = Some (l, false) -> Forall (kept meet) l.
Proof.
  intros meet. induction fuel as [|fuel IH]; intros acc todo l FA H.
  - destruct todo; simpl in H; inversion H; subst. apply Forall_rev; auto.
  - destruct todo as [|c rest]; simpl in H. inversion H; subst. apply Forall_rev; auto.
    destruct (match il_terms (ic_expr c) with [] => eval_cst c | _ :: _ => TTop end) eqn:ST; try discriminate.
    + eapply IH; eauto.
    + destruct meet; simpl in H.
      * destruct (useless_for_meet c) eqn:U; [eapply IH; eauto|].
        eapply IH in H; eauto. constructor; auto. split; auto. intro T. rewrite T in ST. unfold useless_for_meet in U. rewrite T, ST in U. discriminate.
      * destruct (sat_is_false c) eqn:U; [discriminate|]. eapply IH in H; eauto.
Qed.
Lemma reduce_loop_kept_true : forall meet fuel acc todo l, reduce_loop fuel meet acc todo = Some (l, true) -> exists c, l = [icons_bool c false].
Proof.
  intros meet. induction fuel as [|fuel IH]; intros acc todo l H.
  - destruct todo; simpl in H; inversion H.
  - destruct todo as [|c rest]; simpl in H. inversion H.
    destruct (match il_terms (ic_expr c) with [] => eval_cst c | _ :: _ => TTop end); try discriminate; eauto.
    inversion H; eauto. destruct (meet && useless_for_meet c); eauto. destruct (negb meet && sat_is_false c); eauto. inversion H; eauto.
Qed.
Lemma array_reduce_kept : forall meet l l', array_reduce meet l = Some (l', TTop) -> Forall (kept meet) l'.
Proof.
  intros meet l l' H. unfold array_reduce in H. destruct (reduce_loop (length l) meet [] l) as [[r b]|] eqn:R; try discriminate.
  destruct b; try discriminate. assert (r = l') by (inversion H; auto). subst r. eapply reduce_loop_kept; [|exact R]. constructor.
Qed.

(** ** Choice of a bound of the constant *)
Definition lin1 (meet : bool) (c : icons) : list icons := fst (linearize1 meet c) :: snd (linearize1 meet c).
Lemma binfty_fin : forall b x, le_rb x b -> binfty b = false -> exists q, b = Fin q.
Proof. intros [|q|] x L H; simpl in *; try discriminate; eauto; tauto. Qed.
Lemma tval_neg : forall v ts r, tval v ts r -> tval v (map (fun t => mkT (itv_neg (t_itv t)) (t_eq t) (t_dim t)) ts) (- r)%R.
Proof.
  intros v ts r T. induction T as [|c t ts r C T IH]; simpl. rewrite Ropp_0. constructor.
  replace (- (c * v (t_dim t) + r))%R with ((- c) * v (t_dim t) + - r)%R by lra.
  apply (tv_cons v (- c)%R (mkT (itv_neg (t_itv t)) (t_eq t) (t_dim t))); auto. simpl. apply itv_neg_sound; auto.
Qed.
Lemma useless_nonempty : forall c, il_terms (ic_expr c) <> [] -> useless_for_meet c =
  if il_eq (ic_expr c) then false else
  match ic_typ c with
  | CEq | CDisEq | CEqMod => binfty (inf (il_cst (ic_expr c))) && binfty (sup (il_cst (ic_expr c)))
  | CSupEq | CSup => binfty (sup (il_cst (ic_expr c)))
  end.
Proof. intros c H. unfold useless_for_meet. destruct (il_terms (ic_expr c)); congruence. Qed.
Lemma linearize1_some : forall c v, kept true c -> sat_some c v -> Forall (fun c => sat_some c v) (lin1 true c).
Proof.
  intros c v [K1 K2] S. unfold lin1, linearize1. destruct (il_eq (ic_expr c)) eqn:EQ. repeat constructor; auto.
  rewrite useless_nonempty in K2 by auto. rewrite EQ in K2.
  destruct S as (r & (k & r1 & [A1 A2] & TV & ->) & S).
  assert (SUP : forall ty q, sup (il_cst (ic_expr c)) = Fin q -> sat_typ ty (Some (Fin (ic_num c))) (Q2R q + r1) ->
    sat_some (select_sup (with_typ c ty)) v).
  { intros ty q Q ST. exists (Q2R q + r1)%R. simpl. split; auto. exists (Q2R q), r1. simpl. rewrite Q. split; auto. split; simpl; try rewrite Q2R_opp; lra. }
  assert (INF : forall q, inf (il_cst (ic_expr c)) = Fin q -> (Q2R q - r1 >= 0)%R ->
    sat_some (select_inf (with_typ c CSupEq)) v).
  { intros q Q ST. exists (Q2R q + - r1)%R. simpl. split; [|lra]. exists (Q2R q), (- r1)%R. simpl. rewrite Q. split; [|split; auto].
    split; simpl; rewrite !Q2R_opp; lra. apply tval_neg; auto. }
  destruct (ic_typ c) eqn:KT; simpl in S; simpl fst; simpl snd.
  - apply andb_false_iff in K2.
    assert (FS : binfty (sup (il_cst (ic_expr c))) = false -> sat_some (select_sup (with_typ c CSupEq)) v).
    { intro B. destruct (binfty_fin _ _ A2 B) as [q Q]. apply (SUP _ q Q). simpl. rewrite Q in A2. simpl in A2. lra. }
    assert (FI : binfty (inf (il_cst (ic_expr c))) = false -> sat_some (select_inf (with_typ c CSupEq)) v).
    { intro B. destruct (binfty_fin _ _ A1 B) as [q Q]. apply (INF q Q). rewrite Q in A1. simpl in A1. lra. }
    destruct (binfty (inf (il_cst (ic_expr c)))), (binfty (sup (il_cst (ic_expr c)))); simpl; repeat constructor; auto. destruct K2; discriminate.
  - destruct (binfty_fin _ _ A2 K2) as [q Q]. constructor; auto.
    assert (X : sat_some (select_sup (with_typ c CSupEq)) v). { apply (SUP _ q Q). simpl. rewrite Q in A2. simpl in A2. lra. }
    unfold with_typ in X. rewrite <- KT in X. destruct c; auto.
  - destruct (binfty_fin _ _ A2 K2) as [q Q]. constructor; auto.
    assert (X : sat_some (select_sup (with_typ c CSup)) v). { apply (SUP _ q Q). simpl. rewrite Q in A2. simpl in A2. lra. }
    unfold with_typ in X. rewrite <- KT in X. destruct c; auto.
  - repeat constructor. exists (k + r1)%R. rewrite KT. split; auto. exists k, r1. repeat split; auto.
  - repeat constructor. exists (k + r1)%R. rewrite KT. split; auto. exists k, r1. repeat split; auto.
Qed.
(** and back, when the other coefficients are points *)
Lemma tval_point : forall v ts r1 r2, Forall (fun t => t_eq t = true) ts -> flags_ok ts -> tval v ts r1 -> tval v ts r2 -> r1 = r2.
Proof.
  intros v ts r1 r2 F O T. revert r2. induction T as [|c t ts r C T IH]; intros r2 T2. inversion T2; auto.
  inversion T2 as [|c' t' ts' r' C' T' E1 E2]; subst. inversion F as [|? ? F1 F2]; inversion O as [|? ? O1 O2]; subst.
  rewrite (IH F2 O2 _ T'). assert (P : itv_is_point (t_itv t) = true) by auto.
  apply (point_val _ _ P) in C. apply (point_val _ _ P) in C'. subst. auto.
Qed.
Lemma tval_neg_iff : forall v ts r, tval v (map (fun t => mkT (itv_neg (t_itv t)) (t_eq t) (t_dim t)) ts) r -> tval v ts (- r)%R.
Proof.
  intros v. induction ts as [|t ts IH]; simpl; intros r T; inversion T; subst. rewrite Ropp_0. constructor.
  simpl in *. replace (- (c * v (t_dim t) + r0))%R with ((- c) * v (t_dim t) + - r0)%R by lra. constructor; auto.
  apply itv_neg_iff. auto.
Qed.
Lemma linearize1_some_conv : forall c v, ineq_typ (ic_typ c) -> kept true c -> (exists x, in_itv x (il_cst (ic_expr c))) ->
  Forall (fun t => t_eq t = true) (il_terms (ic_expr c)) -> flags_ok (il_terms (ic_expr c)) ->
  Forall (fun c => sat_some c v) (lin1 true c) -> sat_some c v.
Proof.
  intros c v TY [K1 K2] [x X] FE FO S. unfold lin1, linearize1 in S. destruct (il_eq (ic_expr c)) eqn:EQ. inversion S; auto.
  rewrite useless_nonempty in K2 by auto. rewrite EQ in K2.
  assert (SUP : forall ty, binfty (sup (il_cst (ic_expr c))) = false -> sat_some (select_sup (with_typ c ty)) v ->
     exists q r1, sup (il_cst (ic_expr c)) = Fin q /\ tval v (il_terms (ic_expr c)) r1 /\ sat_typ ty (Some (Fin (ic_num c))) (Q2R q + r1)).
  { intros ty B (r & (k & r1 & [A1 A2] & TV & ->) & ST). simpl in *. destruct X as [X1 X2]. destruct (binfty_fin _ _ X2 B) as [q Q]. rewrite Q in *. simpl in *.
    rewrite Q2R_opp in A1. exists q, r1. split; auto. split; auto. replace (Q2R q) with k by lra. auto. }
  assert (INF : binfty (inf (il_cst (ic_expr c))) = false -> sat_some (select_inf (with_typ c CSupEq)) v ->
     exists q r1, inf (il_cst (ic_expr c)) = Fin q /\ tval v (il_terms (ic_expr c)) r1 /\ (Q2R q - r1 >= 0)%R).
  { intros B (r & (k & r1 & [A1 A2] & TV & ->) & ST). simpl in *. destruct X as [X1 X2]. destruct (binfty_fin _ _ X1 B) as [q Q]. rewrite Q in *. simpl in *.
    rewrite Q2R_opp in *. rewrite Q2R_opp in *. exists q, (- r1)%R. split; auto. split. apply tval_neg_iff; auto. lra. }
  destruct TY as [TY|[TY|TY]]; rewrite TY in *; simpl in S.
  - assert (G : exists r1, tval v (il_terms (ic_expr c)) r1 /\ in_itv (- r1) (il_cst (ic_expr c))).
    { destruct X as [X1 X2].
      destruct (binfty (inf (il_cst (ic_expr c)))) eqn:BI, (binfty (sup (il_cst (ic_expr c)))) eqn:BS; simpl in *; try discriminate K2.
      - inversion S; subst. destruct (SUP _ eq_refl H1) as (q & r1 & Q & TV & ST). simpl in ST. exists r1. split; auto. split; [|rewrite Q; simpl; lra].
        destruct (inf (il_cst (ic_expr c))); simpl in *; auto; discriminate.
      - inversion S; subst. destruct (INF eq_refl H1) as (q & r1 & Q & TV & ST). exists r1. split; auto. split; [rewrite Q; simpl; lra|].
        destruct (sup (il_cst (ic_expr c))); simpl in *; auto; discriminate.
      - inversion S; subst. inversion H2; subst. destruct (SUP _ eq_refl H1) as (q & r1 & Q & TV & ST). destruct (INF eq_refl H3) as (q' & r1' & Q' & TV' & ST').
        simpl in ST. assert (r1' = r1) by (eapply tval_point; eauto). subst r1'. exists r1. split; auto. split. rewrite Q'; simpl; lra. rewrite Q; simpl; lra. }
    destruct G as (r1 & TV & I). exists 0%R. rewrite TY. simpl. split; auto. exists (- r1)%R, r1. repeat split; auto; try apply I. lra.
  - inversion S as [|? ? H1 H2]; subst. assert (Y : sat_some (select_sup (with_typ c CSupEq)) v) by (unfold with_typ; rewrite <- TY; destruct c; auto).
    destruct (SUP _ K2 Y) as (q & r1 & Q & TV & ST). exists (Q2R q + r1)%R. rewrite TY. split; auto. exists (Q2R q), r1. split; [|auto]. eapply in_sup; eauto.
  - inversion S as [|? ? H1 H2]; subst. assert (Y : sat_some (select_sup (with_typ c CSup)) v) by (unfold with_typ; rewrite <- TY; destruct c; auto).
    destruct (SUP _ K2 Y) as (q & r1 & Q & TV & ST). exists (Q2R q + r1)%R. rewrite TY. split; auto. exists (Q2R q), r1. split; [|auto]. eapply in_sup; eauto.
Qed.
Lemma linearize1_each : forall c v, kept false c -> Forall (fun c => sat_each c v) (lin1 false c) -> sat_each c v.
Proof.
  intros c v K S. unfold lin1, linearize1 in S. destruct (il_eq (ic_expr c)) eqn:EQ. inversion S; auto.
  simpl in K. unfold sat_is_false in K. apply orb_false_iff in K. destruct K as [K _].
  assert (G : forall ty, binfty (inf (il_cst (ic_expr c))) = false -> (ty = CSupEq \/ ty = CSup) -> ic_typ c = ty ->
    sat_each (mkIC (mkIL (il_terms (ic_expr c)) (mkItv (inf (il_cst (ic_expr c))) (bneg (inf (il_cst (ic_expr c))))) true) ty (ic_num c)) v -> sat_each c v).
  { intros ty B TY E SE r (k & r1 & [A1 A2] & TV & ->). destruct (binfty_fin _ _ A1 B) as [q Q].
    assert (H : sat_typ ty (Some (Fin (ic_num c))) (- Q2R q + r1)).
    { apply SE. exists (- Q2R q)%R, r1. simpl. rewrite Q. split; auto. split; simpl; rewrite ?Q2R_opp; lra. }
    rewrite E. rewrite Q in A1. simpl in A1. destruct TY; subst ty; simpl in *; lra. }
  destruct (ic_typ c) eqn:KT; simpl in S; inversion S; subst; auto; try (simpl in K; rewrite EQ in K; discriminate).
  - apply (G CSupEq); auto.
  - apply (G CSup); auto.
Qed.
Lemma linearize_split : forall (P : icons -> Prop) meet l, Forall P (map fst (map (linearize1 meet) l) ++ concat (map snd (map (linearize1 meet) l)))
  <-> Forall (fun c => Forall P (lin1 meet c)) l.
Proof.
  intros P meet. induction l as [|c l IH]; simpl. split; constructor.
  rewrite !Forall_cons_iff, !Forall_app in *. unfold lin1 at 1. rewrite Forall_cons_iff. tauto.
Qed.
Lemma linearize_array_meet : forall v l l', Forall eq_flag_ok l -> Forall (fun c => sat_some c v) l ->
  linearize_array true l = Some l' -> Forall (fun c => sat_some c v) l'.
Proof.
  intros v l l' FO FS H. unfold linearize_array in H. destruct (array_reduce true l) as [[l1 t]|] eqn:R; try discriminate.
  assert (S1 : Forall (fun c => sat_some c v /\ True) l1). { eapply array_reduce_meet; eauto. eapply Forall_impl; [|exact FS]. simpl; auto. }
  assert (S2 : Forall (fun c => sat_some c v) l1) by (eapply Forall_impl; [|exact S1]; simpl; tauto).
  destruct t; try discriminate; inversion H; subst; auto.
  pose proof (array_reduce_kept _ _ _ R) as K. apply linearize_split. rewrite Forall_forall in *. intros c C. apply linearize1_some; auto.
Qed.
Lemma linearize_array_sat : forall v l l', Forall eqm_flag_ok l -> linearize_array false l = Some l' ->
  Forall (fun c => sat_each c v) l' -> Forall (fun c => sat_each c v) l.
Proof.
  intros v l l' FO H FS. unfold linearize_array in H. destruct (array_reduce false l) as [[l1 t]|] eqn:R; try discriminate.
  eapply array_reduce_sat; eauto.
  destruct t; try discriminate; inversion H; subst; auto.
  pose proof (array_reduce_kept _ _ _ R) as K. apply linearize_split in FS. rewrite Forall_forall in *. intros c C. apply linearize1_each; auto.
Qed.

Section Q.
Context {N : numtype}.

(** ** Quasi-linearisation of constraints *)
Definition cons_in_env (v : nat -> R) (env : nat -> itv) (c : icons) : Prop := in_env v env (il_terms (ic_expr c)).

Lemma quasilinearize_lincons_some : forall env meet c c' v, cons_in_env v env c -> eq_flag_ok c -> sat_some c v ->
  quasilinearize_lincons (N:=N) env meet c = Some c' -> sat_some c' v.
Proof.
  intros env meet c c' v I F S H. unfold quasilinearize_lincons in H. destruct (il_terms (ic_expr c)) eqn:T.
  - destruct (eval_cst c) eqn:EV; inversion H; subst; auto.
    + exfalso. eapply eval_cst_false; eauto.
    + exists 0%R. split. apply ival_nil. unfold in_itv, itv_of_int, itv_of_num; simpl. unfold Q2R; simpl. lra. simpl. auto.
  - inversion H; subst. destruct S as (r & V & S). exists r. simpl. split; auto. apply quasilinearize_sound; auto.
Qed.
Lemma quasilinearize_lincons_each : forall env meet c c' v, cons_in_env v env c -> eqm_flag_ok c ->
  quasilinearize_lincons (N:=N) env meet c = Some c' -> sat_each c' v -> sat_each c v.
Proof.
  intros env meet c c' v I F H S. unfold quasilinearize_lincons in H. destruct (il_terms (ic_expr c)) eqn:T.
  - destruct (eval_cst c) eqn:EV; inversion H; subst; auto.
    + exfalso. eapply icons_false_each; eauto.
    + apply eval_cst_true; auto.
  - inversion H; subst. intros r V. apply (S r). simpl. apply quasilinearize_sound; auto.
Qed.

(** the flag of the constant of an equality stays right when numbers are exact *)
Lemma point_add_E : forall a b, itv_is_point a = true -> itv_is_point b = true -> itv_is_point (itv_add (N:=exact_num) a b) = true.
Proof.
  intros a b A B. apply point_iff in A, B. destruct A as (p & q & E1 & E2 & E3), B as (p' & q' & E4 & E5 & E6).
  apply point_iff. exists (p + p')%Q, (q + q')%Q. unfold itv_add. simpl. rewrite E1, E2, E4, E5. simpl. repeat split; auto. rewrite !Q2R_plus. lra.
Qed.
Lemma bmul_fin : forall p q, exists r, bmul (N:=exact_num) (Fin p) (Fin q) = Fin r /\ Q2R r = (Q2R p * Q2R q)%R.
Proof.
  intros. unfold bmul. simpl. destruct ((Z.sgn (Qnum p) =? 0) || (Z.sgn (Qnum q) =? 0)) eqn:O.
  - exists 0%Q. split; auto. rewrite Q2R_0'. apply orb_true_iff in O. rewrite !Z.eqb_eq, !sgn_Q_zero in O. destruct O as [O|O]; rewrite O; lra.
  - exists (p * q)%Q. split; auto. apply Q2R_mult.
Qed.
Lemma point_mul_num_E : forall a q, itv_is_point a = true -> itv_is_point (itv_mul_num (N:=exact_num) a q) = true.
Proof.
  intros a q A. apply point_iff in A. destruct A as (p & s & E1 & E2 & E3). apply point_iff. unfold itv_mul_num, itv_mul_bound. rewrite E1, E2.
  destruct (0 <=? bsgn (Fin q)); simpl bneg; simpl inf; simpl sup.
  - destruct (bmul_fin p q) as (r1 & R1 & R1'), (bmul_fin s q) as (r2 & R2 & R2'). rewrite R1, R2. exists r1, r2. repeat split; auto. rewrite R1', R2', E3. lra.
  - destruct (bmul_fin p (- q)) as (r1 & R1 & R1'), (bmul_fin s (- q)) as (r2 & R2 & R2'). rewrite R1, R2. exists r2, r1. repeat split; auto. rewrite R1', R2', E3. lra.
Qed.
Lemma ql_loop_flag_E : forall env fmi fuel acc cst eq todo, Forall (fun t => t_eq t = true) todo -> flags_ok todo ->
  (eq = true -> itv_is_point cst = true) -> cst_flag_ok (ql_loop (N:=exact_num) fuel env fmi acc cst eq todo).
Proof.
  intros env fmi. induction fuel as [|fuel IH]; intros acc cst eq todo FE FO H.
  - destruct todo; simpl; unfold cst_flag_ok; simpl; auto.
  - destruct todo as [|t rest]; simpl. unfold cst_flag_ok; simpl; auto. inversion FE; inversion FO; subst.
    destruct (itv_is_point (env (t_dim t))).
    + apply IH.
      * eapply Permutation_Forall; [apply Permutation_sym; apply swap_out_perm|auto].
      * eapply flags_perm; [apply Permutation_sym; apply swap_out_perm|auto].
      * intro Q. apply point_add_E; auto. apply point_mul_num_E; auto.
    + rewrite H2. apply IH; auto.
Qed.

Lemma icons_bool_flags : forall c b, flags_ok (il_terms (ic_expr (icons_bool c b))) /\ eqm_flag_ok (icons_bool c b).
Proof. intros. split. constructor. intros _ _ _. destruct b; reflexivity. Qed.

(** what is required of the argument: right flags; with rounding numbers also that
    there is no equality *)
Definition meet_ok (c : icons) : Prop :=
  flags_ok (il_terms (ic_expr c)) /\ eq_flag_ok c /\ (N = exact_num \/ ic_typ c <> CEq).
Definition meet_inv (c : icons) : Prop := flags_ok (il_terms (ic_expr c)) /\ eq_flag_ok c.
Lemma quasilinearize_lincons_inv : forall env c c', meet_ok c -> (ic_typ c = CEq -> is_quasilinear (ic_expr c) = true) ->
  quasilinearize_lincons (N:=N) env true c = Some c' -> meet_inv c'.
Proof.
  intros env c c' (A & B & C) Q H. unfold quasilinearize_lincons in H. destruct (il_terms (ic_expr c)) eqn:T.
  - destruct (eval_cst c); inversion H; subst; try (split; [apply icons_bool_flags|]; intro; apply icons_bool_flags; auto; fail).
    split; auto. rewrite T; auto.
  - inversion H; subst. clear H. rewrite <- T in A. split; simpl.
    + pose proof (quasilinearize_shape (N:=N) env (match ic_typ c with CSup | CSupEq => true | _ => false end) (ic_expr c) A) as SH.
      eapply Forall_impl; [|exact SH]. simpl. intros a (_ & X & _) _. auto.
    + intros K _. simpl in K. simpl. destruct C as [C|C]; [|congruence].
      specialize (Q K). specialize (B K Q). unfold is_quasilinear in Q. rewrite forallb_forall in Q.
      replace (quasilinearize (N:=N)) with (quasilinearize (N:=exact_num)) by (rewrite C; auto). unfold quasilinearize. apply ql_loop_flag_E; auto.
      * apply Forall_forall. auto.
Qed.
Lemma qla_loop_meet : forall env v fuel acc todo l, Forall meet_ok todo -> Forall (cons_in_env v env) todo ->
  Forall (fun c => sat_some c v /\ meet_inv c) acc -> Forall (fun c => sat_some c v) todo ->
  qla_loop (N:=N) fuel env true acc todo = Some l -> Forall (fun c => sat_some c v /\ meet_inv c) l.
Proof.
  intros env v. induction fuel as [|fuel IH]; intros acc todo l FO FI FA FS H.
  - destruct todo; simpl in H; inversion H; subst. apply Forall_rev; auto.
  - destruct todo as [|c rest]; simpl in H. inversion H; subst. apply Forall_rev; auto.
    inversion FO as [|? ? O1 O2]; inversion FI as [|? ? I1 I2]; inversion FS as [|? ? S1 S2]; subst.
    set (sp := match ic_typ c with CEq => negb (is_quasilinear (ic_expr c)) | _ => false end) in H.
    set (c1 := if sp then mkIC (ic_expr c) CSupEq (ic_num c) else c).
    set (rest1 := if sp then rest ++ [mkIC (ilin_neg (ic_expr c)) CSupEq (ic_num c)] else rest).
    assert (HH : (if sp then (mkIC (ic_expr c) CSupEq (ic_num c), rest ++ [mkIC (ilin_neg (ic_expr c)) CSupEq (ic_num c)]) else (c, rest)) = (c1, rest1)) by (unfold c1, rest1; destruct sp; auto).
    rewrite HH in H. clear HH.
    assert (G : sat_some c1 v /\ meet_ok c1 /\ cons_in_env v env c1 /\ (ic_typ c1 = CEq -> is_quasilinear (ic_expr c1) = true)
      /\ Forall meet_ok rest1 /\ Forall (cons_in_env v env) rest1 /\ Forall (fun c => sat_some c v) rest1).
    { unfold c1, rest1. destruct sp eqn:SP.
      - unfold sp in SP. assert (KE : ic_typ c = CEq) by (destruct (ic_typ c); congruence).
        destruct S1 as (r & V & S1). rewrite KE in S1. simpl in S1. subst r. destruct O1 as (A & B & C).
        split; [exists 0%R; simpl; split; auto; lra|]. split; [split; [auto|split; [intro X; discriminate X|right; discriminate]]|]. split; auto. split; [discriminate|].
        split; [|split]; apply Forall_app; split; auto; constructor; auto.
        + split; [apply ilin_neg_flags; auto|split; [intro X; discriminate X|right; discriminate]].
        + unfold cons_in_env, in_env in *. simpl. rewrite Forall_map. simpl. auto.
        + exists 0%R. simpl. split; [|lra]. apply ilin_neg_iff. rewrite Ropp_0. auto.
      - repeat (split; auto). intro KE. unfold sp in SP. rewrite KE in SP. destruct (is_quasilinear (ic_expr c)); auto; discriminate. }
    destruct G as (G1 & G2 & G3 & G4 & G5 & G6 & G7).
    destruct (quasilinearize_lincons (N:=N) env true c1) as [c2|] eqn:QC; try discriminate.
    assert (G8 : sat_some c2 v) by (eapply quasilinearize_lincons_some; eauto; apply G2).
    assert (G9 : meet_inv c2) by (eapply quasilinearize_lincons_inv; eauto).
    destruct (il_terms (ic_expr c2)) eqn:T2.
    + destruct (eval_cst c2) eqn:EV; try discriminate.
      * exfalso. eapply eval_cst_false; eauto. apply G9.
      * eapply IH in H; eauto.
      * eapply IH in H; eauto.
    + eapply IH in H; eauto.
Qed.
Lemma quasilinearize_array_meet : forall env v l l', Forall meet_ok l -> Forall (cons_in_env v env) l ->
  Forall (fun c => sat_some c v) l -> quasilinearize_array (N:=N) env true l = Some l' -> Forall (fun c => sat_some c v /\ meet_inv c) l'.
Proof.
  intros env v l l' FO FI FS H. unfold quasilinearize_array in H. destruct (array_reduce true l) as [[l1 t]|] eqn:R; try discriminate.
  assert (G : Forall (fun c => sat_some c v /\ (meet_ok c /\ cons_in_env v env c)) l1).
  { eapply array_reduce_meet; [| |exact R].
    - eapply Forall_impl; [|exact FO]. intros a A; apply A.
    - rewrite Forall_forall in *. auto. }
  eapply qla_loop_meet; [| | | |exact H]; auto; eapply Forall_impl; try exact G; simpl; tauto.
Qed.

Lemma quasilinearize_lincons0_array_meet : forall env lin v l l', Forall meet_ok l -> Forall (cons_in_env v env) l ->
  Forall (fun c => sat_some c v) l -> quasilinearize_lincons0_array (N:=N) env lin true l = Some l' -> Forall (fun c => sat_some c v) l'.
Proof.
  intros env lin v l l' FO FI FS H. unfold quasilinearize_lincons0_array in H.
  destruct (quasilinearize_array (N:=N) env true l) as [l1|] eqn:Q; try discriminate.
  pose proof (quasilinearize_array_meet _ _ _ _ FO FI FS Q) as G.
  assert (G1 : Forall (fun c => sat_some c v) l1) by (eapply Forall_impl; [|exact G]; simpl; tauto).
  destruct lin; [|inversion H; subst; auto]. eapply linearize_array_meet; [|exact G1|exact H]. eapply Forall_impl; [|exact G]. intros a (_ & _ & A); auto.
Qed.

(** ** Tests *)
Lemma qla_loop_sat : forall env v fuel acc todo l, Forall eqm_flag_ok todo -> Forall (cons_in_env v env) todo ->
  qla_loop (N:=N) fuel env false acc todo = Some l -> Forall (fun c => sat_each c v) l -> Forall (fun c => sat_each c v) (acc ++ todo).
Proof.
  intros env v. induction fuel as [|fuel IH]; intros acc todo l FO FI H FS.
  - destruct todo; simpl in H; inversion H; subst. apply Forall_rev in FS. rewrite rev_involutive in FS. rewrite app_nil_r. auto.
  - destruct todo as [|c rest]; simpl in H. inversion H; subst. apply Forall_rev in FS. rewrite rev_involutive in FS. rewrite app_nil_r. auto.
    inversion FO as [|? ? O1 O2]; inversion FI as [|? ? I1 I2]; subst.
    destruct (quasilinearize_lincons (N:=N) env false c) as [c2|] eqn:QC; try discriminate.
    assert (G : qla_loop (N:=N) fuel env false (c2 :: acc) rest = Some l -> Forall (fun c => sat_each c v) (acc ++ c :: rest)).
    { intro X. apply IH in X; auto. simpl in X. inversion X as [|? ? X1 X2]; subst. apply Forall_app in X2. destruct X2 as [X2 X3].
      apply Forall_app; split; auto. constructor; auto. eapply quasilinearize_lincons_each; eauto. }
    assert (FF : Some [icons_bool c2 false] = Some l -> Forall (fun c => sat_each c v) (acc ++ c :: rest)).
    { intro X. inversion X; subst. inversion FS; subst. exfalso. eapply icons_false_each; eauto. }
    destruct (il_terms (ic_expr c2)); auto. destruct (eval_cst c2); auto; discriminate.
Qed.
Lemma quasilinearize_array_sat : forall env v l l', Forall eqm_flag_ok l -> Forall (cons_in_env v env) l ->
  quasilinearize_array (N:=N) env false l = Some l' -> Forall (fun c => sat_each c v) l' -> Forall (fun c => sat_each c v) l.
Proof.
  intros env v l l' FO FI H FS. unfold quasilinearize_array in H. destruct (array_reduce false l) as [[l1 t]|] eqn:R; try discriminate.
  assert (C1 : Forall eqm_flag_ok l1). { eapply array_reduce_sub; [|exact FO|exact R]. intro; apply icons_bool_flags. }
  assert (C2 : Forall (cons_in_env v env) l1). { eapply array_reduce_sub; [|exact FI|exact R]. intro; constructor. }
  eapply array_reduce_sat; eauto. apply (qla_loop_sat env v _ [] l1 l' C1 C2 H FS).
Qed.
(** both steps: the flag of the constant of equalities must survive the first one *)
Definition sat_ok (c : icons) : Prop :=
  flags_ok (il_terms (ic_expr c)) /\ eqm_flag_ok c /\
  (ic_typ c = CEq \/ ic_typ c = CEqMod -> N = exact_num /\ is_quasilinear (ic_expr c) = true).
Lemma quasilinearize_lincons_sat_inv : forall env c c', sat_ok c ->
  quasilinearize_lincons (N:=N) env false c = Some c' -> eqm_flag_ok c'.
Proof.
  intros env c c' (A & B & C) H. unfold quasilinearize_lincons in H. destruct (il_terms (ic_expr c)) eqn:T.
  - destruct (eval_cst c); inversion H; subst; auto; apply icons_bool_flags.
  - inversion H; subst. clear H. rewrite <- T in A. intros K _. simpl in K. specialize (C K). destruct C as [C Q]. specialize (B K Q). simpl.
    unfold is_quasilinear in Q. rewrite forallb_forall in Q.
    replace (quasilinearize (N:=N)) with (quasilinearize (N:=exact_num)) by (rewrite C; auto). unfold quasilinearize. apply ql_loop_flag_E; auto.
    apply Forall_forall. auto.
Qed.
Lemma qla_loop_sat_inv : forall env fuel acc todo l, Forall sat_ok todo -> Forall eqm_flag_ok acc ->
  qla_loop (N:=N) fuel env false acc todo = Some l -> Forall eqm_flag_ok l.
Proof.
  intros env. induction fuel as [|fuel IH]; intros acc todo l FO FA H.
  - destruct todo; simpl in H; inversion H; subst. apply Forall_rev; auto.
  - destruct todo as [|c rest]; simpl in H. inversion H; subst. apply Forall_rev; auto.
    inversion FO as [|? ? O1 O2]; subst.
    destruct (quasilinearize_lincons (N:=N) env false c) as [c2|] eqn:QC; try discriminate.
    assert (G : qla_loop (N:=N) fuel env false (c2 :: acc) rest = Some l -> Forall eqm_flag_ok l).
    { apply IH; auto. constructor; auto. eapply quasilinearize_lincons_sat_inv; eauto. }
    assert (FF : Some [icons_bool c2 false] = Some l -> Forall eqm_flag_ok l).
    { intro X. inversion X; subst. repeat constructor; apply icons_bool_flags. }
    destruct (il_terms (ic_expr c2)); auto. destruct (eval_cst c2); auto; discriminate.
Qed.
Lemma reduce_loop_false : forall meet fuel acc todo l b, reduce_loop fuel meet acc todo = Some (l, b) ->
  (exists c, l = [icons_bool c false]) \/ (forall P : icons -> Prop, Forall P acc -> Forall P todo -> Forall P l).
Proof.
  intros meet. induction fuel as [|fuel IH]; intros acc todo l b H.
  - destruct todo; simpl in H; inversion H; subst. right. intros; apply Forall_rev; auto.
  - destruct todo as [|c rest]; simpl in H. inversion H; subst. right. intros; apply Forall_rev; auto.
    assert (REM : reduce_loop fuel meet acc (swap_out rest) = Some (l, b) -> (exists c, l = [icons_bool c false]) \/ (forall P : icons -> Prop, Forall P acc -> Forall P (c :: rest) -> Forall P l)).
    { intro X. apply IH in X. destruct X as [X|X]; auto. right. intros P A T. inversion T; subst. apply X; auto. eapply Permutation_Forall; [apply Permutation_sym; apply swap_out_perm|auto]. }
    assert (KEEP : reduce_loop fuel meet (c :: acc) rest = Some (l, b) -> (exists c, l = [icons_bool c false]) \/ (forall P : icons -> Prop, Forall P acc -> Forall P (c :: rest) -> Forall P l)).
    { intro X. apply IH in X. destruct X as [X|X]; auto. right. intros P A T. inversion T; subst. apply X; auto. }
    assert (FF : Some ([icons_bool c false], true) = Some (l, b) -> (exists c, l = [icons_bool c false]) \/ (forall P : icons -> Prop, Forall P acc -> Forall P (c :: rest) -> Forall P l)) by (intro X; inversion X; subst; eauto).
    destruct (match il_terms (ic_expr c) with [] => eval_cst c | _ :: _ => TTop end); auto; try discriminate.
    destruct (meet && useless_for_meet c); auto. destruct (negb meet && sat_is_false c); auto.
Qed.
Lemma array_reduce_false : forall meet l l' t, array_reduce meet l = Some (l', t) ->
  (exists c, l' = [icons_bool c false]) \/ (forall P : icons -> Prop, Forall P l -> Forall P l').
Proof.
  intros meet l l' t H. unfold array_reduce in H. destruct (reduce_loop (length l) meet [] l) as [[r b]|] eqn:R; try discriminate.
  assert (r = l') by (destruct b; inversion H; auto). subst r. destruct (reduce_loop_false _ _ _ _ _ _ R) as [X|X]; auto.
Qed.
Lemma quasilinearize_lincons0_array_sat : forall env lin v l l', Forall sat_ok l -> Forall (cons_in_env v env) l ->
  quasilinearize_lincons0_array (N:=N) env lin false l = Some l' -> Forall (fun c => sat_each c v) l' -> Forall (fun c => sat_each c v) l.
Proof.
  intros env lin v l l' FO FI H FS. unfold quasilinearize_lincons0_array in H.
  destruct (quasilinearize_array (N:=N) env false l) as [l1|] eqn:Q; try discriminate.
  assert (FQ : Forall eqm_flag_ok l) by (eapply Forall_impl; [|exact FO]; intros a A; apply A).
  apply (quasilinearize_array_sat env v l l1 FQ FI Q).
  destruct lin; [|inversion H; subst; auto]. eapply linearize_array_sat; [|exact H|auto].
  unfold quasilinearize_array in Q. destruct (array_reduce false l) as [[l2 t]|] eqn:R; try discriminate.
  destruct (array_reduce_false _ _ _ _ R) as [[c ->]|X].
  - simpl in Q. unfold quasilinearize_lincons in Q. simpl in Q. inversion Q; subst. constructor; [apply icons_bool_flags|constructor].
  - eapply qla_loop_sat_inv; [| |exact Q]; auto.
Qed.
End Q.

(** ** No solution is added when the coefficients are points and numbers are exact *)
Lemma ql_loop_exact : forall env fmi v fuel acc cst eq todo r, (length todo <= fuel)%nat ->
  Forall (fun t => t_eq t = true) todo -> flags_ok todo -> in_env v env todo -> (exists x, in_itv x cst) ->
  ival (ql_loop (N:=exact_num) fuel env fmi acc cst eq todo) v r -> ival (mkIL (rev acc ++ todo) cst eq) v r.
Proof.
  intros env fmi v. induction fuel as [|fuel IH]; intros acc cst eq todo r LE FE FO FI [x X] H.
  - destruct todo; simpl in *; try lia. rewrite app_nil_r. auto.
  - destruct todo as [|t rest]; simpl in H. rewrite app_nil_r. auto. simpl in LE.
    inversion FE as [|? ? E1 E2]; inversion FO as [|? ? O1 O2]; inversion FI as [|? ? I1 I2]; subst.
    assert (PT : itv_is_point (t_itv t) = true) by auto. pose proof (point_ex _ PT) as PX. set (k := Q2R (bfinq (sup (t_itv t)))) in *.
    destruct (itv_is_point (env (t_dim t))) eqn:PE.
    + apply (point_val _ _ PE) in I1. set (q := bfinq (sup (env (t_dim t)))) in *.
      apply IH in H.
      * destruct H as (c & r1 & C & TV & ->). simpl in C, TV.
        assert (PM : in_itv (k * Q2R q) (itv_mul_num (N:=exact_num) (t_itv t) q)) by (apply itv_mul_bound_sound; auto; simpl; lra).
        destruct (between_add _ _ _ _ _ X PM C) as (a & b & A & B & ->).
        assert (b = (k * Q2R q)%R). { apply (point_val _ _ (point_mul_num_E _ q PT)) in B. apply (point_val _ _ (point_mul_num_E _ q PT)) in PM. congruence. }
        subst b. exists a, (k * Q2R q + r1)%R. simpl. split; auto. split; [|lra].
        eapply tval_perm; [apply Permutation_middle|]. rewrite <- I1. constructor; auto.
        eapply tval_perm; [|exact TV]. apply Permutation_app_head. apply swap_out_perm.
      * rewrite swap_out_length. lia.
      * eapply Permutation_Forall; [apply Permutation_sym; apply swap_out_perm|auto].
      * eapply flags_perm; [apply Permutation_sym; apply swap_out_perm|auto].
      * eapply in_env_perm; [apply Permutation_sym; apply swap_out_perm|auto].
      * exists (x + k * Q2R q)%R. apply itv_add_sound; auto. apply itv_mul_bound_sound; auto; simpl; lra.
    + rewrite E1 in H. apply IH in H; eauto; try lia. simpl in H. rewrite <- app_assoc in H. auto.
Qed.
Lemma quasilinearize_exact : forall env fmi e v r, Forall (fun t => t_eq t = true) (il_terms e) -> flags_ok (il_terms e) ->
  in_env v env (il_terms e) -> (exists x, in_itv x (il_cst e)) ->
  (ival (quasilinearize (N:=exact_num) env fmi e) v r <-> ival e v r).
Proof.
  intros env fmi e v r FE FO FI X. split; [|apply quasilinearize_sound; auto]. intro H.
  unfold quasilinearize in H. apply ql_loop_exact in H; auto.
Qed.
(** constraints =, >=, > with point coefficients and a non-empty constant *)
Definition exact_ok (c : icons) : Prop :=
  ineq_typ (ic_typ c) /\ Forall (fun t => t_eq t = true) (il_terms (ic_expr c)) /\ flags_ok (il_terms (ic_expr c)) /\
  eq_flag_ok c /\ (exists x, in_itv x (il_cst (ic_expr c))).
Lemma useless_some : forall c v, exact_ok c -> il_terms (ic_expr c) <> [] -> useless_for_meet c = true -> sat_some c v.
Proof.
  intros c v (TY & FE & FO & FF & x & X) T U. rewrite useless_nonempty in U by auto. destruct (il_eq (ic_expr c)); try discriminate.
  destruct (tval_ex v (il_terms (ic_expr c))) as [r TV].
  { apply Forall_forall. intros t I. eexists. apply point_ex. unfold flags_ok in FO. rewrite Forall_forall in *. apply FO; auto. }
  assert (INF : forall b y, binfty b = true -> le_rb y b -> b = PInf) by (intros [| |] y B L; simpl in *; try discriminate; tauto).
  destruct X as [X1 X2]. destruct TY as [TY|[TY|TY]]; rewrite TY in U.
  - apply andb_true_iff in U. destruct U as [U1 U2]. pose proof (INF _ _ U1 X1) as E1. pose proof (INF _ _ U2 X2) as E2.
    exists 0%R. rewrite TY. simpl. split; auto. exists (- r)%R, r. split; [|split; auto; lra]. split; rewrite ?E1, ?E2; simpl; auto.
  - pose proof (INF _ _ U X2) as E2. exists (Rmax x (- r) + r)%R. rewrite TY. simpl. split.
    + exists (Rmax x (- r)), r. split; [|split; auto]. apply (in_large _ x); [split; auto|auto|apply Rmax_l].
    + pose proof (Rmax_r x (- r)). lra.
  - pose proof (INF _ _ U X2) as E2. exists (Rmax x (1 - r) + r)%R. rewrite TY. simpl. split.
    + exists (Rmax x (1 - r)), r. split; [|split; auto]. apply (in_large _ x); [split; auto|auto|apply Rmax_l].
    + pose proof (Rmax_r x (1 - r)). lra.
Qed.
Lemma icons_false_some : forall c v, ~ sat_some (icons_bool c false) v.
Proof.
  intros c v (r & V & S). apply ival_nil in V. destruct V as [V1 V2]. unfold itv_of_int, itv_of_num in *; simpl in *. rewrite Q2R_opp in V1. unfold Q2R in *; simpl in *. lra.
Qed.
Lemma eval_cst_true_some : forall c v, exact_ok c -> il_terms (ic_expr c) = [] -> eval_cst c <> TFalse -> sat_some c v.
Proof. intros c v (TY & _ & _ & F & X) T H. apply eval_cst_some; auto. Qed.
Lemma reduce_loop_exact : forall v fuel acc todo l b, Forall exact_ok todo -> reduce_loop fuel true acc todo = Some (l, b) ->
  Forall (fun c => sat_some c v) l -> Forall (fun c => sat_some c v) (acc ++ todo).
Proof.
  intros v. induction fuel as [|fuel IH]; intros acc todo l b FO H FS.
  - destruct todo; simpl in H; inversion H; subst. apply Forall_rev in FS. rewrite rev_involutive in FS. rewrite app_nil_r. auto.
  - destruct todo as [|c rest]; simpl in H. inversion H; subst. apply Forall_rev in FS. rewrite rev_involutive in FS. rewrite app_nil_r. auto.
    inversion FO as [|? ? O1 O2]; subst.
    assert (FF : Some ([icons_bool c false], true) = Some (l, b) -> Forall (fun c => sat_some c v) (acc ++ c :: rest)).
    { intro X; inversion X; subst. inversion FS; subst. exfalso. eapply icons_false_some; eauto. }
    assert (KEEP : reduce_loop fuel true (c :: acc) rest = Some (l, b) -> Forall (fun c => sat_some c v) (acc ++ c :: rest)).
    { intro X. apply IH in X; auto. simpl in X. inversion X; subst. apply Forall_app in H3. apply Forall_app. split; try tauto. constructor; tauto. }
    assert (REM : sat_some c v -> reduce_loop fuel true acc (swap_out rest) = Some (l, b) -> Forall (fun c => sat_some c v) (acc ++ c :: rest)).
    { intros S X. apply IH in X; auto. 2: eapply Permutation_Forall; [apply Permutation_sym; apply swap_out_perm|auto].
      apply Forall_app in X. destruct X as [HA HT]. apply Forall_app; split; auto. constructor; auto. eapply Permutation_Forall; [apply swap_out_perm|auto]. }
    destruct (il_terms (ic_expr c)) eqn:T.
    + destruct (eval_cst c) eqn:EV; auto; try discriminate.
      * apply REM; auto. apply eval_cst_true_some; auto. congruence.
      * simpl in H. destruct (useless_for_meet c); auto. apply REM; auto. apply eval_cst_true_some; auto. congruence.
    + simpl in H. destruct (useless_for_meet c) eqn:U; auto. apply REM; auto. apply useless_some; auto. congruence.
Qed.
Lemma array_reduce_exact : forall v l l' t, Forall exact_ok l -> array_reduce true l = Some (l', t) ->
  Forall (fun c => sat_some c v) l' -> Forall (fun c => sat_some c v) l.
Proof.
  intros v l l' t FO H FS. unfold array_reduce in H. destruct (reduce_loop (length l) true [] l) as [[r b]|] eqn:R; try discriminate.
  assert (r = l') by (destruct b; inversion H; auto). subst r. apply (reduce_loop_exact v _ [] l _ _ FO R FS).
Qed.
Lemma linearize_array_exact : forall v l l', Forall exact_ok l -> linearize_array true l = Some l' ->
  Forall (fun c => sat_some c v) l' -> Forall (fun c => sat_some c v) l.
Proof.
  intros v l l' FO H FS. unfold linearize_array in H. destruct (array_reduce true l) as [[l1 t]|] eqn:R; try discriminate.
  eapply array_reduce_exact; eauto. destruct t; try discriminate; inversion H; subst; auto.
  pose proof (array_reduce_kept _ _ _ R) as K. apply linearize_split in FS.
  destruct (array_reduce_false _ _ _ _ R) as [[c ->]|X].
  - rewrite Forall_forall in K. destruct (K _ (or_introl eq_refl)) as [K1 _]. simpl in K1. congruence.
  - specialize (X _ FO). rewrite Forall_forall in *. intros c C. destruct (X c C) as (A1 & A2 & A3 & A4 & A5). apply linearize1_some_conv; auto.
Qed.
Lemma icons_bool_exact : forall c b, exact_ok (icons_bool c b).
Proof.
  intros. split; [left; auto|]. split; [constructor|]. split; [constructor|]. split; [intro; apply icons_bool_flags; auto|].
  eexists. apply point_ex. destruct b; reflexivity.
Qed.
Lemma quasilinearize_lincons_exact : forall env v c c', exact_ok c -> cons_in_env v env c ->
  quasilinearize_lincons (N:=exact_num) env true c = Some c' -> exact_ok c' /\ (sat_some c' v -> sat_some c v).
Proof.
  intros env v c c' EX I H. pose proof EX as (A1 & A2 & A3 & A4 & A5). unfold quasilinearize_lincons in H. destruct (il_terms (ic_expr c)) eqn:T.
  - destruct (eval_cst c) eqn:EV; inversion H; subst; auto.
    + split. apply icons_bool_exact. intro X. exfalso. eapply icons_false_some; eauto.
    + split. apply icons_bool_exact. intro. apply eval_cst_true_some; auto. congruence.
  - inversion H; subst. clear H. rewrite <- T in *. unfold cons_in_env in I.
    set (fmi := true && match ic_typ c with CSup | CSupEq => true | _ => false end) in *.
    pose proof (quasilinearize_shape (N:=exact_num) env fmi (ic_expr c) A3) as SH.
    split.
    + split; [auto|]. simpl. split; [eapply Forall_impl; [|exact SH]; simpl; tauto|].
      split; [eapply Forall_impl; [|exact SH]; simpl; tauto|]. split.
      * intros K _. simpl. unfold quasilinearize. apply ql_loop_flag_E; auto. apply (A4 K).
        unfold is_quasilinear. apply forallb_forall. rewrite Forall_forall in A2. auto.
      * destruct A5 as [x X]. destruct (tval_ex v (il_terms (ic_expr c))) as [r TV].
        { apply Forall_forall. intros t J. eexists. apply point_ex. unfold flags_ok in A3. rewrite Forall_forall in *. apply A3; auto. }
        assert (Y : ival (quasilinearize (N:=exact_num) env fmi (ic_expr c)) v (x + r)%R) by (apply quasilinearize_sound; auto; exists x, r; auto).
        destruct Y as (k & r1 & C & _). eauto.
    + intros (r & V & S). simpl in *. exists r. split; auto. eapply quasilinearize_exact; eauto.
Qed.
Lemma qla_loop_exact : forall env v fuel acc todo l, Forall exact_ok todo -> Forall exact_ok acc -> Forall (cons_in_env v env) todo ->
  qla_loop (N:=exact_num) fuel env true acc todo = Some l -> Forall exact_ok l /\
   (Forall (fun c => sat_some c v) l -> Forall (fun c => sat_some c v) (acc ++ todo)).
Proof.
  intros env v. induction fuel as [|fuel IH]; intros acc todo l FO FA FI H.
  - destruct todo; simpl in H; inversion H; subst. split. apply Forall_rev; auto. intro FS. apply Forall_rev in FS. rewrite rev_involutive in FS. rewrite app_nil_r. auto.
  - destruct todo as [|c rest]; simpl in H. inversion H; subst. split. apply Forall_rev; auto. intro FS. apply Forall_rev in FS. rewrite rev_involutive in FS. rewrite app_nil_r. auto.
    inversion FO as [|? ? O1 O2]; inversion FI as [|? ? I1 I2]; subst.
    replace (match ic_typ c with CEq => negb (is_quasilinear (ic_expr c)) | _ => false end) with false in H.
    2: { destruct (ic_typ c); auto. symmetry. apply negb_false_iff. unfold is_quasilinear. apply forallb_forall. apply Forall_forall. apply O1. }
    destruct (quasilinearize_lincons (N:=exact_num) env true c) as [c2|] eqn:QC; try discriminate.
    destruct (quasilinearize_lincons_exact _ _ _ _ O1 I1 QC) as [Q1 Q2].
    assert (G : qla_loop (N:=exact_num) fuel env true (c2 :: acc) rest = Some l -> Forall exact_ok l /\
      (Forall (fun c => sat_some c v) l -> Forall (fun c => sat_some c v) (acc ++ c :: rest))).
    { intro X. apply IH in X; auto. destruct X as [X0 X]. split; auto. intro FS. specialize (X FS). simpl in X. inversion X as [|? ? X1 X2]; subst. apply Forall_app in X2. destruct X2 as [X2 X3].
      apply Forall_app; split; auto. }
    assert (FF : Some [icons_bool c2 false] = Some l -> Forall exact_ok l /\
      (Forall (fun c => sat_some c v) l -> Forall (fun c => sat_some c v) (acc ++ c :: rest))).
    { intro X. inversion X; subst. split. repeat constructor; apply icons_bool_exact. intro FS. inversion FS; subst. exfalso. eapply icons_false_some; eauto. }
    destruct (il_terms (ic_expr c2)); auto. destruct (eval_cst c2); auto; discriminate.
Qed.
Lemma quasilinearize_lincons0_array_exact : forall env lin v l l', Forall exact_ok l -> Forall (cons_in_env v env) l ->
  quasilinearize_lincons0_array (N:=exact_num) env lin true l = Some l' ->
  (Forall (fun c => sat_some c v) l' <-> Forall (fun c => sat_some c v) l).
Proof.
  intros env lin v l l' FO FI H. split.
  - intro FS. unfold quasilinearize_lincons0_array in H.
    destruct (quasilinearize_array (N:=exact_num) env true l) as [l1|] eqn:Q; try discriminate.
    unfold quasilinearize_array in Q. destruct (array_reduce true l) as [[l2 t]|] eqn:R; try discriminate.
    eapply array_reduce_exact; eauto.
    assert (E2 : Forall exact_ok l2) by (eapply array_reduce_sub; [intro; apply icons_bool_exact|exact FO|exact R]).
    assert (I2 : Forall (cons_in_env v env) l2) by (eapply array_reduce_sub; [intro; constructor|exact FI|exact R]).
    destruct (qla_loop_exact env v _ [] l2 l1 E2 (Forall_nil _) I2 Q) as [X1 X2]. apply X2.
    destruct lin; [|inversion H; subst; auto]. eapply linearize_array_exact; eauto.
  - intro FS. eapply quasilinearize_lincons0_array_meet; [| |exact FS|exact H]; auto.
    eapply Forall_impl; [|exact FO]. intros a (A1 & A2 & A3 & A4 & A5). split; auto.
Qed.

(** ** The functions do not abort, unless a congruence has a zero modulus *)
Definition no_crash (c : icons) : Prop := ic_typ c = CEqMod -> Qeq_bool (ic_num c) 0 = false.
Lemma eval_cst_no_crash : forall c, no_crash c -> eval_cst c <> TCrash.
Proof.
  intros c H. unfold eval_cst. unfold no_crash in H. destruct (itv_is_bottom _); try discriminate. destruct (ic_typ c).
  - destruct (il_eq _). destruct (_ =? _); discriminate. destruct (_ || _); discriminate.
  - destruct (_ <=? _); try discriminate. destruct (_ <? _); discriminate.
  - destruct (_ <? _); try discriminate. destruct (_ <=? _); discriminate.
  - rewrite (H eq_refl). destruct (il_eq _); try discriminate. destruct (bsgn _ =? 0); discriminate.
  - destruct (_ || _); discriminate.
Qed.
Lemma icons_bool_no_crash : forall c b, no_crash (icons_bool c b).
Proof. intros c b H. discriminate H. Qed.
Lemma reduce_loop_total : forall meet fuel acc todo, (length todo <= fuel)%nat -> Forall no_crash todo -> exists l b, reduce_loop fuel meet acc todo = Some (l, b).
Proof.
  intros meet. induction fuel as [|fuel IH]; intros acc todo L F.
  - destruct todo; simpl in *; try lia. eauto.
  - destruct todo as [|c rest]; simpl in *; eauto. inversion F as [|? ? F1 F2]; subst. pose proof (eval_cst_no_crash _ F1) as NC.
    assert (REM : exists l b, reduce_loop fuel meet acc (swap_out rest) = Some (l, b)).
    { apply IH. rewrite swap_out_length. lia. eapply Permutation_Forall; [apply Permutation_sym; apply swap_out_perm|auto]. }
    assert (KEEP : exists l b, reduce_loop fuel meet (c :: acc) rest = Some (l, b)) by (apply IH; auto; lia).
    destruct (il_terms (ic_expr c)).
    + destruct (eval_cst c); eauto; try congruence. destruct (meet && useless_for_meet c); auto. destruct (negb meet && sat_is_false c); eauto.
    + destruct (meet && useless_for_meet c); auto. destruct (negb meet && sat_is_false c); eauto.
Qed.
Lemma array_reduce_total : forall meet l, Forall no_crash l -> exists l' t, array_reduce meet l = Some (l', t) /\ t <> TCrash /\ Forall no_crash l' /\ (length l' <= length l \/ l' = [icons_bool (hd (icons_bool (mkIC (mkIL [] itv_top true) CEq 0) true) l') false])%nat.
Proof.
  intros meet l F. destruct (reduce_loop_total meet (length l) [] l (le_n _) F) as (l' & b & R).
  assert (F' : Forall no_crash l') by (eapply reduce_loop_sub with (acc := []); [intro; apply icons_bool_no_crash|constructor|exact F|exact R]).
  unfold array_reduce. rewrite R. destruct b.
  - exists l', TFalse. split; auto. split; [discriminate|]. split; auto. destruct (reduce_loop_kept_true _ _ _ _ _ R) as [c ->]. right. simpl. reflexivity.
  - eexists l', _. split; [reflexivity|]. split.
    + destruct l' as [|c [|]]; try discriminate. destruct (il_terms (ic_expr c)); try discriminate. inversion F'; subst. apply eval_cst_no_crash; auto.
    + split; auto. left. assert (G : forall fuel acc todo l', reduce_loop fuel meet acc todo = Some (l', false) -> (length l' <= length acc + length todo)%nat).
      { clear. induction fuel as [|fuel IH]; intros acc todo l' H.
        - destruct todo; simpl in H; inversion H; subst. rewrite rev_length. lia.
        - destruct todo as [|c rest]; simpl in H. inversion H; subst. rewrite rev_length. lia.
          destruct (match il_terms (ic_expr c) with [] => eval_cst c | _ :: _ => TTop end); try discriminate.
          + apply IH in H. rewrite swap_out_length in H. simpl. lia.
          + destruct (meet && useless_for_meet c). apply IH in H. rewrite swap_out_length in H. simpl; lia.
            destruct (negb meet && sat_is_false c); try discriminate. apply IH in H. simpl in *. lia. }
      apply (G _ [] l l' R).
Qed.
Section T.
Context {N : numtype}.
Definition qmeasure (l : list icons) : nat := (length l + length (filter (fun c => match ic_typ c with CEq => true | _ => false end) l))%nat.
Lemma quasilinearize_lincons_total : forall env meet c, no_crash c -> exists c', quasilinearize_lincons (N:=N) env meet c = Some c' /\ no_crash c'.
Proof.
  intros env meet c H. unfold quasilinearize_lincons. pose proof (eval_cst_no_crash _ H). destruct (il_terms (ic_expr c)); [|eexists; split; eauto].
  destruct (eval_cst c); try congruence; eexists; split; eauto; apply icons_bool_no_crash.
Qed.
Lemma qla_loop_total : forall env meet fuel acc todo, (qmeasure todo <= fuel)%nat -> Forall no_crash acc -> Forall no_crash todo ->
  exists l, qla_loop (N:=N) fuel env meet acc todo = Some l /\ Forall no_crash l.
Proof.
  intros env meet. induction fuel as [|fuel IH]; intros acc todo L FA F.
  - destruct todo; simpl in *. eexists; split; eauto. apply Forall_rev; auto. unfold qmeasure in L. simpl in L. lia.
  - destruct todo as [|c rest]; simpl. eexists; split; eauto. apply Forall_rev; auto.
    inversion F as [|? ? F1 F2]; subst.
    set (sp := meet && match ic_typ c with CEq => negb (is_quasilinear (ic_expr c)) | _ => false end).
    set (c1 := if sp then mkIC (ic_expr c) CSupEq (ic_num c) else c).
    set (rest1 := if sp then rest ++ [mkIC (ilin_neg (ic_expr c)) CSupEq (ic_num c)] else rest).
    replace (if sp then (mkIC (ic_expr c) CSupEq (ic_num c), rest ++ [mkIC (ilin_neg (ic_expr c)) CSupEq (ic_num c)]) else (c, rest)) with (c1, rest1) by (unfold c1, rest1; destruct sp; auto).
    assert (G1 : no_crash c1). { unfold c1. destruct sp; auto. intro H; discriminate H. }
    assert (G2 : Forall no_crash rest1). { unfold rest1. destruct sp; auto. apply Forall_app. split; [exact F2|]. constructor; [intro H; discriminate H|constructor]. }
    assert (G3 : (qmeasure rest1 <= fuel)%nat).
    { unfold rest1, qmeasure in *. simpl in L. destruct sp eqn:SP.
      - unfold sp in SP. apply andb_true_iff in SP. destruct SP as [_ SP]. destruct (ic_typ c); try discriminate. simpl in L.
        rewrite filter_app, !app_length. simpl. lia.
      - destruct (ic_typ c); simpl in L; lia. }
    destruct (quasilinearize_lincons_total env meet c1 G1) as (c2 & -> & G4). pose proof (eval_cst_no_crash _ G4).
    assert (K : exists l, qla_loop (N:=N) fuel env meet (c2 :: acc) rest1 = Some l /\ Forall no_crash l) by (apply IH; auto).
    destruct (il_terms (ic_expr c2)); auto. destruct (eval_cst c2); auto; try congruence.
    eexists; split; eauto. constructor; [|constructor]. apply icons_bool_no_crash.
Qed.
Lemma quasilinearize_lincons0_array_total : forall env lin meet l, Forall no_crash l -> exists l', quasilinearize_lincons0_array (N:=N) env lin meet l = Some l'.
Proof.
  intros env lin meet l F. unfold quasilinearize_lincons0_array, quasilinearize_array. destruct (array_reduce_total meet l F) as (l1 & t & -> & _ & F1 & _).
  destruct (qla_loop_total env meet (2 * length l1) [] l1) as (l2 & Q & F2); auto.
  { unfold qmeasure. assert (X : forall (f : icons -> bool) l, (length (filter f l) <= length l)%nat) by (induction l0; simpl; auto; destruct (f a); simpl; lia). specialize (X (fun c => match ic_typ c with CEq => true | _ => false end) l1). lia. }
  cbv zeta iota. rewrite Q. destruct lin; eauto. unfold linearize_array. destruct (array_reduce_total meet l2 F2) as (l3 & t3 & -> & T & _). destruct t3; eauto. congruence.
Qed.
End T.

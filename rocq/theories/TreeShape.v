(** Shape of the linear constraints built from trees (ItvTree.v, ItvTreeApi.v): each dimension occurs
    once and exists; the coefficients are well formed as soon as some point satisfies the constraint. *)
From Coq Require Import Arith ZArith QArith Qreals Reals Lra Lia Bool List Sorted Permutation.
From Verif Require Import Bound BoundFacts Itv ItvFacts Linexpr LinexprFacts ItvLin ItvLinFacts ItvLinCons ItvLinApi ItvLinInt ItvLinExact ApCheck ApTexpr TexprSem ItvTree ItvTreeFacts ItvTreeApi ItvTreeApiFacts PkUserRow PkUserCons PkUserMeet.
Import ListNotations.
Open Scope nat_scope.

Definition sdims (ts : list iterm) : Prop := StronglySorted lt (map t_dim ts).
Section Sorted.
Context {N : numtype} {F : fmts}.
Lemma sd_nil : sdims []. Proof. constructor. Qed.
Lemma add_terms_lb : forall la lb k, Forall (fun d => k < d) (map t_dim la) -> Forall (fun d => k < d) (map t_dim lb) -> Forall (fun d => k < d) (map t_dim (add_terms (N:=N) la lb)).
Proof. intros la lb k A B. rewrite Forall_map in *. apply (add_terms_dims (N:=N) (fun d => k < d)); auto. Qed.
Lemma add_terms_sorted : forall la lb, sdims la -> sdims lb -> sdims (add_terms (N:=N) la lb).
Proof.
  unfold sdims. induction la as [|a la IH].
  - intros lb _ S. destruct lb; simpl; auto.
  - intros lb SA. induction lb as [|b lb IHb]; intros SB. simpl; auto.
    simpl in SA, SB. apply StronglySorted_inv in SA. destruct SA as [SA LA]. pose proof SB as SB0. apply StronglySorted_inv in SB. destruct SB as [SB LB].
    cbn [add_terms]. destruct (Nat.ltb_spec (t_dim b) (t_dim a)).
    + cbn [map]. constructor. apply IHb; auto. apply (add_terms_lb (a :: la) lb); auto. simpl. constructor; auto. eapply Forall_impl; [|exact LA]. simpl. intros; lia.
    + destruct (Nat.ltb_spec (t_dim a) (t_dim b)).
      * cbn [map]. constructor. apply IH; auto. apply add_terms_lb; auto. simpl. constructor; auto. eapply Forall_impl; [|exact LB]. simpl. intros; lia.
      * assert (E : t_dim a = t_dim b) by lia. rewrite E in *. cbv zeta. destruct (itv_is_zero _). apply IH; auto. cbn [map t_dim]. constructor. apply IH; auto. apply add_terms_lb; auto.
Qed.
Lemma sd_same : forall ts ts', map t_dim ts = map t_dim ts' -> sdims ts' -> sdims ts. Proof. unfold sdims. intros ts ts' ->. auto. Qed.
Lemma neg_sorted : forall l, sdims (il_terms l) -> sdims (il_terms (ilin_neg l)).
Proof. intros l. apply sd_same. simpl. rewrite map_map. auto. Qed.
Lemma add_sorted : forall a b, sdims (il_terms a) -> sdims (il_terms b) -> sdims (il_terms (ilin_add (N:=N) a b)).
Proof. intros a b A B. unfold ilin_add. destruct (itv_is_top _); simpl. apply sd_nil. apply add_terms_sorted; auto. Qed.
Lemma scale_sorted : forall a c, sdims (il_terms a) -> sdims (il_terms (ilin_scale (N:=N) a c)).
Proof. intros a c A. unfold ilin_scale. destruct (itv_is_zero c). apply sd_nil. destruct (itv_is_top _); simpl. apply sd_nil. eapply sd_same; [|exact A]. rewrite map_map. auto. Qed.
Lemma div_sorted : forall a c, sdims (il_terms a) -> sdims (il_terms (ilin_div (N:=N) a c)).
Proof. intros a c A. eapply sd_same; [|exact A]. simpl. rewrite map_map. auto. Qed.
Lemma round_sorted : forall l i o t d, sdims (il_terms l) -> sdims (il_terms (fst (lin_round (N:=N) (F:=F) l i o t d))).
Proof.
  intros l i o t d H. assert (R : forall f, sdims (il_terms (round_float_lin (N:=N) f l))) by (intros f; eapply sd_same; [|exact H]; simpl; rewrite map_map; auto).
  unfold lin_round. destruct t; [exact H| ..]; match goal with |- context [if ?b then _ else _] => destruct b end; cbn [fst]; auto; exact H.
Qed.
Lemma reduce_sorted : forall env l i, sdims (il_terms l) -> sdims (il_terms (fst (lin_reduce (N:=N) env l i))).
Proof. intros env l i H. unfold lin_reduce. destruct (_ || _); cbn [fst il_terms]. apply sd_nil. destruct (il_terms l) eqn:E; cbn [fst]. apply sd_nil. rewrite E. auto. Qed.
Lemma intlin_rec_sorted : forall eq0 env intdim e, sdims (il_terms (snd (fst (intlin_rec (N:=N) (F:=F) eq0 env intdim e)))).
Proof.
  intros eq0 env intdim. induction e as [c|k|o t d a IH|o t d a IHa b IHb]; simpl.
  - apply sd_nil.
  - repeat constructor.
  - destruct (intlin_rec eq0 env intdim a) as [[t1 l1] i1]. simpl in IH. destruct o; simpl.
    + apply neg_sorted; auto.
    + pose proof (round_sorted l1 i1 t1 t d IH) as R. destruct (lin_round l1 i1 t1 t d) as [l i]. simpl in R. pose proof (reduce_sorted env l i R) as Q. destruct (lin_reduce env l i) as [l' i']. exact Q.
    + apply sd_nil.
  - destruct (intlin_rec eq0 env intdim a) as [[t1 l1] i1]. destruct (intlin_rec eq0 env intdim b) as [[t2 l2] i2]. simpl in IHa, IHb.
    destruct (itv_is_bottom i1 || itv_is_bottom i2). apply sd_nil.
    assert (G : forall l i org, sdims (il_terms l) -> sdims (il_terms (snd (fst (let '(l0, i0) := lin_round (N:=N) (F:=F) l i org t d in let '(l1, i1) := lin_reduce (N:=N) env l0 i0 in (t, l1, i1)))))).
    { intros l i org S. pose proof (round_sorted l i org t d S) as R. destruct (lin_round l i org t d) as [l0 i0]. simpl in R. pose proof (reduce_sorted env l0 i0 R) as Q. destruct (lin_reduce env l0 i0) as [l' i']. exact Q. }
    destruct o; try apply G; try (simpl; apply sd_nil).
    + apply add_sorted; auto.
    + apply add_sorted; auto. apply neg_sorted; auto.
    + destruct (cmp_range l1 i1 l2 i2); apply scale_sorted; auto.
    + apply div_sorted; auto.
Qed.
Lemma intlinear_sorted : forall eq0 e l, intlinear_texpr (N:=N) (F:=F) eq0 e = Some l -> sdims (il_terms l).
Proof.
  intros eq0. induction e as [c|k|o t d a IH|o t d a IHa b IHb]; intros l H; cbn [intlinear_texpr] in H.
  - inversion H. apply sd_nil.
  - inversion H. repeat constructor.
  - destruct (is_interval_cst _). inversion H. apply sd_nil. destruct (_ && _); [discriminate|].
    destruct o; try discriminate; destruct (intlinear_texpr eq0 a) as [l0|]; try discriminate; inversion H; subst; auto. apply neg_sorted; auto.
  - destruct (is_interval_cst _). inversion H. apply sd_nil. destruct (negb _); [discriminate|].
    destruct o; try discriminate.
    + destruct (intlinear_texpr eq0 a), (intlinear_texpr eq0 b); try discriminate. inversion H. apply add_sorted; auto.
    + destruct (intlinear_texpr eq0 a), (intlinear_texpr eq0 b); try discriminate. inversion H. apply add_sorted; auto. apply neg_sorted; auto.
    + destruct (is_interval_cst b). destruct (intlinear_texpr eq0 a); try discriminate. inversion H. apply scale_sorted; auto.
      destruct (is_interval_cst a); try discriminate. destruct (intlinear_texpr eq0 b); try discriminate. inversion H. apply scale_sorted; auto.
    + destruct (is_interval_cst b); try discriminate. destruct (intlinear_texpr eq0 a); try discriminate. inversion H. apply scale_sorted; auto.
Qed.
End Sorted.
(** ** Constraints *)
Definition lcd (n : nat) (c : lincons) : Prop := holes_last (le_terms (lc_expr c)) /\ match le_terms (lc_expr c) with Dense _ => False | Sparse ts => NoDup (term_dims ts) /\ forall d, In d (term_dims ts) -> d < n end.
Lemma sorted_nodup : forall l, StronglySorted lt l -> NoDup l.
Proof. induction l as [|a l IH]; intros S. constructor. apply StronglySorted_inv in S. destruct S as [S L]. constructor; auto. intros I. rewrite Forall_forall in L. apply L in I. lia. Qed.
Lemma terms_of_dims : forall ts, term_dims (map (fun t => (Some (t_dim t), coeff_of_itv (t_itv t))) ts) = map t_dim ts.
Proof. induction ts as [|t ts IH]; simpl; auto. f_equal; auto. Qed.
Lemma of_icons_lcd : forall n k, wfd n k -> lcd n (lincons_of_icons k).
Proof.
  intros n k (ND & D). split. apply linexpr_of_ilin_holes. simpl. rewrite terms_of_dims. split; auto. intros d I. apply in_map_iff in I. destruct I as (t & <- & I). rewrite Forall_forall in D. auto.
Qed.
Lemma sat_wf : forall n c v, lcd n c -> sat_cons c v -> user_wf n c.
Proof.
  intros n c v (H & D) (r & (c0 & r1 & C0 & T & _) & _). split; auto. assert (W : forall x k, coeff_in x k -> wf_coeff k). { intros x [[| |]|[| |] [| |]] X; simpl in *; try tauto; split; try discriminate; tauto. }
  split. eapply W; eauto. destruct (le_terms (lc_expr c)) as [l|ts]; [tauto|]. destruct D as [ND DL]. simpl. split; [|split]; auto. destruct T as (cs & F2 & _). clear - F2 W. induction F2; constructor; auto. intros NN. eapply W; eauto.
Qed.
Section Tcons.
Context {F : fmts}.
Notation E := exact_num.
Lemma rec_wfd : forall eq0 env intdim n e t m, (forall d, occurs d e -> d < n) -> wfd n (mkIC (snd (fst (intlin_rec (N:=E) (F:=F) eq0 env intdim e))) t m) /\ flc (mkIC (snd (fst (intlin_rec (N:=E) (F:=F) eq0 env intdim e))) t m).
Proof.
  intros eq0 env intdim n e t m D. destruct (intlin_rec_shape (N:=E) (F:=F) eq0 env intdim e) as (A & B & _). split; auto. split. apply sorted_nodup. apply intlin_rec_sorted. eapply Forall_impl; [|exact B]. simpl. auto.
Qed.
Lemma loop_wfd : forall eq0 env intdim n l t, Forall (fun c => forall d, occurs d (tc_expr c) -> d < n) l -> intlin_tcons_loop (N:=E) (F:=F) eq0 env intdim l = Some t -> Forall (fun c => wfd n c /\ flc c) t.
Proof.
  intros eq0 env intdim n. induction l as [|c l IH]; intros t FA H; cbn [intlin_tcons_loop] in H. inversion H. constructor. inversion FA as [|? ? D FA']; subst.
  pose proof (fun t m => rec_wfd eq0 env intdim n (tc_expr c) t m D) as R. destruct (intlin_rec eq0 env intdim (tc_expr c)) as [[t0 l0] i0]. cbn [fst snd] in R.
  destruct (_ || _); [discriminate|]. destruct (intlin_tcons_loop eq0 env intdim l) as [r|]; [|discriminate]. inversion H; subst. constructor; auto.
Qed.
Lemma boolc_shape : forall n c b, wfd n (icons_bool c b) /\ flc (icons_bool c b). Proof. intros. destruct (bool_shape n c b) as (A & _ & B & _). auto. Qed.
Lemma array_wfd : forall eq0 env intdim n l, Forall (fun c => forall d, occurs d (tc_expr c) -> d < n) l -> Forall (fun c => wfd n c /\ flc c) (fst (intlin_tcons_array (N:=E) (F:=F) eq0 env intdim l)).
Proof.
  intros eq0 env intdim n l FA. unfold intlin_tcons_array. destruct (intlin_tcons_loop eq0 env intdim l) as [t|] eqn:H; cbn [fst]. eapply loop_wfd; eauto. constructor; [|constructor]. apply boolc_shape.
Qed.
Lemma row1_shape : forall n d k i t, d < n -> wfd n (bound_row d k i t) /\ flc (bound_row d k i t).
Proof. intros n d k i t D. split. split. repeat constructor. intros []. repeat constructor; auto. constructor; [|constructor]. simpl. unfold itv_is_point, itv_of_int. simpl. intros _. apply Qeq_bool_iff. simpl. field. Qed.
Lemma rows_shape : forall tch env n ds r, Forall (fun d => d < n) ds -> all_rows tch env ds = Some r -> Forall (fun c => wfd n c /\ flc c) r.
Proof.
  intros tch env n. induction ds as [|d ds IH]; intros r FA H; simpl in H. inversion H. constructor. inversion FA as [|? ? D FA']; subst.
  destruct (rows_of tch env d) as [a|] eqn:A; [|discriminate]. destruct (all_rows tch env ds) as [b|]; [|discriminate]. inversion H; subst. apply Forall_app. split; [|apply IH; auto].
  assert (R := fun k i t => row1_shape n d k i t D). unfold rows_of in A. destruct (tch d) as [ci cs]. destruct ((ci || cs) && itv_is_point (env d)). inversion A; subst. apply Forall_cons; [apply R|constructor].
  destruct ci, cs, (inf (env d)), (sup (env d)); try discriminate; inversion A; subst; cbn [app]; repeat (apply Forall_cons; [apply R|]); constructor.
Qed.
Lemma tcons_array_shape : forall eq0 env intdim n lt boxize kmax ionly tch l t, Forall (fun c => forall d, occurs d (tc_expr c) -> d < n) l ->
  ap_intlinearize_tcons0_array (N:=E) (F:=F) eq0 env intdim n lt true boxize kmax ionly tch l = Some t -> Forall (lcd n) t.
Proof.
  intros eq0 env intdim n lt boxize kmax ionly tch l t FA H. unfold ap_intlinearize_tcons0_array in H. pose proof (array_wfd eq0 env intdim n l FA) as W. set (t0 := fst (intlin_tcons_array eq0 env intdim l)) in *. clearbody t0.
  match type of H with option_map _ ?x = _ => destruct x as [t1|] eqn:H1; [|discriminate] end. inversion H; subst t. clear H. assert (G : Forall (fun c => wfd n c /\ flc c) t1); [|rewrite Forall_map; eapply Forall_impl; [|exact G]; intros c (A & _); apply of_icons_lcd; auto].
  destruct (single_cst t0). inversion H1; subst; auto.
  destruct (if true && boxize && _ then _ else _) as [[env' change] empty].
  assert (Q : forall t2, match lt with TIntlinear => Some t0 | TQuasilinear => quasilinearize_lincons0_array (N:=E) env' false true t0 | TLinear => quasilinearize_lincons0_array (N:=E) env' true true t0 end = Some t2 -> Forall (fun c => wfd n c /\ flc c) t2).
  { intros t2 X. assert (A : forall b, quasilinearize_lincons0_array (N:=E) env' b true t0 = Some t2 -> Forall (fun c => wfd n c /\ flc c) t2).
    { intros b Y. unfold quasilinearize_lincons0_array in Y. destruct (quasilinearize_array env' true t0) as [t3|] eqn:T3; [|discriminate]. pose proof (qlarr_shape n _ _ _ _ W T3) as S3. destruct b.
      - eapply Forall_impl; [|eapply linarr_shape; [exact S3|exact Y]]. simpl. tauto.
      - inversion Y; subst. eapply Forall_impl; [|exact S3]. simpl. tauto. }
    destruct lt; eauto. inversion X; subst; auto. }
  match type of H1 with match ?x with _ => _ end = _ => destruct x as [t2|] eqn:T2; [|discriminate] end. specialize (Q t2 eq_refl).
  destruct (single_false t2). inversion H1; subst; auto. destruct change; [|inversion H1; subst; auto]. destruct empty. inversion H1; subst. constructor; [|constructor]. apply boolc_shape.
  destruct (all_rows tch env' (seq 0 n)) as [r|] eqn:AR; [|discriminate]. inversion H1; subst. apply Forall_app. split; auto. eapply rows_shape; [|exact AR]. apply Forall_forall. intros d I. apply in_seq in I. lia.
Qed.
End Tcons.

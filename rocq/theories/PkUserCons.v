(** The preparation of the constraints of a meet: shape and meaning of the constraints which become rows. *)
From Coq Require Import ZArith QArith Qround Qreals Reals Lra Bool List Lia Permutation.
Import ListNotations.
From Verif Require Import Bound BoundFacts Itv Linexpr LinexprFacts ItvFacts ItvLin ItvLinFacts ItvLinCons ItvLinInt ItvLinExact ItvLinApi PkCone PkVec PkCherni PkCherniFacts PkSimplify PkMinimize PkSpec PkPoly PkPolyFacts Box PkOps PkAssign PkUser PkUserRow.
Open Scope R_scope.

(** * Shape *)
Lemma swap_dims : forall l, Permutation (map t_dim (swap_out l)) (map t_dim l). Proof. intros. apply Permutation_map. apply swap_out_perm. Qed.
Lemma ql_nodup : forall env fmi fuel acc cst eq todo, NoDup (map t_dim (acc ++ todo)) -> NoDup (map t_dim (il_terms (ql_loop (N:=exact_num) fuel env fmi acc cst eq todo))).
Proof.
  intros env fmi.
  assert (REM : forall (acc : list iterm) t rest, NoDup (map t_dim (acc ++ t :: rest)) -> NoDup (map t_dim (acc ++ rest))). { intros acc t rest H. rewrite map_app in *. simpl in H. apply NoDup_remove_1 in H. auto. }
  assert (AC : forall acc : list iterm, NoDup (map t_dim acc) -> NoDup (map t_dim (rev acc))). { intros acc H. rewrite map_rev. eapply Permutation_NoDup; [apply Permutation_rev|]; auto. }
  assert (NL : forall acc todo : list iterm, NoDup (map t_dim (acc ++ todo)) -> NoDup (map t_dim acc)). { intros acc todo. revert acc. induction todo; intros acc H. rewrite app_nil_r in H. auto. apply IHtodo. eapply REM; eauto. }
  induction fuel as [|fuel IH]; intros acc cst eq todo ND; destruct todo as [|t rest]; cbn [ql_loop il_terms]; try (apply AC; apply NL in ND; auto; fail).
  assert (MV : forall u, t_dim u = t_dim t -> NoDup (map t_dim ((u :: acc) ++ rest))). { intros u E. eapply Permutation_NoDup; [|exact ND]. simpl. rewrite !map_app. simpl. rewrite E. apply Permutation_sym. apply Permutation_middle. }
  cbv zeta. destruct (itv_is_point _). apply IH. eapply Permutation_NoDup; [|eapply REM; exact ND]. rewrite !map_app. apply Permutation_app_head. apply Permutation_sym. apply swap_dims.
  destruct (t_eq t). apply IH. apply MV; auto. destruct (itv_is_top _). simpl. constructor. destruct (Qeq_bool _ _). apply IH. eapply REM; eauto. apply IH. apply MV; auto.
Qed.
Definition wfd (n : nat) (c : icons) : Prop := wf_dims n (il_terms (ic_expr c)).
Definition qlc (c : icons) : Prop := Forall (fun t => t_eq t = true) (il_terms (ic_expr c)).
Definition flc (c : icons) : Prop := flags_ok (il_terms (ic_expr c)).
Lemma wfd_nil : forall n c, il_terms (ic_expr c) = [] -> wfd n c. Proof. intros n c E. unfold wfd, wf_dims. rewrite E. split; constructor. Qed.
Lemma qlc_nil : forall c, il_terms (ic_expr c) = [] -> qlc c. Proof. intros c E. unfold qlc. rewrite E. constructor. Qed.
Lemma flc_nil : forall c, il_terms (ic_expr c) = [] -> flc c. Proof. intros c E. unfold flc. rewrite E. constructor. Qed.
Definition negt (ts : list iterm) : list iterm := map (fun t => mkT (itv_neg (t_itv t)) (t_eq t) (t_dim t)) ts.
Lemma negt_dims : forall ts, map t_dim (negt ts) = map t_dim ts. Proof. intros. unfold negt. rewrite map_map. auto. Qed.
Lemma negt_wf : forall n ts, wf_dims n ts -> wf_dims n (negt ts).
Proof. intros n ts (A & B). split. rewrite negt_dims; auto. unfold negt. rewrite Forall_map. auto. Qed.
Lemma negt_ql : forall ts, Forall (fun t => t_eq t = true) ts -> Forall (fun t => t_eq t = true) (negt ts). Proof. intros. unfold negt. rewrite Forall_map. auto. Qed.
Lemma negt_fl : forall ts, flags_ok ts -> flags_ok (negt ts). Proof. intros ts H. unfold flags_ok, negt in *. rewrite Forall_map. eapply Forall_impl; [|exact H]. simpl. intros t. rewrite point_neg. auto. Qed.
Lemma dims_forall : forall (P : nat -> Prop) ts, dims_in P ts <-> Forall (fun t => P (t_dim t)) ts. Proof. intros; unfold dims_in; tauto. Qed.
Lemma ql_wf : forall n env fmi e, wf_dims n (il_terms e) -> wf_dims n (il_terms (quasilinearize (N:=exact_num) env fmi e)).
Proof. intros n env fmi e (A & B). split. apply ql_nodup. auto. apply (quasilinearize_dims (N:=exact_num) (fun d => (d < n)%nat) env fmi e). auto. Qed.
Lemma qll_shape : forall n env meet c c', wfd n c -> flc c -> quasilinearize_lincons (N:=exact_num) env meet c = Some c' -> wfd n c' /\ qlc c' /\ flc c'.
Proof.
  intros n env meet c c' W F H. unfold quasilinearize_lincons in H. destruct (il_terms (ic_expr c)) eqn:T.
  - destruct (eval_cst c); inversion H; subst; repeat split; try constructor; try (apply wfd_nil; auto); try (apply qlc_nil; auto); try (apply flc_nil; auto).
  - inversion H; subst. clear H. set (fmi := meet && _). pose proof (quasilinearize_shape (N:=exact_num) env fmi (ic_expr c) F) as SH. split. apply ql_wf. exact W. split; eapply Forall_impl; try exact SH; simpl; tauto.
Qed.
Lemma qla_shape : forall n env meet fuel acc todo l, Forall (fun c => wfd n c /\ flc c) todo -> Forall (fun c => wfd n c /\ qlc c /\ flc c) acc -> qla_loop (N:=exact_num) fuel env meet acc todo = Some l -> Forall (fun c => wfd n c /\ qlc c /\ flc c) l.
Proof.
  intros n env meet. induction fuel as [|fuel IH]; intros acc todo l FT FA H.
  - destruct todo; simpl in H; inversion H; subst. apply Forall_rev; auto.
  - destruct todo as [|c rest]; simpl in H. inversion H; subst. apply Forall_rev; auto. inversion FT as [|? ? (W & F) FR]; subst.
    assert (G : forall c1 rest1, wfd n c1 -> flc c1 -> Forall (fun c => wfd n c /\ flc c) rest1 -> match quasilinearize_lincons (N:=exact_num) env meet c1 with None => None | Some c => match il_terms (ic_expr c) with [] => match eval_cst c with TCrash => None | TFalse => Some [icons_bool c false] | _ => qla_loop (N:=exact_num) fuel env meet (c :: acc) rest1 end | _ => qla_loop (N:=exact_num) fuel env meet (c :: acc) rest1 end end = Some l -> Forall (fun c => wfd n c /\ qlc c /\ flc c) l).
    { intros c1 rest1 W1 F1 R1 E. destruct (quasilinearize_lincons (N:=exact_num) env meet c1) as [c2|] eqn:Q; try discriminate. pose proof (qll_shape n _ _ _ _ W1 F1 Q) as SH.
      destruct (il_terms (ic_expr c2)) eqn:T2. destruct (eval_cst c2); try discriminate; try (eapply IH; [| |exact E]; auto; fail). inversion E; subst. repeat constructor. eapply IH; [| |exact E]; auto. }
    destruct (meet && _) in H.
    + eapply G; [| | |exact H]; auto. apply Forall_app. split; auto. constructor; auto. split. unfold wfd. simpl. apply (negt_wf n _ W). unfold flc. simpl. apply (negt_fl _ F).
    + eapply G; [| | |exact H]; auto.
Qed.
Lemma qlarr_shape : forall n env meet l l', Forall (fun c => wfd n c /\ flc c) l -> quasilinearize_array (N:=exact_num) env meet l = Some l' -> Forall (fun c => wfd n c /\ qlc c /\ flc c) l'.
Proof.
  intros n env meet l l' F H. unfold quasilinearize_array in H. destruct (array_reduce meet l) as [[l1 t]|] eqn:A; try discriminate. eapply qla_shape; [| |exact H]; auto.
  eapply array_reduce_sub; [| |exact A]; auto. intros c. split. apply wfd_nil; auto. apply flc_nil; auto.
Qed.
(** the equalities have a point as constant *)
Definition eqp (c : icons) : Prop := ic_typ c = CEq -> il_eq (ic_expr c) = true.
Lemma lin1_shape : forall n c, wfd n c -> qlc c -> flc c -> kept true c -> Forall (fun c => wfd n c /\ qlc c /\ flc c /\ eqp c) (lin1 true c).
Proof.
  intros n c W Q F (K1 & K2). unfold lin1, linearize1. destruct (il_eq (ic_expr c)) eqn:EQ. repeat constructor; auto; try apply W. intros _; auto.
  assert (A : forall ty, ic_typ c <> CEq \/ True -> wfd n (select_sup (with_typ c ty)) /\ qlc (select_sup (with_typ c ty)) /\ flc (select_sup (with_typ c ty)) /\ eqp (select_sup (with_typ c ty))). { intros ty _. split; [exact W|split; [exact Q|split; [exact F|intros _; auto]]]. }
  assert (B : forall ty, wfd n (select_inf (with_typ c ty)) /\ qlc (select_inf (with_typ c ty)) /\ flc (select_inf (with_typ c ty)) /\ eqp (select_inf (with_typ c ty))). { intros ty. split; [apply (negt_wf n _ W)|split; [apply (negt_ql _ Q)|split; [apply (negt_fl _ F)|intros _; auto]]]. }
  assert (D : select_sup c = select_sup (with_typ c (ic_typ c))) by (destruct c; auto). cbv zeta.
  destruct (ic_typ c) eqn:TY; cbn [fst snd].
  - destruct (_ && _); [|destruct (negb _)]; cbn [fst snd]; repeat (constructor; auto).
  - rewrite D. repeat (constructor; auto).
  - rewrite D. repeat (constructor; auto).
  - constructor; [|constructor]. split; [exact W|split; [exact Q|split; [exact F|intros X; congruence]]].
  - constructor; [|constructor]. split; [exact W|split; [exact Q|split; [exact F|intros X; congruence]]].
Qed.
Lemma reduce_cases : forall l l' t, array_reduce true l = Some (l', t) -> t <> TTop -> l' = [] \/ exists c, l' = [icons_bool c false].
Proof.
  intros l l' t H NT. unfold array_reduce in H. destruct (reduce_loop (length l) true [] l) as [[r b]|] eqn:R; try discriminate. destruct b.
  - inversion H; subst. right. eapply reduce_loop_kept_true; eauto.
  - inversion H; subst. pose proof (reduce_loop_kept true _ _ _ _ (Forall_nil _) R) as K. destruct l' as [|c [|d r]]; auto. exfalso. inversion K as [|? ? (K1 & _) _]; subst. destruct (il_terms (ic_expr c)) eqn:T; congruence. congruence.
Qed.
Lemma bool_shape : forall n c b, wfd n (icons_bool c b) /\ qlc (icons_bool c b) /\ flc (icons_bool c b) /\ eqp (icons_bool c b).
Proof. intros. split. apply wfd_nil; auto. split. apply qlc_nil; auto. split. apply flc_nil; auto. intros _; auto. Qed.
Lemma linarr_shape : forall n l l', Forall (fun c => wfd n c /\ qlc c /\ flc c) l -> linearize_array true l = Some l' -> Forall (fun c => wfd n c /\ qlc c /\ flc c /\ eqp c) l'.
Proof.
  intros n l l' F H. unfold linearize_array in H. destruct (array_reduce true l) as [[l1 t]|] eqn:A; try discriminate.
  assert (F1 : Forall (fun c => wfd n c /\ qlc c /\ flc c) l1). { eapply array_reduce_sub; [| |exact A]; auto. intros c. destruct (bool_shape n c false) as (? & ? & ? & _); auto. }
  assert (NT : t <> TTop -> Forall (fun c => wfd n c /\ qlc c /\ flc c /\ eqp c) l1). { intros N. destruct (reduce_cases _ _ _ A N) as [-> |(c & ->)]; constructor; auto. apply bool_shape. }
  destruct t; try discriminate; inversion H; subst; try (apply NT; discriminate). apply linearize_split. pose proof (array_reduce_kept _ _ _ A) as K. rewrite Forall_forall in *. intros c C. destruct (F1 c C) as (W & Q & FL). apply lin1_shape; auto.
Qed.
Lemma redint_shape : forall n i c, wfd n c -> qlc c -> flc c -> eqp c -> wfd n (reduce_integer i c) /\ qlc (reduce_integer i c) /\ flc (reduce_integer i c) /\ eqp (reduce_integer i c).
Proof.
  intros n i c W Q F E. assert (I : wfd n c /\ qlc c /\ flc c /\ eqp c) by auto.
  assert (D : ineq_typ (ic_typ c) \/ reduce_integer i c = c). { unfold ineq_typ, reduce_integer. destruct (ic_typ c); auto. }
  destruct D as [TY| ->]; auto. rewrite reduce_integer_eq by auto. destruct (negb _); auto. destruct (negb _); auto. destruct (_ =? 0)%Z; auto.
  assert (S : wfd n (scaled c) /\ qlc (scaled c) /\ flc (scaled c) /\ eqp (scaled c)).
  { unfold wfd, qlc, flc, eqp, scaled, wf_dims, flags_ok. cbn [ic_expr il_terms ic_typ il_eq]. rewrite map_map. cbn [red_term t_dim]. split. split. apply W. rewrite Forall_map. cbn. apply W. split. rewrite Forall_map. cbn. exact Q. split; [|exact E]. rewrite Forall_map. apply Forall_forall. intros t T. cbn. intros _. unfold itv_is_point. cbn. apply Qeq_bool_iff. ring. }
  destruct S as (S1 & S2 & S3 & S4). set (d := scaled c) in *. clearbody d. unfold tighten. destruct (match sup (il_cst (ic_expr d)) with Fin q => _ | b => _ end) as [s ty] eqn:M.
  assert (TE : ty = CEq -> ic_typ d = CEq). { intros ->. destruct (sup (il_cst (ic_expr d))); [|destruct (ic_typ d)|]; inversion M; auto. }
  assert (G : forall i0 s0 eq0 ty0, (ty0 = CEq -> eq0 = true) -> wfd n (mkIC (mkIL (il_terms (ic_expr d)) (mkItv i0 s0) eq0) ty0 (ic_num d)) /\ qlc (mkIC (mkIL (il_terms (ic_expr d)) (mkItv i0 s0) eq0) ty0 (ic_num d)) /\ flc (mkIC (mkIL (il_terms (ic_expr d)) (mkItv i0 s0) eq0) ty0 (ic_num d)) /\ eqp (mkIC (mkIL (il_terms (ic_expr d)) (mkItv i0 s0) eq0) ty0 (ic_num d))). { intros. split; [exact S1|split; [exact S2|split; [exact S3|auto]]]. }
  destruct ty; cbv zeta; try (destruct (binfty s); apply G; intros; congruence).
  destruct (itv_is_bottom _). apply bool_shape. apply G. intros _. apply S4. auto.
Qed.
Lemma redarr_shape : forall n i l l' t, Forall (fun c => wfd n c /\ qlc c /\ flc c /\ eqp c) l -> array_reduce_integer i l = Some (l', t) -> Forall (fun c => wfd n c /\ qlc c /\ flc c /\ eqp c) l'.
Proof.
  intros n i l l' t F H. unfold array_reduce_integer in H. eapply array_reduce_sub; [| |exact H]. intros c. apply bool_shape. rewrite Forall_map. eapply Forall_impl; [|exact F]. intros c (A & B & C & D). apply redint_shape; auto.
Qed.

(** * Soundness *)
Lemma tval_tsum : forall v ts r, Forall (fun t => t_eq t = true) ts -> flags_ok ts -> tval v ts r -> r = tsum ts v.
Proof.
  induction ts as [|t ts IH]; intros r Q F T; inversion T as [|c t' ts' r0 C T' E1 E2]; subst; auto. inversion Q as [|? ? Q1 Q2]; inversion F as [|? ? F1 F2]; subst. simpl. rewrite <- (IH r0) by auto. f_equal. f_equal. apply (proj1 (point_val _ _ (F1 Q1))). auto.
Qed.
Lemma tsum_tval : forall v ts, Forall (fun t => t_eq t = true) ts -> flags_ok ts -> tval v ts (tsum ts v).
Proof. induction ts as [|t ts IH]; intros Q F; simpl. constructor. inversion Q; inversion F; subst. constructor; auto. apply point_ex. auto. Qed.
Lemma qlc_quasi : forall c, qlc c -> is_quasilinear (ic_expr c) = true. Proof. intros c Q. unfold is_quasilinear. apply forallb_forall. unfold qlc in Q. rewrite Forall_forall in Q. auto. Qed.
Theorem lincons_row_sound : forall i n c v, wfd n c -> qlc c -> flc c -> eqp c -> eq_flag_ok c -> row_typ (ic_typ c) = true -> binfty (sup (il_cst (ic_expr c))) = false -> int_point i v -> sat_some c v -> row_holds (vector_set_lincons i n c) (homog v).
Proof.
  intros i n c v W Q F EP EF RT B P (r & (c0 & r1 & IC & TV & ->) & ST). destruct (binfty_fin _ _ (proj2 IC) B) as (s & S).
  destruct (set_linexpr_spec true n (ic_expr c) W) as (L & l & LP & E). destruct (finish_spec (ic_typ c) i n _ L) as (_ & H). apply (H v); auto. rewrite E. unfold lin_cst. rewrite S. cbn [bfinq].
  rewrite (tval_tsum v _ _ Q F TV) in ST.
  assert (D : sat_typ (ic_typ c) (Some (Fin 0)) (Q2R s + tsum (il_terms (ic_expr c)) v)).
  { assert (CS : c0 <= Q2R s). { destruct IC as (_ & IC). rewrite S in IC. exact IC. } destruct (ic_typ c) eqn:TY; simpl in *; try discriminate; try lra.
    assert (PT : itv_is_point (il_cst (ic_expr c)) = true). { apply (EF TY (qlc_quasi c Q)); auto. } apply (point_val _ _ PT) in IC. rewrite S in IC. simpl in IC. lra. }
  destruct (ic_typ c); simpl in *; try discriminate; nra.
Qed.
Lemma lin1_eqf : forall c, eq_flag_ok c -> Forall eq_flag_ok (lin1 true c).
Proof.
  intros c E. unfold lin1, linearize1. destruct (il_eq (ic_expr c)) eqn:EQ. repeat constructor; auto.
  assert (D : forall d, ic_typ d <> CEq -> eq_flag_ok d) by (intros d X Y; congruence).
  cbv zeta. destruct (ic_typ c) eqn:TY; cbn [fst snd]; [destruct (_ && _); [|destruct (negb _)]; cbn [fst snd]| | | |]; repeat constructor; auto; apply D; simpl; rewrite ?TY; discriminate.
Qed.
Definition inv (n : nat) (c : icons) : Prop := wfd n c /\ qlc c /\ flc c /\ eqp c.
Theorem pipe_sound : forall i n v l l1 l2 t, Forall (fun c => wfd n c /\ qlc c /\ flc c /\ eq_flag_ok c) l -> int_point i v -> Forall (fun c => sat_some c v) l ->
  linearize_array true l = Some l1 -> array_reduce_integer i l1 = Some (l2, t) -> cone (matrix_of_lincons i n l2) (homog v).
Proof.
  intros i n v l l1 l2 t F P S L A.
  assert (F1 : Forall (inv n) l1). { eapply linarr_shape; [|exact L]. eapply Forall_impl; [|exact F]. simpl. tauto. }
  assert (F2 : Forall (inv n) l2). { eapply redarr_shape; [|exact A]. exact F1. }
  assert (S1 : Forall (fun c => sat_some c v) l1). { eapply linearize_array_meet; [| |exact L]; auto. eapply Forall_impl; [|exact F]. simpl; tauto. }
  assert (E1 : Forall eq_flag_ok l1).
  { unfold linearize_array in L. destruct (array_reduce true l) as [[k u]|] eqn:R; try discriminate. assert (K : Forall eq_flag_ok k). { eapply array_reduce_sub; [| |exact R]. intros c. intros _. apply icons_bool_flags; auto. eapply Forall_impl; [|exact F]. simpl; tauto. }
    destruct u; try discriminate; inversion L; subst; auto. apply linearize_split. eapply Forall_impl; [|exact K]. apply lin1_eqf. }
  assert (FE : Forall (fun c => flags_ok (il_terms (ic_expr c)) /\ eq_flag_ok c) l1). { rewrite Forall_forall in *. intros c C. split; auto. apply (F1 c C). }
  assert (S2 : Forall (fun c => sat_some c v) l2). { eapply array_reduce_integer_sound; eauto. }
  assert (E2 : Forall eq_flag_ok l2). { unfold array_reduce_integer in A. eapply array_reduce_sub; [| |exact A]. intros c. intros _. apply icons_bool_flags; auto. rewrite Forall_map. eapply Forall_impl; [|exact FE]. simpl. intros c (X & Y). apply reduce_integer_eqf; auto. }
  apply cone_in. intros q Q. unfold matrix_of_lincons in Q. apply in_map_iff in Q. destruct Q as (c & <- & C). apply filter_In in C. destruct C as (C & T). apply andb_true_iff in T. destruct T as (T1 & T2). rewrite Forall_forall in *. destruct (F2 c C) as (W & Q & FL & EP). apply lincons_row_sound; auto. apply negb_true_iff; auto.
Qed.
Lemma row_len : forall i n c, lenS (S n) (vector_set_lincons i n c).
Proof. intros. unfold vector_set_lincons. apply finish_spec. unfold vector_set_linexpr, lenS. simpl. rewrite map_length, seq_length. auto. Qed.
Lemma matrix_len : forall i n l, Forall (lenS (S n)) (matrix_of_lincons i n l). Proof. intros. unfold matrix_of_lincons. rewrite Forall_map. apply Forall_forall. intros. apply row_len. Qed.

(** * Exactness: strict inequalities are relaxed *)
Definition rsat (c : icons) (v : nat -> R) : Prop := exists r, ival (ic_expr c) v r /\ relaxed (ic_typ c) r.
Definition relax (c : icons) : icons := match ic_typ c with CSup => with_typ c CSupEq | _ => c end.
Lemma relax_rsat : forall c v, ineq_typ (ic_typ c) -> (rsat c v <-> sat_some (relax c) v).
Proof. intros c v T. unfold rsat, sat_some, relax. destruct T as [E|[E|E]]; rewrite E; simpl; rewrite ?E; simpl; split; intros (r & A & B); exists r; split; auto; lra. Qed.
Lemma some_rsat : forall c v, ineq_typ (ic_typ c) -> sat_some c v -> rsat c v.
Proof. intros c v T (r & A & B). exists r. split; auto. destruct T as [E|[E|E]]; rewrite E in *; simpl in *; lra. Qed.
Lemma reduce_loop_rsat : forall v fuel acc todo l b, Forall exact_ok todo -> reduce_loop fuel true acc todo = Some (l, b) ->
  Forall (fun c => rsat c v) l -> Forall (fun c => rsat c v) (acc ++ todo).
Proof.
  intros v. induction fuel as [|fuel IH]; intros acc todo l b FO H FS.
  - destruct todo; simpl in H; inversion H; subst. apply Forall_rev in FS. rewrite rev_involutive in FS. rewrite app_nil_r. auto.
  - destruct todo as [|c rest]; simpl in H. inversion H; subst. apply Forall_rev in FS. rewrite rev_involutive in FS. rewrite app_nil_r. auto.
    inversion FO as [|? ? O1 O2]; subst.
    assert (FF : Some ([icons_bool c false], true) = Some (l, b) -> Forall (fun c => rsat c v) (acc ++ c :: rest)).
    { intro X; inversion X; subst. inversion FS as [|? ? G _]; subst. exfalso. apply relax_rsat in G; [|left; reflexivity]. exact (icons_false_some c v G). }
    assert (KEEP : reduce_loop fuel true (c :: acc) rest = Some (l, b) -> Forall (fun c => rsat c v) (acc ++ c :: rest)).
    { intro X. apply IH in X; auto. simpl in X. inversion X; subst. apply Forall_app in H3. apply Forall_app. split; try tauto. constructor; tauto. }
    assert (REM : sat_some c v -> reduce_loop fuel true acc (swap_out rest) = Some (l, b) -> Forall (fun c => rsat c v) (acc ++ c :: rest)).
    { intros S X. apply IH in X; auto. 2: eapply Permutation_Forall; [apply Permutation_sym; apply swap_out_perm|auto].
      apply Forall_app in X. destruct X as [HA HT]. apply Forall_app; split; auto. constructor; auto. apply some_rsat; auto; apply O1. eapply Permutation_Forall; [apply swap_out_perm|auto]. }
    destruct (il_terms (ic_expr c)) eqn:T.
    + destruct (eval_cst c) eqn:EV; auto; try discriminate.
      * apply REM; auto. apply eval_cst_true_some; auto. congruence.
      * simpl in H. destruct (useless_for_meet c); auto. apply REM; auto. apply eval_cst_true_some; auto. congruence.
    + simpl in H. destruct (useless_for_meet c) eqn:U; auto. apply REM; auto. apply useless_some; auto. congruence.
Qed.
Lemma array_reduce_rsat : forall v l l' t, Forall exact_ok l -> array_reduce true l = Some (l', t) -> Forall (fun c => rsat c v) l' -> Forall (fun c => rsat c v) l.
Proof.
  intros v l l' t FO H FS. unfold array_reduce in H. destruct (reduce_loop (length l) true [] l) as [[r b]|] eqn:R; try discriminate.
  assert (r = l') by (destruct b; inversion H; auto). subst r. apply (reduce_loop_rsat v _ [] l _ _ FO R FS).
Qed.
Lemma ineq_relax : forall c, ineq_typ (ic_typ c) -> ineq_typ (ic_typ (relax c)). Proof. intros c [E|[E|E]]; unfold relax, ineq_typ; rewrite E; simpl; auto. Qed.
Lemma lin1_relax : forall c v, ineq_typ (ic_typ c) -> Forall (fun c => rsat c v) (lin1 true c) -> Forall (fun c => sat_some c v) (lin1 true (relax c)).
Proof.
  intros c v T F. assert (D : ic_typ c = CSup \/ relax c = c). { unfold relax. destruct T as [E|[E|E]]; rewrite E; auto. }
  destruct D as [E|D].
  - unfold relax. rewrite E. unfold lin1, linearize1 in *. cbn [with_typ ic_expr ic_typ] in *. destruct (il_eq (ic_expr c)); rewrite ?E in F; cbn [fst snd] in *; inversion F as [|? ? G _]; subst; constructor; auto; apply relax_rsat in G; unfold ineq_typ; simpl; auto; unfold relax in G; simpl in G; rewrite E in G; exact G.
  - rewrite D. assert (I : Forall (fun c => ineq_typ (ic_typ c) /\ ic_typ c <> CSup) (lin1 true c)).
    { assert (NS : ic_typ c <> CSup). { intros E. unfold relax in D. rewrite E in D. destruct c; simpl in *; subst. inversion D. } unfold lin1, linearize1. destruct (il_eq (ic_expr c)); [cbn [fst snd]; constructor; [auto|constructor]|].
      cbv zeta. destruct T as [E|[E|E]]; rewrite E; cbn [fst snd]; [destruct (_ && _); [|destruct (negb _)]; cbn [fst snd]| |congruence]; repeat (apply Forall_cons; [split; [unfold ineq_typ|]; simpl; rewrite ?E; auto; try discriminate|]); constructor. }
    rewrite Forall_forall in *. intros d DI. specialize (F d DI). destruct (I d DI) as (I1 & I2). apply relax_rsat in F; auto. unfold relax in F. destruct (ic_typ d); auto; congruence.
Qed.
Lemma kept_relax : forall c, kept true c -> kept true (relax c).
Proof. intros c (A & B). unfold relax. destruct (ic_typ c) eqn:E; split; auto. rewrite useless_nonempty in * by auto. simpl. rewrite E in B. auto. Qed.
Lemma linearize_array_rsat : forall v l l', Forall exact_ok l -> linearize_array true l = Some l' -> Forall (fun c => rsat c v) l' -> Forall (fun c => rsat c v) l.
Proof.
  intros v l l' FO H FS. unfold linearize_array in H. destruct (array_reduce true l) as [[l1 t]|] eqn:R; try discriminate.
  eapply array_reduce_rsat; eauto. destruct t; try discriminate; inversion H; subst; auto.
  pose proof (array_reduce_kept _ _ _ R) as K. apply linearize_split in FS.
  assert (X : Forall exact_ok l1). { eapply array_reduce_sub; [| |exact R]; auto. intros; apply icons_bool_exact. }
  apply Forall_forall. intros c C. rewrite Forall_forall in X, K, FS. destruct (X c C) as (A1 & A2 & A3 & A4 & A5). apply relax_rsat; auto.
  assert (RE : ic_expr (relax c) = ic_expr c) by (unfold relax; destruct (ic_typ c); auto).
  apply linearize1_some_conv; rewrite ?RE; [apply ineq_relax| | | | |]; auto. apply kept_relax; auto. apply lin1_relax; auto.
Qed.
Lemma point_in : forall q, in_itv (Q2R q) (mkItv (bneg (Fin q)) (Fin q)). Proof. intros. split; simpl; rewrite ?Q2R_opp; lra. Qed.
Lemma lin1_exact : forall c, exact_ok c -> kept true c -> Forall exact_ok (lin1 true c).
Proof.
  intros c (TY & Q & F & E & x & X) (K1 & K2). rewrite useless_nonempty in K2 by auto. unfold lin1, linearize1. destruct (il_eq (ic_expr c)) eqn:EQ. { constructor; [|constructor]. split; [exact TY|split; [exact Q|split; [exact F|split; [exact E|exists x; exact X]]]]. }
  assert (D : forall d, ic_typ d <> CEq -> eq_flag_ok d) by (intros d Y Y2; congruence).
  assert (S : forall ty, ty = CSupEq \/ ty = CSup -> binfty (sup (il_cst (ic_expr c))) = false -> exact_ok (select_sup (with_typ c ty))).
  { intros ty T B. destruct (binfty_fin _ _ (proj2 X) B) as (q & QE). split. unfold ineq_typ; simpl; tauto. split; [exact Q|split; [exact F|split; [|exists (Q2R q); simpl; rewrite QE; apply point_in]]]. apply D. simpl. destruct T; subst; discriminate. }
  assert (I : binfty (inf (il_cst (ic_expr c))) = false -> exact_ok (select_inf (with_typ c CSupEq))).
  { intros B. destruct (binfty_fin _ _ (proj1 X) B) as (q & QE). split. unfold ineq_typ; simpl; tauto. split; [apply (negt_ql _ Q)|split; [apply (negt_fl _ F)|split; [apply D; discriminate|exists (Q2R q); simpl; rewrite QE; split; simpl; rewrite ?Q2R_opp; lra]]]. }
  assert (EC : select_sup c = select_sup (with_typ c (ic_typ c))) by (destruct c; auto). cbv zeta.
  destruct TY as [TY|[TY|TY]]; rewrite TY in *; cbn [fst snd].
  - destruct (binfty (inf _)) eqn:B1; destruct (binfty (sup _)) eqn:B2; simpl in K2; try discriminate; cbn [negb andb fst snd]; repeat (apply Forall_cons; auto); auto.
  - rewrite EC. repeat (apply Forall_cons; auto); auto.
  - rewrite EC. repeat (apply Forall_cons; auto); auto.
Qed.
Lemma reduce_integer_0 : forall c, reduce_integer 0 c = c.
Proof.
  intros c. assert (D : ineq_typ (ic_typ c) \/ reduce_integer 0 c = c). { unfold ineq_typ, reduce_integer. destruct (ic_typ c); auto. }
  destruct D as [TY|D]; auto. rewrite reduce_integer_eq by auto. unfold ilin_is_integer. destruct (il_terms (ic_expr c)); simpl; auto.
Qed.
Lemma reduce_integer_ok : forall i c, (i = 0%nat \/ ic_typ c <> CEq) -> exact_ok c -> exact_ok (reduce_integer i c).
Proof.
  intros i c NE X. destruct NE as [->|NE]. rewrite reduce_integer_0. auto. pose proof X as (TY & Q & F & E & x & IX).
  rewrite reduce_integer_eq by auto. destruct (negb _); auto. destruct (negb (forallb _ _)) eqn:FB; auto. destruct (Z.eqb_spec (red_gcd (il_terms (ic_expr c))) 0) as [|NZ]; auto.
  destruct (red_facts _ Q F NZ) as (G & L & _ & _ & _).
  assert (SX : in_itv (x * (IZR (red_lcm (il_terms (ic_expr c))) / IZR (red_gcd (il_terms (ic_expr c))))) (il_cst (ic_expr (scaled c)))). { simpl. rewrite <- (ratio_Q _ _ G). apply itv_mul_bound_sound; auto. }
  assert (SQ : Forall (fun t => t_eq t = true) (il_terms (ic_expr (scaled c)))) by (simpl; rewrite Forall_map; exact Q).
  assert (SF : flags_ok (il_terms (ic_expr (scaled c)))). { simpl. unfold flags_ok. rewrite Forall_map. apply Forall_forall. intros t T _. cbn. unfold itv_is_point. cbn. apply Qeq_bool_iff. ring. }
  assert (ST : ic_typ (scaled c) = CSupEq \/ ic_typ (scaled c) = CSup). { simpl. destruct TY as [?|[?|?]]; auto; congruence. }
  generalize dependent (scaled c). intros d SX SQ SF ST. clear - SX SQ SF ST.
  assert (D : forall d, ic_typ d <> CEq -> eq_flag_ok d) by (intros e Y Y2; congruence).
  assert (GE : forall i0 s0 e0 ty0 y, ty0 = CSupEq \/ ty0 = CSup -> in_itv y (mkItv i0 s0) -> exact_ok (mkIC (mkIL (il_terms (ic_expr d)) (mkItv i0 s0) e0) ty0 (ic_num d))).
  { intros i0 s0 e0 ty0 y T Y. split. unfold ineq_typ; simpl; tauto. split; [exact SQ|split; [exact SF|split; [apply D; simpl; destruct T; subst; discriminate|exists y; exact Y]]]. }
  unfold tighten. destruct SX as (S1 & S2). destruct ST as [ST|ST]; rewrite ST; destruct (sup (il_cst (ic_expr d))) as [|q|]; simpl in S2; try tauto; cbn; try (eapply GE; [auto|]; split; simpl; eauto; fail).
  - eapply GE; auto. apply point_in.
  - destruct (qisint q); cbn; (eapply GE; auto; apply point_in).
Qed.
Lemma tighten_rsat : forall c v, ic_typ c = CSupEq \/ ic_typ c = CSup -> (exists x, in_itv x (il_cst (ic_expr c))) -> rsat (tighten c) v -> rsat c v.
Proof.
  intros c v TY X H. assert (D : ic_typ (tighten c) = CSupEq \/ (ic_typ c = CSup /\ il_terms (ic_expr (tighten c)) = il_terms (ic_expr c) /\ il_cst (ic_expr (tighten c)) = il_cst (ic_expr c) /\ ic_typ (tighten c) = CSup)).
  { destruct X as (x & X1 & X2). unfold tighten. destruct TY as [TY|TY]; rewrite TY; destruct (sup (il_cst (ic_expr c))) as [|q|] eqn:ES; simpl in X2; try tauto; cbn; auto. destruct (qisint q); cbn; auto. right. repeat split; auto. destruct (il_cst (ic_expr c)); simpl in *; subst; auto. }
  destruct D as [D|(D1 & D2 & D3 & D4)].
  - apply some_rsat. unfold ineq_typ; tauto. apply tighten_exact; auto. apply relax_rsat in H. 2: unfold ineq_typ; tauto. unfold relax in H. rewrite D in H. auto.
  - destruct H as (r & (k & r1 & A & B & C) & R). exists r. rewrite D2, D3, D4 in *. split. exists k, r1. auto. rewrite D1. exact R.
Qed.
Lemma reduce_integer_rsat : forall i c v, (i = 0%nat \/ ic_typ c <> CEq) -> exact_ok c -> rsat (reduce_integer i c) v -> rsat c v.
Proof.
  intros i c v NE X. destruct NE as [->|NE]. rewrite reduce_integer_0. auto. pose proof X as (TY & Q & F & E & x & IX).
  rewrite reduce_integer_eq by auto. destruct (negb _); auto. destruct (negb (forallb _ _)) eqn:FB; auto. destruct (Z.eqb_spec (red_gcd (il_terms (ic_expr c))) 0) as [|NZ]; auto.
  destruct (red_facts _ Q F NZ) as (G & L & _ & _ & _). intros H.
  apply tighten_rsat in H. 2: { simpl. destruct TY as [?|[?|?]]; auto; congruence. } 2: { eexists. simpl. apply itv_mul_bound_sound; eauto. }
  assert (RE : ic_expr (relax c) = ic_expr c) by (unfold relax; destruct (ic_typ c); auto).
  apply relax_rsat; auto. apply scaled_iff; rewrite ?RE; auto. apply ineq_relax; auto. eauto.
  assert (RS : scaled (relax c) = relax (scaled c)). { unfold relax, scaled. simpl. destruct (ic_typ c) eqn:ET; simpl; rewrite ?ET; auto. } rewrite RS. apply relax_rsat; auto.
Qed.
(** the row of a constraint *)
Lemma row_rsat : forall i n c v, exact_ok c -> wfd n c -> eqp c -> (binfty (sup (il_cst (ic_expr c))) = false -> row_holds (vector_set_lincons i n c) (homog v)) -> rsat c v.
Proof.
  intros i n c v (TY & Q & F & E & x & X) W EP H. pose proof (tsum_tval v _ Q F) as TV. destruct (sup (il_cst (ic_expr c))) as [|s|] eqn:S.
  - destruct X as (_ & X). rewrite S in X. simpl in X. tauto.
  - specialize (H eq_refl). destruct (set_linexpr_spec true n (ic_expr c) W) as (L & l & LP & EV). destruct (finish_spec (ic_typ c) i n _ L) as (_ & K). destruct (K v) as (K1 & _). apply K1 in H. rewrite EV in H. unfold lin_cst in H. rewrite S in H. cbn [bfinq] in H.
    exists (Q2R s + tsum (il_terms (ic_expr c)) v). split. exists (Q2R s), (tsum (il_terms (ic_expr c)) v). split; auto. eapply in_sup; eauto. destruct (ic_typ c); simpl in *; nra.
  - destruct TY as [TY|TY]. { exfalso. assert (P := E TY (qlc_quasi c Q) (EP TY)). apply point_iff in P. destruct P as (p & q & _ & P & _). congruence. }
    exists (Rmax x (- tsum (il_terms (ic_expr c)) v) + tsum (il_terms (ic_expr c)) v). split. eexists _, _. split; [|split; [exact TV|reflexivity]]. apply (in_large _ x); auto. apply Rmax_l. pose proof (Rmax_r x (- tsum (il_terms (ic_expr c)) v)). destruct TY as [TY|TY]; rewrite TY; simpl; lra.
Qed.
Theorem pipe_exact : forall i n v l l1 l2 t, Forall (fun c => exact_ok c /\ wfd n c /\ (i = 0%nat \/ ic_typ c <> CEq)) l ->
  linearize_array true l = Some l1 -> array_reduce_integer i l1 = Some (l2, t) -> cone (matrix_of_lincons i n l2) (homog v) -> Forall (fun c => rsat c v) l.
Proof.
  intros i n v l l1 l2 t F L A C.
  assert (X0 : Forall exact_ok l) by (eapply Forall_impl; [|exact F]; simpl; tauto).
  assert (F1 : Forall (inv n) l1). { eapply linarr_shape; [|exact L]. eapply Forall_impl; [|exact F]. simpl. intros c ((_ & X1 & X2 & _) & X3 & _). unfold qlc, flc. tauto. }
  assert (F2 : Forall (inv n) l2). { eapply redarr_shape; [|exact A]. exact F1. }
  assert (X1 : Forall (fun c => exact_ok c /\ (i = 0%nat \/ ic_typ c <> CEq \/ il_terms (ic_expr c) = [])) l1).
  { unfold linearize_array in L. destruct (array_reduce true l) as [[k u]|] eqn:R; try discriminate.
    assert (K : Forall (fun c => exact_ok c /\ (i = 0%nat \/ ic_typ c <> CEq \/ il_terms (ic_expr c) = [])) k). { eapply array_reduce_sub; [| |exact R]. intros c; split; [apply icons_bool_exact|auto]. eapply Forall_impl; [|exact F]. simpl. tauto. }
    destruct u; try discriminate; inversion L; subst; auto. apply linearize_split. pose proof (array_reduce_kept _ _ _ R) as KP. rewrite Forall_forall in *. intros c IC. specialize (K c IC). specialize (KP c IC). destruct K as (K1 & K2). pose proof (lin1_exact c K1 KP) as LE. destruct KP as (KP1 & _).
    apply Forall_forall. intros d D. split. rewrite Forall_forall in LE. auto. destruct K2 as [?|[K2|K2]]; auto; try congruence. right. left. clear - D K2. unfold lin1, linearize1 in D. destruct (il_eq (ic_expr c)). destruct D as [<-|[]]; auto. cbv zeta in D. destruct (ic_typ c) eqn:T; cbn [fst snd] in D; try congruence; destruct D as [<-|[]]; simpl; congruence. }
  assert (X2 : Forall exact_ok l2).
  { unfold array_reduce_integer in A. eapply array_reduce_sub; [| |exact A]. intros; apply icons_bool_exact. rewrite Forall_map. eapply Forall_impl; [|exact X1]. simpl. intros c (E & [D|[D|D]]); try (apply reduce_integer_ok; auto; fail).
    replace (reduce_integer i c) with c; auto. assert (T : ineq_typ (ic_typ c)) by apply E. rewrite reduce_integer_eq by auto. unfold ilin_is_integer. rewrite D. simpl. auto. }
  assert (R2 : Forall (fun c => rsat c v) l2).
  { rewrite Forall_forall in *. intros c IC. destruct (F2 c IC) as (W & Q & FL & EP). apply (row_rsat i n); auto. intros B. rewrite cone_in in C. apply C. unfold matrix_of_lincons. apply in_map. apply filter_In. split; auto. rewrite B. simpl. destruct (X2 c IC) as (T & _). destruct T as [T|[T|T]]; rewrite T; auto. }
  eapply linearize_array_rsat; eauto.
  unfold array_reduce_integer in A. apply array_reduce_rsat with (v:=v) in A; auto.
  - rewrite Forall_map in A. rewrite Forall_forall in *. intros c IC. specialize (A c IC). simpl in A. destruct (X1 c IC) as (E & D). assert (D2 : (i = 0%nat \/ ic_typ c <> CEq) \/ il_terms (ic_expr c) = []) by tauto. destruct D2 as [D2|D2]. eapply reduce_integer_rsat; eauto.
    assert (T : ineq_typ (ic_typ c)) by apply E. rewrite reduce_integer_eq in A by auto. unfold ilin_is_integer in A. rewrite D2 in A. simpl in A. auto.
  - rewrite Forall_map. eapply Forall_impl; [|exact X1]. simpl. intros c (E & [D|[D|D]]); try (apply reduce_integer_ok; auto; fail).
    replace (reduce_integer i c) with c; auto. assert (T : ineq_typ (ic_typ c)) by apply E. rewrite reduce_integer_eq by auto. unfold ilin_is_integer. rewrite D. simpl. auto.
Qed.

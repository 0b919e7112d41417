(** Linearisation seen from the user's expressions and constraints. *)
From Coq Require Import ZArith QArith Qround Qreals Reals Lra Lia Bool List Permutation.
From Verif Require Import Bound BoundFacts Itv ItvFacts ItvFacts2 Linexpr ItvLin ItvLinFacts ItvLinExact ItvLinCons ItvLinInt.
Import ListNotations.
Open Scope Z_scope.

(** for tests: the constraint holds whatever the coefficients chosen *)
Definition sat_all (c : lincons) (v : nat -> R) : Prop :=
  forall r, expr_val (lc_expr c) v r -> sat_typ (lc_typ c) (lc_mod c) r.

Lemma coeff_of_itv_iff : forall i x, coeff_in x (coeff_of_itv i) <-> in_itv x i.
Proof.
  intros i x. unfold coeff_of_itv. destruct (itv_is_point i) eqn:P.
  - rewrite (point_val _ _ P). destruct (point_sup _ P) as [q ->]. simpl. tauto.
  - simpl. destruct i as [[|p|] s]; unfold in_itv; simpl; try rewrite Q2R_opp; intuition lra.
Qed.
Lemma linexpr_of_ilin_holes : forall e, holes_last (le_terms (linexpr_of_ilin e)).
Proof.
  intros e. simpl. exists (map (fun t => (Some (t_dim t), coeff_of_itv (t_itv t))) (il_terms e)), []. rewrite app_nil_r. repeat split; auto.
  apply Forall_map. apply Forall_forall. intros; simpl; congruence.
Qed.
Lemma linexpr_of_ilin_iff : forall e v r, expr_val (linexpr_of_ilin e) v r <-> ival e v r.
Proof.
  intros e v r.
  assert (G : forall ts r, cval v (sparse_terms (map (fun t => (Some (t_dim t), coeff_of_itv (t_itv t))) ts)) r <-> tval v ts r).
  { induction ts as [|t ts IH]; intro r0; simpl; split; intro H; inversion H; subst; try constructor; try (apply coeff_of_itv_iff; auto; fail); apply IH; auto. }
  split.
  - intros (c & r1 & C & T & ->). apply foreach_val in T; [|apply linexpr_of_ilin_holes]. simpl in *. apply coeff_of_itv_iff in C. apply G in T. exists c, r1; auto.
  - intros (c & r1 & C & T & ->). exists c, r1. split. simpl. apply coeff_of_itv_iff; auto. split; auto.
    apply foreach_val. apply linexpr_of_ilin_holes. simpl. apply G; auto.
Qed.
Lemma mod_back : forall t q r, sat_typ t (if Qeq_bool q 0 then None else Some (Fin q)) r <-> sat_typ t (Some (Fin q)) r.
Proof. intros. destruct t; simpl; try tauto. destruct (Qeq_bool q 0) eqn:Z; simpl; try rewrite Z; tauto. Qed.
Lemma lincons_of_icons_some : forall c v, sat_cons (lincons_of_icons c) v <-> sat_some c v.
Proof.
  intros. unfold sat_cons, sat_some. simpl. split; intros (r & A & B); exists r; [apply linexpr_of_ilin_iff in A; apply mod_back in B|split; [apply linexpr_of_ilin_iff|apply mod_back]]; auto.
Qed.
Lemma lincons_of_icons_each : forall c v, sat_all (lincons_of_icons c) v <-> sat_each c v.
Proof.
  intros. unfold sat_all, sat_each. simpl. split; intros H r A; [apply mod_back; apply H; apply linexpr_of_ilin_iff; auto|apply mod_back; apply H; apply linexpr_of_ilin_iff; auto].
Qed.

Section A.
Context {N : numtype}.
(** the modulus of a congruence is representable *)
Definition mod_ok (c : lincons) : Prop :=
  lc_typ c = CEqMod -> match lc_mod c with Some (Fin q) => rnd N q = Fin q | _ => True end.
Definition user_ok (n : nat) (c : lincons) : Prop :=
  wf_linexpr n (lc_expr c) /\ holes_last (le_terms (lc_expr c)) /\ mod_ok c.
Lemma mod_conv : forall c r, mod_ok c -> (sat_typ (lc_typ c) (lc_mod c) r <-> sat_typ (lc_typ c) (Some (Fin (ic_num (icons_of_lincons (N:=N) c)))) r).
Proof.
  intros c r H. unfold mod_ok in H. destruct (lc_typ c) eqn:T; try (simpl; tauto). specialize (H eq_refl). simpl. destruct (lc_mod c) as [[|q|]|]; simpl; try tauto. rewrite H. tauto.
Qed.
Lemma icons_of_lincons_some : forall n c v, user_ok n c -> sat_cons c v -> sat_some (icons_of_lincons (N:=N) c) v.
Proof. intros n c v (W & H & M) (r & A & B). exists r. split. apply ilin_of_linexpr_sound; auto. apply mod_conv; auto. Qed.
Lemma icons_of_lincons_each : forall n c v, user_ok n c -> sat_each (icons_of_lincons (N:=N) c) v -> sat_all c v.
Proof. intros n c v (W & H & M) S r A. apply mod_conv; auto. apply S. apply ilin_of_linexpr_sound; auto. Qed.
Lemma set_terms_in : forall (P : nat -> Prop) l, Forall (fun p => P (fst p)) l -> Forall (fun t => P (t_dim t)) (fst (set_terms (N:=N) l)).
Proof.
  intros P l F. induction F as [|[d c] l D F IH]; simpl. constructor. destruct (itv_set_coeff (N:=N) c) as [i ex].
  destruct (set_terms (N:=N) l) as [ts' res]. simpl in *. destruct (itv_is_zero i); simpl; auto.
Qed.
Lemma ilin_of_linexpr_dims : forall n e, wf_linexpr n e -> Forall (fun t => (t_dim t < n)%nat) (il_terms (fst (ilin_of_linexpr (N:=N) e))).
Proof.
  intros n e [_ W]. apply foreach_wf in W. unfold ilin_of_linexpr. destruct (itv_set_coeff (N:=N) (le_cst e)).
  pose proof (set_terms_in (fun d => (d < n)%nat) (foreach (le_terms e))) as X. destruct (set_terms (N:=N) (foreach (le_terms e))) as [ts res]. simpl in *.
  apply X. eapply Forall_impl; [|exact W]. simpl; tauto.
Qed.
Definition in_box (n : nat) (v : nat -> R) (env : nat -> itv) : Prop := forall d, (d < n)%nat -> in_itv (v d) (env d).
Lemma in_env_of_box : forall n v env e, in_box n v env -> wf_linexpr n e -> in_env v env (il_terms (fst (ilin_of_linexpr (N:=N) e))).
Proof. intros n v env e B W. apply ilin_of_linexpr_dims in W. eapply Forall_impl; [|exact W]. simpl. intros; apply B; auto. Qed.
Lemma user_flags : forall n c, user_ok n c -> flags_ok (il_terms (ic_expr (icons_of_lincons (N:=N) c))) /\ cst_flag_ok (ic_expr (icons_of_lincons (N:=N) c)).
Proof. intros n c (W & _). apply (ilin_of_linexpr_flags (N:=N) _ n W). Qed.

Lemma ap_quasilinearize_linexpr0_sound : forall n env e v r, wf_linexpr n e -> holes_last (le_terms e) -> in_box n v env ->
  expr_val e v r -> expr_val (ap_quasilinearize_linexpr0 (N:=N) env e) v r.
Proof.
  intros n env e v r W H B X. apply linexpr_of_ilin_iff. apply quasilinearize_sound. eapply in_env_of_box; eauto. apply ilin_of_linexpr_sound; auto.
Qed.
(** the coefficients of the dimensions in the result are scalars *)
Lemma ap_quasilinearize_linexpr0_shape : forall n env e, wf_linexpr n e ->
  match le_terms (ap_quasilinearize_linexpr0 (N:=N) env e) with
  | Dense _ => False
  | Sparse ts => Forall (fun t => exists d q, t = (Some d, Scal (Fin q)) /\ (d < n)%nat) ts
  end.
Proof.
  intros n env e W. simpl. apply Forall_map. destruct (ilin_of_linexpr_flags (N:=N) e n W) as [F _].
  pose proof (quasilinearize_shape (N:=N) env false _ F) as S. pose proof (quasilinearize_dims (N:=N) (fun d => (d < n)%nat) env false _ (ilin_of_linexpr_dims n e W)) as D.
  unfold dims_in in D. rewrite Forall_forall in *. intros t T. destruct (S t T) as (_ & P & _). specialize (D t T). simpl in D.
  exists (t_dim t). unfold coeff_of_itv. rewrite P. destruct (point_sup _ P) as [q ->]. exists q. auto.
Qed.

(** meet: with rounded numbers no equality *)
Lemma user_meet_ok : forall n c, user_ok n c -> (N = exact_num \/ lc_typ c <> CEq) -> meet_ok (N:=N) (icons_of_lincons (N:=N) c).
Proof. intros n c U H. destruct (user_flags n c U) as [A B]. split; [auto|split; [intro; auto|auto]]. Qed.
Lemma ap_lincons0_array_meet : forall n env lin l l' v, Forall (user_ok n) l -> Forall (fun c => N = exact_num \/ lc_typ c <> CEq) l -> in_box n v env ->
  ap_quasilinearize_lincons0_array (N:=N) env lin true l = Some l' -> Forall (fun c => sat_cons c v) l -> Forall (fun c => sat_cons c v) l'.
Proof.
  intros n env lin l l' v FU FN B H FS. unfold ap_quasilinearize_lincons0_array in H.
  destruct (quasilinearize_lincons0_array (N:=N) env lin true (map (icons_of_lincons (N:=N)) l)) as [l1|] eqn:Q; simpl in H; inversion H; subst.
  apply Forall_map. apply Forall_impl with (P := fun c => sat_some c v). intros; apply lincons_of_icons_some; auto.
  eapply quasilinearize_lincons0_array_meet; [| | |exact Q]; apply Forall_map; rewrite Forall_forall in *; intros c C.
  - eapply user_meet_ok; eauto.
  - unfold cons_in_env. eapply in_env_of_box; eauto. apply (FU c C).
  - eapply icons_of_lincons_some; eauto.
Qed.
Lemma ap_lincons0_array_test : forall n env lin l l' v, Forall (user_ok n) l ->
  (lin = true -> Forall (fun c => lc_typ c = CEq \/ lc_typ c = CEqMod -> N = exact_num /\ is_quasilinear (ic_expr (icons_of_lincons (N:=N) c)) = true) l) -> in_box n v env ->
  ap_quasilinearize_lincons0_array (N:=N) env lin false l = Some l' -> Forall (fun c => sat_all c v) l' -> Forall (fun c => sat_all c v) l.
Proof.
  intros n env lin l l' v FU FN B H FS. unfold ap_quasilinearize_lincons0_array in H.
  destruct (quasilinearize_lincons0_array (N:=N) env lin false (map (icons_of_lincons (N:=N)) l)) as [l1|] eqn:Q; simpl in H; inversion H; subst.
  assert (F1 : Forall (fun c => sat_each c v) l1). { rewrite Forall_map in FS. eapply Forall_impl; [|exact FS]. simpl. intros; apply lincons_of_icons_each; auto. }
  assert (FI : Forall (cons_in_env v env) (map (icons_of_lincons (N:=N)) l)).
  { apply Forall_map. rewrite Forall_forall in *; intros c C. unfold cons_in_env. eapply in_env_of_box; eauto. apply (FU c C). }
  assert (F0 : Forall (fun c => sat_each c v) (map (icons_of_lincons (N:=N)) l)).
  { destruct lin.
    - eapply quasilinearize_lincons0_array_sat; [|exact FI|exact Q|exact F1]. specialize (FN eq_refl). apply Forall_map; rewrite Forall_forall in *; intros c C.
      destruct (user_flags n c (FU c C)). split; [auto|split; [intro; auto|apply FN; auto]].
    - unfold quasilinearize_lincons0_array in Q. destruct (quasilinearize_array (N:=N) env false _) as [l2|] eqn:Q2; inversion Q; subst.
      eapply quasilinearize_array_sat; [|exact FI|exact Q2|exact F1]. apply Forall_map; rewrite Forall_forall in *; intros c C.
      destruct (user_flags n c (FU c C)). intro; auto. }
  rewrite Forall_map in F0. rewrite Forall_forall in *. intros c C. eapply icons_of_lincons_each; eauto.
Qed.
End A.

(** ** Exact numbers *)
Lemma mod_ok_E : forall c, mod_ok (N:=exact_num) c.
Proof. intros c _. destruct (lc_mod c) as [[| |]|]; simpl; auto. Qed.
Lemma icons_of_lincons_iff : forall n c v, wf_linexpr n (lc_expr c) -> holes_last (le_terms (lc_expr c)) ->
  (sat_some (icons_of_lincons (N:=exact_num) c) v <-> sat_cons c v).
Proof.
  intros n c v W H. split.
  - intros (r & A & B). exists r. split. apply (ilin_of_linexpr_exact n) in A; auto. apply (mod_conv (N:=exact_num)); auto. apply mod_ok_E.
  - apply (icons_of_lincons_some n). split; auto. split; auto. apply mod_ok_E.
Qed.
(** scalar coefficients for the dimensions, a constant with some value *)
Definition scalar_terms (e : linexpr) : Prop := Forall (fun p => is_scal (snd p) = true) (foreach (le_terms e)).
Lemma set_terms_scal : forall l, Forall (fun p => wf_coeff (snd p) /\ is_scal (snd p) = true) l -> Forall (fun t => t_eq t = true) (fst (set_terms (N:=exact_num) l)).
Proof.
  intros l F. induction F as [|[d c] l [W S] F IH]; simpl. constructor. destruct c as [b|]; try discriminate. destruct b as [|q|]; try (simpl in W; tauto). simpl in *.
  replace (bexact (N:=exact_num) (Fin q)) with true. 2: { unfold bexact; simpl. symmetry. apply Qeq_bool_iff. reflexivity. }
  destruct (set_terms (N:=exact_num) l) as [ts' res]. simpl in *. destruct (itv_is_zero _); simpl; auto.
Qed.
Lemma ap_lincons0_array_exact : forall n env lin l l' v, in_box n v env ->
  Forall (fun c => wf_linexpr n (lc_expr c) /\ holes_last (le_terms (lc_expr c)) /\ scalar_terms (lc_expr c) /\
     (exists x, coeff_in x (le_cst (lc_expr c))) /\ ineq_typ (lc_typ c)) l ->
  ap_quasilinearize_lincons0_array (N:=exact_num) env lin true l = Some l' -> (Forall (fun c => sat_cons c v) l' <-> Forall (fun c => sat_cons c v) l).
Proof.
  intros n env lin l l' v B FU H. unfold ap_quasilinearize_lincons0_array in H.
  destruct (quasilinearize_lincons0_array (N:=exact_num) env lin true (map (icons_of_lincons (N:=exact_num)) l)) as [l1|] eqn:Q; simpl in H; inversion H; subst.
  assert (X : Forall (fun c => sat_some c v) l1 <-> Forall (fun c => sat_some c v) (map (icons_of_lincons (N:=exact_num)) l)).
  { eapply quasilinearize_lincons0_array_exact; [| |exact Q]; apply Forall_map; rewrite Forall_forall in *; intros c C; destruct (FU c C) as (W & HL & S & [x K] & T).
    - destruct (ilin_of_linexpr_flags (N:=exact_num) _ n W) as [A1 A2]. split; [exact T|]. split; [|split; [exact A1|split; [intros _ _; exact A2|]]].
      + simpl. unfold ilin_of_linexpr. destruct (itv_set_coeff (N:=exact_num) (le_cst (lc_expr c))). pose proof (set_terms_scal (foreach (le_terms (lc_expr c)))) as Y.
        destruct (set_terms (N:=exact_num) (foreach (le_terms (lc_expr c)))). simpl in *. apply Y. destruct W as [_ W]. apply foreach_wf in W.
        unfold scalar_terms in S. rewrite Forall_forall in *. intros p P. split; auto. apply W; auto.
      + apply (itv_set_coeff_sound (N:=exact_num)) in K. exists x. simpl. unfold ilin_of_linexpr. destruct (itv_set_coeff (N:=exact_num) (le_cst (lc_expr c))).
        destruct (set_terms (N:=exact_num) (foreach (le_terms (lc_expr c)))). simpl in *. auto.
    - unfold cons_in_env. eapply in_env_of_box; eauto. }
  rewrite !Forall_map in *. rewrite !Forall_forall in *. setoid_rewrite lincons_of_icons_some. rewrite X. split; intros G c C.
  - destruct (FU c C) as (W & HL & _). apply (icons_of_lincons_iff n); auto.
  - destruct (FU c C) as (W & HL & _). apply (icons_of_lincons_iff n); auto.
Qed.

(** pk_meet_lincons_array, pk_add_ray_array, pk_of_box. *)
From Coq Require Import ZArith QArith Qreals Reals Lra Bool List Lia Permutation.
Import ListNotations.
From Verif Require Import Bound BoundFacts Itv Linexpr LinexprFacts ItvFacts ItvLin ItvLinFacts ItvLinCons ItvLinInt ItvLinExact ItvLinApi PkCone PkVec PkCherni PkCherniFacts PkSimplify PkMinimize PkSpec PkPoly PkPolyFacts PkPolyLeq PkPolyMeet PkMatrix PkLin PkRepr PkProj Box BoxMeet PkOps PkAssign PkUser PkUserRow PkUserCons PkUserBound.
Open Scope R_scope.

Lemma set_terms_nodup : forall l, NoDup (map fst l) -> NoDup (map t_dim (fst (set_terms (N:=exact_num) l))).
Proof.
  assert (I : forall l d, In d (map t_dim (fst (set_terms (N:=exact_num) l))) -> In d (map fst l)).
  { induction l as [|[d c] l IH]; intros d0; simpl; auto. destruct (itv_set_coeff (N:=exact_num) c) as [i ex]. destruct (set_terms (N:=exact_num) l) as [ts res]. destruct (itv_is_zero i); simpl in *; auto. intros [H|H]; auto. }
  induction l as [|[d c] l IH]; intros ND; simpl. constructor. inversion ND as [|? ? N1 N2]; subst. specialize (IH N2). specialize (I l d). destruct (itv_set_coeff (N:=exact_num) c) as [i ex]. destruct (set_terms (N:=exact_num) l) as [ts res]. destruct (itv_is_zero i); simpl in *; auto. constructor; auto.
Qed.
Lemma dense_nodup : forall l i, NoDup (map fst (dense_terms i l)) /\ forall d, In d (map fst (dense_terms i l)) -> (i <= d)%nat.
Proof. induction l as [|c l IH]; intros i; simpl. split. constructor. intros d []. destruct (IH (S i)) as (A & B). split. constructor; auto. intros H. apply B in H. lia. intros d [H|H]. lia. apply B in H. lia. Qed.
Lemma sparse_nodup : forall l, NoDup (term_dims l) -> NoDup (map fst (sparse_terms l)).
Proof.
  assert (I : forall l d, In d (map fst (sparse_terms l)) -> In d (term_dims l)). { induction l as [|[[d|] c] l IH]; intros d0; simpl; auto; try tauto. intros [H|H]; auto. }
  induction l as [|[[d|] c] l IH]; intros ND; simpl in *; try constructor; inversion ND; subst; auto.
Qed.
Lemma user_wfd : forall n c, wf_linexpr n (lc_expr c) -> wfd n (icons_of_lincons (N:=exact_num) c).
Proof.
  intros n c W. split. 2: apply (ilin_of_linexpr_dims n); auto. destruct W as (_ & W). simpl. unfold ilin_of_linexpr. destruct (itv_set_coeff (N:=exact_num) (le_cst (lc_expr c))) as [i ex]. pose proof (set_terms_nodup (foreach (le_terms (lc_expr c)))) as H. destruct (set_terms (N:=exact_num) (foreach (le_terms (lc_expr c)))) as [ts res]. simpl in *. apply H.
  unfold foreach. destruct (le_terms (lc_expr c)) as [l|l]; simpl in W. apply dense_nodup. apply sparse_nodup. apply W.
Qed.
Definition user_wf (n : nat) (c : lincons) : Prop := wf_linexpr n (lc_expr c) /\ holes_last (le_terms (lc_expr c)).
Lemma user_wf_ok : forall n c, user_wf n c -> user_ok (N:=exact_num) n c. Proof. intros n c (A & B). split; auto. split; auto. apply mod_ok_E. Qed.
Lemma user_shape : forall n c, user_wf n c -> wfd n (icons_of_lincons (N:=exact_num) c) /\ flc (icons_of_lincons (N:=exact_num) c) /\ eq_flag_ok (icons_of_lincons (N:=exact_num) c).
Proof. intros n c U. destruct (user_flags n c (user_wf_ok n c U)) as (A & B). split. apply user_wfd; apply U. split; auto. intros _ _. auto. Qed.
Definition mod_nz (c : lincons) : Prop := lc_typ c = CEqMod -> exists q, lc_mod c = Some (Fin q) /\ ~ (q == 0)%Q.
Lemma user_no_crash : forall c, mod_nz c -> no_crash (icons_of_lincons (N:=exact_num) c).
Proof. intros c M T. simpl in *. destruct (M T) as (q & -> & NZ). simpl. destruct (Qeq_bool q 0) eqn:E; auto. apply Qeq_bool_iff in E. contradiction. Qed.
Lemma qlarr_total : forall env l, Forall no_crash l -> exists l', quasilinearize_array (N:=exact_num) env true l = Some l' /\ Forall no_crash l'.
Proof.
  intros env l F. unfold quasilinearize_array. destruct (array_reduce_total true l F) as (l1 & t & -> & _ & F1 & _). destruct (qla_loop_total (N:=exact_num) env true (2 * length l1) [] l1) as (l2 & Q & F2); auto.
  { unfold qmeasure. assert (X : forall (f : icons -> bool) l, (length (filter f l) <= length l)%nat) by (induction l0; simpl; auto; destruct (f a); simpl; lia). specialize (X (fun c => match ic_typ c with CEq => true | _ => false end) l1). lia. } eauto.
Qed.
Lemma lin1_no_crash : forall c, no_crash c -> Forall no_crash (lin1 true c).
Proof.
  intros c E. unfold lin1, linearize1. destruct (il_eq (ic_expr c)); cbn [fst snd]. constructor; auto.
  assert (D : forall d, ic_typ d <> CEqMod -> no_crash d) by (intros d X Y; congruence).
  cbv zeta. destruct (ic_typ c) eqn:TY; cbn [fst snd]; [destruct (_ && _); [|destruct (negb _)]; cbn [fst snd]| | | |]; repeat (apply Forall_cons; [auto; try (apply D; simpl; rewrite ?TY; discriminate)|]); auto.
Qed.
Lemma linarr_total : forall l, Forall no_crash l -> exists l', linearize_array true l = Some l' /\ Forall no_crash l'.
Proof.
  intros l F. unfold linearize_array. destruct (array_reduce_total true l F) as (l1 & t & -> & T & F1 & _). destruct t; try congruence; eexists; split; try reflexivity; auto. apply linearize_split. eapply Forall_impl; [|exact F1]. apply lin1_no_crash.
Qed.
Lemma redarr_total : forall i l, Forall no_crash l -> exists l' t, array_reduce_integer i l = Some (l', t).
Proof. intros i l F. unfold array_reduce_integer. destruct (array_reduce_total true (map (reduce_integer i) l)) as (l1 & t & E & _). rewrite Forall_map. eapply Forall_impl; [|exact F]. intros c. apply reduce_integer_no_crash. eauto. Qed.

(** the relaxed constraint: strict inequalities are closed *)
Definition relaxed_cons (c : lincons) (v : nat -> R) : Prop := exists r, expr_val (lc_expr c) v r /\ relaxed (lc_typ c) r.
Definition scalar_cons (c : lincons) : Prop := ineq_typ (lc_typ c) /\ scalar_terms (lc_expr c) /\ exists x, coeff_in x (le_cst (lc_expr c)).
Lemma scalar_exact : forall n c, user_wf n c -> scalar_cons c -> exact_ok (icons_of_lincons (N:=exact_num) c).
Proof.
  intros n c U (T & S & x & X). destruct (user_shape n c U) as (_ & F & E). destruct U as (W & H). split; [exact T|]. split; [|split; [exact F|split; [exact E|]]].
  - simpl. unfold ilin_of_linexpr. destruct (itv_set_coeff (N:=exact_num) (le_cst (lc_expr c))) as [i ex]. pose proof (set_terms_scal (foreach (le_terms (lc_expr c)))) as ST. destruct (set_terms (N:=exact_num) (foreach (le_terms (lc_expr c)))) as [ts res]. simpl in *. apply ST.
    destruct W as [_ W]. apply foreach_wf in W. unfold scalar_terms in S. rewrite Forall_forall in *. intros p P. split; auto. apply W; auto.
  - apply (itv_set_coeff_sound (N:=exact_num)) in X. exists x. simpl. unfold ilin_of_linexpr. destruct (itv_set_coeff (N:=exact_num) (le_cst (lc_expr c))). destruct (set_terms (N:=exact_num) (foreach (le_terms (lc_expr c)))). simpl in *. auto.
Qed.
Lemma relaxed_rsat : forall n c v, user_wf n c -> (rsat (icons_of_lincons (N:=exact_num) c) v <-> relaxed_cons c v).
Proof.
  intros n c v (W & H). split; intros (r & A & B); exists r; split; auto. apply (ilin_of_linexpr_exact n) in A; auto. simpl. eapply (ilin_of_linexpr_sound (N:=exact_num)); eauto.
Qed.
Lemma user_env : forall pa i r (P : vec -> Prop) F v c, repr pa i r P -> pF pa = Some F -> P v -> user_wf (i + r) c -> cons_in_env v (matrix_to_box F) (icons_of_lincons (N:=exact_num) c).
Proof. intros pa i r P F v c R EF PV (W & _). apply (in_env_of_box (N:=exact_num) (i + r)); auto. intros d D. unfold matrix_to_box. apply (box_spec pa i r P F d R EF D). exists v. auto. Qed.
(** the constraints which are never represented by a row *)
Definition no_row (c : icons) : Prop := (ic_typ c = CDisEq \/ ic_typ c = CEqMod) /\ il_terms (ic_expr c) <> [] /\ il_eq (ic_expr c) = true /\ binfty (sup (il_cst (ic_expr c))) = false.
Lemma reduce_keeps : forall fuel acc todo l b c, In c (acc ++ todo) -> no_row c -> reduce_loop fuel true acc todo = Some (l, b) -> (exists c0, l = [icons_bool c0 false]) \/ In c l.
Proof.
  induction fuel as [|fuel IH]; intros acc todo l b c I K E.
  - destruct todo; simpl in E; inversion E; subst. right. rewrite app_nil_r in I. apply -> in_rev. auto.
  - destruct todo as [|d rest]; simpl in E. inversion E; subst. right. rewrite app_nil_r in I. apply -> in_rev. auto.
    assert (KEEP : reduce_loop fuel true (d :: acc) rest = Some (l, b) -> (exists c0, l = [icons_bool c0 false]) \/ In c l).
    { intros X. apply (IH (d :: acc) rest l b c); auto. apply in_app_iff in I. simpl in *. rewrite in_app_iff. tauto. }
    assert (REM : c <> d -> reduce_loop fuel true acc (swap_out rest) = Some (l, b) -> (exists c0, l = [icons_bool c0 false]) \/ In c l).
    { intros N X. apply (IH acc (swap_out rest) l b c); auto. apply in_app_iff in I. rewrite in_app_iff. destruct I as [I|[I|I]]; auto. congruence. right. eapply Permutation_in; [apply Permutation_sym, swap_out_perm|auto]. }
    destruct K as (K1 & K2 & K3 & _). destruct (il_terms (ic_expr d)) eqn:T.
    + assert (N : c <> d) by congruence. destruct (eval_cst d); auto; try discriminate. inversion E; subst; eauto. simpl in E. destruct (useless_for_meet d); auto.
    + simpl in E. destruct (useless_for_meet d) eqn:U; auto. apply REM; auto. intros <-. rewrite useless_nonempty in U by congruence. rewrite K3 in U. discriminate.
Qed.
Lemma array_keeps : forall l l' t c, In c l -> no_row c -> array_reduce true l = Some (l', t) -> (exists c0, l' = [icons_bool c0 false]) \/ In c l'.
Proof.
  intros l l' t c I K E. unfold array_reduce in E. destruct (reduce_loop (length l) true [] l) as [[r b]|] eqn:R; try discriminate. assert (r = l') by (destruct b; inversion E; auto). subst r. apply (reduce_keeps _ [] l l' b c I K R).
Qed.
Lemma false_lin : forall c0, linearize_array true [icons_bool c0 false] = Some [icons_bool c0 false]. Proof. reflexivity. Qed.
Lemma false_red : forall i c0, array_reduce_integer i [icons_bool c0 false] = Some ([icons_bool c0 false], TFalse).
Proof.
  intros i c0. unfold array_reduce_integer. assert (X : map (reduce_integer i) [icons_bool c0 false] = [icons_bool c0 false]). { cbn [map]. unfold reduce_integer, icons_bool. cbn -[ilin_is_integer red_gcd red_lcm]. destruct (negb _); reflexivity. } rewrite X. reflexivity.
Qed.
Lemma pipe_keeps : forall i il l2 l3 t3 c, In c il -> no_row c -> linearize_array true il = Some l2 -> array_reduce_integer i l2 = Some (l3, t3) -> (exists c0, l3 = [icons_bool c0 false]) \/ In c l3.
Proof.
  intros i il l2 l3 t3 c I K E2 E3. assert (S2 : (exists c0, l2 = [icons_bool c0 false]) \/ In c l2).
  { unfold linearize_array in E2. destruct (array_reduce true il) as [[l1 t]|] eqn:R; try discriminate. destruct (array_keeps _ _ _ _ I K R) as [(c0 & ->)|J].
    - left. exists c0. destruct t; try discriminate; inversion E2; auto.
    - destruct t; try discriminate; inversion E2; subst; auto. right. apply in_app_iff. left. apply in_map_iff. exists (linearize1 true c). split. unfold linearize1. destruct K as (_ & _ & -> & _). auto. apply in_map; auto. }
  destruct S2 as [(c0 & ->)|J]. rewrite false_red in E3. inversion E3. left. eauto. unfold array_reduce_integer in E3. apply (array_keeps _ _ _ c) in E3; auto. apply in_map_iff. exists c. split; auto. unfold reduce_integer. destruct K as ([-> | ->] & _); auto.
Qed.
Definition meet_post (i r : nat) (P : vec -> Prop) (l : list lincons) (Q : vec -> Prop) : Prop :=
  (forall x, Q x -> P x) /\ (forall x, P x -> int_point i x -> Forall (fun c => sat_cons c x) l -> Q x) /\
  (Forall (fun c => scalar_cons c /\ (i = 0%nat \/ lc_typ c <> CEq)) l -> forall x, Q x -> Forall (fun c => relaxed_cons c x) l).
Theorem meet_lincons_spec : forall lazy destr pa l i r (P : vec -> Prop), repr pa i r P -> Forall (user_wf (i + r)) l -> Forall mod_nz l ->
  exists po pa' ex Q, pk_meet_lincons_array lazy destr pa l = Some (po, pa', ex) /\ repr po i r Q /\ meet_post i r P l Q /\ (destr = false -> repr pa' i r P) /\
    (i = 0%nat -> ex = true -> forallb (fun c => is_quasilinear (ic_expr c)) (map (icons_of_lincons (N:=exact_num)) l) = true -> Exists no_row (map (icons_of_lincons (N:=exact_num)) l) -> forall x, ~ Q x).
Proof.
  intros lazy destr pa l i r P R UW NC. unfold pk_meet_lincons_array. set (il := map (icons_of_lincons (N:=exact_num)) l). set (ql := forallb (fun c => is_quasilinear (ic_expr c)) il).
  set (pa1 := if lazy && ql then poly_obtain_C pa else poly_chernikova pa).
  assert (R1 : repr pa1 i r P /\ (isbot pa1 = false -> pC pa1 <> None) /\ (lazy && ql = false -> isbot pa1 = false -> minimal2 pa1 = true)).
  { unfold pa1. destruct (lazy && ql).
    - destruct (get_C true pa i r P R) as (A & B). split; [exact A|]. split; [|discriminate]. intros NB N. rewrite (B N) in NB. discriminate.
    - destruct (chern_repr _ _ _ _ R) as (A & _ & B). split; [exact A|]. split. intros NB N. destruct B as [B|B]; [congruence|]. unfold minimal2 in B. rewrite N in B. discriminate. intros _ NB. destruct B; auto; congruence. }
  clearbody pa1. destruct R1 as (R1 & HC & HM). assert (DI : pint pa1 = i /\ pdim pa1 = (i + r)%nat). { destruct R1 as (_ & A & B & _). split; auto. unfold pdim. congruence. } destruct DI as (DI & DD).
  destruct (isbot pa1) eqn:BOT.
  { exists pa1, pa1, true, P. pose proof (repr_none _ _ _ _ R1 BOT) as N. split; auto. split; auto. split. split; auto. split. intros x X. destruct (N x X). intros _ x X. destruct (N x X). split; auto. }
  specialize (HC eq_refl). assert (FC : lazy && ql = false -> exists F, pF pa1 = Some F). { intros E. specialize (HM E eq_refl). unfold minimal2 in HM. destruct (pC pa1), (pF pa1); try discriminate. eauto. }
  assert (NCI : Forall no_crash il) by (unfold il; rewrite Forall_map; eapply Forall_impl; [|exact NC]; apply user_no_crash).
  assert (SH : Forall (fun c => wfd (i + r) c /\ flc c /\ eq_flag_ok c) il) by (unfold il; rewrite Forall_map; eapply Forall_impl; [|exact UW]; intros c; apply user_shape).
  assert (Q1 : exists l1, (if ql then Some il else match pF pa1 with None => None | Some F => quasilinearize_array (N:=exact_num) (matrix_to_box F) true il end) = Some l1 /\ Forall no_crash l1 /\ (ql = true -> l1 = il) /\
     forall v, P v -> Forall (fun c => sat_cons c v) l -> Forall (fun c => wfd (i + r) c /\ qlc c /\ flc c /\ eq_flag_ok c) l1 /\ Forall (fun c => sat_some c v) l1).
  { assert (SS : forall v, Forall (fun c => sat_cons c v) l -> Forall (fun c => sat_some c v) il). { intros v H. unfold il. rewrite Forall_map. rewrite Forall_forall in *. intros c C. apply (icons_of_lincons_iff (i + r)); try apply UW; auto. }
    destruct ql eqn:EQL.
    - exists il. split; auto. split; auto. split; auto. intros v PV H. split; auto. unfold ql in EQL. rewrite forallb_forall in EQL. rewrite Forall_forall in *. intros c C. destruct (SH c C) as (A & B & D). split; auto. split; auto. unfold qlc. specialize (EQL c C). pose proof (proj1 (forallb_forall _ _) EQL) as EQ2. apply Forall_forall. exact EQ2.
    - destruct (FC (andb_false_r _)) as (F & EF). rewrite EF. destruct (qlarr_total (matrix_to_box F) il NCI) as (l1 & Q & N1). exists l1. rewrite Q. split; auto. split; auto. split. discriminate. intros v PV H.
      assert (S1 : Forall (fun c => wfd (i + r) c /\ qlc c /\ flc c) l1). { eapply qlarr_shape; [|exact Q]. eapply Forall_impl; [|exact SH]. simpl. tauto. }
      assert (M1 : Forall (fun c => sat_some c v /\ meet_inv c) l1).
      { eapply (quasilinearize_array_meet (N:=exact_num)); [| | |exact Q]; unfold il; rewrite Forall_map; rewrite Forall_forall in *; intros c C.
        - eapply (user_meet_ok (N:=exact_num)). apply user_wf_ok. apply UW; auto. auto.
        - eapply user_env; eauto.
        - apply (icons_of_lincons_iff (i + r)); try apply UW; auto. }
      split; rewrite Forall_forall in *; intros c C; destruct (M1 c C) as (A & B & D); auto. destruct (S1 c C) as (E1 & E2 & E3). auto. }
  destruct Q1 as (l1 & -> & N1 & QT & SND). destruct (linarr_total l1 N1) as (l2 & E2 & N2). rewrite E2. destruct (redarr_total (pint pa1) l2 N2) as (l3 & t3 & E3). rewrite E3. rewrite DI, DD in *.
  set (mat := matrix_sort_rows (matrix_of_lincons i (i + r) l3)).
  assert (ML : Forall (lenS (d1 i r)) mat) by (apply sort_len; apply matrix_len).
  assert (POST : meet_post i r P l (fun x => P x /\ poly_con mat x)).
  { split. tauto. split.
    - intros x PX IP ST. split; auto. apply (proj2 (sort_cone _ _)). destruct (SND x PX ST) as (A & B). eapply pipe_sound; eauto.
    - intros SC x (PX & CX). apply (proj1 (sort_cone _ _)) in CX.
      assert (QL : ql = true). { unfold ql. apply forallb_forall. intros c C. apply in_map_iff in C. destruct C as (c0 & <- & C). apply qlc_quasi. rewrite Forall_forall in SC, UW. apply (scalar_exact (i + r)). auto. apply SC; auto. }
      specialize (QT QL). subst l1. assert (G : Forall (fun c => rsat c x) il). { eapply pipe_exact; [|exact E2|exact E3|exact CX]. unfold il. rewrite Forall_map. rewrite Forall_forall in *. intros c C. split. apply (scalar_exact (i + r)); auto. apply SC; auto. split. apply user_wfd. apply UW; auto. apply SC; auto. }
      unfold il in G. rewrite Forall_map in G. rewrite Forall_forall in *. intros c C. apply (relaxed_rsat (i + r)); auto. }
  assert (S2 : exists pa2, (if lazy then Some pa1 else poly_obtain_satC pa1) = Some pa2 /\ repr pa2 i r P /\ pC pa2 = pC pa1 /\ (lazy = true \/ (pF pa2 <> None /\ psatC pa2 <> None))).
  { destruct lazy. exists pa1. auto. specialize (HM eq_refl eq_refl). destruct (satC_rep true pa1 i r P R1 HM) as (pa2 & A & B & C & D & E). exists pa2. split; auto. split; auto. split; auto. right. split; auto. rewrite D. destruct (FC eq_refl) as (F & ->). discriminate. }
  destruct S2 as (pa2 & -> & R2 & CC & HL). destruct (pC pa1) as [A|] eqn:EA; [|congruence].
  destruct (matrix_con lazy destr pa2 i r P A mat R2 CC ML HL) as (po & pa3 & -> & RP & RD). exists po, pa3, (matrix_exact l3), (fun x => P x /\ poly_con mat x). split; auto. split; auto. split; auto. split; auto. intros I0 EX QL KE x (_ & CX). fold il in QL, KE. fold ql in QL. specialize (QT QL). subst l1. apply Exists_exists in KE. destruct KE as (c & C & K).
  destruct (pipe_keeps i il l2 l3 t3 c C K E2 E3) as [(c0 & ->)|J].
  - apply (proj1 (sort_cone _ _)) in CX. assert (G : Forall (fun c => rsat c x) [icons_bool c0 false]). { eapply pipe_exact; [|apply false_lin|apply (false_red i)|exact CX]. constructor; [|constructor]. split. apply icons_bool_exact. split. split; constructor. auto. }
    inversion G as [|? ? G1 _]; subst. apply relax_rsat in G1; [|left; reflexivity]. exact (icons_false_some c0 x G1).
  - unfold matrix_exact in EX. rewrite forallb_forall in EX. specialize (EX c J). destruct K as ([T|T] & _ & _ & F); rewrite T, F in EX; discriminate.
Qed.

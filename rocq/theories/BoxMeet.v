(** Boxes: meet with linear constraints. *)
From Coq Require Import Arith ZArith QArith Qround Qreals Reals Lra Lia Bool List Sorted.
From Verif Require Import Bound BoundFacts Util Itv ItvFacts ItvFacts2 ItvHistory Linexpr ItvLin ItvLinFacts ItvLinExact ItvLinCons ItvLinInt ItvLinApi Box BoxizeFacts BoxFacts BoxDims BoxOps.
Import ListNotations.
Open Scope Z_scope.
Local Notation E := exact_num.

Section M.
Context {N : numtype}.
(** coefficients of the dimensions that are numbers of the instance *)
Definition repr_terms (e : linexpr) : Prop :=
  Forall (fun p => exists q q', snd p = Scal (Fin q) /\ rnd N q = Fin q' /\ (q' == q)%Q) (foreach (le_terms e)).
Lemma set_terms_repr : forall l, Forall (fun p => exists q q', snd p = Scal (Fin q) /\ rnd N q = Fin q' /\ (q' == q)%Q) l ->
  Forall (fun t => t_eq t = true) (fst (set_terms (N:=N) l)).
Proof.
  intros l F. induction F as [|[d c] l (q & q' & C & R & Q) F IH]; simpl. constructor. simpl in C. subst c.
  assert (X : bexact (N:=N) (Fin q) = true). { unfold bexact. simpl. rewrite R. simpl. apply Qeq_bool_iff. auto. }
  simpl. rewrite X. destruct (set_terms (N:=N) l) as [ts res]. simpl in *. destruct (itv_is_zero _); simpl; auto.
Qed.
Lemma repr_scal : forall e, repr_terms e -> Forall (fun t => t_eq t = true) (il_terms (fst (ilin_of_linexpr (N:=N) e))).
Proof.
  intros e F. apply set_terms_repr in F. unfold ilin_of_linexpr. destruct (itv_set_coeff (N:=N) (le_cst e)). destruct (set_terms (N:=N) _). auto.
Qed.

(** ** What the strengthening for integers keeps *)
Definition ne_coefs (c : icons) : Prop := Forall (fun t => nonempty (t_itv t)) (il_terms (ic_expr c)) /\ nonempty (il_cst (ic_expr c)).
Lemma tighten_terms : forall c, il_terms (ic_expr (tighten c)) = il_terms (ic_expr c) \/ il_terms (ic_expr (tighten c)) = [].
Proof.
  intro c. unfold tighten. destruct (match sup (il_cst (ic_expr c)) with Fin _ => _ | _ => _ end) as [s ty].
  destruct ty; simpl; auto; try (destruct (binfty s); auto; fail). destruct (itv_is_bottom _); auto.
Qed.
Lemma reduce_integer_cases : forall n c, reduce_integer n c = c \/
  (ineq_typ (ic_typ c) /\ Forall (fun t => t_eq t = true) (il_terms (ic_expr c)) /\ red_gcd (il_terms (ic_expr c)) <> 0 /\ reduce_integer n c = tighten (scaled c)).
Proof.
  intros n c. assert (D : ineq_typ (ic_typ c) \/ reduce_integer n c = c). { unfold ineq_typ, reduce_integer. destruct (ic_typ c); auto. }
  destruct D as [TY|X]; auto. rewrite reduce_integer_eq by auto. destruct (ilin_is_integer _ _); auto. destruct (forallb t_eq _) eqn:FB; auto. simpl.
  destruct (Z.eqb_spec (red_gcd (il_terms (ic_expr c))) 0); auto. right. rewrite forallb_forall in FB. split; auto. split; auto. apply Forall_forall. auto.
Qed.
Lemma reduce_integer_keeps : forall (P : iterm -> Prop) m c, (forall g l t, P t -> t_eq t = true -> P (red_term g l t)) ->
  Forall P (il_terms (ic_expr c)) -> Forall P (il_terms (ic_expr (reduce_integer m c))).
Proof.
  intros P m c H F. destruct (reduce_integer_cases m c) as [->|(TY & FE & _ & ->)]; auto. destruct (tighten_terms (scaled c)) as [-> | ->]; [|constructor].
  unfold scaled. simpl. apply Forall_map. rewrite Forall_forall in *. intros t I. apply H; auto.
Qed.
Lemma red_term_point : forall g l t, itv_is_point (t_itv (red_term g l t)) = true.
Proof. intros. apply point_iff. simpl. eexists _, _. split; [reflexivity|]. split; [reflexivity|]. rewrite Q2R_opp. lra. Qed.
Lemma reduce_integer_bz_ok : forall n m c, bz_ok (N:=N) n c -> bz_ok (N:=N) n (reduce_integer m c).
Proof.
  intros n m c (A & B & C & D). split; [|split; [|split]].
  - apply reduce_integer_keeps; auto. intros. apply red_term_point.
  - destruct B as [B|B]; [left; auto|right]. apply reduce_integer_keeps; auto.
  - apply reduce_integer_keeps; auto.
  - apply reduce_integer_eqf; auto.
Qed.
Lemma point_nonempty : forall a, itv_is_point a = true -> nonempty a.
Proof. intros a P. destruct (point_sup a P) as [q Q]. exists (Q2R q). apply point_val; auto. rewrite Q. simpl. auto. Qed.
Lemma mul_num_nonempty : forall a q, nonempty a -> nonempty (itv_mul_num (N:=E) a q).
Proof. intros a q [x X]. exists (x * Q2R q)%R. unfold itv_mul_num. apply itv_mul_bound_sound; auto. Qed.
Lemma sym_nonempty : forall q, nonempty (mkItv (Fin (- q)) (Fin q)).
Proof. intro q. exists (Q2R q). split; simpl; try rewrite Q2R_opp; lra. Qed.
Lemma tighten_cst_nonempty : forall c, eq_flag_s c -> nonempty (il_cst (ic_expr c)) -> nonempty (il_cst (ic_expr (tighten c))).
Proof.
  intros c EF W. destruct (nonempty_not_MInf _ W) as [NI NS]. unfold tighten, eq_flag_s, cst_flag_ok in *.
  destruct (il_cst (ic_expr c)) as [i s] eqn:C. simpl in *. destruct s as [|q|]; try congruence.
  - (* finite *) assert (FIN : forall k e, nonempty (il_cst (ic_expr (if binfty (Fin k) then mkIC (mkIL (il_terms (ic_expr c)) (mkItv i (Fin k)) e) CSupEq (ic_num c) else mkIC (mkIL (il_terms (ic_expr c)) (mkItv (bneg (Fin k)) (Fin k)) true) CSupEq (ic_num c))))).
    { intros. simpl. apply sym_nonempty. }
    destruct (ic_typ c); try (apply sym_nonempty).
    + destruct (itv_is_bottom _) eqn:B; [apply point_nonempty; reflexivity|]. simpl. apply nonempty_iff. simpl. split; [|split; [discriminate|auto]].
      destruct i; try congruence. destruct (il_eq (ic_expr c)); discriminate.
    + destruct (qisint q); apply sym_nonempty.
  - destruct (ic_typ c) eqn:TY; simpl; auto.
    destruct (itv_is_bottom _) eqn:B; [apply point_nonempty; reflexivity|]. simpl. apply nonempty_iff. simpl. split; [|split; [discriminate|auto]].
    destruct i; try congruence. destruct (il_eq (ic_expr c)); try discriminate. specialize (EF eq_refl eq_refl). discriminate.
Qed.
Lemma reduce_integer_ne : forall m c, eq_flag_ok c -> ne_coefs c -> ne_coefs (reduce_integer m c).
Proof.
  intros m c EF [A B]. split.
  - apply reduce_integer_keeps; auto. intros. apply point_nonempty. apply red_term_point.
  - destruct (reduce_integer_cases m c) as [->|(TY & FE & NZ & ->)]; auto. apply tighten_cst_nonempty.
    apply eqf_scaled; auto. apply forallb_forall. rewrite Forall_forall in FE. auto. simpl. apply mul_num_nonempty; auto.
Qed.
Lemma reduce_integer_no_crash : forall m c, no_crash c -> no_crash (reduce_integer m c).
Proof.
  intros m c H. destruct (reduce_integer_cases m c) as [->|(TY & _ & _ & ->)]; auto. intro X. exfalso.
  assert (T : ic_typ (tighten (scaled c)) = CEq \/ ic_typ (tighten (scaled c)) = CSupEq \/ ic_typ (tighten (scaled c)) = CSup).
  { unfold tighten. destruct (sup (il_cst (ic_expr (scaled c)))); simpl; destruct TY as [-> | [-> | ->]]; simpl; auto; try (destruct (binfty _); auto); destruct (itv_is_bottom _); auto. }
  rewrite X in T. destruct T as [T|[T|T]]; discriminate.
Qed.

(** ** Nothing but non-empty intervals *)
Definition ne_dims (n : nat) (e : nat -> itv) : Prop := forall d, (d < n)%nat -> nonempty (e d).
Lemma bz_scal_nm : forall ty a ev u, itv_is_point a = true -> nonempty ev -> fst (bz_scal (N:=N) ty a ev) = Some u \/ snd (bz_scal (N:=N) ty a ev) = Some u -> u <> MInf.
Proof.
  intros ty a ev u P [r R] H. pose proof (point_nonempty a P) as [c C]. destruct (Req_dec c 0) as [Z|Z].
  - exfalso. destruct (point_sup a P) as [q Q]. apply (point_val a c P) in C. rewrite Q in C. simpl in C. unfold bz_scal in H. rewrite Q in H. simpl in H.
    replace (Z.sgn (Qnum q) =? 0) with true in H. simpl in H. destruct H; discriminate. symmetry. apply Z.eqb_eq. apply sgn_Q_zero. lra.
  - assert (EQ : (c * (- r / c) + r = 0)%R) by (field; auto).
    destruct (bz_scal_ok (N:=N) ty a ev (- r / c) c r P C R) as [A B]. destruct (is_ceq ty); lra.
    destruct H as [H|H]; [apply A in H|apply B in H]; eapply le_rb_not_MInf; apply H.
Qed.
Lemma bz_itv_nm : forall ty a ev u, nonempty a -> nonempty ev -> fst (bz_itv (N:=E) ty a ev) = Some u \/ snd (bz_itv (N:=E) ty a ev) = Some u -> u <> MInf.
Proof.
  intros ty a ev u [c C] [r R] H. destruct (Req_dec c 0) as [Z|Z].
  - exfalso. subst c. destruct C as [C1 C2]. unfold bz_itv in H. assert (S1 : bsgn (inf a) <? 0 = false).
    { apply Z.ltb_ge. destruct (inf a) as [|p|]; simpl in *; try tauto; try lia. destruct (Z_lt_ge_dec (Z.sgn (Qnum p)) 0); auto; [|lia]. apply sgn_Q_neg in l. lra. }
    assert (S2 : bsgn (sup a) <? 0 = false).
    { apply Z.ltb_ge. destruct (sup a) as [|p|]; simpl in *; try tauto; try lia. destruct (Z_lt_ge_dec (Z.sgn (Qnum p)) 0); auto; [|lia]. apply sgn_Q_neg in l. lra. }
    rewrite S1, S2 in H. simpl in H. destruct H; discriminate.
  - assert (EQ : (c * (- r / c) + r = 0)%R) by (field; auto).
    destruct (bz_itv_ok ty a ev (- r / c) c r C R) as [A B]. destruct (is_ceq ty); lra.
    destruct H as [H|H]; [apply A in H|apply B in H]; eapply le_rb_not_MInf; apply H.
Qed.
Lemma bz_int_nm : forall ty isint b, b <> MInf -> bz_int (N:=N) ty isint b <> MInf.
Proof.
  intros ty isint [|q|] H; simpl; try congruence. destruct isint; try discriminate. destruct ty; try discriminate. destruct (qisint q); try discriminate.
  unfold bsub_uint. simpl. intro X. pose proof (rnd_up N (q - inject_Z 1)%Q) as U. rewrite X in U || idtac. revert X U. simpl. intros X U. 
  match type of X with rnd N ?k = MInf => pose proof (rnd_up N k) as U'; rewrite X in U'; simpl in U'; exact U' end.
Qed.
Lemma bz_upd_nm : forall ty isint b old, old <> MInf -> (forall u, b = Some u -> u <> MInf) -> fst (bz_upd (N:=N) ty isint b old) <> MInf.
Proof. intros ty isint b old H F. unfold bz_upd. destruct b as [u|]; auto. destruct (_ <? _); simpl; auto. apply bz_int_nm. auto. Qed.
Lemma canon_ne : forall isint i s, i <> MInf -> s <> MInf -> snd (itv_canonicalize isint (mkItv i s)) = false -> nonempty (fst (itv_canonicalize isint (mkItv i s))).
Proof.
  intros isint i s I S H. apply nonempty_iff. unfold itv_canonicalize in *. simpl in *. destruct isint; simpl in *; auto.
  split; [destruct i; simpl; congruence|]. split; [destruct s; simpl; congruence|]. auto.
Qed.
Lemma eval_ne : forall n env ts cst q, flags_ok ts -> Forall (fun t => (t_dim t < n)%nat) ts -> Forall (fun t => nonempty (t_itv t)) ts -> nonempty cst -> ne_dims n env ->
  nonempty (itv_eval_linexpr (N:=N) env (mkIL ts cst q)).
Proof.
  intros n env ts cst q F D C [x X] W. destruct (tval_ex (bpoint env) ts C) as [r T]. exists (x + r)%R. apply eval_linexpr_sound with (bpoint env); auto.
  exists x, r; auto. simpl. unfold in_env. eapply Forall_impl; [|exact D]. simpl. intros t L. apply pick_in. auto.
Qed.
Lemma zero_nonempty : nonempty (itv_of_int 0).
Proof. apply point_nonempty. reflexivity. Qed.
Lemma bz_loop_ne : forall n same intdim ionly ty cst ceq env rest pre res gch,
  flags_ok (pre ++ rest) -> scal_or_exact (N:=N) rest -> Forall (fun t => (t_dim t < n)%nat) (pre ++ rest) -> Forall (fun t => nonempty (t_itv t)) (pre ++ rest) -> nonempty cst ->
  ne_dims n env -> ne_dims n res ->
  let '(res', ch, em) := bz_loop (N:=N) same intdim ionly ty cst ceq env pre rest res gch in em = false -> ne_dims n res'.
Proof.
  intros n same intdim ionly ty cst ceq env rest. induction rest as [|t post IH]; intros pre res gch FL SE DM NE NC HE HR; cbn [bz_loop]; auto.
  assert (NEXT : forall res' g, ne_dims n res' -> let '(res', ch, em) := bz_loop (N:=N) same intdim ionly ty cst ceq env (pre ++ [t]) post res' g in em = false -> ne_dims n res').
  { intros res' g H. apply IH; auto; try (rewrite <- app_assoc; simpl; auto). destruct SE as [SE|SE]; [left; auto|right; inversion SE; auto]. }
  assert (EV : nonempty (itv_eval_linexpr (N:=N) (if same then res else env) (mkIL (pre ++ mkT (itv_of_int 0) true (t_dim t) :: post) cst ceq))).
  { apply (eval_ne n); auto. apply flags_zero; auto.
    - rewrite Forall_app in *. destruct DM as [D1 D2]. inversion D2; subst. split; auto.
    - rewrite Forall_app in *. destruct NE as [D1 D2]. inversion D2; subst. split; auto. constructor; auto. apply zero_nonempty.
    - destruct same; auto. }
  set (ev := itv_eval_linexpr (N:=N) _ _) in *.
  assert (TD : (t_dim t < n)%nat) by (rewrite Forall_app in DM; destruct DM as [_ D2]; inversion D2; auto).
  assert (TF : t_eq t = true -> itv_is_point (t_itv t) = true). { unfold flags_ok in FL. rewrite Forall_app in FL. destruct FL as [_ F2]. inversion F2; auto. }
  assert (TN : nonempty (t_itv t)). { rewrite Forall_app in NE. destruct NE as [_ F2]. inversion F2; auto. }
  set (cand := if itv_is_top ev then (None, None) else if t_eq t then if ionly then (None, None) else bz_scal (N:=N) ty (t_itv t) ev else bz_itv (N:=N) ty (t_itv t) ev).
  assert (CN : forall u, fst cand = Some u \/ snd cand = Some u -> u <> MInf).
  { intros u. unfold cand. destruct (itv_is_top ev). simpl; intros [X|X]; discriminate. destruct (t_eq t) eqn:TE.
    - destruct ionly. simpl; intros [X|X]; discriminate. apply bz_scal_nm; auto.
    - destruct SE as [SE|SE]; [|inversion SE; congruence]. clearbody ev. revert EV. clear - TN SE. revert ev. rewrite SE. intros ev EV. apply bz_itv_nm; auto. }
  destruct cand as [bi bs]. simpl in CN. destruct (nonempty_not_MInf _ (HR _ TD)) as [O1 O2].
  pose proof (bz_upd_nm ty (Nat.ltb (t_dim t) intdim) bi (inf (res (t_dim t))) O1 (fun u H => CN u (or_introl H))) as U1.
  pose proof (bz_upd_nm ty (Nat.ltb (t_dim t) intdim) bs (sup (res (t_dim t))) O2 (fun u H => CN u (or_intror H))) as U2.
  destruct (bz_upd (N:=N) ty _ bi _) as [i1 c1]. destruct (bz_upd (N:=N) ty _ bs _) as [s1 c2]. simpl in U1, U2. destruct (c1 || c2); [|apply NEXT; exact HR].
  pose proof (canon_ne (Nat.ltb (t_dim t) intdim) i1 s1 U1 U2) as CE. destruct (itv_canonicalize _ _) as [i exc]. simpl in CE. destruct exc; [intro; discriminate|].
  apply NEXT. intros d D. unfold eset. destruct (Nat.eqb d (t_dim t)); auto.
Qed.
Lemma boxize_lincons_ne : forall n same intdim ionly c env res, bz_ok (N:=N) n c -> ne_coefs c -> ne_dims n env -> ne_dims n res ->
  let '(res', ch, em) := boxize_lincons (N:=N) same intdim ionly c env res in em = false -> ne_dims n res'.
Proof.
  intros n same intdim ionly c env res (A & B & C & D) [F G] HE HR. unfold boxize_lincons.
  pose proof (bz_loop_ne n same intdim ionly (ic_typ c) (il_cst (ic_expr c)) (il_eq (ic_expr c)) env (il_terms (ic_expr c)) [] res false A B C F G HE HR) as H.
  destruct (bz_loop _ _ _ _ _ _ _ _ _ _ _) as [[res' ch] em]. destruct (il_terms (ic_expr c)); auto. destruct (tfalse _); auto. intro; discriminate.
Qed.
Lemma bz_pass_ne : forall n same intdim ionly env l res ch, Forall (fun c => bz_ok (N:=N) n c /\ ne_coefs c) l -> ne_dims n env -> ne_dims n res ->
  let '(res', ch', em) := bz_pass (N:=N) same intdim ionly l env res ch in em = false -> ne_dims n res'.
Proof.
  intros n same intdim ionly env. induction l as [|c l IH]; intros res ch F HE HR; simpl. auto. inversion F as [|? ? [F1 F2] F3]; subst.
  destruct (boxable _); [|apply IH; auto]. pose proof (boxize_lincons_ne n same intdim ionly c env res F1 F2 HE HR) as H.
  destruct (boxize_lincons _ _ _ _ _ _) as [[res' c1] em]. destruct em. intro; discriminate. apply IH; auto.
Qed.
Lemma bz_iter_ne : forall n same intdim ionly env l k res g, Forall (fun c => bz_ok (N:=N) n c /\ ne_coefs c) l -> ne_dims n env -> ne_dims n res ->
  let '(res', ch', em) := bz_iter (N:=N) k same intdim ionly l env res g in em = false -> ne_dims n res'.
Proof.
  intros n same intdim ionly env l. induction k as [|k IH]; intros res g F HE HR; simpl. auto.
  pose proof (bz_pass_ne n same intdim ionly env l res false F HE HR) as H. destruct (bz_pass _ _ _ _ _ _ _) as [[res' c1] em]. destruct em. intro; discriminate.
  destruct c1; auto. apply IH; auto.
Qed.

(** ** The meet *)
Definition meet_cons_ok (n : nat) (c : lincons) : Prop := user_ok (N:=N) n c /\ (N = E \/ repr_terms (lc_expr c)).
Lemma icons_bz_ok : forall n c, meet_cons_ok n c -> bz_ok (N:=N) n (icons_of_lincons (N:=N) c).
Proof.
  intros n c [U S]. destruct (user_flags n c U) as [A B]. split; auto. split; [|split].
  - destruct S as [S|S]; [left; auto|right]. apply repr_scal; auto.
  - destruct U as [W _]. apply ilin_of_linexpr_dims; auto.
  - intro. auto.
Qed.
Lemma icons_bool_bz_ok : forall n c b, bz_ok (N:=N) n (icons_bool c b).
Proof. intros n c b. split; [constructor|]. split; [right; constructor|]. split; [constructor|]. intros _ _ _. destruct b; reflexivity. Qed.
Lemma reduce_bz_ok : forall n m l l' t, Forall (meet_cons_ok n) l -> array_reduce_integer m (map (icons_of_lincons (N:=N)) l) = Some (l', t) -> Forall (bz_ok (N:=N) n) l'.
Proof.
  intros n m l l' t F H. unfold array_reduce_integer, array_reduce in H. destruct (reduce_loop _ _ _ _) as [[r b]|] eqn:R; [|discriminate].
  assert (G : Forall (bz_ok (N:=N) n) r).
  { eapply reduce_loop_sub with (acc := []); [intro; apply icons_bool_bz_ok|constructor| |exact R]. rewrite map_map. apply Forall_map. eapply Forall_impl; [|exact F].
    intros c C. apply reduce_integer_bz_ok. apply icons_bz_ok. auto. }
  destruct b; inversion H; subst; auto.
Qed.
Lemma meet_lincons_sound : forall algo a l v b, Forall (meet_cons_ok (bx_dim a)) l -> int_point (bx_int a) v -> gbox a v ->
  Forall (fun c => sat_cons c v) l -> box_meet_lincons_array (N:=N) algo a l = Some b -> gbox b v.
Proof.
  intros algo a l v b F I G S H. unfold box_meet_lincons_array in H. assert (G0 := G). unfold gbox in G. destruct (bx_p a) as [p|] eqn:P; [|tauto].
  destruct (array_reduce_integer (bx_int a) _) as [[l' t]|] eqn:R; [|discriminate].
  pose proof (reduce_bz_ok _ _ _ _ _ F R) as OK.
  pose proof (fun A B => array_reduce_integer_sound (bx_int a) v (map (icons_of_lincons (N:=N)) l) l' t A I B R) as SR. destruct SR as [S' NF].
  { apply Forall_map. eapply Forall_impl; [|exact F]. intros c [U _]. destruct (user_flags _ c U). split; auto. intro; auto. }
  { apply Forall_map. rewrite Forall_forall in *. intros c C. destruct (F c C) as [U _]. eapply icons_of_lincons_some; eauto. }
  assert (K : forall k, let '(res', ch', em) := bz_iter (N:=N) k true (bx_int a) false l' p p false in em = false /\ in_dims v (bx_dim a) res').
  { intro k. apply bz_iter_sound; auto. rewrite Forall_forall in *. intros c C _. split; auto. }
  assert (X : (let '(res, _, empty) := boxize_lincons_array (N:=N) true (bx_int a) (meet_rounds algo) false l' p p in Some (set_p a (if empty then None else Some res))) = Some b).
  { destruct t; try discriminate; auto. congruence. }
  unfold boxize_lincons_array in X. specialize (K (Nat.max (meet_rounds algo) 1)).
  destruct (bz_iter _ _ _ _ _ _ _ _) as [[res' ch'] em]. destruct K as [-> K]. inversion X; subst b. unfold gbox, set_p; simpl. exact K.
Qed.
Lemma meet_lincons_dim : forall algo a l b, box_meet_lincons_array (N:=N) algo a l = Some b -> bx_int b = bx_int a /\ bx_real b = bx_real a.
Proof.
  intros algo a l b H. unfold box_meet_lincons_array in H. destruct (bx_p a) as [p|]; [|inversion H; auto].
  destruct (array_reduce_integer _ _) as [[l' t]|]; [|discriminate]. destruct t; try discriminate; try (inversion H; auto; fail);
  destruct (boxize_lincons_array _ _ _ _ _ _ _) as [[r c] e]; inversion H; auto.
Qed.
Lemma meet_lincons_red : forall algo a l b v, box_meet_lincons_array (N:=N) algo a l = Some b -> gbox b v -> gbox a v.
Proof.
  intros algo a l b v H. unfold box_meet_lincons_array in H. destruct (bx_p a) as [p|] eqn:P; [|inversion H; auto].
  destruct (array_reduce_integer _ _) as [[l' t]|]; [|discriminate].
  assert (X : b = set_p a None \/ (let '(res, _, empty) := boxize_lincons_array (N:=N) true (bx_int a) (meet_rounds algo) false l' p p in Some (set_p a (if empty then None else Some res))) = Some b).
  { destruct t; try discriminate; auto. inversion H; auto. }
  destruct X as [->|X]. unfold gbox; simpl; tauto. unfold boxize_lincons_array in X.
  pose proof (bz_iter_red (N:=N) true (bx_int a) false p l' (Nat.max (meet_rounds algo) 1) p false) as (L & _).
  destruct (bz_iter _ _ _ _ _ _ _ _) as [[res' ch'] em]. simpl in L. inversion X; subst b. unfold gbox, set_p; simpl. rewrite P. destruct em; [tauto|].
  intros G d D. exact (env_le_in v (bx_dim a) res' p L G d D).
Qed.
Lemma ilin_ne : forall e, expr_total e -> holes_last (le_terms e) -> Forall (fun t => nonempty (t_itv t)) (il_terms (fst (ilin_of_linexpr (N:=N) e))) /\ nonempty (il_cst (fst (ilin_of_linexpr (N:=N) e))).
Proof.
  intros e T HL. destruct (T (fun _ => 0%R)) as [r R]. apply (ilin_of_linexpr_sound (N:=N)) in R; auto. destruct R as (c & r1 & C & V & _). split; [|exists c; auto].
  clear - V. induction V; constructor; auto. exists c; auto.
Qed.
Lemma meet_lincons_nebox : forall algo a l b, Forall (fun c => meet_cons_ok (bx_dim a) c /\ expr_total (lc_expr c)) l -> nebox a ->
  box_meet_lincons_array (N:=N) algo a l = Some b -> nebox b.
Proof.
  intros algo a l b F W H. unfold box_meet_lincons_array in H. assert (W0 := W). unfold nebox in W. destruct (bx_p a) as [p|] eqn:P; [|inversion H; subst; auto].
  destruct (array_reduce_integer _ _) as [[l' t]|] eqn:R; [|discriminate].
  assert (X : b = set_p a None \/ (let '(res, _, empty) := boxize_lincons_array (N:=N) true (bx_int a) (meet_rounds algo) false l' p p in Some (set_p a (if empty then None else Some res))) = Some b).
  { destruct t; try discriminate; auto. inversion H; auto. }
  destruct X as [->|X]. unfold nebox; simpl; auto. unfold boxize_lincons_array in X.
  assert (OK : Forall (bz_ok (N:=N) (bx_dim a)) l') by (eapply reduce_bz_ok; [|exact R]; eapply Forall_impl; [|exact F]; simpl; tauto).
  assert (NE : Forall ne_coefs l').
  { unfold array_reduce_integer, array_reduce in R. destruct (reduce_loop _ _ _ _) as [[r' b']|] eqn:RL; [|discriminate].
    assert (G : Forall ne_coefs r').
    { eapply reduce_loop_sub with (acc := []); [intro; split; [constructor|apply point_nonempty; reflexivity]|constructor| |exact RL]. rewrite map_map. apply Forall_map.
      eapply Forall_impl; [|exact F]. simpl. intros c [C T]. apply reduce_integer_ne. destruct (user_flags _ c (proj1 C)). intros _ _; auto. destruct C as [(_ & HL & _) _]. apply ilin_ne; auto. }
    destruct b'; inversion R; subst; auto. }
  pose proof (bz_iter_ne (bx_dim a) true (bx_int a) false p l' (Nat.max (meet_rounds algo) 1) p false) as L.
  destruct (bz_iter _ _ _ _ _ _ _ _) as [[res' ch'] em]. inversion X; subst b. unfold nebox, set_p; simpl. destruct em; auto. apply L; auto.
  rewrite Forall_forall in *. auto.
Qed.
Lemma meet_lincons_total : forall algo a l, Forall (fun c => lc_typ c = CEqMod -> exists q, lc_mod c = Some (Fin q) /\ (exists q', rnd N q = Fin q' /\ Qeq_bool q' 0 = false)) l ->
  exists b, box_meet_lincons_array (N:=N) algo a l = Some b.
Proof.
  intros algo a l F. unfold box_meet_lincons_array. destruct (bx_p a) as [p|]; eauto.
  destruct (array_reduce_total true (map (reduce_integer (bx_int a)) (map (icons_of_lincons (N:=N)) l))) as (l' & t & R & T & _).
  { rewrite map_map. apply Forall_map. eapply Forall_impl; [|exact F]. intros c C. apply reduce_integer_no_crash. intro TY. simpl in *. destruct (C TY) as (q & -> & q' & -> & Z). auto. }
  unfold array_reduce_integer. rewrite R. destruct t; try congruence; eauto; destruct (boxize_lincons_array _ _ _ _ _ _ _) as [[r c] e]; eauto.
Qed.
End M.

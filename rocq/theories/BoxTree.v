(** Tree expressions in the box domain: /repo/box/box_constructor.c 210-238, 290-308,
    /repo/box/box_assign.c 68-130, /repo/box/box_meetjoin.c 212-262.

    As in [ItvTree] the argument [eq0] is the initial value of the flag "equality" of the linear
    forms, and as in [Hc4] the argument [nx] is the machine's way of widening a bound to the
    numbers that may round to it. *)
From Coq Require Import Arith ZArith QArith Qround Qreals Reals Bool List Lra Lia.
From Verif Require Import Bound BoundFacts Itv ItvFacts ItvFacts2 Linexpr ItvLin ItvLinFacts ItvLinCons ItvLinApi ItvLinInt ApTexpr TexprSem ItvTree ItvTreeFacts
  Box BoxizeFacts BoxFacts BoxOps BoxMeet ItvTreeFlags ItvTreeApi ItvTreeApiFacts Hc4 Hc4Facts.
Import ListNotations.
Open Scope Z_scope.

Section BoxTree.
Context {N : numtype} {F : fmts}.
(** box_sat_tcons, box_constructor.c 210-238; [None]: abort inside itv_eval_cstlincons *)
Definition box_sat_tcons (a : box) (c : tcons) : option bool :=
  match bx_p a with
  | None => Some true
  | Some p =>
    let cst := eval_texpr (N:=N) (F:=F) p (tc_expr c) in
    match eval_cst (mkIC (mkIL [] cst (itv_is_point cst)) (tc_typ c) (mod_num (N:=N) (tc_mod c))) with
    | TCrash => None
    | t => Some (ttrue t)
    end
  end.
(** box_bound_texpr 290-308 *)
Definition box_bound_texpr (a : box) (e : texpr) : bound * bound :=
  match bx_p a with
  | None => uitv_bottom
  | Some p => user_of_itv (eval_texpr (N:=N) (F:=F) p e)
  end.
(** box_assign_texpr_array, box_assign.c 93-125; box_assign_texpr 68-91 is the case of one
    assignment *)
Definition box_assign_texpr_array (a : box) (asn : list (nat * texpr)) (dest : option box) : box :=
  match bx_p a, (match dest with Some b => box_is_bottom b | None => false end) with
  | None, _ | _, true => a
  | Some p, false =>
    let r := set_p a (Some (fold_left (fun r t => eset r (fst t) (eval_texpr (N:=N) (F:=F) p (snd t))) asn p)) in
    match dest with None => r | Some b => box_meet r b end
  end.
(** box_meet_tcons_array, box_meetjoin.c 212-262: [algo] is the option "algorithm" (an int); the
    linearisation below 100, constraint propagation on the trees from 100 on.  [None]: abort. *)
Definition tmeet_rounds (algo : Z) : nat := if algo <? 1 then 2%nat else Z.to_nat algo.
Definition box_meet_tcons_array (eq0 : bool) (nx : rtype -> Q -> bound) (algo : Z) (a : box) (l : list tcons) : option box :=
  match bx_p a with
  | None => Some a
  | Some p =>
    if algo <? 100 then
      match array_reduce_integer (bx_int a) (fst (intlin_tcons_array (N:=N) (F:=F) eq0 p (bx_int a) l)) with
      | None | Some (_, TCrash) => None
      | Some (_, TFalse) => Some (set_p a None)
      | Some (l, _) =>
        let '(res, _, empty) := boxize_lincons_array (N:=N) true (bx_int a) (tmeet_rounds algo) false l p p in
        Some (set_p a (if empty then None else Some res))
      end
    else
      let '(res, empty) := hc4_meet (N:=N) (F:=F) nx (tmeet_rounds (algo - 100)) (bx_int a) l p in
      Some (set_p a (if empty then None else Some res))
  end.

(** ** Facts *)
Lemma sat_tcons_sound : forall a c v, (forall d, occurs d (tc_expr c) -> (d < bx_dim a)%nat) -> (forall p, bx_p a = Some p -> pow_ok (N:=N) (F:=F) p (tc_expr c)) -> tmod_ok (N:=N) c ->
  box_sat_tcons a c = Some true -> gbox a v -> sat_tcons_all F c v.
Proof.
  intros a c v D PO M H G r X. unfold box_sat_tcons, gbox in *. destruct (bx_p a) as [p|]; [|tauto].
  assert (I : in_itv r (eval_texpr (N:=N) (F:=F) p (tc_expr c))) by (eapply eval_texpr_sound; eauto).
  set (cst := eval_texpr p (tc_expr c)) in *. set (k := mkIC _ _ _) in H.
  destruct (eval_cst k) eqn:EV; simpl in H; try discriminate.
  pose proof (eval_cst_true k v eq_refl) as S. assert (FO : eqm_flag_ok k) by (intros _ _ Q; exact Q). specialize (S FO EV r).
  apply (tmod_conv (N:=N)); auto. apply S. simpl. apply ival_nil. auto.
Qed.
Lemma bound_texpr_sound : forall a e v r, (forall d, occurs d e -> (d < bx_dim a)%nat) -> (forall p, bx_p a = Some p -> pow_ok (N:=N) (F:=F) p e) -> gbox a v -> xval F v e r ->
  in_uitv r (box_bound_texpr a e).
Proof.
  intros a e v r D PO G X. unfold box_bound_texpr, gbox in *. destruct (bx_p a) as [p|]; [|tauto]. apply user_of_itv_in. eapply eval_texpr_sound; eauto.
Qed.
Lemma tasn_cell : forall p asn r d,
  (~ In d (map fst asn) -> fold_left (fun r t => eset r (fst t) (eval_texpr (N:=N) (F:=F) p (snd t))) asn r d = r d) /\
  (In d (map fst asn) -> exists e, In (d, e) asn /\ fold_left (fun r t => eset r (fst t) (eval_texpr (N:=N) (F:=F) p (snd t))) asn r d = eval_texpr (N:=N) (F:=F) p e).
Proof.
  intros p. induction asn as [|[d0 e0] q IH]; intros r d; simpl. split; auto; tauto. destruct (IH (eset r d0 (eval_texpr (N:=N) (F:=F) p e0)) d) as [A B]. split.
  - intros H. rewrite A by tauto. unfold eset. destruct (Nat.eqb d d0) eqn:E; auto. apply Nat.eqb_eq in E. subst. tauto.
  - intros H. destruct (in_dec Nat.eq_dec d (map fst q)) as [I|I].
    + destruct (B I) as (e & J & K). eauto.
    + destruct H as [<-|H]; [|tauto]. exists e0. split; auto. rewrite A by auto. unfold eset. rewrite Nat.eqb_refl. auto.
Qed.
Lemma assign_texpr_sound : forall a asn dest v w, Forall (fun t => (forall d, occurs d (snd t) -> (d < bx_dim a)%nat) /\ forall p, bx_p a = Some p -> pow_ok (N:=N) (F:=F) p (snd t)) asn ->
  (forall d e, In (d, e) asn -> xval F v e (w d)) -> (forall d, ~ In d (map fst asn) -> w d = v d) ->
  gbox a v -> (forall b, dest = Some b -> bx_dim b = bx_dim a /\ gbox b w) -> gbox (box_assign_texpr_array a asn dest) w.
Proof.
  intros a asn dest v w FA H1 H2 G D. unfold box_assign_texpr_array. assert (G0 := G). unfold gbox in G. destruct (bx_p a) as [p|] eqn:P; [|tauto].
  assert (NB : match dest with Some b => box_is_bottom b | None => false end = false).
  { destruct dest as [b|]; auto. destruct (D b eq_refl) as [_ GB]. unfold gbox, box_is_bottom in *. destruct (bx_p b); auto; tauto. }
  rewrite NB. set (r := set_p a _).
  assert (GR : gbox r w).
  { unfold gbox, r, set_p; simpl. intros d L. destruct (tasn_cell p asn p d) as [A B]. destruct (in_dec Nat.eq_dec d (map fst asn)) as [I|I].
    - destruct (B I) as (e & J & K). rewrite K. rewrite Forall_forall in FA. destruct (FA _ J) as [O PO]. eapply eval_texpr_sound; eauto.
    - rewrite A, H2 by auto. apply G; auto. }
  destruct dest as [b|]; auto. destruct (D b eq_refl) as [E GB]. apply (meet_exact r b w); auto.
Qed.
Lemma meet_tcons_hc4_sound : forall eq0 nx algo a l v b, 100 <= algo ->
  Forall (fun c => hc4_ok (tc_expr c) /\ (forall d, occurs d (tc_expr c) -> (d < bx_dim a)%nat) /\ sat_tcons F c v) l -> int_point (bx_int a) v -> gbox a v ->
  box_meet_tcons_array eq0 nx algo a l = Some b -> gbox b v.
Proof.
  intros eq0 nx algo a l v b AL FA IP G H. unfold box_meet_tcons_array in H. unfold gbox in G. destruct (bx_p a) as [p|]; [|tauto].
  destruct (algo <? 100) eqn:E; [apply Z.ltb_lt in E; lia|].
  destruct (hc4_meet_sound (N:=N) (F:=F) nx (fun d => (d < bx_dim a)%nat) (tmeet_rounds (algo - 100)) (bx_int a) v l p) as [A B]; auto.
  destruct (hc4_meet _ _ _ _ _) as [res em]. simpl in A, B. subst em. inversion H; subst. exact A.
Qed.
End BoxTree.

(** the linearisation is right for exact numbers *)
Lemma meet_tcons_lin_sound : forall (F : fmts) eq0 nx algo a l v b, algo < 100 -> 
  Forall (fun c => (forall d, occurs d (tc_expr c) -> (d < bx_dim a)%nat) /\ (forall p, bx_p a = Some p -> lin_pow_ok (N:=exact_num) (F:=F) eq0 p (bx_int a) (tc_expr c)) /\ sat_tcons F c v) l ->
  int_point (bx_int a) v -> gbox a v -> box_meet_tcons_array (N:=exact_num) (F:=F) eq0 nx algo a l = Some b -> gbox b v.
Proof.
  intros F eq0 nx algo a l v b AL FA IP G H. unfold box_meet_tcons_array in H. unfold gbox in G. destruct (bx_p a) as [p|]; [|tauto].
  destruct (algo <? 100) eqn:E; [|apply Z.ltb_ge in E; lia].
  assert (PRE : Forall (fun c => tmod_ok (N:=exact_num) c /\ pt_ok p (bx_int a) v (tc_expr c) /\ lin_pow_ok (N:=exact_num) (F:=F) eq0 p (bx_int a) (tc_expr c) /\ sat_tcons F c v) l).
  { rewrite Forall_forall in *. intros c C. destruct (FA c C) as (A & B & D). split; [intros _; destruct (tc_mod c) as [[| |]|]; simpl; auto|]. split; [|split; auto]. intros d O. split; auto. }
  destruct (loop_sound eq0 p (bx_int a) v l PRE) as (t0 & E0 & K). unfold intlin_tcons_array in H. rewrite E0 in H. simpl in H.
  assert (SO : Forall (fun k => sat_some k v) t0) by (eapply Forall2_r; [exact K|]; intros x y _ Z; apply Z).
  assert (EQF : Forall eq_flag_ok t0).
  { eapply Forall2_r; [exact K|]. intros x y I (K1 & K2 & K3 & K4 & K5) _ Q. rewrite Forall_forall in PRE. destruct (PRE x I) as (_ & PT & PO & r & X & _).
    destruct (il_terms (ic_expr y)) eqn:T; [auto|]. apply okl_flag; auto. rewrite K5. eapply okl_rec; eauto. apply K2. congruence. }
  assert (BZ : Forall (bz_ok (N:=exact_num) (bx_dim a)) t0).
  { rewrite Forall_forall in EQF. apply Forall_forall. intros k I. assert (SH : exists c, In c l /\ shape (fun d => occurs d (tc_expr c)) (ic_expr k)).
    { clear - K I. induction K; simpl in I; [tauto|]. destruct I as [<-|I]. exists x. split; [left; auto|]. apply H. destruct (IHK I) as (c & A & B). exists c. split; auto. right; auto. }
    destruct SH as (c & C & (S1 & S2 & _)). split; [exact S1|]. split; [left; reflexivity|]. split; [|auto]. rewrite Forall_forall in FA. destruct (FA c C) as (D & _). eapply Forall_impl; [|exact S2]. simpl. auto. }
  destruct (array_reduce_integer (bx_int a) t0) as [[l' t]|] eqn:R; [|discriminate].
  assert (OK : Forall (bz_ok (N:=exact_num) (bx_dim a)) l').
  { unfold array_reduce_integer, array_reduce in R. destruct (reduce_loop _ _ _ _) as [[r b0]|] eqn:RL; [|discriminate].
    assert (GG : Forall (bz_ok (N:=exact_num) (bx_dim a)) r).
    { eapply reduce_loop_sub with (acc := []); [intro; apply icons_bool_bz_ok|constructor| |exact RL]. apply Forall_map. eapply Forall_impl; [|exact BZ]. intros k Z. apply reduce_integer_bz_ok; auto. }
    destruct b0; inversion R; subst; auto. }
  destruct (array_reduce_integer_sound (bx_int a) v t0 l' t) as [S' NF]; auto.
  { rewrite Forall_forall in *. intros k I. destruct (BZ k I) as (B1 & _ & _ & B4). split; auto. }
  assert (KK : forall k, let '(res', ch', em) := bz_iter (N:=exact_num) k true (bx_int a) false l' p p false in em = false /\ in_dims v (bx_dim a) res').
  { intro k. apply bz_iter_sound; auto. rewrite Forall_forall in *. intros c C _. split; auto. }
  assert (X : (let '(res, _, empty) := boxize_lincons_array (N:=exact_num) true (bx_int a) (tmeet_rounds algo) false l' p p in Some (set_p a (if empty then None else Some res))) = Some b).
  { destruct t; try discriminate; auto. congruence. }
  unfold boxize_lincons_array in X. specialize (KK (Nat.max (tmeet_rounds algo) 1)).
  destruct (bz_iter _ _ _ _ _ _ _ _) as [[res' ch'] em]. destruct KK as [-> KK]. inversion X; subst b. unfold gbox, set_p; simpl. exact KK.
Qed.
(** the refinement never adds a point *)
Section Red.
Context {N : numtype} {F : fmts} (nx : rtype -> Q -> bound).
#[local] Arguments itv_meet _ _ : simpl never.
#[local] Arguments itv_canonicalize _ _ : simpl never.
#[local] Arguments Nat.ltb _ _ : simpl never.
Definition sub_env (e' e : nat -> itv) : Prop := forall d x, in_itv x (e' d) -> in_itv x (e d).
Lemma sub_env_trans : forall a b c, sub_env a b -> sub_env b c -> sub_env a c.
Proof. unfold sub_env; auto. Qed.
Lemma top_down_red : forall intdim x i env, sub_env (snd (fst (top_down (N:=N) nx intdim x i env))) env.
Proof.
  intros intdim x. induction x; intros j env; simpl; (destruct (itv_is_bottom j); [simpl; unfold sub_env; auto|]).
  - simpl. unfold sub_env; auto.
  - destruct (itv_is_eq _ _); simpl; [unfold sub_env; auto|]. intros k x H. unfold Hc4.upd in H. destruct (Nat.eqb k d) eqn:E; auto. apply Nat.eqb_eq in E. subst k.
    destruct (canon_le (Nat.ltb d intdim) (fst (itv_meet (env d) j))) as [A B]. assert (M : in_itv x (fst (itv_meet (env d) j))). { destruct H as [H1 H2]. split; eapply le_bb_rb; eauto. }
    apply itv_meet_spec in M. tauto.
  - destruct (itv_is_eq _ _); simpl; [unfold sub_env; auto|]. specialize (IHx (refine_un (N:=N) nx o t d j (aitv x)) env). destruct (top_down nx intdim x _ env) as [[a' env'] r']. simpl in *. auto.
  - destruct (refine_bin nx o t d j (aitv x1) (aitv x2)) as [ja jb].
    assert (A : sub_env (snd (fst (if itv_is_eq ja (aitv x1) then (x1, env, false) else top_down (N:=N) nx intdim x1 ja env))) env).
    { destruct (itv_is_eq ja _); auto. simpl. unfold sub_env; auto. }
    destruct (if itv_is_eq ja (aitv x1) then _ else _) as [[a' env'] r1]. simpl in A.
    assert (B : sub_env (snd (fst (if itv_is_eq jb (aitv x2) then (x2, env', false) else top_down (N:=N) nx intdim x2 jb env'))) env').
    { destruct (itv_is_eq jb _); auto. simpl. unfold sub_env; auto. }
    destruct (if itv_is_eq jb (aitv x2) then _ else _) as [[b' env''] r2]. simpl in *. eapply sub_env_trans; eauto.
Qed.
Lemma refine_all_red : forall intdim tab env, sub_env (snd (fst (refine_all (N:=N) nx intdim tab env))) env.
Proof.
  intros intdim. induction tab as [|[ty x] q IH]; intros env; simpl. unfold sub_env; auto.
  assert (A : sub_env (snd (fst (refine_cons (N:=N) nx intdim ty x env))) env).
  { unfold refine_cons. destruct ty; try destruct (itv_is_zero _); try destruct (itv_is_pos _); try apply top_down_red; simpl; unfold sub_env; auto. }
  destruct (refine_cons nx intdim ty x env) as [[x' env'] r]. simpl in A. specialize (IH env'). destruct (refine_all nx intdim q env') as [[q' env''] r']. simpl in *. eapply sub_env_trans; eauto.
Qed.
Lemma hc4_loop_red : forall k intdim tab env, sub_env (fst (hc4_loop (N:=N) (F:=F) nx k intdim tab env)) env.
Proof.
  induction k; intros intdim tab env; simpl. unfold sub_env; auto. pose proof (refine_all_red intdim tab env) as A. destruct (refine_all nx intdim tab env) as [[tab' env'] r]. simpl in A.
  destruct r; simpl; auto. destruct (bottom_up_all env' tab') as [[tab'' r] e]. destruct e; simpl; auto. destruct r; simpl; auto. eapply sub_env_trans; [apply IHk|auto].
Qed.
Lemma hc4_first : forall k intdim tab env, sub_env (fst (hc4_loop (N:=N) (F:=F) nx (S k) intdim tab env)) (snd (fst (refine_all (N:=N) nx intdim tab env))).
Proof.
  intros k intdim tab env. cbn [hc4_loop]. destruct (refine_all nx intdim tab env) as [[t' e'] r']. destruct r'; simpl negb; cbv iota; [|unfold sub_env; auto].
  destruct (bottom_up_all e' t') as [[t'' r''] em]. destruct em; [unfold sub_env; auto|]. destruct r''; simpl negb; cbv iota; [|unfold sub_env; auto]. apply hc4_loop_red.
Qed.
Lemma meet_tcons_red : forall eq0 algo a l b v, box_meet_tcons_array (N:=N) (F:=F) eq0 nx algo a l = Some b -> gbox b v -> gbox a v.
Proof.
  intros eq0 algo a l b v H. unfold box_meet_tcons_array in H. destruct (bx_p a) as [p|] eqn:P; [|inversion H; auto]. destruct (algo <? 100).
  - destruct (array_reduce_integer _ _) as [[l' t]|]; [|discriminate].
    assert (X : b = set_p a None \/ (let '(res, _, empty) := boxize_lincons_array (N:=N) true (bx_int a) (tmeet_rounds algo) false l' p p in Some (set_p a (if empty then None else Some res))) = Some b).
    { destruct t; try discriminate; auto. inversion H; auto. }
    destruct X as [->|X]. unfold gbox; simpl; tauto. unfold boxize_lincons_array in X.
    pose proof (bz_iter_red (N:=N) true (bx_int a) false p l' (Nat.max (tmeet_rounds algo) 1) p false) as (L & _).
    destruct (bz_iter _ _ _ _ _ _ _ _) as [[res' ch'] em]. simpl in L. inversion X; subst b. unfold gbox, set_p; simpl. rewrite P. destruct em; [tauto|].
    intros G d D. exact (env_le_in v (bx_dim a) res' p L G d D).
  - unfold hc4_meet in H. pose proof (hc4_loop_red (tmeet_rounds (algo - 100)) (bx_int a) (map (fun c => (tc_typ c, abuild (N:=N) (F:=F) p (tc_expr c))) l) p) as R.
    destruct (hc4_loop _ _ _ _ _) as [res em]. simpl in R. inversion H; subst. unfold gbox; simpl. rewrite P. destruct em; [tauto|]. intros G d D. apply R. auto.
Qed.
End Red.

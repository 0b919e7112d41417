(** Properties C11 and C12: interval evaluation and linearisation of tree expressions. *)
From Coq Require Import Arith ZArith QArith Qround Qreals Reals Bool List Lra Lia.
From Flocq Require Import Core.
From Verif Require Import Bound BoundFacts Itv ItvFacts ItvFacts2 Linexpr ItvLin ItvLinFacts ItvLinCons ItvLinApi ItvLinInt ApCheck ApTexpr TexprSem ItvTree ItvTreeFacts Box BoxizeFacts ItvTreeFlags ItvTreeApi ItvTreeApiFacts FloatFmt.
Import ListNotations.
Open Scope Z_scope.
Ltac rq := unfold Q2R in *; simpl in *; try lra.

(** trees without the power operator *)
Fixpoint no_pow (e : texpr) : Prop :=
  match e with
  | TUn _ _ _ a => no_pow a
  | TBin o _ _ a b => no_pow a /\ no_pow b /\ o <> BPow
  | _ => True
  end.
Lemma no_pow_eval : forall (N : numtype) (F : fmts) env e, no_pow e -> pow_ok (N:=N) (F:=F) env e.
Proof. intros N F env. induction e; simpl; auto. intros (A & B & C). split; auto. split; auto. intros; contradiction. Qed.
Lemma no_pow_lin : forall (N : numtype) (F : fmts) eq0 env intdim e, no_pow e -> lin_pow_ok (N:=N) (F:=F) eq0 env intdim e.
Proof. intros N F eq0 env intdim. induction e; simpl; auto. intros (A & B & C). split; auto. split; auto. intros; contradiction. Qed.
Lemma no_pow_tree : forall (N : numtype) (F : fmts) eq0 env intdim e, no_pow e -> tree_pow_ok (N:=N) (F:=F) eq0 env intdim e.
Proof. intros. unfold tree_pow_ok. destruct (is_interval_linear e). apply no_pow_eval; auto. apply no_pow_lin; auto. Qed.

(** ** C11 *)
(** [F] are the floating-point formats, [N] the numbers used for the bounds; the point has to be in
    the box only for the dimensions of the expression *)
Theorem C11_eval : forall (N : numtype) (F : fmts) (env : nat -> itv) (v : nat -> R) (e : texpr) (r : R),
  no_pow e -> (forall d, occurs d e -> in_itv (v d) (env d)) -> xval F v e r ->
  in_itv r (eval_texpr (N:=N) (F:=F) env e) /\ in_itv r (ap_eval_texpr0 (N:=N) (F:=F) env e).
Proof.
  intros N F env v e r P I X. split. eapply eval_texpr_sound; eauto. apply no_pow_eval; auto. eapply ap_eval_sound; eauto; apply no_pow_eval; auto.
Qed.
Print Assumptions C11_eval.
(** with powers: right unless some odd power is taken of an interval not bounded below *)
Theorem C11_eval_pow_partial : forall (N : numtype) (F : fmts) (env : nat -> itv) (v : nat -> R) (e : texpr) (r : R),
  pow_ok (N:=N) (F:=F) env e -> (forall d, occurs d e -> in_itv (v d) (env d)) -> xval F v e r -> in_itv r (eval_texpr (N:=N) (F:=F) env e).
Proof. intros. eapply eval_texpr_sound; eauto. Qed.
Print Assumptions C11_eval_pow_partial.
(** ... and wrong then: x^3 for x <= 0 *)
Theorem C11_pow_refuted : forall (F : fmts), exists (env : nat -> itv) (v : nat -> R) (e : texpr) (r : R),
  (forall d, in_itv (v d) (env d)) /\ xval F v e r /\ ~ in_itv r (ap_eval_texpr0 (N:=exact_num) (F:=F) env e).
Proof.
  intros F. exists (fun _ => mkItv PInf (Fin 0)), (fun _ => (-1)%R), (TBin BPow RReal DNearest (TDim 0) (TCst (Scal (Fin 3)))), (-1)%R. split; [|split].
  - intros d. split; rq.
  - apply xv_bin with (-1)%R 3%R. apply (xv_dim F (fun _ => (-1)%R)). constructor. rq. exists (-1)%R. split; [|reflexivity]. left. exists 3%nat. split; simpl; lra.
  - vm_compute. intros [A B]. tauto.
Qed.
Print Assumptions C11_pow_refuted.
(** a tree with all sorts of rounding: sqrt(x) * y + (int)(x / 2), over x in [1,4], y in [-1,2] *)
Definition t11 : texpr :=
  TBin BAdd RReal DNearest (TBin BMul RReal DNearest (TUn USqrt RReal DNearest (TDim 0)) (TDim 1))
                           (TUn UCast RInt DDown (TBin BDiv RReal DNearest (TDim 0) (TCst (Scal (Fin 2))))).
Definition env11 : nat -> itv := fun d => if Nat.eqb d 0 then mkItv (Fin (-1)) (Fin 4) else mkItv (Fin 1) (Fin 2).
Definition pt11 : nat -> R := fun d => if Nat.eqb d 0 then 4%R else 2%R.
Lemma pt11_val : forall F, xval F pt11 t11 6%R.
Proof.
  intros F. apply xv_bin with 4%R 2%R; [| |simpl; lra].
  - apply xv_bin with 2%R 2%R; [|apply (xv_dim F pt11)|simpl; lra]. apply xv_un with 4%R. apply (xv_dim F pt11). simpl. split; [lra|].
    replace 4%R with (2 * 2)%R by lra. rewrite sqrt_square; lra.
  - apply xv_un with 2%R. apply xv_bin with 4%R 2%R. apply (xv_dim F pt11). constructor. rq. simpl. split; lra. exists 2. split; auto. simpl. unfold is_floor. lra.
Qed.
Example C11_example : forall F, no_pow t11 /\ (forall d, occurs d t11 -> in_itv (pt11 d) (env11 d)) /\ xval F pt11 t11 6%R /\
  (exists i, eval_texpr (N:=exact_num) (F:=F) env11 t11 = i /\ inf i = Fin 2 /\ sup i = Fin 6).
Proof.
  intros F. split; [simpl; repeat split; discriminate|]. split; [|split; [apply pt11_val|]].
  - intros d _. unfold pt11, env11. destruct (Nat.eqb d 0); split; rq.
  - eexists. split; [reflexivity|]. split; vm_compute; reflexivity.
Qed.
(** single precision: the sum of 1 and 1/2 rounded to nearest *)
Definition t11f : texpr := TBin BAdd RSingle DNearest (TDim 0) (TDim 1).
Definition pt11f : nat -> R := fun d => if Nat.eqb d 0 then 1%R else (1 / 2)%R.
Lemma pt11f_val : xval ieee_fmts pt11f t11f (3 / 2)%R.
Proof.
  assert (S : f_set (fm_single ieee_fmts) (3 / 2)%R).
  { replace (3 / 2)%R with (IZR 3 * Raux.bpow radix2 (-1))%R by (unfold Raux.bpow, Z.pow_pos; simpl; lra). change (fset 23 (-149) 128 (IZR 3 * Raux.bpow radix2 (-1))%R). apply fset_float; lia. }
  apply xv_bin with 1%R (1 / 2)%R; try (apply (xv_dim ieee_fmts pt11f)). split.
  - split; auto. split. exists (3 / 2)%R. split; auto. lra. split. exists (3 / 2)%R. split; auto. lra. intros s _. lra.
  - intros s _. replace (3 / 2 - (1 + 1 / 2))%R with 0%R by lra. rewrite Rabs_R0. apply Rabs_pos.
Qed.
Example C11_example_float : no_pow t11f /\ (forall d, occurs d t11f -> in_itv (pt11f d) (mkItv (Fin 0) (Fin 1))) /\ xval ieee_fmts pt11f t11f (3 / 2)%R.
Proof.
  split; [simpl; repeat split; discriminate|]. split; [|apply pt11f_val]. intros d _. unfold pt11f. destruct (Nat.eqb d 0); split; rq.
Qed.

(** ** C12 *)
(** [eq0] is the arbitrary initial value of a flag.  The hypothesis pt_ok: the point is in the box
    for the dimensions of the expression, and integer for the integer ones. *)
Theorem C12_texpr : forall (N : numtype) (F : fmts) (eq0 : bool) (env : nat -> itv) (intdim : nat) (v : nat -> R) (e : texpr) (r : R),
  no_pow e -> (forall d, occurs d e -> in_itv (v d) (env d) /\ ((d < intdim)%nat -> is_integer (v d))) -> xval F v e r ->
  exists l, intlin_texpr (N:=N) (F:=F) eq0 env intdim e = Some l /\ ival l v r.
Proof.
  intros N F eq0 env intdim v e r P I X. destruct (intlin_texpr_sound eq0 env intdim v e r I (no_pow_lin N F eq0 env intdim e P) X) as (l & A & _ & B). eauto.
Qed.
Print Assumptions C12_texpr.
(** the expression given to the domains covers the tree, and with [quasi] its coefficients are scalars *)
Theorem C12_texpr0 : forall (N : numtype) (F : fmts) (eq0 : bool) (env : nat -> itv) (intdim : nat) (quasi : bool) (v : nat -> R) (e : texpr) (r : R),
  no_pow e -> (forall d, occurs d e -> in_itv (v d) (env d) /\ ((d < intdim)%nat -> is_integer (v d))) -> xval F v e r ->
  exists x, ap_intlinearize_texpr0 (N:=N) (F:=F) eq0 env intdim quasi e = Some x /\ expr_val x v r /\ (quasi = true -> scalar_terms x).
Proof.
  intros N F eq0 env intdim quasi v e r P I X. pose proof (no_pow_tree N F eq0 env intdim e P) as PO. destruct (ap_intlinearize_sound eq0 env intdim quasi v e r I PO X) as (x & A & B).
  exists x. split; auto. split; auto. intros ->. eapply ap_intlinearize_shape; eauto. destruct (intlin_any_sound eq0 env intdim v e r I PO X) as (l & E & FL & _). rewrite E. auto.
Qed.
Print Assumptions C12_texpr0.
(** interval linear trees need no box: the form covers the tree at every point *)
Theorem C12_interval_linear : forall (N : numtype) (F : fmts) (eq0 : bool) (e : texpr), no_pow e -> is_interval_linear e = true ->
  exists l, intlinear_texpr (N:=N) (F:=F) eq0 e = Some l /\ forall v r, xval F v e r -> expr_val (linexpr_of_ilin l) v r.
Proof.
  intros N F eq0 e P L. destruct (intlinear_sound (N:=N) (F:=F) eq0 e L (no_pow_eval N F no_env e P)) as (l & A & _ & _ & B). exists l. split; auto. intros v r X. apply linexpr_of_ilin_iff; auto.
Qed.
Print Assumptions C12_interval_linear.
(** constraints: solutions are kept *)
Theorem C12_tcons_meet : forall (N : numtype) (F : fmts) (eq0 : bool) (env : nat -> itv) (intdim : nat) (quasi meet : bool) (v : nat -> R) (c : tcons),
  no_pow (tc_expr c) -> tmod_ok (N:=N) c -> (forall d, occurs d (tc_expr c) -> in_itv (v d) (env d) /\ ((d < intdim)%nat -> is_integer (v d))) ->
  (exists r, xval F v (tc_expr c) r /\ sat_typ (tc_typ c) (tc_mod c) r) ->
  exists c', ap_intlinearize_tcons0 (N:=N) (F:=F) eq0 env intdim quasi meet c = Some c' /\ sat_cons c' v.
Proof. intros N F eq0 env intdim quasi meet v c P M I S. apply ap_intlinearize_tcons0_meet; auto. apply no_pow_tree; auto. Qed.
Print Assumptions C12_tcons_meet.
(** a linear constraint that holds for sure proves the tree constraint *)
Theorem C12_tcons_test : forall (N : numtype) (F : fmts) (eq0 : bool) (env : nat -> itv) (intdim : nat) (quasi meet : bool) (v : nat -> R) (c : tcons) (c' : lincons),
  no_pow (tc_expr c) -> tmod_ok (N:=N) c -> (forall d, occurs d (tc_expr c) -> in_itv (v d) (env d) /\ ((d < intdim)%nat -> is_integer (v d))) ->
  ap_intlinearize_tcons0 (N:=N) (F:=F) eq0 env intdim quasi meet c = Some c' -> sat_all c' v ->
  forall r, xval F v (tc_expr c) r -> sat_typ (tc_typ c) (tc_mod c) r.
Proof. intros N F eq0 env intdim quasi meet v c c' P M I E S. eapply ap_intlinearize_tcons0_test; eauto. apply no_pow_tree; auto. Qed.
Print Assumptions C12_tcons_test.
(** arrays, with the boxing of the constraints first and the bounds it finds added: rational numbers *)
Theorem C12_tcons_array : forall (F : fmts) (eq0 : bool) (env : nat -> itv) (intdim n : nat) (lt : ltype) (boxize : bool) (kmax : nat) (ionly : bool) (tch : nat -> bool * bool)
  (v : nat -> R) (l : list tcons) (t : list lincons),
  (intdim <= n)%nat -> Forall (fun c => no_pow (tc_expr c) /\ (forall d, occurs d (tc_expr c) -> (d < n)%nat)) l ->
  (forall d, (d < n)%nat -> in_itv (v d) (env d)) -> (forall d, (d < intdim)%nat -> is_integer (v d)) ->
  Forall (fun c => exists r, xval F v (tc_expr c) r /\ sat_typ (tc_typ c) (tc_mod c) r) l ->
  ap_intlinearize_tcons0_array (N:=exact_num) (F:=F) eq0 env intdim n lt true boxize kmax ionly tch l = Some t -> Forall (fun c => sat_cons c v) t.
Proof.
  intros F eq0 env intdim n lt boxize kmax ionly tch v l t LE P I IP S H. eapply ap_tcons_array_meet with (l := l) (n := n); eauto. left; auto.
  eapply Forall_impl; [|exact P]. simpl. intros c [A B]. split; [|split; auto; apply no_pow_lin; auto]. intros _. destruct (tc_mod c) as [[| |]|]; auto.
Qed.
Print Assumptions C12_tcons_array.
(** any numbers, without the boxing, when no equality has to be quasi-linearised (the flag of its
    constant may then be wrong) *)
Theorem C12_tcons_array_any_partial : forall (N : numtype) (F : fmts) (eq0 : bool) (env : nat -> itv) (intdim n : nat) (lt : ltype) (kmax : nat) (ionly : bool) (tch : nat -> bool * bool)
  (v : nat -> R) (l : list tcons) (t : list lincons),
  (lt = TIntlinear \/ Forall (fun c => tc_typ c <> CEq) l) ->
  (intdim <= n)%nat -> Forall (fun c => no_pow (tc_expr c) /\ tmod_ok (N:=N) c /\ (forall d, occurs d (tc_expr c) -> (d < n)%nat)) l ->
  (forall d, (d < n)%nat -> in_itv (v d) (env d)) -> (forall d, (d < intdim)%nat -> is_integer (v d)) ->
  Forall (fun c => exists r, xval F v (tc_expr c) r /\ sat_typ (tc_typ c) (tc_mod c) r) l ->
  ap_intlinearize_tcons0_array (N:=N) (F:=F) eq0 env intdim n lt true false kmax ionly tch l = Some t -> Forall (fun c => sat_cons c v) t.
Proof.
  intros N F eq0 env intdim n lt kmax ionly tch v l t NU LE P I IP S H. eapply ap_tcons_array_meet with (l := l) (n := n); eauto. right; auto.
  eapply Forall_impl; [|exact P]. simpl. intros c (A & B & C). split; auto. split; auto. apply no_pow_lin; auto.
Qed.
Print Assumptions C12_tcons_array_any_partial.
(** powers: right when they ask for no rounding and their base is bounded below (or the exponent is
    even) *)
Theorem C12_pow_partial : forall (N : numtype) (F : fmts) (eq0 : bool) (env : nat -> itv) (intdim : nat) (quasi : bool) (v : nat -> R) (e : texpr) (r : R),
  tree_pow_ok (N:=N) (F:=F) eq0 env intdim e -> (forall d, occurs d e -> in_itv (v d) (env d) /\ ((d < intdim)%nat -> is_integer (v d))) -> xval F v e r ->
  exists x, ap_intlinearize_texpr0 (N:=N) (F:=F) eq0 env intdim quasi e = Some x /\ expr_val x v r.
Proof. intros. eapply ap_intlinearize_sound; eauto. Qed.
Print Assumptions C12_pow_partial.
(** the rounding of a power is forgotten: (1/2)^2 rounded up to an integer is 1 *)
Theorem C12_pow_refuted : forall (F : fmts) (env : nat -> itv), exists (v : nat -> R) (e : texpr) (r : R) (x : linexpr),
  xval F v e r /\ ap_intlinearize_texpr0 (N:=exact_num) (F:=F) true env 0 true e = Some x /\ ~ expr_val x v r.
Proof.
  intros F env. exists (fun _ => 0%R), (TBin BPow RInt DUp (TCst (Scal (Fin (1 # 2)))) (TCst (Scal (Fin 2)))), 1%R. eexists. split; [|split].
  - apply xv_bin with (1 / 2)%R 2%R. constructor. rq. constructor. rq. exists (1 / 4)%R. split. left. exists 2%nat. split; simpl; lra. exists 1. split; auto. simpl. unfold is_ceil. lra.
  - vm_compute. reflexivity.
  - intros (k & y & A & B & C). destruct B as (ws & W & Y). inversion W; subst. simpl in *. rq.
Qed.
Print Assumptions C12_pow_refuted.
(** the array function reserved for interval linear trees answers "fine" for x*x >= 0, although its
    result is the constraint "false" *)
Theorem C12_intlinear_array_refuted : forall (F : fmts), exists (v : nat -> R) (l : list tcons) (t : list icons),
  Forall (fun c => sat_tcons F c v) l /\ intlinear_tcons_array (N:=exact_num) (F:=F) true l = (t, false) /\ ~ Forall (fun k => sat_some k v) t.
Proof.
  intros F. exists (fun _ => 0%R), [mkTC CSupEq (TBin BMul RReal DNearest (TDim 0) (TDim 0)) None]. eexists. split; [|split].
  - constructor; auto. exists 0%R. split; [|simpl; lra]. apply xv_bin with 0%R 0%R; try (apply (xv_dim F (fun _ => 0%R))). simpl. lra.
  - vm_compute. reflexivity.
  - intros H. inversion H as [|? ? (r & V & S)]; subst. apply ival_nil' in V; auto. destruct V as [A B]. simpl in *. rq.
Qed.
Print Assumptions C12_intlinear_array_refuted.

(** t11 over the same box becomes an interval linear form *)
Example C12_example : forall F, no_pow t11 /\ (forall d, occurs d t11 -> in_itv (pt11 d) (env11 d) /\ ((d < 0)%nat -> is_integer (pt11 d))) /\ xval F pt11 t11 6%R /\
  exists l, intlin_texpr (N:=exact_num) (F:=F) true env11 0 t11 = Some l /\ map t_dim (il_terms l) = [0%nat; 1%nat].
Proof.
  intros F. destruct (C11_example F) as (A & B & C & _). split; auto. split. intros d O. split; auto. lia. split; auto. eexists. split. vm_compute. reflexivity. reflexivity.
Qed.
(** x*y >= 6 and x = y over x in [1,3], y in [1,4], point (5/2, 5/2) *)
Definition l12 : list tcons :=
  [mkTC CSupEq (TBin BSub RReal DNearest (TBin BMul RReal DNearest (TDim 0) (TDim 1)) (TCst (Scal (Fin 6)))) None;
   mkTC CEq (TBin BSub RReal DNearest (TDim 0) (TDim 1)) None].
Definition env12 : nat -> itv := fun d => if Nat.eqb d 0 then mkItv (Fin (-1)) (Fin 3) else mkItv (Fin (-1)) (Fin 4).
Definition pt12 : nat -> R := fun _ => (5 / 2)%R.
Example C12_example_array : forall F, Forall (fun c => no_pow (tc_expr c) /\ (forall d, occurs d (tc_expr c) -> (d < 2)%nat)) l12 /\
  (forall d, (d < 2)%nat -> in_itv (pt12 d) (env12 d)) /\ Forall (fun c => exists r, xval F pt12 (tc_expr c) r /\ sat_typ (tc_typ c) (tc_mod c) r) l12 /\
  exists t, ap_intlinearize_tcons0_array (N:=exact_num) (F:=F) true env12 0 2 TLinear true true 2 false (fun d => (true, Nat.eqb d 1)) l12 = Some t /\ (length t = 5)%nat.
Proof.
  intros F. split; [|split; [|split]].
  - constructor; [|constructor; [|constructor]]; (split; [simpl; repeat split; discriminate|]); intros d O; repeat match goal with H : occurs _ _ |- _ => inversion H; clear H; subst end; lia.
  - intros d _. unfold pt12, env12. destruct (Nat.eqb d 0); split; rq.
  - constructor; [|constructor; auto].
    + exists (1 / 4)%R. split; [|simpl; lra]. apply xv_bin with (25 / 4)%R 6%R; [| |simpl; lra]. apply xv_bin with (5 / 2)%R (5 / 2)%R; try (apply (xv_dim F pt12)). simpl; lra. constructor. rq.
    + exists 0%R. split; [|simpl; auto]. apply xv_bin with (5 / 2)%R (5 / 2)%R; try (apply (xv_dim F pt12)). simpl; lra.
  - eexists. split. vm_compute. reflexivity. reflexivity.
Qed.

(** Properties C07 - C10, C57, C58: interval linear expressions and constraints. *)
From Coq Require Import ZArith QArith Qround Qreals Reals Lra Lia Bool List Permutation Sorted.
From Verif Require Import Bound BoundFacts Itv ItvFacts ItvFacts2 Linexpr ItvLin ItvLinFacts ItvLinExact ItvLinCons ItvLinInt ItvLinApi PropOctTransfer.
Import ListNotations.
Open Scope Z_scope.
Local Notation E := exact_num.
Ltac rq := unfold Q2R in *; simpl in *; try lra.

(** ** C07 *)
(** arithmetic on interval linear expressions, any number type *)
Theorem C07_operations_sound : forall (N : numtype) (a b : ilin) (k : itv) (v : nat -> R) (ra rb x : R),
  ival a v ra -> ival b v rb -> in_itv x k ->
  ival (ilin_neg a) v (- ra) /\ ival (ilin_add (N:=N) a b) v (ra + rb) /\ ival (ilin_sub (N:=N) a b) v (ra - rb) /\
  ival (ilin_scale (N:=N) a k) v (ra * x) /\ (x <> 0%R -> ival (ilin_div (N:=N) a k) v (ra / x)).
Proof.
  intros. split. apply ilin_neg_iff. rewrite Ropp_involutive; auto. split. apply ilin_add_sound; auto. split. apply ilin_sub_sound; auto.
  split. apply ilin_scale_sound; auto. apply ilin_div_sound; auto.
Qed.
Print Assumptions C07_operations_sound.
(** with exact numbers the sum has no other value *)
Theorem C07_add_exact : forall (a b : ilin) (v : nat -> R) (ra0 rb0 r : R), ival a v ra0 -> ival b v rb0 ->
  (ival (ilin_add (N:=E) a b) v r <-> exists ra rb, ival a v ra /\ ival b v rb /\ r = (ra + rb)%R).
Proof.
  intros a b v ra0 rb0 r A B. split. eapply ilin_add_exact; eauto. intros (ra & rb & X & Y & ->). apply ilin_add_sound; auto.
Qed.
Print Assumptions C07_add_exact.
(** the conversion of a user's expression loses nothing; with exact numbers it adds nothing *)
Theorem C07_conversion_sound : forall (N : numtype) (e : linexpr) (v : nat -> R) (r : R), holes_last (le_terms e) ->
  expr_val e v r -> ival (fst (ilin_of_linexpr (N:=N) e)) v r.
Proof. intros. apply ilin_of_linexpr_sound; auto. Qed.
Print Assumptions C07_conversion_sound.
Theorem C07_conversion_exact : forall (n : nat) (e : linexpr) (v : nat -> R) (r : R), wf_linexpr n e -> holes_last (le_terms e) ->
  (ival (fst (ilin_of_linexpr (N:=E) e)) v r <-> expr_val e v r).
Proof. intros. eapply ilin_of_linexpr_exact; eauto. Qed.
Print Assumptions C07_conversion_exact.
(** evaluation in a box, on the user's expression and on the converted one *)
Theorem C07_eval_sound : forall (N : numtype) (n : nat) (env : nat -> itv) (e : linexpr) (v : nat -> R) (r : R),
  wf_linexpr n e -> holes_last (le_terms e) -> in_box n v env -> expr_val e v r ->
  in_itv r (itv_eval_ap_linexpr0 (N:=N) env e) /\ in_itv r (itv_eval_linexpr (N:=N) env (fst (ilin_of_linexpr (N:=N) e))).
Proof.
  intros N n env e v r W H B X. split. eapply eval_ap_linexpr0_sound; eauto.
  apply eval_linexpr_sound with v. apply ilin_of_linexpr_sound; auto. apply (ilin_of_linexpr_flags (N:=N) e n W). eapply in_env_of_box; eauto.
Qed.
Print Assumptions C07_eval_sound.
(** exact numbers, scalar coefficients, each dimension once: the interval is the set of values *)
Theorem C07_eval_exact : forall (env : nat -> itv) (e : ilin) (v0 : nat -> R) (z : R),
  Forall (fun t => t_eq t = true) (il_terms e) -> flags_ok (il_terms e) -> NoDup (map t_dim (il_terms e)) ->
  (forall d, in_itv (v0 d) (env d)) -> (exists a, in_itv a (il_cst e)) ->
  (in_itv z (itv_eval_linexpr (N:=E) env e) <-> exists v, (forall d, in_itv (v d) (env d)) /\ ival e v z).
Proof.
  intros env e v0 z A B C D F. split. eapply eval_linexpr_exact; eauto. intros (v & I & V). apply eval_linexpr_sound with v; auto.
  apply Forall_forall. auto.
Qed.
Print Assumptions C07_eval_exact.
(** 2x - y + [0,1] on x in [0,1], y in [-1,+oo] *)
Definition e07 : linexpr := mkLin (Intv (Fin 0) (Fin 1)) (Sparse [(Some 0%nat, Scal (Fin 2)); (Some 1%nat, Scal (Fin (-1)))]).
Definition env07 (d : nat) : itv := match d with 0%nat => mkItv (Fin 0) (Fin 1) | 1%nat => mkItv (Fin 1) PInf | _ => itv_top end.
Example C07_example : itv_eval_ap_linexpr0 (N:=E) env07 e07 = mkItv PInf (Fin (4#1)) /\ wf_linexpr 2 e07 /\ holes_last (le_terms e07) /\
  expr_val e07 (fun d => match d with 0%nat => 1 | _ => -1 end)%R 4 /\ in_box 2 (fun d => match d with 0%nat => 1 | _ => -1 end)%R env07.
Proof.
  split. vm_compute. reflexivity. split. { split. simpl. split; discriminate. simpl. split; [repeat constructor|]. split. repeat constructor; simpl; intuition lia. simpl; intuition lia. }
  split. { exists (match le_terms e07 with Sparse l => l | _ => [] end), []. simpl. split; auto. split; repeat constructor; discriminate. }
  split. { exists 1%R, 3%R. split. simpl. rq. split; [|lra]. exists [2; -1]%R. split; [|simpl; lra]. repeat constructor; simpl; intros; rq. }
  intros d Hd. destruct d as [|[|]]; try lia; unfold in_itv; simpl; split; auto; rq.
Qed.

(** ** C08 *)
Theorem C08_false_is_right : forall (c : icons) (v : nat -> R), il_terms (ic_expr c) = [] -> cst_flag_ok (ic_expr c) ->
  eval_cst c = TFalse -> forall r, in_itv r (il_cst (ic_expr c)) -> ~ sat_typ (ic_typ c) (Some (Fin (ic_num c))) r.
Proof.
  intros c v T F H r R S. apply (eval_cst_false c v T (fun _ _ => F) H). exists r. split; auto. apply ival_nil'; auto.
Qed.
Print Assumptions C08_false_is_right.
Theorem C08_true_is_right : forall (c : icons) (v : nat -> R), il_terms (ic_expr c) = [] -> cst_flag_ok (ic_expr c) ->
  eval_cst c = TTrue -> forall r, in_itv r (il_cst (ic_expr c)) -> sat_typ (ic_typ c) (Some (Fin (ic_num c))) r.
Proof.
  intros c v T F H r R. apply (eval_cst_true c v T (fun _ _ => F) H). apply ival_nil'; auto.
Qed.
Print Assumptions C08_true_is_right.
(** for =, >=, > "false" is answered whenever no value satisfies the constraint *)
Theorem C08_false_is_found : forall (c : icons), il_terms (ic_expr c) = [] -> cst_flag_ok (ic_expr c) -> ineq_typ (ic_typ c) ->
  (exists x, in_itv x (il_cst (ic_expr c))) ->
  (forall r, in_itv r (il_cst (ic_expr c)) -> ~ sat_typ (ic_typ c) (Some (Fin (ic_num c))) r) -> eval_cst c = TFalse.
Proof.
  intros c T F K X H. destruct (eval_cst c) eqn:EV; auto; exfalso;
  (destruct (eval_cst_some c (fun _ => 0%R) T K (fun _ _ => F) X) as (r & V & S); [congruence|]; apply ival_nil' in V; auto; apply (H r V S)).
Qed.
Print Assumptions C08_false_is_found.
Example C08_example : eval_cst (mkIC (mkIL [] (mkItv (Fin 3) (Fin (-1))) false) CSupEq 0) = TFalse /\
  eval_cst (mkIC (mkIL [] (mkItv (Fin 3) (Fin 1)) false) CSup 0) = TTop /\ eval_cst (mkIC (mkIL [] (mkItv (Fin (-1)) (Fin 2)) false) CSup 0) = TTrue.
Proof. repeat split. Qed.

(** ** C59 *)
(** linearisation returns, unless a congruence has a zero modulus once converted *)
Theorem C59_linearisation_returns_partial : forall (N : numtype) (env : nat -> itv) (lin meet : bool) (l : list lincons),
  (forall c, In c l -> lc_typ c = CEqMod -> exists q r, lc_mod c = Some (Fin q) /\ rnd N q = Fin r /\ ~ r == 0) ->
  exists l', ap_quasilinearize_lincons0_array (N:=N) env lin meet l = Some l'.
Proof.
  intros N env lin meet l H. unfold ap_quasilinearize_lincons0_array.
  destruct (quasilinearize_lincons0_array_total (N:=N) env lin meet (map (icons_of_lincons (N:=N)) l)) as [l' ->]; [|simpl; eauto].
  apply Forall_map. apply Forall_forall. intros c C T. simpl in *. destruct (H c C T) as (q & r & -> & -> & Z). destruct (Qeq_bool r 0) eqn:X; auto. apply Qeq_bool_iff in X. tauto.
Qed.
Print Assumptions C59_linearisation_returns_partial.
(** a congruence with a zero modulus aborts (division by zero) *)
Theorem C59_modulo_zero_refuted : exists c : lincons, wf_linexpr 0 (lc_expr c) /\ holes_last (le_terms (lc_expr c)) /\ lc_mod c = None /\
  eval_cst (icons_of_lincons (N:=E) c) = TCrash /\ forall env meet, ap_quasilinearize_lincons0 (N:=E) env meet c = None.
Proof.
  exists (mkCons CEqMod (mkLin (Scal (Fin 1)) (Sparse [])) None). split. { split; simpl; auto. repeat constructor. simpl; tauto. }
  split. { exists [], []. repeat split; auto. } repeat split.
Qed.
Print Assumptions C59_modulo_zero_refuted.
Example C59_example : exists l', ap_quasilinearize_lincons0_array (N:=E) (fun _ => itv_top) true true
  [mkCons CEqMod (mkLin (Scal (Fin 1)) (Sparse [])) (Some (Fin 2)); mkCons CEqMod (mkLin (Scal (Fin 1)) (Sparse [(Some 0%nat, Scal (Fin 1))])) (Some (Fin 2))] = Some l' /\ length l' = 1%nat.
Proof. eexists. split. vm_compute. reflexivity. reflexivity. Qed.

(** ** C09 *)
Theorem C09_quasilinearize_sound : forall (N : numtype) (n : nat) (env : nat -> itv) (e : linexpr) (v : nat -> R) (r : R),
  wf_linexpr n e -> holes_last (le_terms e) -> in_box n v env -> expr_val e v r -> expr_val (ap_quasilinearize_linexpr0 (N:=N) env e) v r.
Proof. intros. eapply ap_quasilinearize_linexpr0_sound; eauto. Qed.
Print Assumptions C09_quasilinearize_sound.
(** every policy for the choice of the scalar ([fmi]: the one used for inequalities in a meet) *)
Theorem C09_every_policy_sound : forall (N : numtype) (fmi : bool) (env : nat -> itv) (e : ilin) (v : nat -> R) (r : R),
  in_env v env (il_terms e) -> ival e v r -> ival (quasilinearize (N:=N) env fmi e) v r.
Proof. intros. apply quasilinearize_sound; auto. Qed.
Print Assumptions C09_every_policy_sound.
(** the coefficients of dimensions are scalars in the result *)
Theorem C09_result_is_quasilinear : forall (N : numtype) (n : nat) (env : nat -> itv) (e : linexpr), wf_linexpr n e ->
  exists c ts, ap_quasilinearize_linexpr0 (N:=N) env e = mkLin c (Sparse ts) /\
    Forall (fun t => exists d q, t = (Some d, Scal (Fin q)) /\ (d < n)%nat) ts.
Proof.
  intros N n env e W. pose proof (ap_quasilinearize_linexpr0_shape (N:=N) n env e W) as H.
  destruct (ap_quasilinearize_linexpr0 (N:=N) env e) as [c [l|ts]]; simpl in H; [tauto|]. exists c, ts. auto.
Qed.
Print Assumptions C09_result_is_quasilinear.
(** scalar coefficients and exact numbers: the same values *)
Theorem C09_scalar_exact : forall (fmi : bool) (env : nat -> itv) (e : ilin) (v : nat -> R) (r : R),
  Forall (fun t => t_eq t = true) (il_terms e) -> flags_ok (il_terms e) -> in_env v env (il_terms e) -> (exists x, in_itv x (il_cst e)) ->
  (ival (quasilinearize (N:=E) env fmi e) v r <-> ival e v r).
Proof. intros. apply quasilinearize_exact; auto. Qed.
Print Assumptions C09_scalar_exact.
(** [1,3]x + y with x in [0,2], y in [5,5] becomes 2x + [3,7] *)
Example C09_example :
  let e := mkLin (Scal (Fin 0)) (Sparse [(Some 0%nat, Intv (Fin 1) (Fin 3)); (Some 1%nat, Scal (Fin 1))]) in
  let env := fun d : nat => match d with 0%nat => mkItv (Fin 0) (Fin 2) | _ => mkItv (Fin (-5)) (Fin 5) end in
  wf_linexpr 2 e /\ holes_last (le_terms e) /\
  exists l u q, ap_quasilinearize_linexpr0 (N:=E) env e = mkLin (Intv (Fin l) (Fin u)) (Sparse [(Some 0%nat, Scal (Fin q))]) /\ l == 3 /\ u == 7 /\ q == 2.
Proof.
  split. { split; simpl; auto. split. repeat constructor; simpl; try discriminate; auto. split. repeat constructor; simpl; intuition lia. intuition lia. }
  split. { eexists _, []. rewrite app_nil_r. split; [reflexivity|]. split; repeat constructor; discriminate. }
  vm_compute. do 3 eexists. split. reflexivity. repeat split.
Qed.

(** ** C10 *)
(** meet: a solution in the box is a solution of the result.  With rounded numbers no
    equality among the constraints, see [C10_meet_rounding_refuted]. *)
Theorem C10_meet_keeps_solutions_partial : forall (N : numtype) (n : nat) (env : nat -> itv) (lin : bool) (l l' : list lincons) (v : nat -> R),
  Forall (user_ok (N:=N) n) l -> Forall (fun c => N = E \/ lc_typ c <> CEq) l -> in_box n v env ->
  ap_quasilinearize_lincons0_array (N:=N) env lin true l = Some l' -> Forall (fun c => sat_cons c v) l -> Forall (fun c => sat_cons c v) l'.
Proof. intros. eapply ap_lincons0_array_meet; eauto. Qed.
Print Assumptions C10_meet_keeps_solutions_partial.
(** nothing is added in the box when the coefficients of dimensions are scalars *)
Theorem C10_meet_exact : forall (n : nat) (env : nat -> itv) (lin : bool) (l l' : list lincons) (v : nat -> R), in_box n v env ->
  Forall (fun c => wf_linexpr n (lc_expr c) /\ holes_last (le_terms (lc_expr c)) /\ scalar_terms (lc_expr c) /\
     (exists x, coeff_in x (le_cst (lc_expr c))) /\ ineq_typ (lc_typ c)) l ->
  ap_quasilinearize_lincons0_array (N:=E) env lin true l = Some l' -> (Forall (fun c => sat_cons c v) l' <-> Forall (fun c => sat_cons c v) l).
Proof. intros. eapply ap_lincons0_array_exact; eauto. Qed.
Print Assumptions C10_meet_exact.
(** test: if the result holds for each choice at a point of the box then so do the constraints.
    When linearisation is asked for, the equalities must have scalar coefficients and numbers
    be exact, see [C10_test_equality_refuted]. *)
Theorem C10_test_sound_partial : forall (N : numtype) (n : nat) (env : nat -> itv) (lin : bool) (l l' : list lincons) (v : nat -> R),
  Forall (user_ok (N:=N) n) l ->
  (lin = true -> Forall (fun c => lc_typ c = CEq \/ lc_typ c = CEqMod -> N = E /\ is_quasilinear (ic_expr (icons_of_lincons (N:=N) c)) = true) l) -> in_box n v env ->
  ap_quasilinearize_lincons0_array (N:=N) env lin false l = Some l' -> Forall (fun c => sat_all c v) l' -> Forall (fun c => sat_all c v) l.
Proof. intros. eapply ap_lincons0_array_test; eauto. Qed.
Print Assumptions C10_test_sound_partial.

(** the flag "the constant is a point" is not updated when a coefficient is multiplied by a
    dimension of constant value: [-2,0]x = 0 at x = 1 is answered to hold always *)
Theorem C10_test_equality_refuted : exists (n : nat) (env : nat -> itv) (l l' : list lincons) (v : nat -> R),
  Forall (user_ok (N:=E) n) l /\ in_box n v env /\
  ap_quasilinearize_lincons0_array (N:=E) env true false l = Some l' /\ Forall (fun c => sat_all c v) l' /\ ~ Forall (fun c => sat_all c v) l.
Proof.
  exists 1%nat, (fun _ => mkItv (Fin (-1)) (Fin 1)), [mkCons CEq (mkLin (Scal (Fin 0)) (Sparse [(Some 0%nat, Intv (Fin (-2)) (Fin 0))])) None], [], (fun _ => 1%R).
  split. { constructor; [|constructor]. split. split; simpl; auto. split. repeat constructor; simpl; try discriminate. split. repeat constructor; simpl; auto. intuition lia.
    split. { eexists _, []. rewrite app_nil_r. split; [reflexivity|]. split; repeat constructor; discriminate. } intro; discriminate. }
  split. { intros d Hd. unfold in_itv; rq. }
  split. vm_compute. reflexivity. split. constructor.
  intro H. inversion H as [|? ? H1 _]; subst. assert (X : (-2)%R = 0%R); [|lra]. apply (H1 (-2)%R).
  exists 0%R, (-2)%R. split. simpl; rq. split; [|lra]. exists [(-2)%R]. split; [|simpl; lra]. constructor; [|constructor]. intros _. simpl. rq.
Qed.
Print Assumptions C10_test_equality_refuted.

(** meet with rounded numbers: 1/4 x + 1/4 y = 0 at x = 1/4, y = -1/4 (numbers with two
    fractional bits): the constant becomes [-1/4,1/4] but its flag says that it is a point *)
Theorem C10_meet_rounding_refuted : exists (N : numtype) (n : nat) (env : nat -> itv) (l l' : list lincons) (v : nat -> R),
  Forall (user_ok (N:=N) n) l /\ in_box n v env /\
  ap_quasilinearize_lincons0_array (N:=N) env true true l = Some l' /\ Forall (fun c => sat_cons c v) l /\ ~ Forall (fun c => sat_cons c v) l'.
Proof.
  exists quarters, 2%nat, (fun d : nat => match d with 0%nat => mkItv (Fin (-1#4)) (Fin (1#4)) | _ => mkItv (Fin (1#4)) (Fin (-1#4)) end),
    [mkCons CEq (mkLin (Scal (Fin 0)) (Sparse [(Some 0%nat, Scal (Fin (1#4))); (Some 1%nat, Scal (Fin (1#4)))])) None].
  eexists. exists (fun d : nat => match d with 0%nat => 1/4 | _ => -1/4 end)%R.
  split. { constructor; [|constructor]. split. split; simpl; auto. split. repeat constructor; simpl; try discriminate. split. repeat constructor; simpl; auto. intuition lia. intuition lia.
    split. { eexists _, []. rewrite app_nil_r. split; [reflexivity|]. split; repeat constructor; discriminate. } intro; discriminate. }
  split. { intros d Hd. destruct d; unfold in_itv; rq. }
  split. vm_compute. reflexivity. split.
  { constructor; [|constructor]. exists 0%R. split; [|simpl; auto]. exists 0%R, 0%R. split. simpl; rq. split; [|lra].
    exists [1/4; 1/4]%R. split; [|simpl; lra]. constructor; [|constructor; [|constructor]]; intros _; simpl; rq. }
  intro H. inversion H as [|? ? H1 _]; subst. destruct H1 as (r & (c0 & r1 & C & T & ->) & S). simpl in *. destruct T as (cs & F & ->). inversion F; subst. simpl in *. rq.
Qed.
Print Assumptions C10_meet_rounding_refuted.
(** [1,2]x + y - 3 = 0 with x in [0,1], y in [0,4]: two inequalities, scalars *)
Definition l10 : list lincons := [mkCons CEq (mkLin (Scal (Fin (-3))) (Sparse [(Some 0%nat, Intv (Fin 1) (Fin 2)); (Some 1%nat, Scal (Fin 1))])) None].
Definition env10 (d : nat) : itv := match d with 0%nat => mkItv (Fin 0) (Fin 1) | _ => mkItv (Fin 0) (Fin 4) end.
Example C10_example : Forall (user_ok (N:=E) 2) l10 /\ in_box 2 (fun d : nat => match d with 0%nat => 1 | _ => 1 end)%R env10 /\
  Forall (fun c => sat_cons c (fun d : nat => match d with 0%nat => 1 | _ => 1 end)%R) l10 /\
  exists l', ap_quasilinearize_lincons0_array (N:=E) env10 true true l10 = Some l' /\ map lc_typ l' = [CSupEq; CSupEq].
Proof.
  split. { constructor; [|constructor]. split. split; simpl; auto. split. repeat constructor; simpl; try discriminate. split. repeat constructor; simpl; auto. intuition lia. intuition lia.
    split. { eexists _, []. rewrite app_nil_r. split; [reflexivity|]. split; repeat constructor; discriminate. } intro; discriminate. }
  split. { intros d Hd. destruct d; unfold in_itv; rq. }
  split. { constructor; [|constructor]. exists 0%R. split; [|simpl; auto]. exists (-3)%R, 3%R. split. simpl; rq. split; [|lra].
    exists [2; 1]%R. split; [|simpl; lra]. constructor; [|constructor; [|constructor]]; intros _; simpl; rq. }
  eexists. split. vm_compute. reflexivity. reflexivity.
Qed.

(** ** C57 *)
(** the terms of an expression are sorted by dimension on input ... *)
Definition sorted_terms (e : linexpr) : Prop := match le_terms e with Dense _ => True | Sparse ts => StronglySorted lt (term_dims ts) end.
(** ... but not on output, after a dimension with a constant value was removed: the last term
    takes its place *)
Theorem C57_terms_sorted_refuted : exists (n : nat) (env : nat -> itv) (e : linexpr) (v : nat -> R), wf_linexpr n e /\ holes_last (le_terms e) /\ in_box n v env /\
  sorted_terms e /\ ~ sorted_terms (ap_quasilinearize_linexpr0 (N:=E) env e).
Proof.
  exists 3%nat, (fun d : nat => match d with 0%nat => mkItv (Fin (-1)) (Fin 1) | _ => mkItv (Fin 0) (Fin 1) end),
    (mkLin (Scal (Fin 0)) (Sparse [(Some 0%nat, Scal (Fin 1)); (Some 1%nat, Scal (Fin 1)); (Some 2%nat, Scal (Fin 1))])), (fun _ => 1%R).
  split. { split; simpl; auto. split. repeat constructor; simpl; auto. split. repeat constructor; simpl; intuition lia. intuition lia. }
  split. { eexists _, []. rewrite app_nil_r. split; [reflexivity|]. split; repeat constructor; discriminate. }
  split. { intros d Hd. destruct d; unfold in_itv; rq. }
  split. { unfold sorted_terms; simpl. repeat constructor. }
  vm_compute. intro H. inversion H as [|? ? _ F]; subst. inversion F; subst. lia.
Qed.
Print Assumptions C57_terms_sorted_refuted.
(** sums of sorted expressions are sorted *)
Theorem C57_add_sorted_partial : forall (N : numtype) (a b : ilin), tsorted (il_terms a) -> tsorted (il_terms b) ->
  sorted_terms (linexpr_of_ilin (ilin_add (N:=N) a b)).
Proof.
  intros N a b A B. unfold sorted_terms. simpl.
  assert (G : forall ts, term_dims (map (fun t => (Some (t_dim t), coeff_of_itv (t_itv t))) ts) = map t_dim ts) by (induction ts; simpl; congruence).
  rewrite G. unfold ilin_add. destruct (itv_is_top _); simpl. constructor. apply add_terms_sorted; auto.
Qed.
Print Assumptions C57_add_sorted_partial.
Example C57_example : tsorted (il_terms (fst (ilin_of_linexpr (N:=E) e07))).
Proof. vm_compute. repeat constructor. Qed.

(** ** C58 *)
(** strengthening of constraints on integer dimensions (exact numbers): integer solutions are kept *)
Theorem C58_integer_strengthening_sound : forall (n k : nat) (c : lincons) (v : nat -> R), wf_linexpr n (lc_expr c) -> holes_last (le_terms (lc_expr c)) ->
  (forall d, (d < k)%nat -> exists z, v d = IZR z) -> sat_cons c v ->
  sat_cons (lincons_of_icons (reduce_integer k (icons_of_lincons (N:=E) c))) v.
Proof.
  intros n k c v W H I S. apply lincons_of_icons_some. assert (U : user_ok (N:=E) n c) by (split; [auto|split; [auto|apply mod_ok_E]]).
  destruct (user_flags (N:=E) n c U). apply reduce_integer_sound; auto. intro; auto. apply (icons_of_lincons_some n); auto.
Qed.
Print Assumptions C58_integer_strengthening_sound.
(** for inequalities no point at all is added *)
Theorem C58_integer_strengthening_exact : forall (n k : nat) (c : lincons) (v : nat -> R), wf_linexpr n (lc_expr c) -> holes_last (le_terms (lc_expr c)) ->
  lc_typ c <> CEq -> (exists x, coeff_in x (le_cst (lc_expr c))) ->
  sat_cons (lincons_of_icons (reduce_integer k (icons_of_lincons (N:=E) c))) v -> sat_cons c v.
Proof.
  intros n k c v W H I [x X] S. apply (icons_of_lincons_iff n); auto. assert (U : user_ok (N:=E) n c) by (split; [auto|split; [auto|apply mod_ok_E]]).
  destruct (user_flags (N:=E) n c U). apply lincons_of_icons_some in S. apply reduce_integer_exact in S; auto.
  exists x. apply (itv_set_coeff_sound (N:=E)) in X. simpl. unfold ilin_of_linexpr. destruct (itv_set_coeff (N:=E) (le_cst (lc_expr c))). destruct (set_terms (N:=E) (foreach (le_terms (lc_expr c)))). auto.
Qed.
Print Assumptions C58_integer_strengthening_exact.
(** arrays: as long as there is an integer solution "empty" is not reported *)
Theorem C58_array_sound : forall (n k : nat) (l : list lincons) (l' : list icons) (t : tbool) (v : nat -> R),
  Forall (fun c => wf_linexpr n (lc_expr c) /\ holes_last (le_terms (lc_expr c))) l -> (forall d, (d < k)%nat -> exists z, v d = IZR z) ->
  Forall (fun c => sat_cons c v) l -> array_reduce_integer k (map (icons_of_lincons (N:=E)) l) = Some (l', t) ->
  Forall (fun c => sat_cons (lincons_of_icons c) v) l' /\ t <> TFalse.
Proof.
  intros n k l l' t v FU I FS H. apply array_reduce_integer_sound with (v := v) in H; auto.
  - destruct H as [A B]. split; auto. eapply Forall_impl; [|exact A]. intros; apply lincons_of_icons_some; auto.
  - apply Forall_map. rewrite Forall_forall in *. intros c C. destruct (FU c C) as [W HL]. assert (U : user_ok (N:=E) n c) by (split; [auto|split; [auto|apply mod_ok_E]]).
    destruct (user_flags (N:=E) n c U). split; auto. intro; auto.
  - apply Forall_map. rewrite Forall_forall in *. intros c C. destruct (FU c C) as [W HL]. apply (icons_of_lincons_iff n); auto.
Qed.
Print Assumptions C58_array_sound.
(** an equality without integer solution may become one which has some: 2x + 1 = 0 gives x = 0 *)
Theorem C58_equality_refuted : exists (c : lincons) (v : nat -> R), wf_linexpr 1 (lc_expr c) /\ holes_last (le_terms (lc_expr c)) /\
  (forall d, (d < 1)%nat -> exists z, v d = IZR z) /\ sat_cons (lincons_of_icons (reduce_integer 1 (icons_of_lincons (N:=E) c))) v /\ ~ sat_cons c v.
Proof.
  exists (mkCons CEq (mkLin (Scal (Fin 1)) (Sparse [(Some 0%nat, Scal (Fin 2))])) None), (fun _ => 0%R).
  split. { split; simpl; auto. split. repeat constructor; simpl; auto. split. repeat constructor; simpl; intuition lia. intuition lia. }
  split. { eexists _, []. rewrite app_nil_r. split; [reflexivity|]. split; repeat constructor; discriminate. }
  split. { intros; exists 0; auto. } split.
  - apply lincons_of_icons_some. match goal with |- sat_some ?c _ => let c' := eval vm_compute in c in change c with c' end.
    exists 0%R. split; [|simpl; auto]. exists 0%R, (1 * 0 + 0)%R. simpl.
    split; [split; rq|split; [|lra]]. apply (tv_cons (fun _ => 0%R) 1 (mkT (mkItv (Fin (-1)) (Fin 1)) true 0)). simpl; split; rq. constructor.
  - intros (r & (c0 & r1 & C & (cs & F & ->) & ->) & S). inversion F as [|x y l1 l2 X F2]; subst. inversion F2; subst. simpl in *. rq.
Qed.
Print Assumptions C58_equality_refuted.
(** 2x + 4y > 3 becomes x + 2y >= 2 *)
Example C58_example : exists e, reduce_integer 2 (icons_of_lincons (N:=E) (mkCons CSup (mkLin (Scal (Fin (-3))) (Sparse [(Some 0%nat, Scal (Fin 2)); (Some 1%nat, Scal (Fin 4))])) None))
  = mkIC e CSupEq 0 /\ sup (il_cst e) = Fin (-2) /\ map (fun t => sup (t_itv t)) (il_terms e) = [Fin 1; Fin 2].
Proof. eexists. split. vm_compute. reflexivity. split; reflexivity. Qed.

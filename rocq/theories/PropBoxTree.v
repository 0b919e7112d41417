(** Property C14 and the tree expressions of C19, C20: boxes and tree expressions. *)
From Coq Require Import Arith ZArith QArith Qround Qreals Reals Bool List Lra Lia.
From Flocq Require Import Core.
From Verif Require Import Bound BoundFacts Itv ItvFacts ItvFacts2 Linexpr ItvLin ItvLinFacts ItvLinCons ItvLinApi ItvLinInt ApTexpr TexprSem ItvTree ItvTreeFacts FloatFmt
  Box BoxizeFacts BoxFacts BoxOps BoxMeet ItvTreeFlags ItvTreeApi ItvTreeApiFacts PropItvTree PropOctTransfer PropBox Hc4 Hc4Facts BoxTree.
Import ListNotations.
Open Scope Z_scope.
Local Notation E := exact_num.

(** [F]: the floating-point formats; [nx]: the machine's next number after a bound; [eq0]: the
    initial value of the flag "equality" of a linear form; [algo]: the option "algorithm" of the
    manager, which from 100 on selects the forward-backward refinement of trees. *)
Definition within (a : box) (e : texpr) : Prop := forall d, occurs d e -> (d < bx_dim a)%nat.
(** ** C14 *)
(** trees whose roundings are exact, or to integers upwards or downwards, and whose powers have even
    constant exponents ([hc4_ok]); any number of constraints of any sort, any number of rounds, any
    number type *)
Theorem C14_hc4_sound_partial : forall (N : numtype) (F : fmts) eq0 nx algo (a b : box) (l : list tcons) (v : nat -> R), 100 <= algo ->
  Forall (fun c => hc4_ok (tc_expr c) /\ within a (tc_expr c) /\ sat_tcons F c v) l -> (forall d, (d < bx_int a)%nat -> exists z, v d = IZR z) -> gbox a v ->
  box_meet_tcons_array (N:=N) (F:=F) eq0 nx algo a l = Some b -> gbox b v.
Proof. intros. eapply meet_tcons_hc4_sound; eauto. Qed.
Print Assumptions C14_hc4_sound_partial.
(** below 100 the trees are first made linear; exact numbers, no power *)
Theorem C14_linear_sound_partial : forall (F : fmts) eq0 nx algo (a b : box) (l : list tcons) (v : nat -> R), algo < 100 ->
  Forall (fun c => no_pow (tc_expr c) /\ within a (tc_expr c) /\ sat_tcons F c v) l -> (forall d, (d < bx_int a)%nat -> exists z, v d = IZR z) -> gbox a v ->
  box_meet_tcons_array (N:=E) (F:=F) eq0 nx algo a l = Some b -> gbox b v.
Proof.
  intros F eq0 nx algo a b l v A FA I G H. refine (meet_tcons_lin_sound F eq0 nx algo a l v b A _ I G H). eapply Forall_impl; [|exact FA]. simpl. intros c (C1 & C2 & C3). split; auto. split; auto. intros p _. apply no_pow_lin; auto.
Qed.
Print Assumptions C14_linear_sound_partial.
(** neither adds a point *)
Theorem C14_reductive : forall (N : numtype) (F : fmts) eq0 nx algo (a b : box) (l : list tcons) (v : nat -> R),
  box_meet_tcons_array (N:=N) (F:=F) eq0 nx algo a l = Some b -> gbox b v -> gbox a v.
Proof. intros. eapply meet_tcons_red; eauto. Qed.
Print Assumptions C14_reductive.

Lemma xv_dim' : forall F v d r, v d = r -> xval F v (TDim d) r.
Proof. intros F v d r <-. constructor. Qed.
Definition eqz (e : texpr) : tcons := mkTC CEq e None.
Definition num (q : Q) : texpr := TCst (Scal (Fin q)).
Ltac wi := let d := fresh in let H := fresh in intros d H; unfold bx_dim; simpl in *; repeat match goal with K : occurs _ _ |- _ => inversion K; subst; clear K end; lia.
Ltac lost := let G := fresh in let X := fresh in intros G; match type of G with gbox ?b (qpt ?l) => assert (X : gboxb b l = true) by (apply gboxb_ok; exact G); vm_compute in X; discriminate X end.
(** The refinement loses solutions for all other roundings. Rounding to the nearest integer: 5/4 rounds to 1,
    but is not an integer *)
Theorem C14_int_nearest_refuted : forall (F : fmts) eq0 nx, exists (a b : box) (c : tcons) (v : nat -> R), within a (tc_expr c) /\ sat_tcons F c v /\ gbox a v /\
  box_meet_tcons_array (N:=E) (F:=F) eq0 nx 100 a [c] = Some b /\ ~ gbox b v.
Proof.
  intros F eq0 nx. exists (bx 0 1 [(0, 2)]%Q). eexists. exists (eqz (TBin BSub RReal DNearest (TUn UCast RInt DNearest (TDim 0)) (num 1))), (qpt [5#4]%Q).
  split. { wi. }
  split. { exists 0%R. split; [|reflexivity]. apply xv_bin with 1%R 1%R; [|constructor; rq|simpl; lra].
    apply xv_un with (qpt [5#4]%Q 0%nat). constructor. exists 1. split; auto. simpl. apply Rabs_le. unfold qpt; rq. }
  split. apply gboxb_ok; reflexivity. split. vm_compute. reflexivity. lost.
Qed.
Print Assumptions C14_int_nearest_refuted.
(** truncation: 1/2 truncates to 0 *)
Theorem C14_int_zero_refuted : forall (F : fmts) eq0 nx, exists (a b : box) (c : tcons) (v : nat -> R), within a (tc_expr c) /\ sat_tcons F c v /\ gbox a v /\
  box_meet_tcons_array (N:=E) (F:=F) eq0 nx 100 a [c] = Some b /\ ~ gbox b v.
Proof.
  intros F eq0 nx. exists (bx 0 1 [(-1, 1)]%Q). eexists. exists (eqz (TUn UCast RInt DZero (TDim 0))), (qpt [1#2]%Q).
  split. { wi. }
  split. { exists 0%R. split; [|reflexivity]. apply xv_un with (qpt [1#2]%Q 0%nat). constructor. exists 0. split; auto. simpl. unfold is_trunc, is_floor, qpt. rq. }
  split. apply gboxb_ok; reflexivity. split. vm_compute. reflexivity. lost.
Qed.
Print Assumptions C14_int_zero_refuted.
(** conversion to a floating-point type: 2^-200 rounds to the number 0 of the type float *)
Lemma small_single : rounded ieee_fmts RSingle DNearest (Q2R (qpow2 (-200))) 0.
Proof.
  rewrite qpow2_bpow. assert (PO : (0 < Raux.bpow radix2 (-200))%R) by apply bpow_gt_0.
  assert (ST : (2 * Raux.bpow radix2 (-200) < Raux.bpow radix2 (-149))%R). { change 2%R with (Raux.bpow radix2 1). rewrite <- bpow_plus. apply bpow_lt. reflexivity. }
  assert (POS : forall s, fset 23 (-149) 128 s -> (0 < s)%R -> (Raux.bpow radix2 (-149) <= s)%R).
  { intros s [S1 _] S2. eapply generic_format_ge_bpow; [|exact S2|exact S1]. intros e. unfold FLT_exp. apply Z.le_max_r. }
  assert (ONE : fset 23 (-149) 128 1%R). { replace 1%R with (IZR 1 * Raux.bpow radix2 0)%R by (simpl; lra). apply fset_float; simpl; lia. }
  assert (ZERO : fset 23 (-149) 128 0%R). { split. apply generic_format_0. rewrite Rabs_R0. left. apply fmax_pos. lia. }
  assert (L1 : (Raux.bpow radix2 (-200) <= 1)%R). { change 1%R with (Raux.bpow radix2 0). apply bpow_le. lia. }
  set (t := Raux.bpow radix2 (-200)) in *. set (u := Raux.bpow radix2 (-149)) in *. clearbody t u. split; simpl.
  - split; auto. split. exists 1%R; auto. split. exists 0%R. split; auto. lra. intros s S. split; intros L.
    lra. destruct (Rle_lt_dec s 0); auto. pose proof (POS s S r). lra.
  - intros s S. unfold Rminus. rewrite Rplus_0_l, Rabs_Ropp, (Rabs_pos_eq _ (Rlt_le _ _ PO)). destruct (Rle_lt_dec s 0).
    + rewrite Rabs_left1 by lra. lra.
    + pose proof (POS s S r). rewrite Rabs_pos_eq by lra. lra.
Qed.
Theorem C14_float_refuted : forall eq0 nx, exists (a b : box) (c : tcons) (v : nat -> R), within a (tc_expr c) /\ sat_tcons ieee_fmts c v /\ gbox a v /\
  box_meet_tcons_array (N:=E) (F:=ieee_fmts) eq0 nx 100 a [c] = Some b /\ ~ gbox b v.
Proof.
  intros eq0 nx. set (c := eqz (TUn UCast RSingle DNearest (TDim 0))). set (v := fun _ : nat => Q2R (qpow2 (-200))). set (a := box_top 0 1).
  set (res := hc4_meet (N:=E) (F:=ieee_fmts) nx 2 0 [c] (fun _ => itv_top)).
  exists a, (set_p a (if snd res then None else Some (fst res))), c, v.
  split. { wi. }
  split. { exists 0%R. split; [|reflexivity]. apply xv_un with (v 0%nat). constructor. apply small_single. }
  split. { intros d _. apply itv_top_in. }
  split. { unfold box_meet_tcons_array. simpl bx_p. cbv iota. change (100 <? 100) with false. cbv iota. change (tmeet_rounds (100 - 100)) with 2%nat. change (bx_int a) with 0%nat. fold res. destruct res as [r e]. reflexivity. }
  unfold gbox, set_p; cbn [bx_p bx_int bx_real bx_dim]. destruct (snd res); [tauto|]. intros G. specialize (G 0%nat ltac:(unfold bx_dim; simpl; lia)).
  assert (S1 : sub_env (fst res) (snd (fst (refine_all (N:=E) nx 0 [(CEq, abuild (N:=E) (F:=ieee_fmts) (fun _ => itv_top) (tc_expr c))] (fun _ => itv_top))))).
  { apply hc4_first. }
  apply S1 in G. destruct G as [_ G]. unfold v in G. assert (Z : (0 < Q2R (qpow2 (-200)))%R) by (rewrite qpow2_bpow; apply bpow_gt_0).
  revert G. generalize dependent (Q2R (qpow2 (-200))). intros. cbn in G. unfold Q2R in G; simpl in G. lra.
Qed.
Print Assumptions C14_float_refuted.
(** powers: the rounding is not inverted.  ceil((1/2)^2) = 1 *)
Theorem C14_pow_rounding_refuted : forall (F : fmts) eq0 nx, exists (a b : box) (c : tcons) (v : nat -> R), within a (tc_expr c) /\ sat_tcons F c v /\ gbox a v /\
  box_meet_tcons_array (N:=E) (F:=F) eq0 nx 100 a [c] = Some b /\ ~ gbox b v.
Proof.
  intros F eq0 nx. exists (bx 0 1 [(1#4, 2)]%Q). eexists. exists (eqz (TBin BSub RReal DNearest (TBin BPow RInt DUp (TDim 0) (num 2)) (num 1))), (qpt [1#2]%Q).
  split. { wi. }
  split. { exists 0%R. split; [|reflexivity]. apply xv_bin with 1%R 1%R; [|constructor; rq|simpl; lra].
    apply xv_bin with (qpt [1#2]%Q 0%nat) 2%R. constructor. constructor; rq. exists (1/4)%R. split. left. exists 2%nat. split; [simpl; lra|]. unfold qpt. rq. exists 1. split; auto. simpl. unfold is_ceil. lra. }
  split. apply gboxb_ok; reflexivity. split. vm_compute. reflexivity. lost.
Qed.
Print Assumptions C14_pow_rounding_refuted.
(** odd roots of negative numbers: the lower and upper bounds of the numerator are exchanged when the
    denominator is not a perfect power.  (-7/10)^3 is in [-1/2,0] *)
Theorem C14_odd_root_refuted : forall (F : fmts) eq0 nx, exists (a b : box) (c : tcons) (v : nat -> R), within a (tc_expr c) /\ sat_tcons F c v /\ gbox a v /\
  box_meet_tcons_array (N:=E) (F:=F) eq0 nx 100 a [c] = Some b /\ ~ gbox b v.
Proof.
  intros F eq0 nx. exists (bx 0 1 [(-1, 1)]%Q). eexists. exists (eqz (TBin BSub RReal DNearest (TBin BPow RReal DNearest (TDim 0) (num 3)) (TCst (Intv (Fin (-1#2)) (Fin 0))))), (qpt [-7#10]%Q).
  split. { wi. }
  split. { exists 0%R. split; [|reflexivity]. apply xv_bin with (-343/1000)%R (-343/1000)%R; [|constructor; simpl; split; rq|simpl; lra].
    apply xv_bin with (qpt [-7#10]%Q 0%nat) 3%R. constructor. constructor; rq. exists (-343/1000)%R. split; [|reflexivity]. left. exists 3%nat. split; [simpl; lra|]. unfold qpt. rq. }
  split. apply gboxb_ok; reflexivity. split. vm_compute. reflexivity. lost.
Qed.
Print Assumptions C14_odd_root_refuted.

(** x^2 + floor(y/2) = 3 and y >= 2 on x in [0,4], y in [0,5]: both methods keep (sqrt 2, 2), (1,4) and cut the rest of
    the second coordinate *)
Definition l14 : list tcons :=
  [eqz (TBin BSub RReal DNearest (TBin BAdd RReal DNearest (TBin BPow RReal DNearest (TDim 0) (num 2)) (TUn UCast RInt DDown (TBin BDiv RReal DNearest (TDim 1) (num 2)))) (num 3));
   mkTC CSupEq (TBin BSub RReal DNearest (TDim 1) (num 2)) None].
Definition a14 : box := bx 0 2 [(0, 4); (0, 5)]%Q.
Lemma l14_sat : forall F, Forall (fun c => hc4_ok (tc_expr c) /\ within a14 (tc_expr c) /\ sat_tcons F c (qpt [1; 4]%Q)) l14.
Proof.
  intros F. assert (D0 : qpt [1; 4]%Q 0%nat = 1%R) by (unfold qpt; rq). assert (D1 : qpt [1; 4]%Q 1%nat = 4%R) by (unfold qpt; rq).
  assert (RO : forall d, rnd_ok RReal d) by (intros; left; auto).
  constructor; [split; [|split; [wi|]]|constructor; [split; [simpl; auto|split; [wi|]]|constructor]].
  - split; [|split; [exact I|apply RO]]. split; [|split; [|apply RO]].
    + split; [exact I|]. split; [exact I|]. split; auto. intros y Y. exists 1%nat. simpl in *. rq.
    + split; [|right; right; auto]. simpl; auto.
  - exists 0%R. split; [|reflexivity]. apply xv_bin with 3%R 3%R; [|constructor; rq|simpl; lra]. apply xv_bin with 1%R 2%R; [| |simpl; lra].
    + apply xv_bin with 1%R 2%R. apply xv_dim'; auto. constructor; rq. exists 1%R. split; [|reflexivity]. left. exists 2%nat. simpl; split; lra.
    + apply xv_un with 2%R. apply xv_bin with 4%R 2%R. apply xv_dim'; auto. constructor; rq. simpl. split; lra. exists 2. split; auto. simpl. unfold is_floor. lra.
  - exists 2%R. split; [|simpl; lra]. apply xv_bin with 4%R 2%R. apply xv_dim'; auto. constructor; rq. simpl; lra.
Qed.
Example C14_example : forall F nx, Forall (fun c => hc4_ok (tc_expr c) /\ within a14 (tc_expr c) /\ sat_tcons F c (qpt [1; 4]%Q)) l14 /\ gbox a14 (qpt [1; 4]%Q) /\
  exists b, box_meet_tcons_array (N:=E) (F:=F) true nx 100 a14 l14 = Some b /\ gboxb b [1; 4]%Q = true /\ gboxb b [1; 1]%Q = false /\ gboxb b [3; 4]%Q = false.
Proof. intros F nx. split. apply l14_sat. split. apply gboxb_ok; reflexivity. eexists. split. vm_compute. reflexivity. vm_compute. auto. Qed.
(** x * y = 6 and x + y >= 5 on [1,3]^2: with the linearisation x is at least 2 *)
Definition l14' : list tcons :=
  [mkTC CSupEq (TBin BSub RReal DNearest (TBin BMul RReal DNearest (TDim 0) (TDim 1)) (num 6)) None; mkTC CSupEq (TBin BSub RReal DNearest (TBin BAdd RReal DNearest (TDim 0) (TDim 1)) (num 5)) None].
Definition a14' : box := bx 0 2 [(1, 3); (1, 3)]%Q.
Example C14_example_linear : forall F nx, Forall (fun c => no_pow (tc_expr c) /\ within a14' (tc_expr c) /\ sat_tcons F c (qpt [2; 3]%Q)) l14' /\ gbox a14' (qpt [2; 3]%Q) /\
  exists b, box_meet_tcons_array (N:=E) (F:=F) true nx 0 a14' l14' = Some b /\ gboxb b [2; 3]%Q = true /\ gboxb b [1; 3]%Q = false.
Proof.
  intros F nx. assert (D0 : qpt [2; 3]%Q 0%nat = 2%R) by (unfold qpt; rq). assert (D1 : qpt [2; 3]%Q 1%nat = 3%R) by (unfold qpt; rq).
  split; [|split; [apply gboxb_ok; reflexivity|eexists; split; [vm_compute; reflexivity|vm_compute; auto]]].
  constructor; [split; [|split; [wi|]]|constructor; [split; [|split; [wi|]]|constructor]]; try (simpl; repeat split; discriminate).
  - exists 0%R. split; [|simpl; lra]. apply xv_bin with 6%R 6%R; [|constructor; rq|simpl; lra]. apply xv_bin with 2%R 3%R. apply xv_dim'; auto. apply xv_dim'; auto. simpl; lra.
  - exists 0%R. split; [|simpl; lra]. apply xv_bin with 5%R 5%R; [|constructor; rq|simpl; lra]. apply xv_bin with 2%R 3%R. apply xv_dim'; auto. apply xv_dim'; auto. simpl; lra.
Qed.

(** ** C19, tree expressions *)
Theorem C19_assign_texpr_sound_partial : forall (N : numtype) (F : fmts) a asn dest v w, Forall (fun t => no_pow (snd t) /\ within a (snd t)) asn ->
  (forall d e, In (d, e) asn -> xval F v e (w d)) -> (forall d, ~ In d (map fst asn) -> w d = v d) ->
  gbox a v -> (forall b, dest = Some b -> bx_dim b = bx_dim a /\ gbox b w) ->
  gbox (box_assign_texpr_array (N:=N) (F:=F) a asn dest) w.
Proof.
  intros N F a asn dest v w FA H1 H2 G D. eapply assign_texpr_sound; eauto. eapply Forall_impl; [|exact FA]. simpl. intros t [P W]. split; auto. intros p _. apply no_pow_eval; auto.
Qed.
Print Assumptions C19_assign_texpr_sound_partial.
Theorem C19_assign_texpr_empty_dest_refuted : forall (F : fmts), exists a e b, same_dims a b /\ within a e /\
  (forall v, ~ gbox b v) /\ exists w, gbox (box_assign_texpr_array (N:=E) (F:=F) a [(0%nat, e)] (Some b)) w.
Proof.
  intros F. exists (box_top 0 1), (num 1), (box_bottom 0 1). split. split; reflexivity. split. { intros d H. inversion H. }
  split. { intros v G. exact G. } exists (fun _ => 0%R). intros d D. simpl. split; simpl; auto.
Qed.
Print Assumptions C19_assign_texpr_empty_dest_refuted.
(** x, y := y * y, x / y *)
Definition asn19t : list (nat * texpr) := [(0%nat, TBin BMul RReal DNearest (TDim 1) (TDim 1)); (1%nat, TBin BDiv RReal DNearest (TDim 0) (TDim 1))].
Example C19_example_texpr : forall F, let a := bx 0 2 [(0, 1); (2, 3)]%Q in let b := box_assign_texpr_array (N:=E) (F:=F) a asn19t None in
  Forall (fun t => no_pow (snd t) /\ within a (snd t)) asn19t /\ (forall d e, In (d, e) asn19t -> xval F (qpt [1; 2]%Q) e (qpt [4; 1#2]%Q d)) /\
  gboxb b [4; 1#2]%Q = true /\ gboxb b [10; 0]%Q = false /\ gboxb b [4; 1]%Q = false.
Proof.
  intros F. assert (D0 : qpt [1; 2]%Q 0%nat = 1%R) by (unfold qpt; rq). assert (D1 : qpt [1; 2]%Q 1%nat = 2%R) by (unfold qpt; rq).
  cbv zeta. split; [|split; [|vm_compute; auto]].
  - constructor; [split; [|wi]|constructor; [split; [|wi]|constructor]]; simpl; repeat split; discriminate.
  - intros d e [H|[H|[]]]; inversion H; subst; clear H.
    + apply xv_bin with 2%R 2%R. apply xv_dim'; auto. apply xv_dim'; auto. simpl. unfold qpt. rq.
    + apply xv_bin with 1%R 2%R. apply xv_dim'; auto. apply xv_dim'; auto. simpl. split; [lra|]. unfold qpt. rq.
Qed.

(** ** C20, tree expressions *)
Theorem C20_bound_texpr_sound : forall (N : numtype) (F : fmts) a e v r, no_pow e -> within a e -> gbox a v -> xval F v e r ->
  ge_rb r (fst (box_bound_texpr (N:=N) (F:=F) a e)) /\ le_rb r (snd (box_bound_texpr (N:=N) (F:=F) a e)).
Proof. intros N F a e v r P W G X. eapply bound_texpr_sound; eauto. intros p _. apply no_pow_eval; auto. Qed.
Print Assumptions C20_bound_texpr_sound.
(** whatever the values chosen in the intervals and by the roundings *)
Theorem C20_sat_tcons_sound : forall (N : numtype) (F : fmts) a c v, no_pow (tc_expr c) -> within a (tc_expr c) -> tmod_ok (N:=N) c ->
  box_sat_tcons (N:=N) (F:=F) a c = Some true -> gbox a v -> sat_tcons_all F c v.
Proof. intros N F a c v P W M H G. eapply sat_tcons_sound; eauto. intros p _. apply no_pow_eval; auto. Qed.
Print Assumptions C20_sat_tcons_sound.
(** x * y + 1 > 0 on [-1,1] x [0,1/2] and its bounds *)
Definition e20 : texpr := TBin BAdd RReal DNearest (TBin BMul RReal DNearest (TDim 0) (TDim 1)) (num 1).
Example C20_example_texpr : forall F, let a := bx 0 2 [(-1, 1); (0, 1#2)]%Q in no_pow e20 /\ within a e20 /\ tmod_ok (N:=E) (mkTC CSup e20 None) /\
  box_sat_tcons (N:=E) (F:=F) a (mkTC CSup e20 None) = Some true /\ box_sat_tcons (N:=E) (F:=F) a (mkTC CSup e20 (Some (Fin 1))) = Some true /\
  box_sat_tcons (N:=E) (F:=F) (bx 0 2 [(-1, 1); (0, 1)]%Q) (mkTC CSup e20 None) = Some false /\
  leqb (1#2) (fst (box_bound_texpr (N:=E) (F:=F) a e20)) = true /\ leqb (3#2) (snd (box_bound_texpr (N:=E) (F:=F) a e20)) = true /\ leqb (151#100) (snd (box_bound_texpr (N:=E) (F:=F) a e20)) = false.
Proof.
  intros F. cbv zeta. split. simpl; repeat split; discriminate. split. { wi. }
  split. intros H; discriminate. vm_compute. repeat (split; [reflexivity|]). reflexivity.
Qed.

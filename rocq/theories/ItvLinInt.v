(** Strengthening of constraints over integer dimensions. *)
From Coq Require Import ZArith Znumtheory QArith Qround Qreals Reals Lra Lia Bool List Permutation.
From Verif Require Import Bound BoundFacts Itv ItvFacts ItvFacts2 Linexpr ItvLin ItvLinFacts ItvLinExact ItvLinCons.
Import ListNotations.
Open Scope Z_scope.

(** the point gives integers to the first [n] dimensions *)
Definition int_point (n : nat) (v : nat -> R) : Prop := forall d, (d < n)%nat -> is_integer (v d).

Lemma fold_lcm : forall (f : iterm -> Z) ts l0, 0 < l0 -> (forall t, 0 < f t) ->
  let l := fold_left (fun l t => Z.lcm l (f t)) ts l0 in 0 < l /\ (l0 | l) /\ Forall (fun t => (f t | l)) ts.
Proof.
  intros f. induction ts as [|t ts IH]; intros l0 P F; simpl. split; [auto|split; [apply Z.divide_refl|constructor]].
  assert (P1 : 0 < Z.lcm l0 (f t)).
  { pose proof (Z.lcm_nonneg l0 (f t)). destruct (Z.eq_dec (Z.lcm l0 (f t)) 0) as [E|E]; [|lia]. apply Z.lcm_eq_0 in E. specialize (F t). lia. }
  destruct (IH _ P1 F) as (A & B & C). split; auto. split.
  - eapply Z.divide_trans; [apply Z.divide_lcm_l|exact B].
  - constructor; auto. eapply Z.divide_trans; [apply Z.divide_lcm_r|exact B].
Qed.
Lemma fold_gcd : forall (f : iterm -> Z) ts g0, 0 <= g0 ->
  let g := fold_left (fun g t => Z.gcd g (f t)) ts g0 in 0 <= g /\ (g | g0) /\ Forall (fun t => (g | f t)) ts.
Proof.
  intros f. induction ts as [|t ts IH]; intros g0 P; simpl. split; [auto|split; [apply Z.divide_refl|constructor]].
  destruct (IH _ (Z.gcd_nonneg g0 (f t))) as (A & B & C). split; auto. split.
  - eapply Z.divide_trans; [exact B|apply Z.gcd_divide_l].
  - constructor; auto. eapply Z.divide_trans; [exact B|apply Z.gcd_divide_r].
Qed.
Lemma red_term_val : forall g l t, 0 < g -> 0 < l -> (g | Qnum (coef t)) -> (Zpos (Qden (coef t)) | l) ->
  (IZR (Qnum (coef t) / g * l / Zpos (Qden (coef t))) = Q2R (coef t) * IZR l / IZR g)%R.
Proof.
  intros g l t G L [n N] [m M]. set (d := Zpos (Qden (coef t))) in *. assert (D : 0 < d) by reflexivity.
  rewrite N, Z.div_mul by lia. rewrite M at 1. rewrite Z.mul_assoc, Z.div_mul by lia.
  unfold Q2R. fold d. rewrite N, M, !mult_IZR.
  assert (IZR g <> 0)%R by (apply not_0_IZR; lia). assert (IZR d <> 0)%R by (apply not_0_IZR; lia). field. auto.
Qed.
Lemma coef_val : forall t, Q2R (coef t) = Q2R (bfinq (sup (t_itv t))).
Proof. intros. apply Qeq_Q2R. apply Qred_correct. Qed.

(** values of the scaled terms *)
Lemma red_terms_val : forall v g l ts r, 0 < g -> 0 < l -> Forall (fun t => (g | Qnum (coef t))) ts -> Forall (fun t => (Zpos (Qden (coef t)) | l)) ts ->
  Forall (fun t => itv_is_point (t_itv t) = true) ts ->
  tval v ts r -> tval v (map (red_term g l) ts) (r * (IZR l / IZR g))%R.
Proof.
  intros v g l ts r G L FG FL FP T. induction T as [|c t ts r C T IH]; simpl. rewrite Rmult_0_l. constructor.
  inversion FG; inversion FL; inversion FP; subst.
  replace ((c * v (t_dim t) + r) * (IZR l / IZR g))%R with (c * (IZR l / IZR g) * v (t_dim t) + r * (IZR l / IZR g))%R by lra.
  apply (tv_cons v (c * (IZR l / IZR g))%R (red_term g l t)); auto. unfold red_term. simpl.
  apply (point_val _ _ H9) in C. rewrite <- coef_val in C.
  assert (X : (c * (IZR l / IZR g))%R = IZR (Qnum (coef t) / g * l / Zpos (Qden (coef t)))) by (rewrite red_term_val by auto; subst c; unfold Rdiv; lra).
  rewrite X. split; simpl; try rewrite Q2R_opp; rewrite Q2R_inject; lra.
Qed.
Lemma red_terms_conv : forall v g l ts r, 0 < g -> 0 < l -> Forall (fun t => (g | Qnum (coef t))) ts -> Forall (fun t => (Zpos (Qden (coef t)) | l)) ts ->
  Forall (fun t => itv_is_point (t_itv t) = true) ts ->
  tval v (map (red_term g l) ts) r -> tval v ts (r * (IZR g / IZR l))%R.
Proof.
  intros v g l ts r G L FG FL FP. revert r. induction ts as [|t ts IH]; simpl; intros r T; inversion T; subst. rewrite Rmult_0_l. constructor.
  inversion FG; inversion FL; inversion FP; subst. simpl in *.
  replace ((c * v (t_dim t) + r0) * (IZR g / IZR l))%R with (c * (IZR g / IZR l) * v (t_dim t) + r0 * (IZR g / IZR l))%R by lra.
  constructor; auto. apply (point_val _ _ H11). rewrite <- coef_val.
  assert (X : c = IZR (Qnum (coef t) / g * l / Zpos (Qden (coef t)))).
  { destruct H1 as [A B]. simpl in *. rewrite Q2R_opp in A. rewrite Q2R_inject in *. lra. }
  rewrite red_term_val in X by auto. subst c.
  assert (IZR g <> 0)%R by (apply not_0_IZR; lia). assert (IZR l <> 0)%R by (apply not_0_IZR; lia). field. auto.
Qed.
(** they are integers *)
Lemma red_terms_int : forall v n g l ts r, int_point n v -> Forall (fun t => (t_dim t < n)%nat) ts ->
  tval v (map (red_term g l) ts) r -> is_integer r.
Proof.
  intros v n g l ts r I. revert r. induction ts as [|t ts IH]; simpl; intros r F T; inversion T; subst. exists 0; auto.
  inversion F; subst. simpl in *. destruct (IH _ H4 H3) as [z Z]. destruct (I _ H2) as [y Y].
  assert (X : c = IZR (Qnum (coef t) / g * l / Zpos (Qden (coef t)))).
  { destruct H1 as [A B]. simpl in *. rewrite Q2R_opp in A. rewrite Q2R_inject in *. lra. }
  exists (Qnum (coef t) / g * l / Zpos (Qden (coef t)) * y + z). rewrite plus_IZR, mult_IZR. congruence.
Qed.
Lemma int_le_floor : forall z q, (IZR z <= Q2R q)%R -> (IZR z <= Q2R (inject_Z (Qfloor q)))%R.
Proof.
  intros z q H. rewrite Q2R_inject. apply IZR_le. rewrite <- Q2R_inject in H. apply Rle_Qle in H.
  apply Qfloor_resp_le in H. rewrite Qfloor_Z in H. auto.
Qed.
Lemma floor_le : forall q, (Q2R (inject_Z (Qfloor q)) <= Q2R q)%R.
Proof. intros. apply Qle_Rle. apply Qfloor_le. Qed.


Lemma red_facts : forall ts, Forall (fun t => t_eq t = true) ts -> flags_ok ts -> red_gcd ts <> 0 ->
  0 < red_gcd ts /\ 0 < red_lcm ts /\ Forall (fun t => (red_gcd ts | Qnum (coef t))) ts /\
  Forall (fun t => (Zpos (Qden (coef t)) | red_lcm ts)) ts /\ Forall (fun t => itv_is_point (t_itv t) = true) ts.
Proof.
  intros ts FE FO NZ. destruct (fold_gcd (fun t => Qnum (coef t)) ts 0) as (A & _ & B). lia.
  destruct (fold_lcm (fun t => Zpos (Qden (coef t))) ts 1) as (C & _ & D). lia. intro; lia.
  fold (red_gcd ts) in *. fold (red_lcm ts) in *. repeat split; auto. lia.
  unfold flags_ok in FO. rewrite Forall_forall in *. auto.
Qed.
Lemma ratio_Q : forall g l, 0 < g -> Q2R (inject_Z l / inject_Z g) = (IZR l / IZR g)%R.
Proof.
  intros g l G. rewrite Q2R_div, !Q2R_inject. auto.
  intro X. apply Qeq_Q2R in X. rewrite Q2R_inject, Q2R_0' in X. apply eq_IZR in X. lia.
Qed.
Lemma ratio_pos : forall g l, 0 < g -> 0 < l -> (0 < IZR l / IZR g)%R.
Proof. intros. apply Rdiv_lt_0_compat; apply IZR_lt; auto. Qed.
Lemma qisint_iff : forall q, qisint q = true <-> Q2R q = IZR (Qfloor q).
Proof. intros. unfold qisint. rewrite Qeq_bool_iff, Qeq_Q2R, Q2R_inject. split; auto. Qed.

(** the scaled constraint of the middle of the function *)
Definition scaled (c : icons) : icons :=
  let e := ic_expr c in
  let g := red_gcd (il_terms e) in
  let l := red_lcm (il_terms e) in
  mkIC (mkIL (map (red_term g l) (il_terms e)) (itv_mul_num (N:=exact_num) (il_cst e) (inject_Z l / inject_Z g)) (il_eq e))
       (ic_typ c) (ic_num c).
(** the strengthening of the constant, last part of the function *)
Definition tighten (c : icons) : icons :=
  let e := ic_expr c in
  let '(s, ty) :=
    match sup (il_cst e) with
    | Fin q =>
      match ic_typ c with
      | CSup => ((if qisint q then bsub_uint (N:=exact_num) (Fin q) 1 else bfloor (Fin q)), CSupEq)
      | ty => (bfloor (Fin q), ty)
      end
    | b => (b, ic_typ c)
    end in
  match ty with
  | CEq =>
    let i := match inf (il_cst e) with
      | Fin p => if il_eq e then bneg s else bfloor (Fin p)
      | b => b
      end in
    if itv_is_bottom (mkItv i s) then icons_bool c false
    else mkIC (mkIL (il_terms e) (mkItv i s) (il_eq e)) CEq (ic_num c)
  | _ =>
    if binfty s then mkIC (mkIL (il_terms e) (mkItv (inf (il_cst e)) s) (il_eq e)) ty (ic_num c)
    else mkIC (mkIL (il_terms e) (mkItv (bneg s) s) true) ty (ic_num c)
  end.
Lemma reduce_integer_eq : forall n c, ineq_typ (ic_typ c) ->
  reduce_integer n c =
    (if negb (ilin_is_integer (ic_expr c) n) then c else
     if negb (forallb t_eq (il_terms (ic_expr c))) then c else
     if red_gcd (il_terms (ic_expr c)) =? 0 then c else tighten (scaled c)).
Proof. intros n c [H|[H|H]]; unfold reduce_integer, tighten, scaled; simpl; rewrite H; reflexivity. Qed.

Lemma scaled_iff : forall c v, ineq_typ (ic_typ c) -> Forall (fun t => t_eq t = true) (il_terms (ic_expr c)) -> flags_ok (il_terms (ic_expr c)) ->
  red_gcd (il_terms (ic_expr c)) <> 0 -> (exists x, in_itv x (il_cst (ic_expr c))) -> (sat_some (scaled c) v <-> sat_some c v).
Proof.
  intros c v TY FE FO NZ [x X]. destruct (red_facts _ FE FO NZ) as (G & L & FG & FL & FP).
  set (g := red_gcd (il_terms (ic_expr c))) in *. set (l := red_lcm (il_terms (ic_expr c))) in *.
  pose proof (ratio_pos g l G L) as RP. pose proof (ratio_Q g l G) as RQ.
  assert (INV : (IZR g / IZR l * (IZR l / IZR g) = 1)%R).
  { assert (IZR g <> 0)%R by (apply not_0_IZR; lia). assert (IZR l <> 0)%R by (apply not_0_IZR; lia). field. auto. }
  pose proof (ratio_pos l g L G) as RP'.
  assert (SC : forall r k, (0 < k)%R -> sat_typ (ic_typ c) (Some (Fin (ic_num c))) r -> sat_typ (ic_typ c) (Some (Fin (ic_num c))) (r * k)).
  { intros r k K. destruct TY as [TY|[TY|TY]]; rewrite TY; simpl; intro S. subst; lra. apply Rmult_le_pos; lra. apply Rmult_lt_0_compat; lra. }
  split; intros (r & (k & r1 & K & T & ->) & S); simpl in *.
  - destruct (between_scale _ (inject_Z l / inject_Z g) k x X) as (k0 & K0 & ->); auto. rewrite RQ; lra.
    exists ((k0 * Q2R (inject_Z l / inject_Z g) + r1) * (IZR g / IZR l))%R. split; auto. exists k0, (r1 * (IZR g / IZR l))%R. split; auto. split. apply red_terms_conv; auto.
    rewrite RQ. rewrite Rmult_plus_distr_r, Rmult_assoc, (Rmult_comm (IZR l / IZR g)), INV. lra.
  - exists ((k + r1) * (IZR l / IZR g))%R. split; auto. exists (k * (IZR l / IZR g))%R, (r1 * (IZR l / IZR g))%R. simpl.
    split. apply itv_mul_bound_sound; auto. split. apply red_terms_val; auto. lra.
Qed.
Definition eq_flag_s (c : icons) : Prop := ic_typ c = CEq -> cst_flag_ok (ic_expr c).
Lemma eq_flag_sw : forall c, eq_flag_s c -> eq_flag_ok c.
Proof. intros c H K _. auto. Qed.
Lemma eqf_scaled : forall c, forallb t_eq (il_terms (ic_expr c)) = true -> eq_flag_ok c -> eq_flag_s (scaled c).
Proof. intros c A F K Q. simpl in *. apply point_mul_num_E. apply F; auto. Qed.

Lemma le_floor_bound : forall r z q, is_integer r -> (r <= Q2R q)%R -> z = inject_Z (Qfloor q) -> (r <= Q2R z)%R.
Proof. intros r z q [y ->] H ->. apply int_le_floor; auto. Qed.
Lemma tighten_sound : forall c v, ineq_typ (ic_typ c) -> eq_flag_s c -> (forall r, tval v (il_terms (ic_expr c)) r -> is_integer r) ->
  sat_some c v -> sat_some (tighten c) v.
Proof.
  intros c v TY EF INT (r & (k & r1 & [K1 K2] & T & ->) & S). pose proof (INT _ T) as I. unfold tighten.
  assert (IO : is_integer (- r1)). { destruct I as [z Z]. exists (- z). rewrite opp_IZR. lra. }
  assert (FIN : forall q ty e, (- r1 <= Q2R q)%R -> ty = CSupEq -> e = true ->
    sat_some (mkIC (mkIL (il_terms (ic_expr c)) (mkItv (bneg (Fin q)) (Fin q)) e) ty (ic_num c)) v).
  { intros q ty e H -> _. exists (Q2R q + r1)%R. simpl. split; [|lra]. exists (Q2R q), r1. simpl. split; auto. split; simpl; try rewrite Q2R_opp; lra. }
  destruct TY as [TY|[TY|TY]]; rewrite TY in *; simpl in S.
  - (* equality *)
    assert (EK : k = (- r1)%R) by lra. subst k.
    set (s := match sup (il_cst (ic_expr c)) with Fin q => bfloor (Fin q) | b => b end).
    replace (match sup (il_cst (ic_expr c)) with | Fin q => (bfloor (Fin q), CEq) | b => (b, CEq) end) with (s, CEq).
    2: { unfold s. destruct (sup (il_cst (ic_expr c))); auto. }
    set (i := match inf (il_cst (ic_expr c)) with Fin p => if il_eq (ic_expr c) then bneg s else bfloor (Fin p) | b => b end).
    assert (IN : in_itv (- r1) (mkItv i s)).
    { split; simpl.
      - unfold i. destruct (inf (il_cst (ic_expr c))) as [|p|] eqn:EI; simpl in K1; auto. destruct (il_eq (ic_expr c)) eqn:EQ.
        + specialize (EF TY EQ). apply point_iff in EF. destruct EF as (p' & q & E1 & E2 & E3). rewrite EI in E1. inversion E1; subst p'.
          unfold s. rewrite E2 in *. simpl in *. rewrite Q2R_opp. rewrite E3 in K1. assert (X : (- r1 = Q2R q)%R) by lra.
          pose proof (floor_le q). lra.
        + simpl. eapply le_floor_bound; eauto. rewrite Ropp_involutive. auto.
      - unfold s. destruct (sup (il_cst (ic_expr c))) as [|q|]; simpl in *; auto. eapply le_floor_bound; eauto. }
    destruct (itv_is_bottom (mkItv i s)) eqn:B. exfalso. apply (itv_empty_test_sound _ B _ IN).
    exists 0%R. simpl. split; [|reflexivity]. exists (- r1)%R, r1. simpl. split; [exact IN|split; [exact T|lra]].
  - destruct (sup (il_cst (ic_expr c))) as [|q|] eqn:ES; simpl in K2; try tauto.
    + apply FIN; auto. eapply le_floor_bound; eauto. lra.
    + simpl. exists (k + r1)%R. simpl. split; auto. exists k, r1. simpl. split; auto. split; simpl; auto.
  - destruct (sup (il_cst (ic_expr c))) as [|q|] eqn:ES; simpl in K2; try tauto.
    + destruct (qisint q) eqn:QI.
      * apply qisint_iff in QI. simpl. apply FIN; auto. rewrite Q2R_minus. rewrite QI in *. destruct IO as [z Z]. rewrite Z in *.
        assert (X : (IZR z < IZR (Qfloor q))%R) by lra. apply lt_IZR in X. replace (Q2R (inject_Z 1)) with 1%R by (rewrite Q2R_inject; auto). rewrite <- minus_IZR. apply IZR_le. lia.
      * apply FIN; auto. eapply le_floor_bound; eauto. lra.
    + simpl. exists (k + r1)%R. simpl. split; auto. exists k, r1. simpl. split; auto. split; simpl; auto.
Qed.
(** for inequalities nothing is added *)
Lemma tighten_exact : forall c v, ic_typ c = CSupEq \/ ic_typ c = CSup -> (exists x, in_itv x (il_cst (ic_expr c))) ->
  sat_some (tighten c) v -> sat_some c v.
Proof.
  intros c v TY [x X]. unfold tighten. pose proof X as [X1 X2].
  assert (FIN : forall q q', sup (il_cst (ic_expr c)) = Fin q -> (if match ic_typ c with CSup => true | _ => false end then Q2R q' < Q2R q else Q2R q' <= Q2R q)%R ->
    sat_some (mkIC (mkIL (il_terms (ic_expr c)) (mkItv (bneg (Fin q')) (Fin q')) true) CSupEq (ic_num c)) v -> sat_some c v).
  { intros q q' ES H (r & (k & r1 & [K1 K2] & T & ->) & S). simpl in *. exists (Q2R q + r1)%R. split.
    exists (Q2R q), r1. split; auto. eapply in_sup; eauto. destruct TY as [TY|TY]; rewrite TY in *; simpl; lra. }
  destruct TY as [TY|TY]; rewrite TY in *; destruct (sup (il_cst (ic_expr c))) as [|q|] eqn:ES; simpl in X2; try tauto; simpl.
  - intro S. apply (FIN _ _ eq_refl) in S; auto. apply floor_le.
  - intros (r & (k & r1 & [K1 K2] & T & ->) & S). simpl in *. exists (k + r1)%R. rewrite TY. split; auto. exists k, r1. split; auto. split; auto. rewrite ES; auto.
  - destruct (qisint q) eqn:QI; simpl; intro S; apply (FIN _ _ eq_refl) in S; auto.
    + rewrite Q2R_minus. replace (Q2R (inject_Z 1)) with 1%R by (rewrite Q2R_inject; auto). lra.
    + pose proof (floor_le q) as F. destruct (Req_dec (Q2R (inject_Z (Qfloor q))) (Q2R q)) as [E|E]; [|lra].
      rewrite Q2R_inject in E. symmetry in E. apply qisint_iff in E. congruence.
  - intros (r & (k & r1 & [K1 K2] & T & ->) & S). simpl in *. exists (k + r1)%R. rewrite TY. split; auto. exists k, r1. split; auto. split; auto. rewrite ES; auto.
Qed.

Lemma scaled_int : forall n c v r, int_point n v -> ilin_is_integer (ic_expr c) n = true -> tval v (il_terms (ic_expr (scaled c))) r -> is_integer r.
Proof.
  intros n c v r I H T. simpl in T. eapply red_terms_int; [exact I| |exact T]. unfold ilin_is_integer in H. rewrite forallb_forall in H.
  apply Forall_forall. intros t J. apply Nat.ltb_lt. auto.
Qed.
Lemma reduce_integer_sound : forall n c v, flags_ok (il_terms (ic_expr c)) -> eq_flag_ok c -> int_point n v ->
  sat_some c v -> sat_some (reduce_integer n c) v.
Proof.
  intros n c v FO EF I S.
  assert (D : ineq_typ (ic_typ c) \/ reduce_integer n c = c). { unfold ineq_typ, reduce_integer. destruct (ic_typ c); auto. }
  destruct D as [TY|E]; [|rewrite E; auto]. rewrite reduce_integer_eq by auto.
  destruct (ilin_is_integer (ic_expr c) n) eqn:II; simpl; auto. destruct (forallb t_eq (il_terms (ic_expr c))) eqn:FB; simpl; auto.
  destruct (Z.eqb_spec (red_gcd (il_terms (ic_expr c))) 0) as [Z|Z]; auto.
  pose proof (eqf_scaled c FB EF) as ES. rewrite forallb_forall in FB. apply tighten_sound; auto.
  - intros r T. eapply scaled_int; eauto.
  - apply scaled_iff; auto. apply Forall_forall; auto. destruct S as (r & (k & r1 & K & _) & _). eauto.
Qed.
Lemma reduce_integer_exact : forall n c v, ic_typ c <> CEq -> flags_ok (il_terms (ic_expr c)) ->
  (exists x, in_itv x (il_cst (ic_expr c))) -> sat_some (reduce_integer n c) v -> sat_some c v.
Proof.
  intros n c v NE FO [x X].
  assert (D : ic_typ c = CSupEq \/ ic_typ c = CSup \/ reduce_integer n c = c). { unfold reduce_integer. destruct (ic_typ c); auto; congruence. }
  assert (TY : ic_typ c = CSupEq \/ ic_typ c = CSup \/ True) by tauto.
  destruct D as [T1|[T1|E]]; [| |rewrite E; auto]; rewrite reduce_integer_eq by (unfold ineq_typ; auto);
  destruct (ilin_is_integer (ic_expr c) n) eqn:II; simpl; auto; destruct (forallb t_eq (il_terms (ic_expr c))) eqn:FB; simpl; auto;
  destruct (Z.eqb_spec (red_gcd (il_terms (ic_expr c))) 0) as [Z|Z]; auto; intro S;
  rewrite forallb_forall in FB; apply Forall_forall in FB;
  (apply scaled_iff; [unfold ineq_typ; auto|auto|auto|auto|eauto|]; apply tighten_exact; [simpl; auto|simpl; eexists; apply itv_mul_bound_sound; eauto|auto]).
Qed.
(** the flags of equalities stay right *)
Lemma reduce_integer_eqf : forall n c, flags_ok (il_terms (ic_expr c)) -> eq_flag_ok c -> eq_flag_ok (reduce_integer n c).
Proof.
  intros n c FO EF.
  assert (D : ineq_typ (ic_typ c) \/ reduce_integer n c = c). { unfold ineq_typ, reduce_integer. destruct (ic_typ c); auto. }
  destruct D as [TY|E]; [|rewrite E; auto]. rewrite reduce_integer_eq by auto.
  destruct (ilin_is_integer (ic_expr c) n) eqn:II; simpl; auto. destruct (forallb t_eq (il_terms (ic_expr c))) eqn:FB; simpl; auto.
  destruct (Z.eqb_spec (red_gcd (il_terms (ic_expr c))) 0) as [Z|Z]; auto. pose proof (eqf_scaled c FB EF) as ES. apply eq_flag_sw.
  set (d := scaled c) in *. assert (TD : ineq_typ (ic_typ d)) by auto. clearbody d. clear - ES TD. unfold tighten.
  destruct TD as [TY|[TY|TY]]; rewrite TY; simpl.
  - assert (X : forall s, (il_eq (ic_expr d) = true -> exists q, s = Fin q) -> (il_eq (ic_expr d) = true -> exists q, inf (il_cst (ic_expr d)) = Fin q) ->
      eq_flag_s (let i := match inf (il_cst (ic_expr d)) with Fin p => if il_eq (ic_expr d) then bneg s else bfloor (Fin p) | b => b end in
       if itv_is_bottom (mkItv i s) then icons_bool d false else mkIC (mkIL (il_terms (ic_expr d)) (mkItv i s) (il_eq (ic_expr d))) CEq (ic_num d))).
    { intros s H1 H2. cbv zeta. destruct (itv_is_bottom _). intros _ _. reflexivity.
      intros _ Q. simpl in *. destruct (H1 Q) as [q ->]. destruct (H2 Q) as [p ->]. rewrite Q. apply point_iff. simpl. exists (- q)%Q, q. repeat split; auto. rewrite Q2R_opp; auto. }
    assert (Y : il_eq (ic_expr d) = true -> exists p q, inf (il_cst (ic_expr d)) = Fin p /\ sup (il_cst (ic_expr d)) = Fin q).
    { intro Q. specialize (ES TY Q). apply point_iff in ES. destruct ES as (p & q & E1 & E2 & _). eauto. }
    destruct (sup (il_cst (ic_expr d))) as [|q|] eqn:EQS; apply X; intro Q; destruct (Y Q) as (p' & q' & E1 & E2); eauto; try discriminate.
  - destruct (sup (il_cst (ic_expr d))); simpl; intro K; discriminate.
  - destruct (sup (il_cst (ic_expr d))) as [|q|]; simpl; try (intro K; discriminate). destruct (qisint q); intro K; discriminate.
Qed.
Lemma array_reduce_integer_sound : forall n v l l' t, Forall (fun c => flags_ok (il_terms (ic_expr c)) /\ eq_flag_ok c) l -> int_point n v ->
  Forall (fun c => sat_some c v) l -> array_reduce_integer n l = Some (l', t) -> Forall (fun c => sat_some c v) l' /\ t <> TFalse.
Proof.
  intros n v l l' t FO I FS H. unfold array_reduce_integer in H.
  assert (A : Forall eq_flag_ok (map (reduce_integer n) l)).
  { apply Forall_map. eapply Forall_impl; [|exact FO]. simpl. intros a [X Y]. apply reduce_integer_eqf; auto. }
  assert (B : Forall (fun c => sat_some c v) (map (reduce_integer n) l)).
  { apply Forall_map. rewrite Forall_forall in *. intros a Q. destruct (FO a Q). apply reduce_integer_sound; auto. }
  assert (C : Forall (fun c => sat_some c v /\ True) l') by (eapply array_reduce_meet; eauto; eapply Forall_impl; [|exact B]; simpl; auto).
  assert (C' : Forall (fun c => sat_some c v) l') by (eapply Forall_impl; [|exact C]; simpl; tauto).
  split; auto. intro TF. subst t. unfold array_reduce in H. destruct (reduce_loop (length (map (reduce_integer n) l)) true [] (map (reduce_integer n) l)) as [[r b]|] eqn:R; try discriminate.
  destruct b.
  - inversion H; subst. pose proof (reduce_loop_kept_true _ _ _ _ _ R) as [c ->]. inversion C'; subst. eapply icons_false_some; eauto.
  - inversion H; subst. destruct l' as [|c [|]]; try discriminate. destruct (il_terms (ic_expr c)) eqn:T; try discriminate.
    pose proof (reduce_loop_kept _ _ _ _ _ (Forall_nil _) R) as K. inversion K as [|? ? [K1 _]]; subst. congruence.
Qed.

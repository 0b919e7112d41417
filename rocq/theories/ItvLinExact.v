(** Precision of the operations on interval linear expressions with exact numbers. *)
From Coq Require Import ZArith QArith Qround Qreals Reals Lra Lia Bool List Permutation Sorted.
From Verif Require Import Bound BoundFacts Itv ItvFacts ItvFacts2 Linexpr ItvLin ItvLinFacts.
Import ListNotations.
Open Scope Z_scope.
Local Notation E := exact_num.

Lemma between_add : forall a b x0 y0 z, in_itv x0 a -> in_itv y0 b -> in_itv z (itv_add (N:=E) a b) ->
  exists x y, in_itv x a /\ in_itv y b /\ z = (x + y)%R.
Proof.
  intros [ia sa] [ib sb] x0 y0 z [A1 A2] [B1 B2] [Z1 Z2]; simpl in *. unfold in_itv; simpl.
  destruct (Rle_dec (x0 + y0) z) as [L|L].
  - assert (H : exists x, le_rb x sa /\ le_rb (z - x) sb /\ (x0 <= x)%R /\ (y0 <= z - x)%R).
    { destruct sa as [|p|]; simpl in *; try tauto.
      - destruct sb as [|q|]; simpl in *; try tauto.
        + rewrite Q2R_plus in Z2. exists (Rmin (Q2R p) (z - y0)). unfold Rmin. destruct Rle_dec; lra.
        + exists x0. repeat split; lra.
      - exists (z - y0)%R. replace (z - (z - y0))%R with y0 by lra. repeat split; auto; lra. }
    destruct H as (x & H1 & H2 & H3 & H4). exists x, (z - x)%R. repeat split; auto; try lra.
    apply le_rb_le with (- x0)%R; auto; lra. apply le_rb_le with (- y0)%R; auto; lra.
  - assert (H : exists x, le_rb (- x) ia /\ le_rb (- (z - x)) ib /\ (x <= x0)%R /\ (z - x <= y0)%R).
    { destruct ia as [|p|]; simpl in *; try tauto.
      - destruct ib as [|q|]; simpl in *; try tauto.
        + rewrite Q2R_plus in Z1. exists (Rmax (- Q2R p) (z - y0)). unfold Rmax. destruct Rle_dec; lra.
        + exists x0. repeat split; lra.
      - exists (z - y0)%R. replace (z - (z - y0))%R with y0 by lra. repeat split; auto; lra. }
    destruct H as (x & H1 & H2 & H3 & H4). exists x, (z - x)%R. repeat split; auto; try lra.
    apply le_rb_le with x0; auto. apply le_rb_le with y0; auto.
Qed.
Lemma between_scale : forall a q z x0, in_itv x0 a -> Q2R q <> 0%R -> in_itv z (itv_mul_bound (N:=E) a (Fin q)) ->
  exists x, in_itv x a /\ z = (x * Q2R q)%R.
Proof.
  intros [i s] q z x0 [X1 X2] NZ. unfold itv_mul_bound. simpl bsgn. simpl in *.
  assert (G : forall w d r x1, (0 < Q2R r)%R -> le_rb x1 d -> le_rb w (bmul (N:=E) d (Fin r)) -> le_rb (w / Q2R r) d).
  { intros w d r x1 P X H. unfold bmul in H. simpl in H. destruct ((bsgn d =? 0) || (Z.sgn (Qnum r) =? 0)) eqn:EZ.
    - apply orb_true_iff in EZ. destruct EZ as [EZ|EZ]; apply Z.eqb_eq in EZ.
      + destruct d as [|p|]; simpl in *; try discriminate. apply sgn_Q_zero in EZ. rewrite Q2R_0' in H. rewrite EZ.
        apply Rmult_le_reg_r with (Q2R r); auto. unfold Rdiv. rewrite Rmult_assoc, Rinv_l by lra. lra.
      + apply sgn_Q_zero in EZ. lra.
    - destruct d as [|p|]; simpl in *; auto. 
      rewrite Q2R_mult in H. apply Rmult_le_reg_r with (Q2R r); auto. unfold Rdiv. rewrite Rmult_assoc, Rinv_l by lra. lra. }
  intro H. exists (z / Q2R q)%R. split. 2: field; auto.
  destruct (0 <=? Z.sgn (Qnum q)) eqn:EQ.
  - apply Z.leb_le in EQ. apply sgn_Q_ge in EQ. destruct H as [H1 H2]. simpl in *. split; simpl.
    + replace (- (z / Q2R q))%R with ((- z) / Q2R q)%R by (field; auto). eapply G; eauto. lra.
    + eapply G; eauto. lra.
  - apply Z.leb_gt in EQ. apply sgn_Q_neg in EQ. destruct H as [H1 H2]. simpl in *.
    assert (P : (0 < Q2R (- q))%R) by (rewrite Q2R_opp; lra). split; simpl.
    + replace (- (z / Q2R q))%R with (z / Q2R (- q))%R by (rewrite Q2R_opp; field; lra). eapply G; eauto.
    + replace (z / Q2R q)%R with ((- z) / Q2R (- q))%R by (rewrite Q2R_opp; field; lra). eapply G; eauto.
Qed.

(** conversion *)
Lemma itv_set_coeff_exact : forall r c, wf_coeff c -> in_itv r (fst (itv_set_coeff (N:=E) c)) -> coeff_in r c.
Proof.
  intros r c W H. destruct c as [b|l u]; simpl in *.
  - destruct b as [|q|]; try tauto. unfold bexact in H. simpl in H.
    assert (EQ : Qeq_bool q q = true) by (apply Qeq_bool_iff; reflexivity). rewrite EQ in H. simpl in H.
    destruct H as [H1 H2]. simpl in *. rewrite Q2R_opp in H1. lra.
  - destruct H as [H1 H2]. simpl in *. split.
    + destruct l as [|q|]; simpl in *; auto; try lra. rewrite Q2R_opp in H1. lra.
    + destruct u as [|q|]; simpl in *; auto.
Qed.
Lemma set_terms_exact : forall v l r, Forall (fun p => wf_coeff (snd p)) l -> tval v (fst (set_terms (N:=E) l)) r -> cval v l r.
Proof.
  intros v l r F. revert r. induction F as [|[d c] l W F IH]; intros r H; simpl in *. inversion H; subst. constructor.
  pose proof (fun x => itv_set_coeff_exact x c W) as X. destruct (itv_set_coeff (N:=E) c) as [i ex]. simpl in X.
  destruct (set_terms (N:=E) l) as [ts' res]. simpl in IH, H. destruct (itv_is_zero i) eqn:Z; simpl in H.
  - replace r with (0 * v d + r)%R by lra. constructor; auto. apply X. apply is_zero_in; auto.
  - inversion H; subst. simpl in *. constructor; auto.
Qed.
Lemma ilin_of_linexpr_exact : forall n e v r, wf_linexpr n e -> holes_last (le_terms e) ->
  (ival (fst (ilin_of_linexpr (N:=E) e)) v r <-> expr_val e v r).
Proof.
  intros n e v r W H. split; [|apply ilin_of_linexpr_sound; auto]. destruct W as [W1 W2]. unfold ilin_of_linexpr.
  pose proof (fun x => itv_set_coeff_exact x _ W1) as X.
  assert (F : Forall (fun p => wf_coeff (snd p)) (foreach (le_terms e))) by (apply foreach_wf in W2; eapply Forall_impl; [|exact W2]; simpl; tauto).
  pose proof (fun r => set_terms_exact v _ r F) as Y.
  destruct (itv_set_coeff (N:=E) (le_cst e)). destruct (set_terms (N:=E) (foreach (le_terms e))). simpl in *.
  intros (c0 & r1 & A & B & ->). exists c0, r1. simpl in *. repeat split; auto. apply foreach_val; auto.
Qed.

(** sums *)
Lemma tval_nonempty_in : forall v ts r, tval v ts r -> Forall (fun t => exists c, in_itv c (t_itv t)) ts.
Proof. intros v ts r T. induction T; constructor; eauto. Qed.
Lemma tval_ex : forall v ts, Forall (fun t => exists c, in_itv c (t_itv t)) ts -> exists r, tval v ts r.
Proof.
  intros v ts F. induction F as [|t ts [c C] F [r R]]. exists 0%R; constructor. eexists. constructor; eauto.
Qed.
Lemma add_terms_exact : forall v la lb, Forall (fun t => exists c, in_itv c (t_itv t)) la -> Forall (fun t => exists c, in_itv c (t_itv t)) lb ->
  forall r, tval v (add_terms (N:=E) la lb) r -> exists ra rb, tval v la ra /\ tval v lb rb /\ r = (ra + rb)%R.
Proof.
  intros v la lb FA. revert lb. induction FA as [|a la [ca Ha] FA IHa]; intros lb FB r H.
  - exists 0%R, r. repeat split. constructor. destruct lb; auto. lra.
  - revert r H. induction FB as [|b lb [cb Hb] FB IHb]; intros r H.
    + exists r, 0%R. simpl in H. repeat split; auto. constructor. lra.
    + simpl in H. destruct (Nat.ltb_spec (t_dim b) (t_dim a)).
      * inversion H as [|c t ts r0 Hc Ht]; subst. apply IHb in Ht. destruct Ht as (ra & rb & TA & TB & ->).
        exists ra, (c * v (t_dim b) + rb)%R. repeat split; auto. constructor; auto. lra.
      * destruct (Nat.ltb_spec (t_dim a) (t_dim b)).
        -- inversion H as [|c t ts r0 Hc Ht]; subst. apply (IHa (b :: lb)) in Ht. 2: constructor; eauto. destruct Ht as (ra & rb & TA & TB & ->).
           exists (c * v (t_dim a) + ra)%R, rb. repeat split; auto. constructor; auto. lra.
        -- assert (G : exists x y r0, in_itv x (t_itv a) /\ in_itv y (t_itv b) /\ tval v (add_terms (N:=E) la lb) r0 /\ r = ((x + y) * v (t_dim a) + r0)%R).
           { destruct (itv_is_zero (itv_add (N:=E) (t_itv a) (t_itv b))) eqn:Z.
             - pose proof (itv_add_sound (N:=E) _ _ _ _ Ha Hb) as S. pose proof (is_zero_val _ _ Z S) as Z0. exists ca, cb, r. repeat split; try apply Ha; try apply Hb; auto. rewrite Z0. lra.
             - inversion H as [|c t ts r0 Hc Ht]; subst. simpl in *. destruct (between_add _ _ _ _ _ Ha Hb Hc) as (x & y & X & Y & ->).
               exists x, y, r0. repeat split; try apply X; try apply Y; auto. }
           assert (ED : t_dim a = t_dim b) by lia.
           destruct G as (x & y & r0 & X & Y & T & ->). apply IHa in T; auto. destruct T as (ra & rb & TA & TB & ->).
           exists (x * v (t_dim a) + ra)%R, (y * v (t_dim b) + rb)%R. repeat split. constructor; auto. constructor; auto. rewrite ED. lra.
Qed.
Lemma ilin_add_exact : forall a b v ra0 rb0 r, ival a v ra0 -> ival b v rb0 -> ival (ilin_add (N:=E) a b) v r ->
  exists ra rb, ival a v ra /\ ival b v rb /\ r = (ra + rb)%R.
Proof.
  intros a b v ra0 rb0 r (c1 & r1 & A & TA & ->) (c2 & r2 & B & TB & ->). unfold ilin_add.
  destruct (itv_is_top (itv_add (N:=E) (il_cst a) (il_cst b))) eqn:T; intros (c & r0 & C & TC & ->); simpl in *.
  - inversion TC; subst. pose proof (itv_add_sound (N:=E) _ _ _ _ A B) as S.
    assert (X : in_itv (c - r1 - r2) (itv_add (N:=E) (il_cst a) (il_cst b))) by (eapply is_top_in; eauto).
    destruct (between_add _ _ _ _ _ A B X) as (x & y & HX & HY & EQ).
    exists (x + r1)%R, (y + r2)%R. split; [|split]. exists x, r1; auto. exists y, r2; auto. lra.
  - destruct (between_add _ _ _ _ _ A B C) as (x & y & HX & HY & ->).
    apply add_terms_exact in TC; try (eapply tval_nonempty_in; eassumption). destruct TC as (ra & rb & TA' & TB' & ->).
    exists (x + ra)%R, (y + rb)%R. split; [|split]. exists x, ra; auto. exists y, rb; auto. lra.
Qed.

(** evaluation: with numbers as coefficients and distinct dimensions every value of
    the interval is reached in the box *)
Definition vset (v : nat -> R) (d : nat) (x : R) : nat -> R := fun j => if Nat.eqb j d then x else v j.
Lemma tval_ext : forall v v' ts r, (forall t, In t ts -> v (t_dim t) = v' (t_dim t)) -> tval v ts r -> tval v' ts r.
Proof.
  intros v v' ts r H T. induction T as [|c t ts r C T IH]. constructor.
  rewrite H by (simpl; auto). constructor; auto. apply IH. intros; apply H; simpl; auto.
Qed.
Lemma eval_terms_exact : forall env ts acc z v0,
  Forall (fun t => t_eq t = true) ts -> flags_ok ts -> NoDup (map t_dim ts) ->
  (forall d, in_itv (v0 d) (env d)) -> (exists a0, in_itv a0 acc) ->
  in_itv z (eval_terms (N:=E) env ts acc) ->
  exists v a r, (forall d, in_itv (v d) (env d)) /\ (forall d, ~ In d (map t_dim ts) -> v d = v0 d) /\ in_itv a acc /\ tval v ts r /\ z = (a + r)%R.
Proof.
  intros env ts. induction ts as [|t ts IH]; intros acc z v0 FE FO ND I A H; simpl in H.
  - exists v0, z, 0%R. repeat split; auto; try apply I; try apply H. constructor. lra.
  - inversion FE as [|? ? E1 E2]; subst. inversion FO as [|? ? O1 O2]; subst. simpl in ND. apply NoDup_cons_iff in ND. destruct ND as [N1 N2].
    rewrite E1 in H. specialize (O1 E1). destruct (point_sup _ O1) as [q EQ]. rewrite EQ in H.
    set (acc' := if bsgn (Fin q) =? 0 then acc else itv_add (N:=E) acc (itv_mul_bound (N:=E) (env (t_dim t)) (Fin q))) in H.
    destruct A as [a0 A].
    assert (A' : exists a, in_itv a acc').
    { unfold acc'. destruct (bsgn (Fin q) =? 0). eauto. exists (a0 + v0 (t_dim t) * Q2R q)%R. apply itv_add_sound; auto. apply itv_mul_bound_sound; auto. }
    (* split a value of the partial sum *)
    assert (SPL : forall b, in_itv b acc' -> exists a x, in_itv a acc /\ in_itv x (env (t_dim t)) /\ b = (a + Q2R q * x)%R).
    { intros b HB. unfold acc' in HB. destruct (Z.eqb_spec (bsgn (Fin q)) 0) as [Z|Z].
      - simpl in Z. apply sgn_Q_zero in Z. exists b, (v0 (t_dim t)). rewrite Z. repeat split; try apply HB; try apply I. lra.
      - assert (NZ : Q2R q <> 0%R) by (intro X; apply Z; simpl; apply sgn_Q_zero; auto).
        destruct (between_add acc (itv_mul_bound (N:=E) (env (t_dim t)) (Fin q)) a0 (v0 (t_dim t) * Q2R q)%R b) as (a & y & Ha & Hy & ->); auto.
        apply itv_mul_bound_sound; auto.
        destruct (between_scale _ _ _ _ (I (t_dim t)) NZ Hy) as (x & Hx & ->). exists a, x. repeat split; try apply Ha; try apply Hx. lra. }
    assert (FIN : forall v b r, (forall d, in_itv (v d) (env d)) -> (forall d, ~ In d (map t_dim ts) -> v d = v0 d) -> in_itv b acc' -> tval v ts r -> z = (b + r)%R ->
       exists v a r, (forall d, in_itv (v d) (env d)) /\ (forall d, ~ In d (map t_dim (t :: ts)) -> v d = v0 d) /\ in_itv a acc /\ tval v (t :: ts) r /\ z = (a + r)%R).
    { intros v b r V V0 HB T ->. destruct (SPL b HB) as (a & x & Ha & Hx & ->).
      exists (vset v (t_dim t) x), a, (Q2R q * x + r)%R. split; [|split; [|split; [|split]]]; auto.
      - intro d. unfold vset. destruct (Nat.eqb_spec d (t_dim t)); subst; auto.
      - intros d ID. unfold vset. simpl in ID. destruct (Nat.eqb_spec d (t_dim t)); subst; [exfalso; auto|]. apply V0. tauto.
      - assert (EX : vset v (t_dim t) x (t_dim t) = x) by (unfold vset; rewrite Nat.eqb_refl; auto).
        replace (Q2R q * x + r)%R with (Q2R q * vset v (t_dim t) x (t_dim t) + r)%R by (rewrite EX; auto). constructor.
        apply point_val; auto. rewrite EQ; auto.
        apply tval_ext with v; auto. intros t' IT. unfold vset. destruct (Nat.eqb_spec (t_dim t') (t_dim t)) as [X|X]; auto.
        exfalso. apply N1. rewrite <- X. apply in_map; auto.
      - lra. }
    destruct (itv_is_top acc') eqn:TT.
    + assert (NE : Forall (fun t => exists c, in_itv c (t_itv t)) ts).
      { clear - E2 O2. induction ts; constructor; inversion E2; inversion O2; subst; auto. eexists; apply point_ex; auto. }
      destruct (tval_ex v0 ts NE) as [r T]. apply (FIN v0 (z - r)%R r); auto. destruct A' as [a A']. eapply is_top_in; eauto. lra.
    + destruct (IH acc' z v0 E2 O2 N2 I A' H) as (v & b & r & V & V0 & HB & T & EZ). eauto.
Qed.
Lemma eval_linexpr_exact : forall env e z v0, Forall (fun t => t_eq t = true) (il_terms e) -> flags_ok (il_terms e) -> NoDup (map t_dim (il_terms e)) ->
  (forall d, in_itv (v0 d) (env d)) -> (exists a, in_itv a (il_cst e)) -> in_itv z (itv_eval_linexpr (N:=E) env e) ->
  exists v, (forall d, in_itv (v d) (env d)) /\ ival e v z.
Proof.
  intros env e z v0 A B C D F H. destruct (eval_terms_exact env (il_terms e) (il_cst e) z v0 A B C D F H) as (v & a & r & V & _ & Ha & T & ->).
  exists v. split; auto. exists a, r; auto.
Qed.

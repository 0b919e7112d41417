(** Meaning of interval linear expressions and soundness of the operations on them. *)
From Coq Require Import ZArith QArith Qround Qreals Reals Lra Lia Bool List Permutation Sorted.
From Verif Require Import Bound BoundFacts Itv ItvFacts ItvFacts2 Linexpr ItvLin.
Import ListNotations.
Open Scope Z_scope.

(** ** Specification: the values of an interval linear expression at a point *)
Inductive tval (v : nat -> R) : list iterm -> R -> Prop :=
| tv_nil : tval v [] 0%R
| tv_cons : forall c t ts r, in_itv c (t_itv t) -> tval v ts r -> tval v (t :: ts) (c * v (t_dim t) + r)%R.
Definition ival (e : ilin) (v : nat -> R) (r : R) : Prop :=
  exists c r1, in_itv c (il_cst e) /\ tval v (il_terms e) r1 /\ r = (c + r1)%R.

(** a constraint holds for some / for each choice of the coefficients *)
Definition sat_some (c : icons) (v : nat -> R) : Prop :=
  exists r, ival (ic_expr c) v r /\ sat_typ (ic_typ c) (Some (Fin (ic_num c))) r.
Definition sat_each (c : icons) (v : nat -> R) : Prop :=
  forall r, ival (ic_expr c) v r -> sat_typ (ic_typ c) (Some (Fin (ic_num c))) r.

(** the flags of the terms (of the constant) are right *)
Definition flags_ok (ts : list iterm) : Prop :=
  Forall (fun t => t_eq t = true -> itv_is_point (t_itv t) = true) ts.
Definition cst_flag_ok (e : ilin) : Prop := il_eq e = true -> itv_is_point (il_cst e) = true.
(** the point is in the box, as far as the dimensions of the expression are concerned *)
Definition in_env (v : nat -> R) (env : nat -> itv) (ts : list iterm) : Prop :=
  Forall (fun t => in_itv (v (t_dim t)) (env (t_dim t))) ts.

(** ** Points *)
Lemma point_iff : forall a, itv_is_point a = true <->
  exists p q, inf a = Fin p /\ sup a = Fin q /\ Q2R p = (- Q2R q)%R.
Proof.
  intros [i s]; unfold itv_is_point; simpl. split.
  - destruct i as [|p|]; try discriminate. destruct s as [|q|]; try discriminate.
    intro H. apply Qeq_bool_iff in H. apply Qeq_Q2R in H. rewrite Q2R_opp in H.
    exists p, q. repeat split; auto. lra.
  - intros (p & q & -> & -> & H). apply Qeq_bool_iff. apply Qeq_Q2R. rewrite Q2R_opp. lra.
Qed.
Lemma point_val : forall a c, itv_is_point a = true -> (in_itv c a <-> c = Q2R (bfinq (sup a))).
Proof.
  intros a c H. apply point_iff in H. destruct H as (p & q & E1 & E2 & H).
  unfold in_itv. rewrite E1, E2. simpl. split; intros; [lra|subst; lra].
Qed.
Lemma point_sup : forall a, itv_is_point a = true -> exists q, sup a = Fin q.
Proof. intros a H. apply point_iff in H. destruct H as (p & q & _ & E & _). eauto. Qed.
Lemma point_ex : forall a, itv_is_point a = true -> in_itv (Q2R (bfinq (sup a))) a.
Proof. intros a H. apply point_val; auto. Qed.
Lemma is_zero_val : forall a c, itv_is_zero a = true -> in_itv c a -> c = 0%R.
Proof.
  intros [i s] c H [H1 H2]; unfold itv_is_zero in H; simpl in *. apply andb_true_iff in H. destruct H as [A B].
  apply Z.eqb_eq in A, B. destruct i as [|p|]; simpl in *; try discriminate. destruct s as [|q|]; simpl in *; try discriminate.
  apply sgn_Q_zero in A, B. lra.
Qed.
Lemma is_zero_in : forall a, itv_is_zero a = true -> in_itv 0 a.
Proof.
  intros [i s] H; unfold itv_is_zero in H; simpl in *. apply andb_true_iff in H. destruct H as [A B].
  apply Z.eqb_eq in A, B. destruct i as [|p|]; simpl in *; try discriminate. destruct s as [|q|]; simpl in *; try discriminate.
  apply sgn_Q_zero in A, B. unfold in_itv; simpl. lra.
Qed.
Lemma is_top_in : forall a x y, itv_is_top a = true -> in_itv x a -> in_itv y a.
Proof.
  intros [i s] x y H [H1 H2]. unfold itv_is_top in H. simpl in *.
  destruct i; simpl in *; try discriminate; try tauto; destruct s; simpl in *; try discriminate; try tauto.
  split; simpl; auto.
Qed.
Lemma point_neg : forall a, itv_is_point (itv_neg a) = itv_is_point a.
Proof.
  intros [i s]; unfold itv_is_point, itv_neg; simpl.
  destruct i; destruct s; auto. apply eq_true_iff_eq. rewrite !Qeq_bool_iff, !Qeq_Q2R, !Q2R_opp. split; lra.
Qed.

(** ** Terms *)
Lemma tval_app : forall v l1 l2 r, tval v (l1 ++ l2) r <-> exists r1 r2, tval v l1 r1 /\ tval v l2 r2 /\ r = (r1 + r2)%R.
Proof.
  induction l1 as [|t l1 IH]; intros; simpl.
  - split.
    + intro H. exists 0%R, r. repeat split; auto. constructor. lra.
    + intros (r1 & r2 & A & B & ->). inversion A; subst. replace (0 + r2)%R with r2 by lra. auto.
  - split.
    + intro H. inversion H as [|c t0 ts r0 Hc Ht]; subst. apply IH in Ht. destruct Ht as (r1 & r2 & A & B & ->).
      exists (c * v (t_dim t) + r1)%R, r2. repeat split; auto. constructor; auto. lra.
    + intros (r1 & r2 & A & B & ->). inversion A as [|c t0 ts r0 Hc Ht]; subst.
      replace (c * v (t_dim t) + r0 + r2)%R with (c * v (t_dim t) + (r0 + r2))%R by lra.
      constructor; auto. apply IH. eauto 6.
Qed.
Lemma tval_perm : forall v l1 l2, Permutation l1 l2 -> forall r, tval v l1 r -> tval v l2 r.
Proof.
  intros v l1 l2 P; induction P; intros r H; auto.
  - inversion H; subst. constructor; auto.
  - inversion H as [|c t0 ts r0 Hc Ht]; subst. inversion Ht as [|c' t1 ts' r1 Hc' Ht']; subst.
    replace (c * v (t_dim y) + (c' * v (t_dim x) + r1))%R with (c' * v (t_dim x) + (c * v (t_dim y) + r1))%R by lra.
    constructor; auto. constructor; auto.
Qed.
Lemma swap_out_perm : forall A (l : list A), Permutation (swap_out l) l.
Proof.
  intros A l. unfold swap_out. destruct (rev l) as [|z r] eqn:E.
  - apply (f_equal (@rev A)) in E. rewrite rev_involutive in E. subst. constructor.
  - apply (f_equal (@rev A)) in E. rewrite rev_involutive in E. simpl in E. subst.
    apply Permutation_cons_append.
Qed.
Lemma swap_out_length : forall A (l : list A), length (swap_out l) = length l.
Proof. intros. apply Permutation_length. apply swap_out_perm. Qed.
Lemma in_env_perm : forall v env l1 l2, Permutation l1 l2 -> in_env v env l1 -> in_env v env l2.
Proof. intros. unfold in_env in *. eapply Permutation_Forall; eauto. Qed.
Lemma flags_perm : forall l1 l2, Permutation l1 l2 -> flags_ok l1 -> flags_ok l2.
Proof. intros. unfold flags_ok in *. eapply Permutation_Forall; eauto. Qed.

Section F.
Context {N : numtype}.

(** ** Conversion of user coefficients *)
Lemma itv_set_coeff_sound : forall r c, coeff_in r c -> in_itv r (fst (itv_set_coeff (N:=N) c)).
Proof.
  intros r c H. destruct c as [b|l u]; simpl in *.
  - destruct b as [|q|]; try tauto. subst r. destruct (bexact (N:=N) (Fin q)) eqn:E; simpl.
    + unfold bexact in E. simpl in E. unfold in_itv; simpl. destruct (rnd N q) eqn:EN; simpl in *; try discriminate.
      apply Qeq_bool_iff in E. apply Qeq_Q2R in E. rewrite Q2R_opp. lra.
    + unfold in_itv; simpl. split; apply rnd_ge; rewrite ?Q2R_opp; lra.
  - destruct H as [H1 H2]. unfold in_itv; simpl. split.
    + apply bconv_sound. apply bneg_le. rewrite Ropp_involutive. auto.
    + apply bconv_sound; auto.
Qed.
Lemma itv_set_coeff_point : forall c, wf_coeff c -> snd (itv_set_coeff (N:=N) c) = true -> is_scal c = true ->
  itv_is_point (fst (itv_set_coeff (N:=N) c)) = true.
Proof.
  intros [b|l u] W H S; simpl in *; try discriminate. destruct b as [|q|]; try tauto.
  destruct (bexact (N:=N) (Fin q)) eqn:E; simpl in *; try discriminate.
  unfold bexact in E; simpl in E. destruct (rnd N q) eqn:EN; try discriminate. unfold itv_is_point; simpl.
  apply Qeq_bool_iff. apply Qopp_involutive.
Qed.

(** holes of a sparse expression come last (the dimensions are sorted and a hole
    is the greatest dimension) *)
Definition holes_last (t : linterms) : Prop :=
  match t with
  | Dense _ => True
  | Sparse ts => exists l1 l2, ts = l1 ++ l2 /\ Forall (fun t => fst t <> None) l1 /\ Forall (fun t => fst t = None) l2
  end.
(** values of the list of terms met by the iteration *)
Inductive cval (v : nat -> R) : list (nat * coeff) -> R -> Prop :=
| cv_nil : cval v [] 0%R
| cv_cons : forall x d c ts r, coeff_in x c -> cval v ts r -> cval v ((d, c) :: ts) (x * v d + r)%R.
Lemma foreach_val : forall t v r, holes_last t -> (terms_val t v r <-> cval v (foreach t) r).
Proof.
  intros t v r H. destruct t as [l|ts]; simpl.
  - assert (G : forall l i r, (exists cs, Forall2 coeff_in cs l /\ r = sum_dense i cs v) <-> cval v (dense_terms i l) r).
    { clear. induction l as [|c l IH]; intros i r; simpl.
      - split.
        + intros (cs & F & ->). inversion F; subst. simpl. constructor.
        + intro C. inversion C; subst. exists []. split; constructor.
      - split.
        + intros (cs & F & ->). inversion F as [|x y l1 l2 Hx F2]; subst. simpl. constructor; auto. apply IH. eauto.
        + intro C. inversion C as [|x d c' ts r' Hx Ht]; subst. apply IH in Ht. destruct Ht as (cs & F & ->).
          exists (x :: cs). split; auto. }
    apply G.
  - destruct H as (l1 & l2 & -> & H1 & H2).
    assert (G2 : forall l cs, Forall (fun t : option nat * coeff => fst t = None) l -> sum_sparse l cs v = 0%R).
    { clear. induction l as [|[d c] l IH]; intros cs F; simpl; auto. inversion F; subst; simpl in *. subst d. destruct cs; auto. }
    assert (G3 : forall l, Forall (fun t : option nat * coeff => fst t = None) l -> exists cs, Forall2 (fun c t => fst t <> None -> coeff_in c (snd t)) cs l).
    { clear. induction l as [|[d c] l IH]; intros F. exists []; constructor. inversion F; subst; simpl in *. subst d.
      destruct (IH H2) as [cs Hcs]. exists (0%R :: cs). constructor; auto. simpl. congruence. }
    assert (G4 : forall l, Forall (fun t : option nat * coeff => fst t = None) l -> sparse_terms l = []).
    { clear. intros [|[d c] l] F; auto. inversion F; subst; simpl in *. subst; auto. }
    revert r. induction H1 as [|[d c] l1 Hd H1 IH]; intro r; simpl.
    + rewrite G4 by auto. split.
      * intros (cs & F & ->). rewrite G2 by auto. constructor.
      * intro C. inversion C; subst. destruct (G3 _ H2) as [cs F]. exists cs. split; auto. rewrite G2; auto.
    + simpl in Hd. destruct d as [d|]; try tauto. split.
      * intros (cs & F & ->). inversion F as [|x y a b Hx F2]; subst. simpl in Hx.
        constructor. apply Hx; congruence. apply IH. eauto.
      * intro C. inversion C as [|x d' c' ts r' Hx Ht]; subst. apply IH in Ht. destruct Ht as (cs & F & ->).
        exists (x :: cs). split; auto.
Qed.
Lemma foreach_wf : forall t n, wf_terms n t -> Forall (fun p => wf_coeff (snd p) /\ (fst p < n)%nat) (foreach t).
Proof.
  intros [l|ts] n W; simpl in *.
  - destruct W as [L W]. assert (G : forall l i, (i + length l <= n)%nat -> Forall wf_coeff l -> Forall (fun p => wf_coeff (snd p) /\ (fst p < n)%nat) (dense_terms i l)).
    { clear. induction l as [|c l IH]; intros i L F; simpl; constructor; inversion F; subst; simpl in *.
      - split; auto; lia.
      - apply IH; auto; lia. }
    apply G; auto.
  - destruct W as (W & _ & D). induction ts as [|[[d|] c] ts IH]; simpl; try constructor.
    + inversion W; subst. simpl in *. split; auto. apply H1; congruence.
    + inversion W; subst. apply IH; auto. intros d' Hd. apply D; simpl; auto.
Qed.

Lemma set_terms_sound : forall v l r, cval v l r -> tval v (fst (set_terms (N:=N) l)) r.
Proof.
  intros v l r C. induction C as [|x d c ts r Hx C IH]; simpl. constructor.
  pose proof (itv_set_coeff_sound _ _ Hx) as HI. destruct (itv_set_coeff (N:=N) c) as [i ex]. simpl in HI.
  destruct (set_terms (N:=N) ts) as [ts' res]. simpl in IH. destruct (itv_is_zero i) eqn:Z; simpl.
  - rewrite (is_zero_val _ _ Z HI). replace (0 * v d + r)%R with r by lra. auto.
  - apply (tv_cons v x (mkT i (ex && is_scal c) d)); auto.
Qed.
Lemma set_terms_flags : forall l, Forall (fun p => wf_coeff (snd p)) l -> flags_ok (fst (set_terms (N:=N) l)).
Proof.
  intros l F. induction F as [|[d c] l W F IH]; simpl. constructor.
  pose proof (itv_set_coeff_point c W) as HP. destruct (itv_set_coeff (N:=N) c) as [i ex]. simpl in HP.
  destruct (set_terms (N:=N) l) as [ts' res]. simpl in IH. destruct (itv_is_zero i) eqn:Z; simpl; auto.
  constructor; auto. simpl. intro E. apply andb_true_iff in E. destruct E. auto.
Qed.
Lemma ilin_of_linexpr_sound : forall e v r, holes_last (le_terms e) -> expr_val e v r ->
  ival (fst (ilin_of_linexpr (N:=N) e)) v r.
Proof.
  intros e v r H (c0 & r1 & Hc & Ht & ->). apply foreach_val in Ht; auto. apply set_terms_sound in Ht.
  apply itv_set_coeff_sound in Hc. unfold ilin_of_linexpr.
  destruct (itv_set_coeff (N:=N) (le_cst e)). destruct (set_terms (N:=N) (foreach (le_terms e))). simpl in *.
  exists c0, r1. auto.
Qed.
Lemma ilin_of_linexpr_flags : forall e n, wf_linexpr n e ->
  flags_ok (il_terms (fst (ilin_of_linexpr (N:=N) e))) /\ cst_flag_ok (fst (ilin_of_linexpr (N:=N) e)).
Proof.
  intros e n [W1 W2]. apply foreach_wf in W2.
  assert (F : Forall (fun p => wf_coeff (snd p)) (foreach (le_terms e))) by (eapply Forall_impl; [|exact W2]; simpl; tauto).
  apply set_terms_flags in F. pose proof (itv_set_coeff_point (le_cst e) W1) as P. unfold ilin_of_linexpr, cst_flag_ok.
  destruct (itv_set_coeff (N:=N) (le_cst e)). destruct (set_terms (N:=N) (foreach (le_terms e))). simpl in *. split; auto.
  intro E. apply andb_true_iff in E. destruct E. auto.
Qed.

(** ** Arithmetic *)
Lemma itv_neg_neg : forall a, itv_neg (itv_neg a) = a.
Proof. intros [i s]; auto. Qed.
Lemma ilin_neg_neg : forall e, ilin_neg (ilin_neg e) = e.
Proof.
  intros [ts c q]. unfold ilin_neg. simpl. rewrite itv_neg_neg, map_map. simpl. f_equal.
  rewrite <- map_id. apply map_ext. intros [i b d]. simpl. rewrite itv_neg_neg. auto.
Qed.
Lemma ilin_neg_iff : forall e v r, ival (ilin_neg e) v r <-> ival e v (- r).
Proof.
  assert (G : forall v ts r, tval v ts r -> tval v (map (fun t => mkT (itv_neg (t_itv t)) (t_eq t) (t_dim t)) ts) (- r)).
  { intros v ts r T. induction T; simpl. rewrite Ropp_0. constructor.
    replace (- (c * v (t_dim t) + r))%R with ((- c) * v (t_dim t) + - r)%R by lra.
    apply (tv_cons v (- c) (mkT (itv_neg (t_itv t)) (t_eq t) (t_dim t))); auto. simpl. apply itv_neg_sound; auto. }
  assert (G' : forall e v r, ival e v r -> ival (ilin_neg e) v (- r)).
  { intros e v r (c & r1 & A & B & ->). exists (- c)%R, (- r1)%R. simpl. split; [apply itv_neg_sound; auto|split; [auto|lra]]. }
  intros e v r. split; intro H.
  - apply G' in H. rewrite ilin_neg_neg in H. auto.
  - apply G' in H. rewrite Ropp_involutive in H. auto.
Qed.
Lemma ilin_neg_flags : forall e, (flags_ok (il_terms (ilin_neg e)) <-> flags_ok (il_terms e)) /\ (cst_flag_ok (ilin_neg e) <-> cst_flag_ok e).
Proof.
  intros e. split.
  - unfold flags_ok. simpl. rewrite Forall_map. simpl. split; apply Forall_impl; intros; rewrite ?point_neg in *; auto.
  - unfold cst_flag_ok. simpl. rewrite point_neg. tauto.
Qed.

Lemma tval_map : forall v (f : itv -> itv) (g : R -> R) k ts r q,
  (forall c t, In t ts -> in_itv c (t_itv t) -> in_itv (c * k) (f (t_itv t))) ->
  tval v ts r -> tval v (map (fun t => mkT (f (t_itv t)) (q t) (t_dim t)) ts) (r * k).
Proof.
  intros v f g k ts r q H T. induction T as [|c t ts r Hc T IH]; simpl. rewrite Rmult_0_l. constructor.
  replace ((c * v (t_dim t) + r) * k)%R with ((c * k) * v (t_dim t) + r * k)%R by lra.
  apply (tv_cons v (c * k) (mkT (f (t_itv t)) (q t) (t_dim t))); simpl. apply H; simpl; auto.
  apply IH. intros. apply H; simpl; auto.
Qed.
Lemma ilin_scale_sound : forall e c v r k, ival e v r -> in_itv k c -> ival (ilin_scale (N:=N) e c) v (r * k).
Proof.
  intros e c v r k (c0 & r1 & A & B & ->) K. unfold ilin_scale. destruct (itv_is_zero c) eqn:Z.
  - rewrite (is_zero_val _ _ Z K). exists 0%R, 0%R. simpl. split; [apply (is_zero_in _ Z)|split; [constructor|lra]].
  - pose proof (itv_mul_sound (N:=N) _ _ _ _ A K) as M. destruct (itv_is_top (itv_mul (N:=N) (il_cst e) c)) eqn:T.
    + exists ((c0 + r1) * k)%R, 0%R. simpl. split. eapply is_top_in; eauto. split. constructor. lra.
    + exists (c0 * k)%R, (r1 * k)%R. simpl. split; auto. split. 2: lra.
      apply (tval_map v (fun i => itv_mul (N:=N) i c) (fun x => x) k _ _ (fun t => t_eq t && itv_is_point (itv_mul (N:=N) (t_itv t) c))); auto.
      intros. apply itv_mul_sound; auto.
Qed.
Lemma ilin_div_sound : forall e c v r k, ival e v r -> in_itv k c -> k <> 0%R -> ival (ilin_div (N:=N) e c) v (r / k).
Proof.
  intros e c v r k (c0 & r1 & A & B & ->) K NZ. unfold ilin_div.
  exists (c0 / k)%R, (r1 * / k)%R. simpl. split; auto. apply itv_div_sound; auto. split. 2: field; auto.
  apply (tval_map v (fun i => itv_div (N:=N) i c) (fun x => x) (/ k) _ _ (fun t => t_eq t && itv_is_point (itv_div (N:=N) (t_itv t) c))); auto.
  intros. apply itv_div_sound; auto.
Qed.
Lemma add_terms_sound : forall v la ra, tval v la ra -> forall lb rb, tval v lb rb -> tval v (add_terms (N:=N) la lb) (ra + rb).
Proof.
  intros v la ra TA. induction TA as [|ca a la ra Ha TA IHa]; intros lb rb TB.
  - rewrite Rplus_0_l. destruct lb; simpl; auto.
  - induction TB as [|cb b lb rb Hb TB IHb].
    + rewrite Rplus_0_r. simpl. constructor; auto.
    + simpl. destruct (Nat.ltb_spec (t_dim b) (t_dim a)).
      * replace (ca * v (t_dim a) + ra + (cb * v (t_dim b) + rb))%R with (cb * v (t_dim b) + (ca * v (t_dim a) + ra + rb))%R by lra.
        constructor; auto.
      * destruct (Nat.ltb_spec (t_dim a) (t_dim b)).
        -- replace (ca * v (t_dim a) + ra + (cb * v (t_dim b) + rb))%R with (ca * v (t_dim a) + (ra + (cb * v (t_dim b) + rb)))%R by lra.
           constructor; auto. apply IHa. constructor; auto.
        -- assert (E : t_dim a = t_dim b) by lia. pose proof (itv_add_sound (N:=N) _ _ _ _ Ha Hb) as S. rewrite <- E.
           destruct (itv_is_zero (itv_add (N:=N) (t_itv a) (t_itv b))) eqn:Z.
           ++ replace (ca * v (t_dim a) + ra + (cb * v (t_dim a) + rb))%R with ((ca + cb) * v (t_dim a) + (ra + rb))%R by lra.
              rewrite (is_zero_val _ _ Z S). rewrite Rmult_0_l, Rplus_0_l. auto.
           ++ replace (ca * v (t_dim a) + ra + (cb * v (t_dim a) + rb))%R with ((ca + cb) * v (t_dim a) + (ra + rb))%R by lra.
              apply (tv_cons v (ca + cb) (mkT (itv_add (N:=N) (t_itv a) (t_itv b)) _ (t_dim a))); auto.
Qed.
Lemma ilin_add_sound : forall a b v ra rb, ival a v ra -> ival b v rb -> ival (ilin_add (N:=N) a b) v (ra + rb).
Proof.
  intros a b v ra rb (ca & r1 & A & TA & ->) (cb & r2 & B & TB & ->). unfold ilin_add.
  pose proof (itv_add_sound (N:=N) _ _ _ _ A B) as S.
  destruct (itv_is_top (itv_add (N:=N) (il_cst a) (il_cst b))) eqn:T.
  - exists (ca + r1 + (cb + r2))%R, 0%R. simpl. split. eapply is_top_in; eauto. split. constructor. lra.
  - exists (ca + cb)%R, (r1 + r2)%R. simpl. split; auto. split. 2: lra. apply add_terms_sound; auto.
Qed.
Lemma ilin_sub_sound : forall a b v ra rb, ival a v ra -> ival b v rb -> ival (ilin_sub (N:=N) a b) v (ra - rb).
Proof.
  intros. unfold ilin_sub. unfold Rminus. apply ilin_add_sound; auto. apply ilin_neg_iff. rewrite Ropp_involutive. auto.
Qed.

(** flags *)
Lemma ilin_scale_flags : forall e c, flags_ok (il_terms (ilin_scale (N:=N) e c)).
Proof.
  intros e c. unfold ilin_scale. destruct (itv_is_zero c). constructor. destruct itv_is_top. constructor.
  unfold flags_ok. simpl. rewrite Forall_map. simpl. apply Forall_forall. intros t _ H. apply andb_true_iff in H. tauto.
Qed.
Lemma ilin_div_flags : forall e c, flags_ok (il_terms (ilin_div (N:=N) e c)).
Proof.
  intros e c. unfold ilin_div. unfold flags_ok. simpl. rewrite Forall_map. simpl. apply Forall_forall. intros t _ H. apply andb_true_iff in H. tauto.
Qed.
Lemma add_terms_nil_r : forall la, add_terms (N:=N) la [] = la.
Proof. destruct la; auto. Qed.
Lemma add_terms_flags : forall la, flags_ok la -> forall lb, flags_ok lb -> flags_ok (add_terms (N:=N) la lb).
Proof.
  intros la FA. induction FA as [|a la Ha FA IHa]; intros lb FB. destruct lb; auto.
  induction FB as [|b lb Hb FB IHb]. simpl. constructor; auto.
  simpl. destruct (Nat.ltb (t_dim b) (t_dim a)). constructor; auto.
  destruct (Nat.ltb (t_dim a) (t_dim b)). constructor; auto. apply IHa. constructor; auto.
  destruct itv_is_zero. apply IHa; auto. constructor. simpl. intro E. apply andb_true_iff in E; tauto. apply IHa; auto.
Qed.
Lemma ilin_add_flags : forall a b, flags_ok (il_terms a) -> flags_ok (il_terms b) ->
  flags_ok (il_terms (ilin_add (N:=N) a b)) /\ cst_flag_ok (ilin_add (N:=N) a b).
Proof.
  intros a b A B. unfold ilin_add. split.
  - destruct itv_is_top; simpl. constructor. apply add_terms_flags; auto.
  - unfold cst_flag_ok. destruct (itv_is_top _); simpl; intro E; apply andb_true_iff in E; tauto.
Qed.
(** dimensions *)
Definition dims_in (P : nat -> Prop) (ts : list iterm) : Prop := Forall (fun t => P (t_dim t)) ts.
Lemma add_terms_dims : forall P la, dims_in P la -> forall lb, dims_in P lb -> dims_in P (add_terms (N:=N) la lb).
Proof.
  intros P la FA. induction FA as [|a la Ha FA IHa]; intros lb FB. destruct lb; auto.
  induction FB as [|b lb Hb FB IHb]. simpl. constructor; auto.
  simpl. destruct (Nat.ltb (t_dim b) (t_dim a)). constructor; auto.
  destruct (Nat.ltb (t_dim a) (t_dim b)). constructor; auto. apply IHa. constructor; auto.
  destruct itv_is_zero. apply IHa; auto. constructor. simpl. auto. apply IHa; auto.
Qed.
Lemma ilin_add_dims : forall P a b, dims_in P (il_terms a) -> dims_in P (il_terms b) -> dims_in P (il_terms (ilin_add (N:=N) a b)).
Proof. intros. unfold ilin_add. destruct itv_is_top; simpl. constructor. apply add_terms_dims; auto. Qed.
Lemma ilin_neg_dims : forall P a, dims_in P (il_terms a) -> dims_in P (il_terms (ilin_neg a)).
Proof. intros. unfold dims_in in *. simpl. rewrite Forall_map. auto. Qed.
Lemma ilin_scale_dims : forall P a c, dims_in P (il_terms a) -> dims_in P (il_terms (ilin_scale (N:=N) a c)).
Proof. intros. unfold ilin_scale. destruct itv_is_zero. constructor. destruct itv_is_top. constructor. unfold dims_in in *. simpl. rewrite Forall_map. auto. Qed.
Lemma ilin_div_dims : forall P a c, dims_in P (il_terms a) -> dims_in P (il_terms (ilin_div (N:=N) a c)).
Proof. intros. unfold ilin_div. unfold dims_in in *. simpl. rewrite Forall_map. auto. Qed.

(** sorted merge: the result is sorted *)
Definition tsorted (ts : list iterm) : Prop := StronglySorted lt (map t_dim ts).
Lemma add_terms_lb : forall k la, Forall (fun t => (k < t_dim t)%nat) la -> forall lb, Forall (fun t => (k < t_dim t)%nat) lb -> Forall (fun t => (k < t_dim t)%nat) (add_terms (N:=N) la lb).
Proof. intros k la A lb B. exact (add_terms_dims (fun d => (k < d)%nat) la A lb B). Qed.
Lemma add_terms_sorted : forall la, tsorted la -> forall lb, tsorted lb -> tsorted (add_terms (N:=N) la lb).
Proof.
  unfold tsorted. induction la as [|a la IHa]; intros SA lb SB. destruct lb; auto.
  simpl in SA. apply StronglySorted_inv in SA. destruct SA as [SA FA]. rewrite Forall_map in FA.
  induction lb as [|b lb IHb]. simpl. constructor; auto. rewrite Forall_map. auto.
  pose proof SB as SB0. simpl in SB. apply StronglySorted_inv in SB. destruct SB as [SB FB]. rewrite Forall_map in FB.
  simpl. destruct (Nat.ltb_spec (t_dim b) (t_dim a)).
  - simpl. constructor. apply IHb; auto. rewrite Forall_map. apply (add_terms_lb _ (a :: la)); auto. constructor; auto.
    eapply Forall_impl; [|exact FA]. simpl. lia.
  - destruct (Nat.ltb_spec (t_dim a) (t_dim b)).
    + simpl. constructor. apply IHa; auto. rewrite Forall_map. apply add_terms_lb; auto. constructor; auto.
      eapply Forall_impl; [|exact FB]. simpl. lia.
    + assert (E : t_dim a = t_dim b) by lia.
      destruct itv_is_zero. apply IHa; auto. simpl. constructor. apply IHa; auto. rewrite Forall_map. apply add_terms_lb; auto.
      eapply Forall_impl; [|exact FB]. simpl. lia.
Qed.

(** ** Evaluation *)
Lemma eval_terms_sound : forall env v ts acc a r, tval v ts r -> flags_ok ts -> in_env v env ts ->
  in_itv a acc -> in_itv (a + r) (eval_terms (N:=N) env ts acc).
Proof.
  intros env v ts acc a r T. revert acc a. induction T as [|c t ts r Hc T IH]; intros acc a F I A; simpl.
  - rewrite Rplus_0_r; auto.
  - inversion F as [|? ? F1 F2]; subst. inversion I as [|? ? I1 I2]; subst.
    set (acc' := if t_eq t then _ else _).
    assert (A' : in_itv (a + c * v (t_dim t)) acc').
    { unfold acc'. destruct (t_eq t) eqn:E.
      - pose proof (proj1 (point_val _ c (F1 eq_refl)) Hc) as EC. destruct (point_sup _ (F1 eq_refl)) as [q Eq]. rewrite Eq in *. simpl in EC.
        destruct (Z.eqb_spec (bsgn (Fin q)) 0) as [Z|Z].
        + simpl in Z. apply sgn_Q_zero in Z. rewrite EC, Z. rewrite Rmult_0_l, Rplus_0_r. auto.
        + apply itv_add_sound; auto. rewrite Rmult_comm. apply itv_mul_bound_sound; auto.
      - apply itv_add_sound; auto. rewrite Rmult_comm. apply itv_mul_sound; auto. }
    replace (a + (c * v (t_dim t) + r))%R with ((a + c * v (t_dim t)) + r)%R by lra.
    destruct (itv_is_top acc') eqn:TT. eapply is_top_in; eauto. apply IH; auto.
Qed.
Lemma eval_linexpr_sound : forall env v e r, ival e v r -> flags_ok (il_terms e) -> in_env v env (il_terms e) ->
  in_itv r (itv_eval_linexpr (N:=N) env e).
Proof. intros env v e r (c & r1 & A & T & ->) F I. apply eval_terms_sound with v; auto. Qed.
Lemma eval_ap_terms_sound : forall env v ts acc a r, cval v ts r ->
  Forall (fun p => wf_coeff (snd p) /\ in_itv (v (fst p)) (env (fst p))) ts ->
  in_itv a acc -> in_itv (a + r) (eval_ap_terms (N:=N) env ts acc).
Proof.
  intros env v ts acc a r C. revert acc a. induction C as [|x d c ts r Hc C IH]; intros acc a F A; simpl.
  - rewrite Rplus_0_r; auto.
  - inversion F as [|? ? [W I1] I2]; subst. simpl in W, I1. pose proof (itv_set_coeff_sound _ _ Hc) as HI. pose proof (itv_set_coeff_point c W) as P.
    destruct (itv_set_coeff (N:=N) c) as [i ex]. simpl in HI, P.
    set (acc' := if ex && is_scal c then _ else _).
    assert (A' : in_itv (a + x * v d) acc').
    { unfold acc'. destruct (ex && is_scal c) eqn:E.
      - apply andb_true_iff in E. destruct E as [E1 E2]. specialize (P E1 E2).
        pose proof (proj1 (point_val _ x P) HI) as EC. destruct (point_sup _ P) as [q Eq]. rewrite Eq in *. simpl in EC.
        destruct (Z.eqb_spec (bsgn (Fin q)) 0) as [Z|Z].
        + simpl in Z. apply sgn_Q_zero in Z. rewrite EC, Z. rewrite Rmult_0_l, Rplus_0_r. auto.
        + apply itv_add_sound; auto. rewrite Rmult_comm. apply itv_mul_bound_sound; auto.
      - apply itv_add_sound; auto. rewrite Rmult_comm. apply itv_mul_sound; auto. }
    replace (a + (x * v d + r))%R with ((a + x * v d) + r)%R by lra.
    destruct (itv_is_top acc') eqn:TT. eapply is_top_in; eauto. apply IH; auto.
Qed.
Lemma eval_ap_linexpr0_sound : forall n env v e r, wf_linexpr n e -> holes_last (le_terms e) ->
  (forall d, (d < n)%nat -> in_itv (v d) (env d)) -> expr_val e v r -> in_itv r (itv_eval_ap_linexpr0 (N:=N) env e).
Proof.
  intros n env v e r [W1 W2] HL I (c0 & r1 & Hc & Ht & ->). apply foreach_val in Ht; auto.
  unfold itv_eval_ap_linexpr0. apply eval_ap_terms_sound with v; auto.
  - apply foreach_wf in W2. eapply Forall_impl; [|exact W2]. simpl. intros p [A B]. auto.
  - apply itv_set_coeff_sound; auto.
Qed.

(** ** Quasi-linearisation of expressions *)
Lemma ql_loop_sound : forall env fmi v fuel acc cst eq todo r,
  (length todo <= fuel)%nat -> in_env v env todo ->
  (exists c r1, in_itv c cst /\ tval v (rev acc ++ todo) r1 /\ r = (c + r1)%R) ->
  ival (ql_loop (N:=N) fuel env fmi acc cst eq todo) v r.
Proof.
  intros env fmi v. induction fuel as [|fuel IH]; intros acc cst eq todo r L I (c & r1 & A & T & ->).
  - destruct todo; simpl in L; try lia. simpl. rewrite app_nil_r in T. exists c, r1; auto.
  - destruct todo as [|t rest]; simpl. rewrite app_nil_r in T. exists c, r1; auto.
    simpl in L. inversion I as [|? ? I1 I2]; subst.
    apply tval_app in T. destruct T as (ra & rb & TA & TB & ->). inversion TB as [|k t0 ts r0 Hk TR]; subst.
    destruct (itv_is_point (env (t_dim t))) eqn:P.
    + apply IH.
      * rewrite swap_out_length. lia.
      * eapply in_env_perm; [apply Permutation_sym; apply swap_out_perm|auto].
      * pose proof (proj1 (point_val _ _ P) I1) as EV.
        exists (c + k * v (t_dim t))%R, (ra + r0)%R. split; [|split].
        -- apply itv_add_sound; auto. unfold itv_mul_num. apply itv_mul_bound_sound; auto.
        -- apply tval_app. exists ra, r0. repeat split; auto. eapply tval_perm; [apply Permutation_sym; apply swap_out_perm|auto].
        -- lra.
    + destruct (t_eq t) eqn:E.
      * apply IH; auto. lia. exists c, (ra + (k * v (t_dim t) + r0))%R. split; auto. split; auto. simpl. rewrite <- app_assoc. simpl.
        apply tval_app. exists ra, (k * v (t_dim t) + r0)%R. auto.
      * set (m := choose_middle (N:=N) (t_itv t) (env (t_dim t)) fmi).
        set (cst' := itv_add (N:=N) cst _).
        assert (A' : in_itv (c + (k - Q2R m) * v (t_dim t)) cst').
        { apply itv_add_sound; auto. apply itv_mul_sound; auto.
          destruct Hk as [K1 K2]. unfold itv_sub_bound. split; simpl.
          - replace (- (k - Q2R m))%R with (- k + Q2R m)%R by lra. apply badd_sound; auto. simpl. lra.
          - unfold Bound.bsub. destruct (sup (t_itv t)) as [|q|]; simpl in *; try tauto.
            apply rnd_ge. unfold Qminus. rewrite Q2R_plus, Q2R_opp. lra. }
        destruct (itv_is_top cst') eqn:TT.
        -- exists (c + (ra + (k * v (t_dim t) + r0)))%R, 0%R. simpl. split. eapply is_top_in; eauto. split. constructor. lra.
        -- destruct (Qeq_bool m 0) eqn:M.
           ++ apply IH; auto. lia. exists (c + (k - Q2R m) * v (t_dim t))%R, (ra + r0)%R. split; auto. split. apply tval_app; eauto 6.
              apply Qeq_bool_iff in M. apply Qeq_Q2R in M. rewrite Q2R_0' in M. rewrite M. lra.
           ++ apply IH; auto. lia. exists (c + (k - Q2R m) * v (t_dim t))%R, (ra + (Q2R m * v (t_dim t) + r0))%R. split; auto. split. 2: lra.
              simpl. rewrite <- app_assoc. simpl. apply tval_app. exists ra, (Q2R m * v (t_dim t) + r0)%R. repeat split; auto.
              apply (tv_cons v (Q2R m) (mkT (itv_of_num m) true (t_dim t))); auto. unfold in_itv, itv_of_num; simpl. rewrite Q2R_opp. lra.
Qed.
Lemma quasilinearize_sound : forall env fmi e v r, in_env v env (il_terms e) -> ival e v r ->
  ival (quasilinearize (N:=N) env fmi e) v r.
Proof.
  intros env fmi e v r I (c & r1 & A & T & ->). unfold quasilinearize. apply ql_loop_sound; auto. exists c, r1; auto.
Qed.

(** every coefficient of the result is a number *)
Lemma ql_loop_shape : forall env fmi fuel acc cst eq todo, (length todo <= fuel)%nat ->
  let P := fun t => t_eq t = true /\ itv_is_point (t_itv t) = true /\ itv_is_point (env (t_dim t)) = false in
  Forall P acc -> flags_ok todo -> Forall P (il_terms (ql_loop (N:=N) fuel env fmi acc cst eq todo)).
Proof.
  intros env fmi. induction fuel as [|fuel IH]; intros acc cst eq todo L P FA FT.
  - destruct todo; simpl in L; try lia. simpl. apply Forall_rev; auto.
  - destruct todo as [|t rest]; simpl. apply Forall_rev; auto.
    simpl in L. inversion FT as [|? ? F1 F2]; subst. destruct (itv_is_point (env (t_dim t))) eqn:PT.
    + apply IH; auto. rewrite swap_out_length; lia. eapply flags_perm; [apply Permutation_sym; apply swap_out_perm|auto].
    + destruct (t_eq t) eqn:E.
      * apply IH; auto. lia. 
      * destruct itv_is_top. constructor. destruct Qeq_bool. apply IH; auto. lia.
        apply IH; auto. lia. constructor; auto. unfold P. simpl. split; auto. split; auto.
        unfold itv_is_point, itv_of_num; simpl. apply Qeq_bool_iff. apply Qopp_involutive.
Qed.
Lemma quasilinearize_shape : forall env fmi e, flags_ok (il_terms e) ->
  Forall (fun t => t_eq t = true /\ itv_is_point (t_itv t) = true /\ itv_is_point (env (t_dim t)) = false)
         (il_terms (quasilinearize (N:=N) env fmi e)).
Proof. intros. apply ql_loop_shape; auto. Qed.
Lemma ql_loop_dims : forall P env fmi fuel acc cst eq todo, dims_in P acc -> dims_in P todo ->
  dims_in P (il_terms (ql_loop (N:=N) fuel env fmi acc cst eq todo)).
Proof.
  intros P env fmi. induction fuel as [|fuel IH]; intros acc cst eq todo FA FT.
  - destruct todo; simpl; apply Forall_rev; auto.
  - destruct todo as [|t rest]; simpl. apply Forall_rev; auto. inversion FT; subst.
    destruct itv_is_point.
    + apply IH; auto. eapply Permutation_Forall; [apply Permutation_sym; apply swap_out_perm|auto].
    + destruct (t_eq t). apply IH; auto. constructor; auto. destruct itv_is_top. constructor. destruct Qeq_bool; apply IH; auto. constructor; auto.
Qed.
Lemma quasilinearize_dims : forall P env fmi e, dims_in P (il_terms e) -> dims_in P (il_terms (quasilinearize (N:=N) env fmi e)).
Proof. intros. apply ql_loop_dims; auto. constructor. Qed.

End F.

(** The rows built from the user's constraints. *)
From Coq Require Import ZArith QArith Qround Qreals Reals Lra Bool List Lia.
Import ListNotations.
From Verif Require Import Bound BoundFacts Itv Linexpr LinexprFacts ItvFacts ItvLin ItvLinFacts ItvLinCons ItvLinInt PkCone PkVec PkCherni PkCherniFacts PkSimplify PkMinimize PkSpec PkPoly PkPolyFacts Box PkOps PkAssign PkUser.
Open Scope R_scope.

(** value of a row at a point *)
Definition rval (dim : nat) (q : pvec) (v : nat -> R) : R := IZR (zn 1 q) + sm dim (fun i => IZR (zn (i + 2) q) * v i).
Lemma rval_dt : forall dim q v, rval dim q v = dt (S dim) (rv (tl q)) (homog v).
Proof. intros. unfold rval, dt. rewrite sm_shift. unfold homog at 1, rv at 1. rewrite <- zn_tl. rewrite Rmult_1_r. f_equal. apply sm_ext. intros i _. unfold rv, homog. rewrite <- zn_tl. replace (i + 2)%nat with (S (S i)) by lia. auto. Qed.
Lemma row_rval : forall dim q v, lenS (S dim) q -> (row_holds q (homog v) <-> if (zn 0 q =? 0)%Z then rval dim q v = 0 else 0 <= rval dim q v).
Proof. intros dim q v L. rewrite (row_dt (S dim)) by auto. rewrite rval_dt. tauto. Qed.
Lemma zn_set_at : forall j x q k, (k < length q)%nat -> zn k (set_at j x q) = if Nat.eqb k j then x else zn k q.
Proof. intros j x q k L. unfold set_at, zn. rewrite (nth_indep _ 0%Z ((fun k => if Nat.eqb k j then x else nth k q 0%Z) 0%nat)) by (rewrite map_length, seq_length; auto). rewrite (map_nth (fun k => if Nat.eqb k j then x else nth k q 0%Z)). rewrite seq_nth by auto. auto. Qed.
Lemma len_set_at : forall n j x q, lenS n q -> lenS n (set_at j x q). Proof. intros. unfold lenS, set_at in *. rewrite map_length, seq_length. auto. Qed.
Lemma rval_ext : forall dim q q' v, zn 1 q = zn 1 q' -> (forall i, (i < dim)%nat -> zn (i + 2) q = zn (i + 2) q') -> rval dim q v = rval dim q' v.
Proof. intros. unfold rval. rewrite H. f_equal. apply sm_ext. intros i I. rewrite H0; auto. Qed.
Lemma rval_at0 : forall dim x q v, lenS (S dim) q -> rval dim (set_at 0 x q) v = rval dim q v.
Proof. intros dim x q v L. unfold lenS in L. apply rval_ext; intros; rewrite zn_set_at by lia; auto. replace (Nat.eqb (i + 2) 0) with false by (symmetry; apply Nat.eqb_neq; lia). auto. Qed.
Lemma rval_at1 : forall dim x q v, lenS (S dim) q -> rval dim (set_at 1 x q) v = rval dim q v + (IZR x - IZR (zn 1 q)).
Proof. intros dim x q v L. unfold lenS in L. unfold rval. rewrite zn_set_at by lia. simpl (Nat.eqb 1 1). rewrite (sm_ext dim (fun i => IZR (zn (i + 2) (set_at 1 x q)) * v i) (fun i => IZR (zn (i + 2) q) * v i)). ring. intros i I. rewrite zn_set_at by lia. replace (Nat.eqb (i + 2) 1) with false by (symmetry; apply Nat.eqb_neq; lia). auto. Qed.
Lemma rval_norm : forall dim q, lenS (S dim) q -> exists k, 0 < k /\ forall v, rval dim (vector_normalize q) v = k * rval dim q v.
Proof. intros dim q L. destruct (norm_row _ _ L) as (_ & _ & k & K & E). exists k. split; auto. intros v. rewrite !rval_dt. unfold dt. rewrite <- sm_scal. apply sm_ext. intros i _. rewrite E. ring. Qed.
(** integer rows have integer values at integer points *)
Lemma sm_int : forall n f, (forall i, (i < n)%nat -> is_integer (f i)) -> is_integer (sm n f).
Proof. induction n; simpl; intros f H. exists 0%Z; auto. destruct (IHn f) as (a & A). intros; apply H; lia. destruct (H n) as (b & B). lia. exists (a + b)%Z. rewrite plus_IZR. congruence. Qed.
Lemma nth_skip : forall (k i : nat) (l : list Z), nth i (skipn k l) 0%Z = nth (k + i) l 0%Z. Proof. induction k; intros i [|x l]; simpl; auto. destruct i; auto. Qed.
Lemma is_int_nth : forall n intdim q, lenS (S n) q -> vector_is_integer intdim q = true -> forall i, (i < n)%nat -> (intdim <= i)%nat -> zn (i + 2) q = 0%Z.
Proof. intros n intdim q L V i I J. unfold vector_is_integer in V. rewrite forallb_forall in V. unfold lenS in L. apply Z.eqb_eq. apply V. unfold zn. replace (i + 2)%nat with (intdim + 2 + (i - intdim))%nat by lia. rewrite <- nth_skip. apply nth_In. rewrite skipn_length. lia. Qed.
Lemma int_sum : forall n intdim q v, lenS (S n) q -> vector_is_integer intdim q = true -> int_point intdim v -> is_integer (sm n (fun i => IZR (zn (i + 2) q) * v i)).
Proof. intros n intdim q v L V P. apply sm_int. intros i I. destruct (Nat.lt_ge_cases i intdim) as [J|J]. destruct (P i J) as (z & ->). exists (zn (i + 2) q * z)%Z. rewrite mult_IZR; auto. rewrite (is_int_nth n intdim q) by auto. exists 0%Z. ring. Qed.
Lemma skip2 : forall n q, lenS (S n) q -> exists a b t, q = a :: b :: t /\ length t = n. Proof. intros n [|a [|b t]] L; unfold lenS in L; simpl in L; try discriminate. exists a, b, t. split; auto; lia. Qed.
Lemma rval_cons : forall n a b t v, rval n (a :: b :: t) v = IZR b + sm n (fun i => IZR (nth i t 0%Z) * v i).
Proof. intros. unfold rval. unfold zn at 1. simpl nth at 1. f_equal. apply sm_ext. intros i _. unfold zn. replace (i + 2)%nat with (S (S i)) by lia. auto. Qed.
Lemma vint_head : forall intdim a b a' b' t, vector_is_integer intdim (a :: b :: t) = vector_is_integer intdim (a' :: b' :: t). Proof. intros. unfold vector_is_integer. replace (intdim + 2)%nat with (S (S intdim)) by lia. reflexivity. Qed.
Lemma nth_map0 : forall (f : Z -> Z) t i, f 0%Z = 0%Z -> nth i (map f t) 0%Z = f (nth i t 0%Z). Proof. induction t as [|a t IH]; intros [|i] E; simpl; auto. Qed.
Lemma norm_int_spec : forall intdim n q, lenS (S n) q -> let q' := vector_normalize_constraint_int intdim q in
  lenS (S n) q' /\ forall v, (row_holds q' (homog v) -> row_holds q (homog v)) /\ (int_point intdim v -> row_holds q (homog v) -> row_holds q' (homog v)).
Proof.
  intros intdim n q L q'. unfold q', vector_normalize_constraint_int. clear q'. destruct (_ && _ && _) eqn:B.
  2: { destruct (norm_row _ _ L) as (L' & S & _). split; auto. intros v. rewrite !(row_rval n) by auto. rewrite S. destruct (rval_norm n q L) as (k & K & E). rewrite E. destruct (zn 0 q =? 0)%Z; split; intros; try (apply Rmult_integral in H; lra); try (rewrite H0; ring); try nra. }
  apply andb_true_iff in B. destruct B as (B & _). apply andb_true_iff in B. destruct B as (_ & VI).
  destruct (skip2 n q L) as (a & b & t & -> & LT). change (skipn 2 (a :: b :: t)) with t. change (zn 0 (a :: b :: t)) with a. change (zn 1 (a :: b :: t)) with b.
  set (g := vector_gcd t). destruct (g >? 1)%Z eqn:G; [|split; [auto|intros v; split; auto]]. apply Z.gtb_lt in G. assert (GR : 0 < IZR g) by (apply IZR_lt; lia).
  assert (D : forall i, (g | nth i t 0)%Z). { intros i. destruct (Nat.lt_ge_cases i (length t)) as [I|I]. unfold g. rewrite vector_gcd_spec. apply (proj1 (zgcd_divide t (zgcd t))). apply Z.divide_refl. apply nth_In; auto. rewrite nth_overflow by auto. apply Z.divide_0_r. }
  assert (LM : forall f : Z -> Z, length (map f t) = n) by (intros; rewrite map_length; auto).
  assert (EV : forall v, sm n (fun i => IZR (nth i t 0%Z) * v i) = IZR g * sm n (fun i => IZR (nth i (map (fun x => (x / g)%Z) t) 0%Z) * v i)).
  { intros v. rewrite <- sm_scal. apply sm_ext. intros i _. rewrite nth_map0 by (apply Z.div_0_l; lia). destruct (D i) as (z & Hz). rewrite Hz. rewrite Z.div_mul by lia. rewrite mult_IZR. ring. }
  assert (IS : forall v, int_point intdim v -> exists z, sm n (fun i => IZR (nth i (map (fun x => (x / g)%Z) t) 0%Z) * v i) = IZR z).
  { intros v P. apply sm_int. intros i I. rewrite nth_map0 by (apply Z.div_0_l; lia). destruct (Nat.lt_ge_cases i intdim) as [J|J]. destruct (P i J) as (z & ->). exists (nth i t 0 / g * z)%Z. rewrite mult_IZR; auto. pose proof (is_int_nth n intdim _ L VI i I J) as E0. unfold zn in E0. replace (i + 2)%nat with (S (S i)) in E0 by lia. simpl in E0. rewrite E0. rewrite Z.div_0_l by lia. exists 0%Z. ring. }
  destruct (a =? 0)%Z eqn:A.
  - destruct (b mod g =? 0)%Z eqn:M.
    + apply Z.eqb_eq in M. assert (Hb : b = (g * (b / g))%Z) by (rewrite (Z.div_mod b g) at 1; lia). split. unfold lenS. simpl. rewrite LM. auto.
      intros v. rewrite !(row_rval n) by (auto; unfold lenS; simpl; rewrite LM; auto). change (zn 0 (a :: b :: t)) with a. rewrite A. change (zn 0 (0%Z :: (b / g)%Z :: map (fun x => (x / g)%Z) t) =? 0)%Z with true. rewrite !rval_cons, EV. assert (HbR : IZR b = IZR g * IZR (b / g)) by (rewrite <- mult_IZR; f_equal; auto). rewrite HbR, <- Rmult_plus_distr_l. split. intros ->. ring. intros _ H. apply Rmult_integral in H. destruct H; auto; lra.
    + split. unfold lenS. simpl. rewrite LM. auto. intros v. rewrite !(row_rval n) by (auto; unfold lenS; simpl; rewrite LM; auto). change (zn 0 (a :: b :: t)) with a. rewrite A. change (zn 0 (0%Z :: 1%Z :: map (fun _ => 0%Z) t) =? 0)%Z with true. rewrite !rval_cons, EV.
      rewrite (sm_0 n (fun i => IZR (nth i (map (fun _ => 0%Z) t) 0%Z) * v i)) by (intros; rewrite nth_map0 by auto; ring). split. intros; lra. intros P H. exfalso. destruct (IS v P) as (z & Hz). rewrite Hz in H. rewrite <- mult_IZR, <- plus_IZR in H. apply eq_IZR in H. apply Z.eqb_neq in M. apply M. replace b with ((- z) * g)%Z by lia. apply Z_mod_mult.
  - split. unfold lenS. simpl. rewrite LM. auto. intros v. rewrite !(row_rval n) by (auto; unfold lenS; simpl; rewrite LM; auto). change (zn 0 (a :: b :: t)) with a. change (zn 0 (a :: (b / g)%Z :: map (fun x => (x / g)%Z) t)) with a. rewrite A, !rval_cons, EV. set (s := sm n (fun i => IZR (nth i (map (fun x => (x / g)%Z) t) 0%Z) * v i)) in *.
    pose proof (Z.div_mod b g ltac:(lia)) as DM. pose proof (Z.mod_pos_bound b g ltac:(lia)) as MB. split.
    + intros H. assert (IZR b = IZR g * IZR (b / g) + IZR (b mod g)) by (rewrite <- mult_IZR, <- plus_IZR; f_equal; lia). assert (0 <= IZR (b mod g)) by (apply IZR_le; lia). nra.
    + intros P H. destruct (IS v P) as (z & Hz). fold s in Hz. rewrite Hz in *. rewrite <- mult_IZR, <- plus_IZR in H. rewrite <- plus_IZR. apply IZR_le. apply le_IZR in H. assert (- z <= b / g)%Z by (apply Z.div_le_lower_bound; lia). lia.
Qed.
Definition relaxed (ty : constyp) (r : R) : Prop := match ty with CEq => r = 0 | _ => 0 <= r end.
Theorem finish_spec : forall ty intdim n q, lenS (S n) q -> let q' := finish_lincons ty intdim q in
  lenS (S n) q' /\ forall v, (row_holds q' (homog v) -> relaxed ty (rval n q v)) /\ (row_typ ty = true -> int_point intdim v -> sat_typ ty (Some (Fin 0)) (rval n q v) -> row_holds q' (homog v)).
Proof.
  intros ty intdim n q L q'. unfold q', finish_lincons. clear q'. destruct (norm_row _ _ L) as (L1 & _ & _). destruct (rval_norm n q L) as (k & K & EK). set (q1 := vector_normalize q) in *. clearbody q1.
  set (s := match ty with CEq => 0%Z | _ => 1%Z end). set (q2 := set_at 0 s q1). assert (L2 : lenS (S n) q2) by (apply len_set_at; auto). assert (E2 : forall v, rval n q2 v = k * rval n q v) by (intros; unfold q2; rewrite rval_at0; auto). assert (Z2 : zn 0 q2 = s) by (unfold q2; rewrite zn_set_at by (unfold lenS in L1; lia); auto).
  set (q3 := match ty with CSup => if vector_is_integer intdim q2 then set_at 1 (zn 1 q2 - 1)%Z q2 else q2 | _ => q2 end).
  assert (L3 : lenS (S n) q3). { unfold q3. destruct ty; auto. destruct (vector_is_integer intdim q2); auto. apply len_set_at; auto. }
  assert (Z3 : zn 0 q3 = s). { unfold q3. destruct ty; auto. destruct (vector_is_integer intdim q2); auto. rewrite zn_set_at by (unfold lenS in L2; lia); auto. }
  destruct (norm_int_spec intdim n q3 L3) as (L4 & H4). split; auto. intros v. destruct (H4 v) as (HA & HB). rewrite (row_rval n q3) in HA, HB by auto. rewrite Z3 in HA, HB. split.
  - intros H. apply HA in H. unfold relaxed. destruct ty; simpl in *; unfold q3 in H; try (rewrite E2 in H); try nra.
    destruct (vector_is_integer intdim q2). rewrite rval_at1 in H by auto. rewrite E2, minus_IZR in H. assert (0 <= k * rval n q v) by lra. nra. rewrite E2 in H. nra.
  - intros RT P ST. apply HB; auto. destruct ty; simpl in *; try discriminate; unfold q3; try (rewrite E2). rewrite ST; ring. nra.
    destruct (vector_is_integer intdim q2) eqn:VI; [|rewrite E2; nra]. rewrite rval_at1 by auto. rewrite minus_IZR. pose proof (int_sum n intdim q2 v L2 VI P) as (z & Hz). assert (HR : rval n q2 v = IZR (zn 1 q2 + z)) by (unfold rval; rewrite Hz, plus_IZR; auto). rewrite HR.
    assert (0 < IZR (zn 1 q2 + z)) by (rewrite <- HR, E2; nra). apply lt_IZR in H. assert (1 <= IZR (zn 1 q2 + z)) by (apply IZR_le; lia). lra.
Qed.

(** ** expressions *)
Lemma rat_R : forall q, Q2R q = IZR (rnum q) / IZR (rden q).
Proof. intros q. rewrite <- (Qeq_eqR _ _ (Qred_correct q)). unfold Q2R, rnum, rden. auto. Qed.
Lemma rden_pos : forall q, (0 < rden q)%Z. Proof. intros. unfold rden. lia. Qed.
Lemma scale_rat : forall l q, (rden q | l)%Z -> IZR (l / rden q * rnum q) = IZR l * Q2R q.
Proof. intros l q (z & ->). pose proof (rden_pos q). rewrite Z.div_mul by lia. rewrite rat_R, !mult_IZR. field. apply not_0_IZR. lia. Qed.
Lemma lcm_fold : forall (ts : list iterm) l, (0 < l)%Z -> let m := fold_left (fun l t => Z.lcm l (rden (bfinq (sup (t_itv t))))) ts l in (0 < m)%Z /\ (l | m)%Z /\ forall t, In t ts -> (rden (bfinq (sup (t_itv t))) | m)%Z.
Proof.
  induction ts as [|t ts IH]; intros l P; simpl. repeat split; auto. apply Z.divide_refl. intros _ [].
  pose proof (rden_pos (bfinq (sup (t_itv t)))) as D. assert (P' : (0 < Z.lcm l (rden (bfinq (sup (t_itv t)))))%Z). { pose proof (Z.lcm_nonneg l (rden (bfinq (sup (t_itv t))))). assert (Z.lcm l (rden (bfinq (sup (t_itv t)))) <> 0)%Z. { intros E. apply Z.lcm_eq_0 in E. lia. } lia. }
  destruct (IH _ P') as (A & B & C). split; auto. split. eapply Z.divide_trans; [apply Z.divide_lcm_l|exact B]. intros u [<-|I]; auto. eapply Z.divide_trans; [apply Z.divide_lcm_r|exact B].
Qed.
Fixpoint tsum (ts : list iterm) (v : nat -> R) : R := match ts with [] => 0 | t :: ts => Q2R (bfinq (sup (t_itv t))) * v (t_dim t) + tsum ts v end.
Lemma sm_eset : forall n (f : nat -> Z) d z v, (d < n)%nat -> f d = 0%Z -> sm n (fun i => IZR (eset f d z i) * v i) = sm n (fun i => IZR (f i) * v i) + IZR z * v d.
Proof.
  induction n; intros f d z v D F. lia. simpl. destruct (Nat.eq_dec d n) as [->|NE].
  - rewrite (sm_ext n (fun i => IZR (eset f n z i) * v i) (fun i => IZR (f i) * v i)). unfold eset. rewrite Nat.eqb_refl, F. ring. intros i I. unfold eset. replace (Nat.eqb i n) with false by (symmetry; apply Nat.eqb_neq; lia). auto.
  - rewrite IHn by (auto; lia). unfold eset at 1. replace (Nat.eqb n d) with false by (symmetry; apply Nat.eqb_neq; lia). ring.
Qed.
Lemma fill_sum : forall n l ts f v, NoDup (map t_dim ts) -> Forall (fun t => (t_dim t < n)%nat /\ f (t_dim t) = 0%Z /\ (rden (bfinq (sup (t_itv t))) | l)%Z) ts ->
  sm n (fun i => IZR (fill_terms l ts f i) * v i) = sm n (fun i => IZR (f i) * v i) + IZR l * tsum ts v.
Proof.
  induction ts as [|t ts IH]; intros f v ND FA. simpl. ring. inversion ND as [|? ? NI ND']; subst. inversion FA as [|? ? (D & F0 & DV) FA']; subst. unfold fill_terms. simpl. fold (fill_terms l ts (eset f (t_dim t) (l / rden (bfinq (sup (t_itv t))) * rnum (bfinq (sup (t_itv t))))%Z)).
  rewrite IH; auto. rewrite sm_eset by auto. rewrite scale_rat by auto. ring. rewrite Forall_forall in *. intros u U. destruct (FA' u U) as (A & B & C). repeat split; auto. unfold eset. destruct (Nat.eqb_spec (t_dim u) (t_dim t)) as [E|]; auto. exfalso. apply NI. rewrite <- E. apply in_map; auto.
Qed.
Definition wf_dims (n : nat) (ts : list iterm) : Prop := NoDup (map t_dim ts) /\ Forall (fun t => (t_dim t < n)%nat) ts.
Theorem set_linexpr_spec : forall up n e, wf_dims n (il_terms e) -> let q := vector_set_linexpr up n e in lenS (S n) q /\ exists l, 0 < l /\ forall v, rval n q v = l * ((if up then Q2R (lin_cst up e) else - Q2R (lin_cst up e)) + tsum (il_terms e) v).
Proof.
  intros up n e (ND & DS) q. split. unfold q, vector_set_linexpr, lenS. simpl. rewrite map_length, seq_length. auto. set (l := lin_lcm up e).
  assert (H0 : (0 < if (Z.sgn (Qnum (lin_cst up e)) =? 0)%Z then 1 else rden (lin_cst up e))%Z) by (destruct (_ =? 0)%Z; [lia|apply rden_pos]).
  destruct (lcm_fold (il_terms e) _ H0) as (LP & LD & LT). fold (lin_lcm up e) in LP, LD, LT. fold l in LP, LD, LT.
  assert (LC : (rden (lin_cst up e) | l)%Z). { destruct (_ =? 0)%Z eqn:E in LD; auto. apply Z.eqb_eq in E. assert (Qnum (lin_cst up e) = 0%Z) by (destruct (Qnum (lin_cst up e)); simpl in E; auto; discriminate). assert (rden (lin_cst up e) = 1%Z). { unfold rden. replace (Qred (lin_cst up e)) with (0%Q). auto. change 0%Q with (Qred 0%Q). apply Qred_complete. unfold Qeq. simpl. lia. } rewrite H1. apply Z.divide_1_l. }
  exists (IZR l). split. apply IZR_lt; auto. intros v. unfold q, vector_set_linexpr. rewrite rval_cons. fold l.
  rewrite (sm_ext n (fun i => IZR (nth i (map (fill_terms l (il_terms e) (fun _ => 0%Z)) (seq 0 n)) 0%Z) * v i) (fun i => IZR (fill_terms l (il_terms e) (fun _ => 0%Z) i) * v i)).
  2: { intros i I. rewrite (nth_indep _ 0%Z (fill_terms l (il_terms e) (fun _ => 0%Z) 0%nat)) by (rewrite map_length, seq_length; auto). rewrite map_nth, seq_nth by auto. auto. }
  rewrite fill_sum; auto. rewrite sm_0 by (intros; ring). destruct up; rewrite ?opp_IZR, scale_rat by auto; ring.
  rewrite Forall_forall in *. intros t T. repeat split; auto.
Qed.

(** Comparison of scalars, intervals and coefficients; equality of linear expressions. *)
From Coq Require Import Arith ZArith QArith Qround Qreals Reals Lra Lia Bool List Sorted Permutation.
From Verif Require Import Bound BoundFacts Util Itv Linexpr LinexprFacts OctResize2 OctResize3 ItvLin ItvLinFacts Box BoxDims BoxOps ApCore ApCoreFacts.
Import ListNotations.
Open Scope nat_scope.
#[local] Arguments Nat.leb : simpl never.
#[local] Arguments Nat.ltb : simpl never.
#[local] Arguments Nat.eqb : simpl never.
#[local] Arguments Nat.compare : simpl never.
#[local] Arguments Qeq_bool : simpl never.

(** ** scalars *)
Lemma scalar_cmp_le : forall a b, (scalar_cmp a b <= 0)%Z <-> forall r, le_rb r a -> le_rb r b.
Proof.
  intros a b. rewrite scalar_cmp_bcmp, bcmp_le. apply le_bb_rb.
Qed.
Lemma scalar_cmp_anti : forall a b, scalar_cmp b a = (- scalar_cmp a b)%Z.
Proof. intros. rewrite !scalar_cmp_bcmp. apply bcmp_anti. Qed.
Lemma scalar_cmp_eq : forall a b, scalar_cmp a b = 0%Z <-> forall r, le_rb r a <-> le_rb r b.
Proof.
  intros. split.
  - intro H. assert (A : (scalar_cmp a b <= 0)%Z) by lia. assert (B : (scalar_cmp b a <= 0)%Z) by (rewrite scalar_cmp_anti; lia).
    rewrite scalar_cmp_le in A, B. intro r. split; auto.
  - intro H. assert (A : (scalar_cmp a b <= 0)%Z) by (apply scalar_cmp_le; apply H). assert (B : (scalar_cmp b a <= 0)%Z) by (apply scalar_cmp_le; intros r; apply H).
    rewrite scalar_cmp_anti in B. lia.
Qed.
Lemma scalar_equal_cmp : forall a b, scalar_equal a b = true <-> scalar_cmp a b = 0%Z.
Proof. intros. rewrite scalar_cmp_bcmp, scalar_equal_bequal. apply bequal_cmp. Qed.
Lemma scalar_cmp_range : forall a b, (scalar_cmp a b = -1 \/ scalar_cmp a b = 0 \/ scalar_cmp a b = 1)%Z.
Proof. intros. rewrite scalar_cmp_bcmp. destruct a, b; simpl; auto. unfold qcmp. destruct (q ?= q0)%Q; auto. Qed.

(** ** intervals *)
Definition in_u (r : R) (i : uitv) : Prop := ge_rb r (fst i) /\ le_rb r (snd i).
Definition proper (i : uitv) : Prop := fst i <> PInf /\ snd i <> MInf.
Definition lR (a b : bound) : Prop := match a, b with MInf, _ => True | _, PInf => True | Fin p, Fin q => (Q2R p <= Q2R q)%R | _, _ => False end.
Lemma le_bb_R : forall a b, le_bb a b <-> lR a b.
Proof. intros [|p|] [|q|]; simpl; try tauto. apply le_bb_Fin. Qed.
Lemma proper_ne : forall i, proper i -> (le_bb (fst i) (snd i) <-> exists r, in_u r i).
Proof.
  intros i [A B]. rewrite le_bb_R. destruct i as [[|p|] [|q|]]; unfold in_u; simpl in *; try congruence; (split; [intro H|intros (r & H); auto; try lra]).
  - exists (Q2R q). split; auto. lra.
  - exists 0%R. auto.
  - exists (Q2R p). lra.
  - exists (Q2R p). split; auto. lra.
Qed.
Lemma is_bottom_iff : forall i, proper i -> (interval_is_bottom i = true <-> forall r, ~ in_u r i).
Proof.
  intros i P. unfold interval_is_bottom. rewrite scalar_cmp_bcmp, Z.ltb_lt, bcmp_gt. rewrite proper_ne by auto. firstorder.
Qed.
Lemma incl_ne : forall i j, proper i -> proper j -> le_bb (fst i) (snd i) ->
  ((forall r, in_u r i -> in_u r j) <-> le_bb (fst j) (fst i) /\ le_bb (snd i) (snd j)).
Proof.
  intros [a b] [c d] [A B] [C D] NE. rewrite le_bb_R in *. rewrite le_bb_R. simpl in *. split.
  - intro H. split.
    + destruct c as [|q|], a as [|p|]; simpl in *; try congruence; auto.
      * destruct b as [|s|]; simpl in *; try congruence.
        -- specialize (H (Rmin (Q2R s) (Q2R q - 1))). unfold in_u in H; simpl in H. pose proof (Rmin_l (Q2R s) (Q2R q - 1)). pose proof (Rmin_r (Q2R s) (Q2R q - 1)). assert (Q2R q <= Rmin (Q2R s) (Q2R q - 1))%R by (apply H; auto). lra.
        -- specialize (H (Q2R q - 1)%R). unfold in_u in H; simpl in H. assert (Q2R q <= Q2R q - 1)%R by (apply H; auto). lra.
      * specialize (H (Q2R p)). unfold in_u in H; simpl in H. apply H. split. lra. destruct b; simpl in *; auto.
    + destruct d as [|q|], b as [|p|]; simpl in *; try congruence; auto.
      * specialize (H (Q2R p)). unfold in_u in H; simpl in H. apply H. split; [|lra]. destruct a; simpl in *; auto; congruence.
      * destruct a as [|s|]; simpl in *; try congruence.
        -- specialize (H (Q2R q + 1)%R). unfold in_u in H; simpl in H. assert (Q2R q + 1 <= Q2R q)%R by (apply H; auto). lra.
        -- specialize (H (Rmax (Q2R s) (Q2R q + 1))). unfold in_u in H; simpl in H. pose proof (Rmax_l (Q2R s) (Q2R q + 1)). pose proof (Rmax_r (Q2R s) (Q2R q + 1)). assert (Rmax (Q2R s) (Q2R q + 1) <= Q2R q)%R by (apply H; auto). lra.
  - intros [H1 H2] r [R1 R2]. simpl in *. split; simpl.
    + destruct c, a; simpl in *; auto; try tauto. lra.
    + destruct b, d; simpl in *; auto; try tauto. lra.
Qed.
Lemma is_leq_iff : forall i j, proper i -> proper j -> (interval_is_leq i j = true <-> forall r, in_u r i -> in_u r j).
Proof.
  intros i j Pi Pj. unfold interval_is_leq. rewrite orb_true_iff, andb_true_iff, Z.leb_le, Z.leb_le, is_bottom_iff by auto. rewrite !scalar_cmp_bcmp.
  rewrite bcmp_le. assert (SW : (0 <= bcmp (fst i) (fst j))%Z <-> le_bb (fst j) (fst i)) by (rewrite <- bcmp_le, (bcmp_anti (fst i) (fst j)); lia).
  rewrite SW. destruct (le_bb_dec (fst i) (snd i)) as [L|L].
  - rewrite (incl_ne i j Pi Pj L). rewrite (proper_ne i Pi) in L. destruct L as (r & L). firstorder.
  - rewrite (proper_ne i Pi) in L. split. intros _ r X. exfalso. apply L. eauto. intros _. right. intros r X. apply L. eauto.
Qed.
Lemma equal_iff : forall i j, proper i -> proper j -> (interval_equal i j = true <-> forall r, in_u r i <-> in_u r j).
Proof.
  intros i j Pi Pj. unfold interval_equal. destruct (scalar_equal (fst i) (fst j) && scalar_equal (snd i) (snd j)) eqn:Q.
  - apply andb_true_iff in Q. destruct Q as [Q1 Q2]. rewrite scalar_equal_bequal in *. split; auto. intros _ r. unfold in_u.
    destruct (fst i) as [|a|], (fst j) as [|b|]; simpl in Q1; try discriminate; destruct (snd i) as [|c|], (snd j) as [|d|]; simpl in Q2; try discriminate; simpl; try tauto;
      try apply Qeq_bool_eq in Q1; try apply Qeq_bool_eq in Q2; try apply Qeq_eqR in Q1; try apply Qeq_eqR in Q2; split; intros [X Y]; split; auto; lra.
  - rewrite andb_true_iff, !is_bottom_iff by auto. split.
    + intros [A B] r. split; intro X; exfalso; [apply (A r X)|apply (B r X)].
    + intro H. destruct (le_bb_dec (fst i) (snd i)) as [L|L].
      * exfalso. assert (L2 : le_bb (fst j) (snd j)). { apply proper_ne; auto. rewrite proper_ne in L by auto. destruct L as (r & L). exists r. apply H; auto. }
        destruct (proj1 (incl_ne i j Pi Pj L) (fun r => proj1 (H r))) as [A1 A2]. destruct (proj1 (incl_ne j i Pj Pi L2) (fun r => proj2 (H r))) as [B1 B2].
        apply bcmp_le in A1, A2, B1, B2. rewrite (bcmp_anti (fst i)) in A1. rewrite (bcmp_anti (snd i)) in B2. apply andb_false_iff in Q. rewrite !scalar_equal_bequal in Q.
        assert (Z1 : bequal (fst i) (fst j) = true) by (apply bequal_cmp; lia). assert (Z2 : bequal (snd i) (snd j) = true) by (apply bequal_cmp; lia). rewrite Z1, Z2 in Q. destruct Q; discriminate.
      * rewrite proper_ne in L by auto. split; intros r X; apply L; exists r; auto. apply H; auto.
Qed.
Lemma interval_cmp_anti : forall i j, interval_cmp j i = (- interval_cmp i j)%Z.
Proof.
  intros i j. unfold interval_cmp. rewrite (scalar_cmp_anti (fst i)), (scalar_cmp_anti (snd i)).
  destruct (scalar_cmp_range (fst i) (fst j)) as [H|[H|H]], (scalar_cmp_range (snd i) (snd j)) as [K|[K|K]]; rewrite H, K; simpl; auto;
    destruct (interval_is_bottom i), (interval_is_bottom j); reflexivity.
Qed.
Lemma interval_cmp_0 : forall i j, interval_cmp i j = 0%Z -> interval_equal i j = true.
Proof.
  intros i j. unfold interval_cmp, interval_equal.
  destruct (scalar_cmp_range (fst i) (fst j)) as [H|[H|H]], (scalar_cmp_range (snd i) (snd j)) as [K|[K|K]]; rewrite H, K; simpl; intro X; try discriminate;
    try (rewrite (proj2 (scalar_equal_cmp _ _) H), (proj2 (scalar_equal_cmp _ _) K); reflexivity);
    destruct (interval_is_bottom i), (interval_is_bottom j); try discriminate; simpl; destruct (scalar_equal _ _ && scalar_equal _ _); auto.
Qed.
Lemma interval_equal_0 : forall i j, interval_is_bottom i = false \/ interval_is_bottom j = false -> interval_equal i j = true -> interval_cmp i j = 0%Z.
Proof.
  intros i j NB. unfold interval_equal. destruct (scalar_equal (fst i) (fst j) && scalar_equal (snd i) (snd j)) eqn:Q.
  - intros _. apply andb_true_iff in Q. destruct Q as [Q1 Q2]. apply scalar_equal_cmp in Q1, Q2. unfold interval_cmp. rewrite Q1, Q2. auto.
  - intro H. apply andb_true_iff in H. destruct H, NB; congruence.
Qed.
Lemma interval_cmp_m1 : forall i j, interval_cmp i j = (-1)%Z -> interval_is_leq i j = true.
Proof.
  intros i j. unfold interval_cmp, interval_is_leq.
  destruct (scalar_cmp_range (fst i) (fst j)) as [H|[H|H]], (scalar_cmp_range (snd i) (snd j)) as [K|[K|K]]; rewrite H, K; simpl; intro X; try discriminate; auto;
    destruct (interval_is_bottom i), (interval_is_bottom j); try discriminate; auto.
Qed.
Lemma interval_cmp_2 : forall i j, interval_cmp i j = 2%Z -> interval_is_bottom i = false /\ interval_is_bottom j = false /\ (0 < scalar_cmp (fst i) (fst j))%Z /\ (0 < scalar_cmp (snd i) (snd j))%Z.
Proof.
  intros i j. unfold interval_cmp.
  destruct (scalar_cmp_range (fst i) (fst j)) as [H|[H|H]], (scalar_cmp_range (snd i) (snd j)) as [K|[K|K]]; rewrite H, K; simpl; intro X; try discriminate;
    destruct (interval_is_bottom i), (interval_is_bottom j); try discriminate; repeat split; auto.
Qed.

(** ** coefficients *)
Definition same (c c' : coeff) : Prop := forall r, coeff_in r c <-> coeff_in r c'.
Definition citv (c : coeff) : uitv := match c with Scal b => (b, b) | Intv l u => (l, u) end.
Lemma citv_proper : forall c, wf_coeff c -> proper (citv c).
Proof. intros [[|q|]|l u]; simpl; unfold proper; simpl; try tauto. split; discriminate. Qed.
Lemma citv_in : forall c r, wf_coeff c -> (coeff_in r c <-> in_u r (citv c)).
Proof. intros [[|q|]|l u] r W; simpl in *; try tauto; unfold in_u; simpl; try tauto. split. intros ->. split; lra. lra. Qed.
Lemma coeff_reduce_cases : forall c, wf_coeff c -> (exists q, coeff_reduce c = Scal (Fin q) /\ scalar_equal (Fin q) (fst (citv c)) = true /\ scalar_equal (Fin q) (snd (citv c)) = true) \/
  (exists l u, c = Intv l u /\ coeff_reduce c = c /\ bequal l u = false).
Proof.
  intros [[|q|]|l u]; simpl; try tauto; intro W.
  - left. exists q. split; auto. rewrite scalar_equal_bequal. simpl. assert (Qeq_bool q q = true) by (apply Qeq_bool_iff; reflexivity). auto.
  - destruct (bequal l u) eqn:Q; [left|right; eauto]. destruct l as [|p|], u as [|q|]; simpl in Q; try discriminate; try tauto.
    exists p. split; auto. rewrite !scalar_equal_bequal. simpl. split; auto. apply Qeq_bool_iff; reflexivity.
Qed.
Lemma bequal_trans : forall a b c, bequal a b = true -> bequal b c = true -> bequal a c = true.
Proof. intros a b c. rewrite !bequal_cmp, <- !scalar_cmp_bcmp, !scalar_cmp_eq. intros H K r. rewrite H. auto. Qed.
Lemma bequal_sym : forall a b, bequal a b = bequal b a.
Proof. intros [|p|] [|q|]; simpl; auto. apply eq_true_iff_eq. rewrite !Qeq_bool_iff. split; intro; symmetry; auto. Qed.
Lemma interval_equal_cong : forall i i' j j', scalar_equal (fst i) (fst i') = true -> scalar_equal (snd i) (snd i') = true -> scalar_equal (fst j) (fst j') = true -> scalar_equal (snd j) (snd j') = true ->
  proper i -> proper j -> proper i' -> proper j' -> interval_equal i j = interval_equal i' j'.
Proof.
  intros i i' j j' A B C D P1 P2 P3 P4.
  assert (X : forall k k', scalar_equal (fst k) (fst k') = true -> scalar_equal (snd k) (snd k') = true -> proper k -> proper k' -> forall r, in_u r k <-> in_u r k').
  { intros k k' E1 E2 Q1 Q2. apply equal_iff; auto. unfold interval_equal. rewrite E1, E2. auto. }
  apply eq_true_iff_eq. rewrite !equal_iff by auto. split; intros H r. rewrite <- (X i i'), <- (X j j') by auto. auto. rewrite (X i i'), (X j j') by auto. auto.
Qed.
Lemma scal_not_bottom : forall q, interval_is_bottom (Fin q, Fin q) = false.
Proof. intro q. unfold interval_is_bottom. simpl. rewrite scalar_cmp_bcmp. simpl. unfold qcmp. rewrite (proj1 (Qeq_alt q q)) by reflexivity. auto. Qed.
Lemma coeff_equal_iff : forall a b, wf_coeff a -> wf_coeff b -> (coeff_equal (coeff_reduce a) (coeff_reduce b) = true <-> same a b).
Proof.
  intros a b Wa Wb. unfold same. assert (EQ : (forall r, coeff_in r a <-> coeff_in r b) <-> interval_equal (citv a) (citv b) = true).
  { rewrite equal_iff by (apply citv_proper; auto). split; intros H r. rewrite <- !citv_in by auto; auto. rewrite !citv_in by auto; auto. }
  rewrite EQ. clear EQ. assert (PF : forall q, proper (Fin q, Fin q)) by (split; discriminate).
  destruct (coeff_reduce_cases a Wa) as [(p & Ra & A1 & A2)|(l & u & -> & Ra & A1)], (coeff_reduce_cases b Wb) as [(q & Rb & B1 & B2)|(l' & u' & -> & Rb & B1)]; rewrite Ra, Rb; simpl coeff_equal.
  - rewrite <- (interval_equal_cong (Fin p, Fin p) (citv a) (Fin q, Fin q) (citv b)) by auto using citv_proper. unfold interval_equal. simpl fst. simpl snd. rewrite !scal_not_bottom. simpl.
    destruct (scalar_equal (Fin p) (Fin q)); simpl; split; auto.
  - rewrite <- (interval_equal_cong (Fin p, Fin p) (citv a) (l', u') (citv (Intv l' u'))); auto using citv_proper.
    2-3: simpl; rewrite scalar_equal_bequal; apply bequal_cmp; rewrite <- scalar_cmp_bcmp; apply scalar_cmp_eq; tauto.
    unfold interval_equal. rewrite scal_not_bottom. simpl fst. simpl snd. rewrite !scalar_equal_bequal. destruct (bequal (Fin p) l') eqn:Q1, (bequal (Fin p) u') eqn:Q2; simpl; try tauto.
    exfalso. rewrite bequal_sym in Q1. rewrite (bequal_trans _ _ _ Q1 Q2) in B1. discriminate.
  - rewrite <- (interval_equal_cong (l, u) (citv (Intv l u)) (Fin q, Fin q) (citv b)); auto using citv_proper.
    2-3: simpl; rewrite scalar_equal_bequal; apply bequal_cmp; rewrite <- scalar_cmp_bcmp; apply scalar_cmp_eq; tauto.
    unfold interval_equal. rewrite scal_not_bottom. simpl fst. simpl snd. rewrite !scalar_equal_bequal. rewrite andb_false_r. destruct (bequal l (Fin q)) eqn:Q1, (bequal u (Fin q)) eqn:Q2; simpl; try (split; auto; discriminate).
    exfalso. rewrite bequal_sym in Q2. rewrite (bequal_trans _ _ _ Q1 Q2) in A1. discriminate.
  - tauto.
Qed.
Lemma coeff_zero_iff : forall a, wf_coeff a -> (coeff_zero (coeff_reduce a) = true <-> same a czero).
Proof.
  intros a W. assert (Z : forall q, (Z.sgn (Qnum q) =? 0)%Z = Qeq_bool q 0).
  { intro q. apply eq_true_iff_eq. rewrite Z.eqb_eq, Qeq_bool_iff. unfold Qeq. simpl. split; intro H; lia. }
  rewrite <- coeff_equal_iff by (auto; simpl; auto). simpl coeff_reduce at 2. destruct (coeff_reduce_cases a W) as [(p & Ra & A1 & A2)|(l & u & -> & Ra & A1)]; rewrite Ra; simpl; unfold scalar_sgn; simpl.
  - rewrite Z. rewrite scalar_equal_bequal. simpl. tauto.
  - split; [|discriminate]. rewrite andb_true_iff. intros [H1 H2]. exfalso.
    destruct l as [|l|], u as [|u|]; simpl in *; try discriminate. rewrite Z in H1, H2. apply Qeq_bool_iff in H1, H2. assert (X : Qeq_bool l u = true) by (apply Qeq_bool_iff; rewrite H1, H2; reflexivity). congruence.
Qed.
Definition ne_coeff (c : coeff) : Prop := exists r, coeff_in r c.
Lemma coeff_cmp_0 : forall a b, coeff_cmp a b = 0%Z -> coeff_equal a b = true.
Proof.
  intros [a|a b] [c|c d]; simpl; try discriminate. intro; apply scalar_equal_cmp; auto. apply interval_cmp_0.
Qed.
Lemma coeff_equal_0 : forall a b, wf_coeff a -> ne_coeff a -> coeff_equal a b = true -> coeff_cmp a b = 0%Z.
Proof.
  intros [a|a b] [c|c d] W [r N]; simpl; try discriminate. intro; apply scalar_equal_cmp; auto. apply interval_equal_0. left.
  destruct (interval_is_bottom (a, b)) eqn:Q; auto. rewrite is_bottom_iff in Q by (exact W). exfalso. apply (Q r). exact N.
Qed.
Lemma reduce_wf : forall c, wf_coeff c -> wf_coeff (coeff_reduce c).
Proof. intros c W. destruct (coeff_reduce_cases c W) as [(p & -> & _)|(l & u & E & -> & _)]; auto. exact I. Qed.
Lemma reduce_idem : forall c, coeff_reduce (coeff_reduce c) = coeff_reduce c.
Proof. intros [a|a b]; simpl; auto. destruct (bequal a b) eqn:Q; simpl; auto. rewrite Q. auto. Qed.
Lemma reduce_same : forall c, wf_coeff c -> same (coeff_reduce c) c.
Proof.
  intros c W. apply coeff_equal_iff; auto using reduce_wf. rewrite reduce_idem. apply coeff_equal_iff; auto. intro; tauto.
Qed.
Lemma coeff_cmp_iff : forall a b, wf_coeff a -> wf_coeff b -> ne_coeff a -> (coeff_cmp (coeff_reduce a) (coeff_reduce b) = 0%Z <-> same a b).
Proof.
  intros a b Wa Wb N. rewrite <- coeff_equal_iff by auto. split. apply coeff_cmp_0. apply coeff_equal_0. apply reduce_wf; auto. destruct N as (r & N). exists r. apply reduce_same; auto.
Qed.

(** ** the merge of two sorted sequences of terms *)
Definition isview (t : linterms) (l : list (nat * coeff)) : Prop :=
  terms_size t = length l /\ forall i, term_at t i = option_map (fun p => (Some (fst p), snd p)) (nth_error l i).
Definition at_ (l : list (nat * coeff)) (j : nat) : coeff := match sp_coeff (enc l []) j with Some c => c | None => czero end.
Lemma at_nil : forall j, at_ [] j = czero. Proof. reflexivity. Qed.
Lemma at_cons : forall d c l j, at_ ((d, c) :: l) j = if Nat.eqb d j then c else at_ l j.
Proof. intros. unfold at_. simpl. destruct (Nat.eqb d j); auto. Qed.
Lemma at_gt : forall l j, Forall (fun p => j < fst p) l -> at_ l j = czero.
Proof. intros. unfold at_. rewrite sp_coeff_gt; auto. Qed.
Lemma skipn_cons_inv : forall A (l : list A) i x s, skipn i l = x :: s -> nth_error l i = Some x /\ skipn (S i) l = s /\ i < length l.
Proof.
  induction l as [|y l IH]; intros i x s H. destruct i; discriminate. destruct i as [|i]; simpl in *. inversion H; subst. split; auto. split; auto. lia.
  destruct (IH _ _ _ H) as (A1 & A2 & A3). split; auto. split; auto. lia.
Qed.
Lemma skipn_nil_inv : forall A (l : list A) i, skipn i l = [] -> nth_error l i = None /\ length l <= i.
Proof.
  intros A l i H. assert (length l <= i). { assert (length (skipn i l) = 0) by (rewrite H; auto). rewrite skipn_length in H0. lia. } split; auto. apply nth_error_None; auto.
Qed.
Definition wfl (l : list (nat * coeff)) : Prop := srt l /\ Forall (fun p => wf_coeff (snd p)) l.
Lemma wfl_inv : forall d c l, wfl ((d, c) :: l) -> wf_coeff c /\ wfl l /\ Forall (fun p => d < fst p) l.
Proof. intros d c l [S F]. inversion F; subst. unfold srt in S. simpl in S. inversion S; subst. split; auto. split. split; auto. rewrite Forall_map in H4. auto. Qed.
Lemma wfl_at : forall l j, wfl l -> wf_coeff (at_ l j).
Proof. induction l as [|[d c] l IH]; intros j W. exact I. apply wfl_inv in W. destruct W as (W1 & W2 & _). rewrite at_cons. destruct (Nat.eqb d j); auto. Qed.
Lemma same_refl : forall c, same c c. Proof. intros c r; tauto. Qed.
Lemma same_sym : forall a b, same a b -> same b a. Proof. intros a b H r. symmetry; auto. Qed.
Lemma merge_lt : forall d c l1 l2, Forall (fun p => d < fst p) l2 -> Forall (fun p => d < fst p) l1 ->
  ((forall j, same (at_ ((d, c) :: l1) j) (at_ l2 j)) <-> same c czero /\ forall j, same (at_ l1 j) (at_ l2 j)).
Proof.
  intros d c l1 l2 F F1. split.
  - intro H. split. specialize (H d). rewrite at_cons, Nat.eqb_refl in H. rewrite (at_gt l2) in H by auto. auto.
    intro j. specialize (H j). rewrite at_cons in H. destruct (Nat.eqb_spec d j); auto. subst. rewrite !at_gt by auto. apply same_refl.
  - intros [H1 H2] j. rewrite at_cons. destruct (Nat.eqb_spec d j); auto. subst. rewrite (at_gt l2) by auto. auto.
Qed.
Lemma merge_eq : forall d c c' l1 l2, Forall (fun p => d < fst p) l2 -> Forall (fun p => d < fst p) l1 ->
  ((forall j, same (at_ ((d, c) :: l1) j) (at_ ((d, c') :: l2) j)) <-> same c c' /\ forall j, same (at_ l1 j) (at_ l2 j)).
Proof.
  intros d c c' l1 l2 F F1. split.
  - intro H. split. specialize (H d). rewrite !at_cons, Nat.eqb_refl in H. auto.
    intro j. specialize (H j). rewrite !at_cons in H. destruct (Nat.eqb_spec d j); auto. subst. rewrite !at_gt by auto. apply same_refl.
  - intros [H1 H2] j. rewrite !at_cons. destruct (Nat.eqb_spec d j); auto.
Qed.
Lemma same_all_sym : forall l1 l2, (forall j, same (at_ l1 j) (at_ l2 j)) <-> (forall j, same (at_ l2 j) (at_ l1 j)).
Proof. intros; split; intros H j; apply same_sym; auto. Qed.
Lemma if_iff : forall (b : bool) (P Q : Prop) r (o : option bool), (b = true <-> P) -> (exists b', o = Some b' /\ (b' = true <-> Q)) -> r = (if b then o else Some false) -> exists b', r = Some b' /\ (b' = true <-> P /\ Q).
Proof.
  intros b P Q r o H (b' & -> & K) ->. destruct b. exists b'. split; auto. tauto. exists false. split; auto. split; [discriminate|]. intros [X _]. apply H in X. discriminate.
Qed.
Lemma wfl_lt : forall d e c l, wfl ((e, c) :: l) -> d < e -> Forall (fun p => d < fst p) ((e, c) :: l).
Proof. intros d e c l W L. apply wfl_inv in W. destruct W as (_ & _ & F). constructor; auto. eapply Forall_impl; [|exact F]. simpl; intros; lia. Qed.
Section Merge.
Variables (t1 t2 : linterms) (l1 l2 : list (nat * coeff)).
Hypothesis V1 : isview t1 l1.
Hypothesis V2 : isview t2 l2.
Lemma equal_loop_ok : forall fuel i1 i2 s1 s2, skipn i1 l1 = s1 -> skipn i2 l2 = s2 -> length s1 + length s2 <= fuel -> wfl s1 -> wfl s2 ->
  exists b, equal_loop fuel t1 t2 i1 i2 = Some b /\ (b = true <-> forall j, same (at_ s1 j) (at_ s2 j)).
Proof.
  induction fuel as [|fuel IH]; intros i1 i2 s1 s2 E1 E2 LF W1 W2.
  - destruct s1, s2; simpl in LF; try lia. exists true. split; auto. split; auto. intros _ j. apply same_refl.
  - simpl equal_loop. destruct V1 as [S1 T1], V2 as [S2 T2]. rewrite S1, S2, T1, T2.
    assert (LTC : forall d1 c1 r1 x, s1 = (d1, c1) :: r1 -> Forall (fun p => d1 < fst p) s2 -> x = (if coeff_zero (coeff_reduce c1) then equal_loop fuel t1 t2 (S i1) i2 else Some false) ->
      exists b, x = Some b /\ (b = true <-> forall j, same (at_ s1 j) (at_ s2 j))).
    { intros d1 c1 r1 x -> F X. apply skipn_cons_inv in E1. destruct E1 as (N1 & K1 & L1). apply wfl_inv in W1. destruct W1 as (C1 & W1 & F1).
      destruct (if_iff _ _ _ _ _ (coeff_zero_iff c1 C1) (IH (S i1) i2 r1 s2 K1 E2 ltac:(simpl in LF; lia) W1 W2) X) as (b & -> & HB).
      exists b. split; auto. rewrite HB. symmetry. apply merge_lt; auto. }
    assert (GTC : forall d2 c2 r2 x, s2 = (d2, c2) :: r2 -> Forall (fun p => d2 < fst p) s1 -> x = (if coeff_zero (coeff_reduce c2) then equal_loop fuel t1 t2 i1 (S i2) else Some false) ->
      exists b, x = Some b /\ (b = true <-> forall j, same (at_ s1 j) (at_ s2 j))).
    { intros d2 c2 r2 x -> F X. apply skipn_cons_inv in E2. destruct E2 as (N2 & K2 & L2). apply wfl_inv in W2. destruct W2 as (C2 & W2 & F2).
      destruct (if_iff _ _ _ _ _ (coeff_zero_iff c2 C2) (IH i1 (S i2) s1 r2 E1 K2 ltac:(simpl in LF; lia) W1 W2) X) as (b & -> & HB).
      exists b. split; auto. rewrite HB. rewrite (same_all_sym s1 ((d2, c2) :: r2)), (same_all_sym s1 r2). symmetry. apply merge_lt; auto. }
    destruct s1 as [|[d1 c1] s1], s2 as [|[d2 c2] s2].
    + apply skipn_nil_inv in E1, E2. destruct E1 as [_ L1], E2 as [_ L2]. rewrite !(proj2 (Nat.ltb_ge _ _)) by auto. simpl. exists true. split; auto. split; auto. intros _ j. apply same_refl.
    + apply skipn_nil_inv in E1 as X1. destruct X1 as (N1 & L1). apply skipn_cons_inv in E2 as X2. destruct X2 as (N2 & K2 & L2).
      rewrite (proj2 (Nat.ltb_lt i2 _)) by auto. rewrite orb_true_r, N1, N2. eapply GTC; [reflexivity|constructor|reflexivity].
    + apply skipn_cons_inv in E1 as X1. destruct X1 as (N1 & K1 & L1). apply skipn_nil_inv in E2 as X2. destruct X2 as (N2 & L2).
      rewrite (proj2 (Nat.ltb_lt i1 _)) by auto. rewrite N1, N2. eapply LTC; [reflexivity|constructor|reflexivity].
    + apply skipn_cons_inv in E1 as X1. destruct X1 as (N1 & K1 & L1). apply skipn_cons_inv in E2 as X2. destruct X2 as (N2 & K2 & L2).
      rewrite (proj2 (Nat.ltb_lt i1 _)) by auto. rewrite N1, N2. simpl. destruct (Nat.compare_spec d1 d2) as [Q|Q|Q].
      * subst d2. apply wfl_inv in W1 as Y1. destruct Y1 as (C1 & Y1 & F1). apply wfl_inv in W2 as Y2. destruct Y2 as (C2 & Y2 & F2).
        destruct (if_iff _ _ _ _ _ (coeff_equal_iff c1 c2 C1 C2) (IH (S i1) (S i2) s1 s2 K1 K2 ltac:(simpl in LF; lia) Y1 Y2) eq_refl) as (b & -> & HB).
        exists b. split; auto. rewrite HB. symmetry. apply merge_eq; auto.
      * eapply LTC; [reflexivity|apply wfl_lt; auto|reflexivity].
      * eapply GTC; [reflexivity|apply wfl_lt; auto|reflexivity].
Qed.
Lemma to_bool_0 : forall z, (to_bool z =? 0)%Z = true <-> z = 0%Z.
Proof. intro z. unfold to_bool. destruct (Z.eqb_spec z 0); simpl; split; auto; discriminate. Qed.
Lemma compare_loop_ok : forall fuel i1 i2 s1 s2, skipn i1 l1 = s1 -> skipn i2 l2 = s2 -> length s1 + length s2 <= fuel -> wfl s1 -> wfl s2 -> Forall (fun p => ne_coeff (snd p)) s1 ->
  exists z, compare_loop fuel t1 t2 i1 i2 = Some z /\ (z = 0%Z <-> forall j, same (at_ s1 j) (at_ s2 j)).
Proof.
  assert (ZZ : wf_coeff czero) by exact I. assert (NZ : ne_coeff czero) by (exists (Q2R 0); reflexivity).
  assert (CI : forall (z : Z) (P Q : Prop) x o, (z = 0%Z <-> P) -> (exists z', o = Some z' /\ (z' = 0%Z <-> Q)) -> x = (if (to_bool z =? 0)%Z then o else Some (to_bool z)) -> exists z', x = Some z' /\ (z' = 0%Z <-> P /\ Q)).
  { intros z P Q x o H (z' & -> & K) ->. destruct (to_bool z =? 0)%Z eqn:T. apply to_bool_0 in T. exists z'. split; auto. tauto.
    exists (to_bool z). split; auto. split. intro X. rewrite X in T. discriminate. intros [X _]. apply H in X. subst z. discriminate. }
  induction fuel as [|fuel IH]; intros i1 i2 s1 s2 E1 E2 LF W1 W2 NE.
  - destruct s1, s2; simpl in LF; try lia. exists 0%Z. split; auto. split; auto. intros _ j. apply same_refl.
  - simpl compare_loop. destruct V1 as [S1 T1], V2 as [S2 T2]. rewrite S1, S2, T1, T2.
    assert (LTC : forall d1 c1 r1 x, s1 = (d1, c1) :: r1 -> Forall (fun p => d1 < fst p) s2 ->
      x = (if (to_bool (coeff_cmp (coeff_reduce c1) czero) =? 0)%Z then compare_loop fuel t1 t2 (S i1) i2 else Some (to_bool (coeff_cmp (coeff_reduce c1) czero))) ->
      exists z, x = Some z /\ (z = 0%Z <-> forall j, same (at_ s1 j) (at_ s2 j))).
    { intros d1 c1 r1 x -> F X. apply skipn_cons_inv in E1. destruct E1 as (N1 & K1 & L1). apply wfl_inv in W1. destruct W1 as (C1 & W1 & F1). pose proof (Forall_inv NE) as NE1; pose proof (Forall_inv_tail NE) as NE2; simpl in NE1.
      subst x. destruct (CI _ _ _ _ _ (coeff_cmp_iff c1 czero C1 ZZ NE1) (IH (S i1) i2 _ _ K1 E2 ltac:(simpl in LF; lia) W1 W2 NE2) eq_refl) as (b & HX & HB).
      exists b. split; auto. rewrite HB. symmetry. apply merge_lt; auto. }
    assert (GTC : forall d2 c2 r2 x, s2 = (d2, c2) :: r2 -> Forall (fun p => d2 < fst p) s1 ->
      x = (if (to_bool (coeff_cmp czero (coeff_reduce c2)) =? 0)%Z then compare_loop fuel t1 t2 i1 (S i2) else Some (to_bool (coeff_cmp czero (coeff_reduce c2)))) ->
      exists z, x = Some z /\ (z = 0%Z <-> forall j, same (at_ s1 j) (at_ s2 j))).
    { intros d2 c2 r2 x -> F X. apply skipn_cons_inv in E2. destruct E2 as (N2 & K2 & L2). apply wfl_inv in W2. destruct W2 as (C2 & W2 & F2).
      assert (CC : coeff_cmp czero (coeff_reduce c2) = 0%Z <-> same c2 czero). { rewrite (coeff_cmp_iff czero c2 ZZ C2 NZ). split; apply same_sym. }
      subst x. destruct (CI _ _ _ _ _ CC (IH i1 (S i2) _ _ E1 K2 ltac:(simpl in LF; lia) W1 W2 NE) eq_refl) as (b & HX & HB).
      exists b. split; auto. rewrite HB. rewrite (same_all_sym s1 ((d2, c2) :: r2)), (same_all_sym s1 r2). symmetry. apply merge_lt; auto. }
    destruct s1 as [|[d1 c1] s1], s2 as [|[d2 c2] s2].
    + apply skipn_nil_inv in E1, E2. destruct E1 as [_ L1], E2 as [_ L2]. rewrite !(proj2 (Nat.ltb_ge _ _)) by auto. simpl. exists 0%Z. split; auto. split; auto. intros _ j. apply same_refl.
    + apply skipn_nil_inv in E1 as X1. destruct X1 as (N1 & L1). apply skipn_cons_inv in E2 as X2. destruct X2 as (N2 & K2 & L2).
      rewrite (proj2 (Nat.ltb_lt i2 _)) by auto. rewrite orb_true_r, N1, N2. eapply GTC; [reflexivity|constructor|reflexivity].
    + apply skipn_cons_inv in E1 as X1. destruct X1 as (N1 & K1 & L1). apply skipn_nil_inv in E2 as X2. destruct X2 as (N2 & L2).
      rewrite (proj2 (Nat.ltb_lt i1 _)) by auto. rewrite N1, N2. eapply LTC; [reflexivity|constructor|reflexivity].
    + apply skipn_cons_inv in E1 as X1. destruct X1 as (N1 & K1 & L1). apply skipn_cons_inv in E2 as X2. destruct X2 as (N2 & K2 & L2).
      rewrite (proj2 (Nat.ltb_lt i1 _)) by auto. rewrite N1, N2. simpl. destruct (Nat.compare_spec d1 d2) as [Q|Q|Q].
      * subst d2. apply wfl_inv in W1 as Y1. destruct Y1 as (C1 & Y1 & F1). apply wfl_inv in W2 as Y2. destruct Y2 as (C2 & Y2 & F2). pose proof (Forall_inv NE) as NE1; pose proof (Forall_inv_tail NE) as NE2; simpl in NE1.
        destruct (CI _ _ _ _ _ (coeff_cmp_iff c1 c2 C1 C2 NE1) (IH (S i1) (S i2) _ _ K1 K2 ltac:(simpl in LF; lia) Y1 Y2 NE2) eq_refl) as (b & HX & HB).
        exists b. split; auto. rewrite HB. symmetry. apply merge_eq; auto.
      * eapply LTC; [reflexivity|apply wfl_lt; auto|reflexivity].
      * eapply GTC; [reflexivity|apply wfl_lt; auto|reflexivity].
Qed.
End Merge.

(** hole-free sorted expressions *)
Definition no_holes (t : linterms) : Prop := match t with Dense _ => True | Sparse ts => Forall (fun t => fst t <> None) ts end.
Definition lin_wf (e : linexpr) : Prop := wf_coeff (le_cst e) /\ (forall j c, lin_coeff e j = Some c -> wf_coeff c).
Definition lin_ne (e : linexpr) : Prop := ne_coeff (le_cst e) /\ (forall j c, lin_coeff e j = Some c -> ne_coeff c).
Lemma enum_at : forall l o j, sp_coeff (enc (combine (seq o (length l)) l) []) j = if Nat.ltb j o then None else nth_error l (j - o).
Proof.
  induction l as [|c l IH]; intros o j.
  - simpl. destruct (Nat.ltb j o); auto. destruct (j - o); auto.
  - change (enc (combine (seq o (length (c :: l))) (c :: l)) []) with ((Some o, c) :: enc (combine (seq (S o) (length l)) l) []). cbn [sp_coeff]. rewrite IH. destruct (Nat.eqb_spec o j).
    + subst. rewrite Nat.ltb_irrefl, Nat.sub_diag. auto.
    + destruct (Nat.ltb_spec j o), (Nat.ltb_spec j (S o)); try lia; auto. replace (j - o) with (S (j - S o)) by lia. auto.
Qed.
Lemma enum_nth : forall (l : list coeff) o i, nth_error (combine (seq o (length l)) l) i = match nth_error l i with Some c => Some (o + i, c) | None => None end.
Proof.
  induction l as [|c l IH]; intros o [|i]; simpl; auto. rewrite Nat.add_0_r; auto. rewrite IH. destruct (nth_error l i); auto. do 2 f_equal. lia.
Qed.
Lemma enum_srt : forall (l : list coeff) o, srt (combine (seq o (length l)) l).
Proof.
  unfold srt. induction l as [|c l IH]; intros o; simpl; constructor; auto. apply Forall_forall. intros x H. apply in_map_iff in H. destruct H as ([y k] & E & H). apply in_combine_l in H. apply in_seq in H. simpl in E. lia.
Qed.
Lemma sp_coeff_in : forall l d c, srt l -> In (d, c) l -> sp_coeff (enc l []) d = Some c.
Proof.
  induction l as [|[x k] l IH]; intros d c S H; [destruct H|destruct H as [H|H]]; simpl.
  - inversion H; subst. rewrite Nat.eqb_refl. auto.
  - unfold srt in S. simpl in S. inversion S as [|? ? S1 F]; subst. destruct (Nat.eqb_spec x d) as [->|]. rewrite Forall_map, Forall_forall in F. apply F in H. simpl in H. lia. apply IH; auto.
Qed.
Lemma view_of : forall e, lin_sorted (le_terms e) -> no_holes (le_terms e) -> exists l, isview (le_terms e) l /\ srt l /\ (forall j, lin_coeff e j = sp_coeff (enc l []) j) /\
  (forall P : coeff -> Prop, (forall j c, lin_coeff e j = Some c -> P c) -> Forall (fun p => P (snd p)) l).
Proof.
  assert (FP : forall e l, srt l -> (forall j, lin_coeff e j = sp_coeff (enc l []) j) -> forall P : coeff -> Prop, (forall j c, lin_coeff e j = Some c -> P c) -> Forall (fun p => P (snd p)) l).
  { intros e l S L P H. apply Forall_forall. intros [d c] I. apply (H d). rewrite L. apply sp_coeff_in; auto. }
  intros [k [l|ts]] S N; simpl in *.
  - exists (combine (seq 0 (length l)) l). assert (L : forall j, lin_coeff (mkLin k (Dense l)) j = sp_coeff (enc (combine (seq 0 (length l)) l) []) j).
    { intro j. rewrite enum_at. simpl. rewrite Nat.sub_0_r. destruct (Nat.ltb_spec j 0); auto; lia. }
    split; [|split; [apply enum_srt|split; auto; apply (FP (mkLin k (Dense l))); auto; apply enum_srt]].
    split. simpl. rewrite combine_length, seq_length. lia. intro i. simpl. rewrite enum_nth. destruct (nth_error l i); auto.
  - destruct S as (l & h & -> & S). assert (h = []). { destruct h; auto. unfold enc in N. apply Forall_app in N. destruct N as [_ N]. inversion N; subst. simpl in *; congruence. } subst h.
    exists l. split; [|split; auto; split; auto; apply (FP (mkLin k (Sparse (enc l [])))); auto].
    split. simpl. rewrite enc_length. simpl; lia. intro i. simpl. unfold enc. simpl. rewrite app_nil_r. apply nth_error_map.
Qed.
Lemma linexpr_equal_ok : forall e1 e2, lin_sorted (le_terms e1) -> lin_sorted (le_terms e2) -> no_holes (le_terms e1) -> no_holes (le_terms e2) -> lin_wf e1 -> lin_wf e2 ->
  exists b, linexpr_equal e1 e2 = Some b /\ (b = true <-> same (le_cst e1) (le_cst e2) /\ forall j, same (coeff_at e1 j) (coeff_at e2 j)).
Proof.
  intros e1 e2 S1 S2 N1 N2 [C1 W1] [C2 W2]. destruct (view_of e1 S1 N1) as (l1 & V1 & R1 & A1 & F1), (view_of e2 S2 N2) as (l2 & V2 & R2 & A2 & F2).
  unfold linexpr_equal. pose proof (proj1 V1) as Z1. pose proof (proj1 V2) as Z2.
  destruct (equal_loop_ok (le_terms e1) (le_terms e2) l1 l2 V1 V2 (terms_size (le_terms e1) + terms_size (le_terms e2)) 0 0 l1 l2 eq_refl eq_refl ltac:(lia) (conj R1 (F1 _ W1)) (conj R2 (F2 _ W2))) as (b & HB & IB).
  rewrite HB. assert (EQ : (forall j, same (at_ l1 j) (at_ l2 j)) <-> forall j, same (coeff_at e1 j) (coeff_at e2 j)).
  { unfold at_, coeff_at. split; intros H j; specialize (H j); rewrite ?A1, ?A2 in *; auto. }
  rewrite EQ in IB. destruct (coeff_equal (coeff_reduce (le_cst e1)) (coeff_reduce (le_cst e2))) eqn:Q.
  - apply coeff_equal_iff in Q; auto. exists b. split; auto. tauto.
  - exists false. split; auto. split; [discriminate|]. intros [X _]. apply coeff_equal_iff in X; auto. congruence.
Qed.
Lemma linexpr_compare_ok : forall e1 e2, lin_sorted (le_terms e1) -> lin_sorted (le_terms e2) -> no_holes (le_terms e1) -> no_holes (le_terms e2) -> lin_wf e1 -> lin_wf e2 -> lin_ne e1 ->
  exists z, linexpr_compare e1 e2 = Some z /\ (z = 0%Z <-> same (le_cst e1) (le_cst e2) /\ forall j, same (coeff_at e1 j) (coeff_at e2 j)).
Proof.
  intros e1 e2 S1 S2 N1 N2 [C1 W1] [C2 W2] [NC NE]. destruct (view_of e1 S1 N1) as (l1 & V1 & R1 & A1 & F1), (view_of e2 S2 N2) as (l2 & V2 & R2 & A2 & F2).
  unfold linexpr_compare. pose proof (proj1 V1) as Z1. pose proof (proj1 V2) as Z2.
  destruct (compare_loop_ok (le_terms e1) (le_terms e2) l1 l2 V1 V2 (terms_size (le_terms e1) + terms_size (le_terms e2)) 0 0 l1 l2 eq_refl eq_refl ltac:(lia) (conj R1 (F1 _ W1)) (conj R2 (F2 _ W2)) (F1 _ NE)) as (z & HB & IB).
  rewrite HB. assert (EQ : (forall j, same (at_ l1 j) (at_ l2 j)) <-> forall j, same (coeff_at e1 j) (coeff_at e2 j)).
  { unfold at_, coeff_at. split; intros H j; specialize (H j); rewrite ?A1, ?A2 in *; auto. }
  rewrite EQ in IB. destruct (Z.eqb_spec z 0) as [Q|Q].
  - eexists. split; [reflexivity|]. rewrite <- (coeff_cmp_iff (le_cst e1) (le_cst e2)) by auto. unfold to_bool. destruct (Z.eqb_spec (coeff_cmp (coeff_reduce (le_cst e1)) (coeff_reduce (le_cst e2))) 0). tauto.
    split; [discriminate|]. tauto.
  - exists z. split; auto. tauto.
Qed.

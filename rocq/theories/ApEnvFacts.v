(** Facts about environments (ApEnv.v). *)
From Coq Require Import Arith ZArith Bool List Lia Sorted Permutation.
From Verif Require Import ApCore ApEnv OctResize2 OctResize3.
Import ListNotations.
Open Scope Z_scope.

Section Facts.
Context {V : Type} (ops : vops V).
Local Notation cmp := (cmp ops).
Definition vlt (a b : V) : Prop := cmp a b < 0.
Lemma cmp_refl : forall a, cmp a a = 0.
Proof. intros. apply (cmp_eq _ ops). auto. Qed.
Lemma vlt_irrefl : forall a, ~ vlt a a.
Proof. intros a H. unfold vlt in H. rewrite cmp_refl in H. lia. Qed.
Lemma vlt_trans : forall a b c, vlt a b -> vlt b c -> vlt a c.
Proof. intros a b c. apply (cmp_trans _ ops). Qed.
Lemma gt_vlt : forall a b, 0 < cmp a b <-> vlt b a.
Proof. intros. apply (cmp_anti _ ops). Qed.
Lemma tri : forall a b, {vlt a b} + {a = b} + {vlt b a}.
Proof.
  intros a b. destruct (Z_lt_dec (cmp a b) 0) as [L|L]. left; left; auto. destruct (Z.eq_dec (cmp a b) 0) as [E|E]. left; right. apply (cmp_eq _ ops); auto.
  right. apply gt_vlt. lia.
Qed.
Lemma vdec : forall a b : V, {a = b} + {a <> b}.
Proof. intros a b. destruct (Z.eq_dec (cmp a b) 0) as [E|E]; [left|right]. apply (cmp_eq _ ops); auto. intros ->. apply E. apply cmp_refl. Qed.
Definition ss (l : list V) : Prop := StronglySorted vlt l.
Lemma ss_NoDup : forall l, ss l -> NoDup l.
Proof. intros l H. induction H; constructor; auto. intro I. rewrite Forall_forall in H0. apply (vlt_irrefl a). auto. Qed.
Lemma ss_tail : forall a l, ss (a :: l) -> ss l.
Proof. intros a l H. inversion H; auto. Qed.
Lemma ss_head : forall a l x, ss (a :: l) -> In x l -> vlt a x.
Proof. intros a l x H I. inversion H; subst. rewrite Forall_forall in *. auto. Qed.
Lemma ss_ext : forall l1 l2, ss l1 -> ss l2 -> (forall x, In x l1 <-> In x l2) -> l1 = l2.
Proof.
  induction l1 as [|a q IH]; intros [|b r] S1 S2 E; auto. exfalso; apply (E b); simpl; auto. exfalso; apply (E a); simpl; auto.
  assert (a = b).
  { destruct (proj1 (E a) (or_introl eq_refl)) as [H|H]; auto. destruct (proj2 (E b) (or_introl eq_refl)) as [K|K]; auto.
    exfalso. apply (vlt_irrefl a). apply vlt_trans with b. eapply ss_head; eauto. eapply ss_head; eauto. }
  subst b. f_equal. apply IH. eapply ss_tail; eauto. eapply ss_tail; eauto. intros x. split; intros H.
  - destruct (proj1 (E x) (or_intror H)); auto. subst. exfalso. apply (vlt_irrefl x). eapply ss_head with (l := q); eauto.
  - destruct (proj2 (E x) (or_intror H)); auto. subst. exfalso. apply (vlt_irrefl x). eapply ss_head with (l := r); eauto.
Qed.

(** ** Sorting *)
Section Sort.
Context {A : Type} (key : A -> V).
Definition kle (x y : A) : Prop := cmp (key x) (key y) <= 0.
Lemma kle_trans : forall x y z, kle x y -> kle y z -> kle x z.
Proof.
  unfold kle. intros x y z H K. destruct (Z.eq_dec (cmp (key x) (key y)) 0) as [E|E]. apply (cmp_eq _ ops) in E. rewrite E. auto.
  destruct (Z.eq_dec (cmp (key y) (key z)) 0) as [E2|E2]. apply (cmp_eq _ ops) in E2. rewrite <- E2. auto.
  assert (cmp (key x) (key z) < 0); [|lia]. apply vlt_trans with (key y); unfold vlt; lia.
Qed.
Lemma insert_perm : forall x l, Permutation (insert ops key x l) (x :: l).
Proof. intros x. induction l as [|y q IH]; simpl. auto. destruct (_ <=? 0); auto. rewrite IH. apply perm_swap. Qed.
Lemma sort_perm : forall l, Permutation (sort ops key l) l.
Proof. induction l as [|x q IH]; simpl. auto. rewrite insert_perm. auto. Qed.
Lemma insert_sorted : forall x l, StronglySorted kle l -> StronglySorted kle (insert ops key x l).
Proof.
  intros x. induction l as [|y q IH]; intros H; simpl. constructor; constructor. inversion H; subst. destruct (_ <=? 0) eqn:E.
  - apply Z.leb_le in E. constructor; auto. constructor; auto. eapply Forall_impl; [|exact H3]. intros z Z. apply kle_trans with y; auto.
  - apply Z.leb_gt in E. apply gt_vlt in E. constructor; auto. apply (Permutation_Forall (Permutation_sym (insert_perm x q))). constructor; auto. unfold kle. unfold vlt in E. lia.
Qed.
Lemma sort_sorted : forall l, StronglySorted kle (sort ops key l).
Proof. induction l; simpl. constructor. apply insert_sorted; auto. Qed.
Lemma sort_strict : forall l, NoDup (map key l) -> ss (map key (sort ops key l)).
Proof.
  intros l H. assert (D : NoDup (map key (sort ops key l))). { apply (Permutation_NoDup (l := map key l)); auto. apply Permutation_map. apply Permutation_sym, sort_perm. }
  pose proof (sort_sorted l) as S. clear H. induction S as [|x q S IH F]; simpl in *. constructor. inversion D; subst. constructor; auto. apply IH; auto. apply Forall_map. rewrite Forall_forall in *. intros y Y.
  specialize (F y Y). unfold kle in F. unfold vlt. destruct (Z.eq_dec (cmp (key x) (key y)) 0) as [E|E]; [|lia]. apply (cmp_eq _ ops) in E. exfalso. apply H1. rewrite E. apply in_map; auto.
Qed.
End Sort.
Lemma check_iff : forall l, env_check ops l = false <-> ss l.
Proof.
  induction l as [|a q IH]; simpl. split; auto. intros; constructor. destruct q as [|b r]. split; auto. intros _. constructor; constructor.
  destruct (0 <=? cmp a b) eqn:E.
  - split; [discriminate|]. intros H. apply Z.leb_le in E. pose proof (ss_head a (b :: r) b H (or_introl eq_refl)) as L. unfold vlt in L. lia.
  - apply Z.leb_gt in E. rewrite IH. split; intros H; [|eapply ss_tail; eauto]. constructor; auto. constructor; auto. inversion H; subst. eapply Forall_impl; [|exact H3]. intros c C. apply vlt_trans with b; auto.
Qed.
Lemma norm_perm : forall l, Permutation (env_normalize ops l) l.
Proof. intros. apply sort_perm. Qed.
Lemma norm_check : forall l, env_check ops (env_normalize ops l) = false <-> NoDup l.
Proof.
  intros l. rewrite check_iff. split.
  - intros S. eapply Permutation_NoDup; [apply norm_perm|]. apply ss_NoDup; auto.
  - intros D. unfold env_normalize. rewrite <- (map_id (sort ops (fun v => v) l)). apply sort_strict. rewrite map_id. auto.
Qed.
Lemma norm_in : forall l x, In x (env_normalize ops l) <-> In x l.
Proof. intros. split; apply Permutation_in; [|apply Permutation_sym]; apply norm_perm. Qed.

(** ** Tests *)
Definition disj (l1 l2 : list V) : Prop := forall x, In x l1 -> In x l2 -> False.
Lemma inter_iff : forall l1 l2, ss l1 -> ss l2 -> (env_is_inter_empty ops l1 l2 = true <-> disj l1 l2).
Proof.
  induction l1 as [|a q1 IH1]; intros l2 S1 S2. { destruct l2; simpl; split; auto; intros _ x []. }
  induction l2 as [|b q2 IH2]. { simpl. split; auto. intros _ x _ []. }
  change (env_is_inter_empty ops (a :: q1) (b :: q2)) with (if cmp a b =? 0 then false else if 0 <? cmp a b then env_is_inter_empty ops (a :: q1) q2 else env_is_inter_empty ops q1 (b :: q2)).
  destruct (tri a b) as [[L|L]|L].
  - unfold vlt in L. replace (cmp a b =? 0) with false by (symmetry; apply Z.eqb_neq; lia). replace (0 <? cmp a b) with false by (symmetry; apply Z.ltb_ge; lia).
    rewrite IH1 by (auto; eapply ss_tail; eauto). split; intros H x I J; [|apply (H x); simpl; auto]. destruct I as [<-|I]; [|eauto].
    destruct J as [<-|J]. unfold vlt in *; rewrite cmp_refl in L; lia. apply (vlt_irrefl b). apply vlt_trans with a; auto. eapply ss_head; eauto.
  - subst b. rewrite cmp_refl. simpl. split; [discriminate|]. intros H. exfalso. apply (H a); simpl; auto.
  - pose proof (proj2 (gt_vlt a b) L). replace (cmp a b =? 0) with false by (symmetry; apply Z.eqb_neq; lia). replace (0 <? cmp a b) with true by (symmetry; apply Z.ltb_lt; lia).
    rewrite IH2 by (eapply ss_tail; eauto). split; intros K x I J; [|apply (K x); simpl; auto]. destruct J as [<-|J]; [|eauto].
    destruct I as [<-|I]. apply (vlt_irrefl a); auto. apply (vlt_irrefl a). apply vlt_trans with b; auto. eapply ss_head; eauto.
Qed.
Lemma scan_in : forall a l sgn, ss l -> In a l -> leq_scan ops a l sgn = Some 0.
Proof.
  intros a. induction l as [|b q IH]; intros sgn S I; simpl. destruct I. destruct I as [<-|I]. rewrite cmp_refl. simpl. auto.
  pose proof (ss_head _ _ _ S I) as L. apply gt_vlt in L. replace (cmp a b <? 0) with false by (symmetry; apply Z.ltb_ge; lia). replace (cmp a b =? 0) with false by (symmetry; apply Z.eqb_neq; lia).
  apply IH; auto. eapply ss_tail; eauto.
Qed.
Lemma scan_out : forall a l sgn, ~ In a l -> (l <> [] \/ sgn <> 0) -> leq_scan ops a l sgn <> Some 0.
Proof.
  intros a. induction l as [|b q IH]; intros sgn I H; simpl. destruct H; [tauto|congruence]. destruct (cmp a b <? 0); [discriminate|]. destruct (cmp a b =? 0) eqn:E.
  apply Z.eqb_eq in E. apply (cmp_eq _ ops) in E. subst. exfalso. apply I. left; auto. apply Z.eqb_neq in E. apply IH; auto. intros J; apply I; right; auto.
Qed.
Lemma leq_loop_iff : forall l2, ss l2 -> l2 <> [] -> forall l1, leq_loop ops l1 l2 0 = true <-> incl l1 l2.
Proof.
  intros l2 S2 N2. induction l1 as [|a q IH]; simpl. split; auto. intros _ x []. destruct (in_dec vdec a l2) as [I|I].
  - rewrite scan_in by auto. simpl. rewrite IH. split; intros H x X. destruct X as [<-|X]; auto. apply H; right; auto.
  - assert (F : leq_scan ops a l2 0 <> Some 0) by (apply scan_out; auto). split; [|intros H; exfalso; apply I; apply H; left; auto].
    destruct (leq_scan ops a l2 0) as [z|]; [|discriminate]. destruct (z =? 0) eqn:E; [apply Z.eqb_eq in E; congruence|discriminate].
Qed.
Lemma is_leq_iff : forall l1 l2, ss l1 -> ss l2 -> (env_is_leq ops l1 l2 = true <-> incl l1 l2).
Proof.
  intros l1 l2 S1 S2. unfold env_is_leq. destruct (Nat.leb (length l1) (length l2)) eqn:E.
  - destruct l2 as [|b q]. destruct l1; [|discriminate]. simpl. split; auto. intros _ x []. apply leq_loop_iff; auto. discriminate.
  - split; [discriminate|]. intros H. apply Nat.leb_gt in E. pose proof (NoDup_incl_length (ss_NoDup _ S1) H). lia.
Qed.

(** ** Union *)
Lemma lce_eq : forall a q1 b q2, env_lce ops (a :: q1) (b :: q2) = if 0 <? cmp a b then b :: env_lce ops (a :: q1) q2 else if cmp a b <? 0 then a :: env_lce ops q1 (b :: q2) else a :: env_lce ops q1 q2.
Proof. reflexivity. Qed.
Lemma lce_nil_r : forall l, env_lce ops l [] = l.
Proof. destruct l; reflexivity. Qed.
Lemma lce_in : forall l1 l2 x, In x (env_lce ops l1 l2) <-> In x l1 \/ In x l2.
Proof.
  induction l1 as [|a q1 IH1]; intros l2 x. { destruct l2; simpl; tauto. }
  induction l2 as [|b q2 IH2]. { rewrite lce_nil_r. simpl; tauto. } rewrite lce_eq. destruct (tri a b) as [[L|L]|L].
  - unfold vlt in L. replace (0 <? cmp a b) with false by (symmetry; apply Z.ltb_ge; lia). replace (cmp a b <? 0) with true by (symmetry; apply Z.ltb_lt; lia). simpl. rewrite IH1. simpl. tauto.
  - subst b. rewrite cmp_refl. simpl. rewrite IH1. tauto.
  - pose proof (proj2 (gt_vlt a b) L). replace (0 <? cmp a b) with true by (symmetry; apply Z.ltb_lt; lia). cbn [In]. rewrite IH2. simpl. tauto.
Qed.
Lemma lce_ss : forall l1 l2, ss l1 -> ss l2 -> ss (env_lce ops l1 l2).
Proof.
  induction l1 as [|a q1 IH1]; intros l2 S1 S2. { destruct l2; auto. }
  induction l2 as [|b q2 IH2]. { rewrite lce_nil_r. auto. } rewrite lce_eq. pose proof (ss_tail _ _ S1) as T1. pose proof (ss_tail _ _ S2) as T2. destruct (tri a b) as [[L|L]|L].
  - unfold vlt in L. replace (0 <? cmp a b) with false by (symmetry; apply Z.ltb_ge; lia). replace (cmp a b <? 0) with true by (symmetry; apply Z.ltb_lt; lia).
    constructor. apply IH1; auto. apply Forall_forall. intros x X. apply lce_in in X. destruct X as [X|[<-|X]]; auto. apply (ss_head a q1); auto. apply vlt_trans with b; auto. apply (ss_head b q2); auto.
  - subst b. rewrite cmp_refl. simpl. constructor. apply IH1; auto. apply Forall_forall. intros x X. apply lce_in in X. destruct X as [X|X]; [apply (ss_head a q1)|apply (ss_head a q2)]; auto.
  - pose proof (proj2 (gt_vlt a b) L). replace (0 <? cmp a b) with true by (symmetry; apply Z.ltb_lt; lia).
    constructor. apply IH2; auto. apply Forall_forall. intros x X. apply lce_in in X. destruct X as [[<-|X]|X]; auto. apply vlt_trans with a; auto. apply (ss_head a q1); auto. apply (ss_head b q2); auto.
Qed.

(** ** Removal *)
Definition memb (x : V) (l : list V) : bool := if in_dec vdec x l then true else false.
Lemma memb_iff : forall x l, memb x l = true <-> In x l.
Proof. intros. unfold memb. destruct (in_dec vdec x l); split; auto; discriminate. Qed.
Definition minus (l1 l2 : list V) : list V := filter (fun x => negb (memb x l2)) l1.
Lemma minus_in : forall x l1 l2, In x (minus l1 l2) <-> In x l1 /\ ~ In x l2.
Proof. intros. unfold minus. rewrite filter_In, negb_true_iff, <- not_true_iff_false, memb_iff. tauto. Qed.
Lemma filter_ss : forall f l, ss l -> ss (filter f l).
Proof.
  intros f l H. induction H as [|a q S IH F]; simpl. constructor. destruct (f a); auto. constructor; auto. rewrite Forall_forall in *. intros x X. apply filter_In in X. apply F; tauto.
Qed.
Lemma minus_ss : forall l1 l2, ss l1 -> ss (minus l1 l2).
Proof. intros. apply filter_ss; auto. Qed.
Lemma incl_drop : forall e eq v vq, ss (e :: eq) -> ss (v :: vq) -> incl (v :: vq) (e :: eq) -> incl vq eq.
Proof.
  intros e eq v vq S1 S2 I x X. destruct (I x (or_intror X)) as [<-|H]; auto. exfalso. pose proof (ss_head _ _ _ S2 X) as L.
  destruct (I v (or_introl eq_refl)) as [<-|H]. apply (vlt_irrefl e); auto. apply (vlt_irrefl e). apply vlt_trans with v; auto. eapply ss_head; eauto.
Qed.
Lemma rem_while_spec : forall env vs, ss env -> ss vs -> incl vs env -> exists env' vs', rem_while ops env vs = Some (env', vs') /\ ss env' /\ ss vs' /\ incl vs' env' /\
  (length env + length vs' = length env' + length vs)%nat /\ minus env vs = minus env' vs' /\ (forall e q, env' = e :: q -> ~ In e vs').
Proof.
  induction env as [|e eq IH]; intros vs S1 S2 I.
  - destruct vs as [|v vq]. 2: { destruct (I v); left; auto. } exists [], []. simpl. repeat (split; [solve [auto]|]). intros; discriminate.
  - destruct vs as [|v vq]. { exists (e :: eq), []. simpl. repeat (split; [solve [auto]|]). intros; auto. } simpl. destruct (tri e v) as [[L|L]|L].
    + unfold vlt in L. replace (0 <? cmp e v) with false by (symmetry; apply Z.ltb_ge; lia). replace (cmp e v =? 0) with false by (symmetry; apply Z.eqb_neq; lia).
      exists (e :: eq), (v :: vq). split; auto. split; auto. split; auto. split; auto. split; auto. split; auto. intros e0 q E. inversion E; subst. intros [<-|H]. rewrite cmp_refl in L; lia.
      apply (vlt_irrefl e0). apply vlt_trans with v. exact L. eapply ss_head; eauto.
    + subst v. rewrite cmp_refl. simpl. pose proof (incl_drop _ _ _ _ S1 S2 I) as J.
      destruct (IH vq (ss_tail _ _ S1) (ss_tail _ _ S2) J) as (env' & vs' & A & B & C & D & E & G & H). exists env', vs'. simpl. repeat (split; [first [assumption|lia]|]). split; [|assumption].
      rewrite <- G. change (minus (e :: eq) (e :: vq) = minus eq vq). apply ss_ext. apply minus_ss; auto. apply minus_ss. eapply ss_tail; eauto. intros x. rewrite !minus_in. simpl. split.
      * intros [[<-|X] Y]; tauto.
      * intros [X Y]. split; auto. intros [<-|K]; auto. apply (vlt_irrefl e). eapply ss_head with (l := eq); eauto.
    + exfalso. destruct (I v (or_introl eq_refl)) as [<-|H]. apply (vlt_irrefl e); auto. apply (vlt_irrefl e). apply vlt_trans with v; auto. eapply ss_head; eauto.
Qed.
Lemma rem_end_refl : forall l, rem_end ops l l = true.
Proof. induction l; simpl; auto. rewrite cmp_refl. auto. Qed.
Lemma rem_loop_spec : forall n env vs acc, ss env -> ss vs -> incl vs env -> length env = (n + length vs)%nat ->
  exists env' vs', rem_loop ops n env vs acc = Some (rev acc ++ minus env vs, env', vs') /\ rem_end ops env' vs' = true.
Proof.
  induction n; intros env vs acc S1 S2 I L; simpl.
  - assert (E : env = vs). { apply ss_ext; auto. intros x; split; auto. intros X. assert (K : incl env vs) by (apply NoDup_length_incl; auto; [apply ss_NoDup; auto|lia]). auto. }
    subst vs. exists env, env. split. f_equal. f_equal. f_equal. replace (minus env env) with (@nil V). symmetry; apply app_nil_r. apply ss_ext. constructor. apply minus_ss; auto. intros x. rewrite minus_in. simpl; tauto. apply rem_end_refl.
  - destruct (rem_while_spec env vs S1 S2 I) as (env' & vs' & A & B & C & D & E & G & H). rewrite A. destruct env' as [|e env']. { simpl in E. pose proof (NoDup_incl_length (ss_NoDup _ C) D) as K. simpl in K. lia. }
    assert (NI : ~ In e vs') by (eapply H; eauto). assert (D' : incl vs' env'). { intros x X. destruct (D x X); auto. subst. tauto. }
    destruct (IHn env' vs' (e :: acc) (ss_tail _ _ B) C D') as (env'' & vs'' & K1 & K2). simpl in E. lia. exists env'', vs''. rewrite K1. split; auto. f_equal. f_equal. f_equal. rewrite G. simpl. rewrite <- app_assoc. f_equal. simpl.
    unfold minus at 2. simpl. replace (memb e vs') with false. simpl. auto. symmetry. apply not_true_iff_false. rewrite memb_iff. auto.
Qed.
Lemma env_remove_spec : forall env vs, ss env -> NoDup vs -> incl vs env -> env_remove ops env vs = Some (Some (minus env vs)).
Proof.
  intros env vs S D I. unfold env_remove. pose proof (NoDup_incl_length D I) as L. replace (Nat.ltb (length env) (length vs)) with false by (symmetry; apply Nat.ltb_ge; lia).
  destruct vs as [|v0 vq]. { f_equal. f_equal. apply ss_ext; auto. apply minus_ss; auto. intros x. rewrite minus_in. simpl. tauto. }
  set (vs := v0 :: vq) in *. clearbody vs. assert (SN : ss (env_normalize ops vs)) by (apply check_iff, norm_check; auto). assert (LN : length (env_normalize ops vs) = length vs) by (apply Permutation_length, norm_perm).
  destruct (rem_loop_spec (length env - length vs) env (env_normalize ops vs) [] S SN) as (env' & vs' & A & B). intros x X. apply I. apply (proj1 (norm_in _ _) X). rewrite LN. lia. rewrite A, B. simpl. f_equal. f_equal.
  apply ss_ext. apply minus_ss; auto. apply minus_ss; auto. intros x. rewrite !minus_in, norm_in. tauto.
Qed.

(** ** Dimension changes *)
(** the index of a name in a sorted array is the number of names before it *)
Definition below (a : V) (l : list V) : nat := length (filter (fun c => cmp c a <? 0) l).
Lemma below_nth : forall l a d, ss l -> In a l -> nth (below a l) l d = a.
Proof.
  induction l as [|b q IH]; intros a d S I. destruct I. unfold below. simpl. destruct I as [<-|I].
  - rewrite cmp_refl. simpl. assert (E : filter (fun c => cmp c b <? 0) q = []). { assert (F : forall c, In c q -> (cmp c b <? 0) = false). { intros c C. apply Z.ltb_ge. pose proof (ss_head _ _ _ S C) as L. apply gt_vlt in L. lia. }
      clear - F. induction q as [|c q IH]; simpl; auto. rewrite F by (left; auto). apply IH. intros; apply F; right; auto. } rewrite E. auto.
  - pose proof (ss_head _ _ _ S I) as L. unfold vlt in L. replace (cmp b a <? 0) with true by (symmetry; apply Z.ltb_lt; lia). simpl. apply IH; auto. eapply ss_tail; eauto.
Qed.
Lemma nth_below : forall l x d, ss l -> (x < length l)%nat -> below (nth x l d) l = x.
Proof.
  intros l x d S L. assert (D := ss_NoDup _ S). assert (I : In (nth x l d) l) by (apply nth_In; auto). rewrite (NoDup_nth l d) in D. apply D; auto.
  - assert (K : forall a, In a l -> (below a l < length l)%nat). { clear. intros a. unfold below. induction l as [|b q IH]; intros I. destruct I. simpl. destruct I as [<-|I]. rewrite cmp_refl. simpl. assert (G : forall f (r : list V), (length (filter f r) <= length r)%nat) by (intros f; induction r; simpl; auto; destruct (f a); simpl; lia). specialize (G (fun c => cmp c b <? 0) q). lia. specialize (IH I). destruct (cmp b a <? 0); simpl; lia. } auto.
  - apply below_nth; auto.
Qed.

(** positions at which the names of [l] which are not in [e1] are inserted *)
Definition newpos (o : nat) (e1 l : list V) : list nat := map (fun b => (o + below b e1)%nat) (minus l e1).
Lemma filter_len : forall A f (r : list A), (length (filter f r) <= length r)%nat.
Proof. intros A f. induction r; simpl; auto. destruct (f a); simpl; lia. Qed.
Lemma below_le : forall b l, (below b l <= length l)%nat.
Proof. intros. apply filter_len. Qed.
Lemma below_mono : forall l a b, vlt a b -> (below a l <= below b l)%nat.
Proof.
  intros l a b L. unfold below. induction l as [|c q IH]; simpl; auto. destruct (cmp c a <? 0) eqn:E. apply Z.ltb_lt in E. replace (cmp c b <? 0) with true. simpl; lia. symmetry. apply Z.ltb_lt. apply vlt_trans with a; auto.
  destruct (cmp c b <? 0); simpl; lia.
Qed.
Lemma below_strict : forall l a b, vlt a b -> In a l -> (below a l < below b l)%nat.
Proof.
  intros l a b L. unfold below. induction l as [|c q IH]; simpl; intros I. tauto. destruct I as [<-|I].
  - rewrite cmp_refl. simpl. replace (cmp c b <? 0) with true by (symmetry; apply Z.ltb_lt; auto). simpl. pose proof (below_mono q c b L). unfold below in *. lia.
  - specialize (IH I). destruct (cmp c a <? 0) eqn:E. apply Z.ltb_lt in E. replace (cmp c b <? 0) with true. simpl; lia. symmetry. apply Z.ltb_lt. apply vlt_trans with a; auto. destruct (cmp c b <? 0); simpl; lia.
Qed.
Lemma below_nil : forall b l, (forall c, In c l -> vlt b c) -> below b l = O.
Proof.
  intros b. unfold below. induction l as [|c q IH]; simpl; intros H; auto. pose proof (H c (or_introl eq_refl)) as L. apply gt_vlt in L. replace (cmp c b <? 0) with false by (symmetry; apply Z.ltb_ge; lia). apply IH; auto.
Qed.
Lemma minus_nil : forall l, minus l [] = l.
Proof. unfold minus. induction l; simpl; auto. f_equal. auto. Qed.
Lemma write_ok : forall done r rest x, write (Some (done ++ r :: rest)) (length done) x = Some ((done ++ [x]) ++ rest).
Proof.
  intros. unfold write. rewrite app_length. simpl. replace (Nat.ltb _ _) with true by (symmetry; apply Nat.ltb_lt; lia). f_equal. induction done; simpl; auto. f_equal; auto.
Qed.
Lemma skip_ok : forall pre a l' sgn x done rest, (forall b, In b pre -> vlt b a) -> (length pre <= length rest)%nat ->
  dc_skip ops a (pre ++ a :: l') sgn x (length done) (Some (done ++ rest)) = SNext l' 0 (length done + length pre) (Some (done ++ repeat x (length pre) ++ skipn (length pre) rest)).
Proof.
  induction pre as [|b pre IH]; intros a l' sgn x done rest H L; cbn [dc_skip app length repeat skipn].
  - rewrite cmp_refl. simpl. f_equal; auto.
  - pose proof (H b (or_introl eq_refl)) as B. apply gt_vlt in B. replace (cmp a b <? 0) with false by (symmetry; apply Z.ltb_ge; lia). replace (cmp a b =? 0) with false by (symmetry; apply Z.eqb_neq; lia).
    destruct rest as [|r rest]; simpl in L; [lia|]. rewrite write_ok. replace (S (length done)) with (length (done ++ [x])) by (rewrite app_length; simpl; lia). rewrite IH; [|intros; apply H; right; auto|lia].
    rewrite app_length. simpl. f_equal. lia. f_equal. rewrite <- app_assoc. simpl. auto.
Qed.
Lemma rest_ok : forall (l : list V) x done rest, (length l <= length rest)%nat -> dc_rest l x (length done) (Some (done ++ rest)) = Some (done ++ repeat x (length l) ++ skipn (length l) rest).
Proof.
  induction l as [|b l IH]; intros x done rest L; cbn [dc_rest length repeat skipn]; auto. destruct rest as [|r rest]; simpl in L; [lia|]. rewrite write_ok. replace (S (length done)) with (length (done ++ [x])) by (rewrite app_length; simpl; lia). rewrite IH by lia.
  rewrite <- app_assoc. simpl. auto.
Qed.
Lemma ss_split : forall l a, ss l -> In a l -> exists pre l', l = pre ++ a :: l' /\ (forall b, In b pre -> vlt b a) /\ (forall b, In b l' -> vlt a b) /\ ss l'.
Proof.
  induction l as [|c q IH]; intros a S I. destruct I. destruct I as [<-|I].
  - exists [], q. split; auto. split; [intros b []|]. split. intros; eapply ss_head; eauto. eapply ss_tail; eauto.
  - destruct (IH a (ss_tail _ _ S) I) as (pre & l' & -> & A & B & C). exists (c :: pre), l'. split; auto. split; [|split; auto]. intros b [<-|K]; auto. eapply ss_head; eauto.
Qed.
Lemma newpos_step : forall o a q pre l', ss (a :: q) -> (forall b, In b pre -> vlt b a) -> (forall b, In b l' -> vlt a b) ->
  newpos o (a :: q) (pre ++ a :: l') = repeat o (length pre) ++ newpos (S o) q l'.
Proof.
  intros o a q pre l' S P L. unfold newpos, minus. rewrite filter_app, map_app. f_equal.
  - clear L. assert (Q : forall b, In b pre -> ~ In b (a :: q) /\ below b (a :: q) = O).
    { intros b B. specialize (P b B). split. intros [<-|I]. apply (vlt_irrefl a); auto. apply (vlt_irrefl b). apply vlt_trans with a; auto. eapply ss_head; eauto.
      apply below_nil. intros c [<-|C]; auto. apply vlt_trans with a; auto. eapply ss_head; eauto. }
    clear P. induction pre as [|b pre IH]; simpl; auto. destruct (Q b (or_introl eq_refl)) as [Q1 Q2]. replace (memb b (a :: q)) with false by (symmetry; apply not_true_iff_false; rewrite memb_iff; auto). cbn [negb map]. rewrite Q2. f_equal. lia. apply IH. intros; apply Q; right; auto.
  - simpl. replace (memb a (a :: q)) with true by (symmetry; apply memb_iff; left; auto). cbn [negb]. clear P. induction l' as [|b l' IH]; cbn [filter map]; auto.
    pose proof (L b (or_introl eq_refl)) as B. assert (E : memb b (a :: q) = memb b q). { apply eq_true_iff_eq. rewrite !memb_iff. simpl. split; auto. intros [<-|]; auto. exfalso. apply (vlt_irrefl a); auto. }
    rewrite E. destruct (memb b q); cbn [negb map]; [apply IH; intros; apply L; right; auto|]. f_equal; [|apply IH; intros; apply L; right; auto]. unfold below at 1. cbn [filter]. replace (cmp a b <? 0) with true by (symmetry; apply Z.ltb_lt; auto). cbn [length]. unfold below. lia.
Qed.
Lemma skipn_skipn : forall A (l : list A) a b, skipn a (skipn b l) = skipn (b + a) l.
Proof. induction l; intros a0 b. rewrite !skipn_nil. auto. destruct b; simpl; auto. Qed.
Lemma dc_loop_ok : forall e1 l sgn x done rest, ss e1 -> ss l -> incl e1 l -> (length l <= length e1 + length rest)%nat ->
  dc_loop ops e1 l sgn x (length done) (Some (done ++ rest)) = (Some (done ++ newpos x e1 l ++ skipn (length l - length e1) rest), false).
Proof.
  induction e1 as [|a q IH]; intros l sgn x done rest S1 S2 I L; simpl.
  - rewrite rest_ok by (simpl in L; lia). unfold newpos. rewrite minus_nil. f_equal. f_equal. f_equal. f_equal; [|f_equal; lia]. clear. induction l; simpl; auto. f_equal; auto.
  - destruct (ss_split l a S2 (I a (or_introl eq_refl))) as (pre & l' & -> & A & B & C). assert (J : incl q l'). { intros y Y. pose proof (ss_head _ _ _ S1 Y) as K. specialize (I y (or_intror Y)). apply in_app_iff in I. destruct I as [I|[->|I]]; auto; exfalso. apply (vlt_irrefl a). apply vlt_trans with y; auto. apply (vlt_irrefl y); auto. }
    pose proof (NoDup_incl_length (ss_NoDup _ (ss_tail _ _ S1)) J) as LJ. rewrite app_length in L. simpl in L.
    rewrite skip_ok; [|auto|lia]. simpl. rewrite app_assoc. replace (length done + length pre)%nat with (length (done ++ repeat x (length pre))) by (rewrite app_length, repeat_length; lia). rewrite IH; auto. 2: eapply ss_tail; eauto. 2: rewrite skipn_length; lia.
    rewrite newpos_step by auto. f_equal. f_equal. rewrite <- !app_assoc. f_equal. f_equal. f_equal. rewrite skipn_skipn. f_equal. rewrite app_length. simpl. lia.
Qed.
Lemma newpos_length : forall o e1 l, ss e1 -> ss l -> incl e1 l -> length (newpos o e1 l) = (length l - length e1)%nat.
Proof.
  intros o e1 l S1 S2 I. unfold newpos. rewrite map_length. assert (E : filter (fun x => memb x e1) l = e1). { apply ss_ext. apply filter_ss; auto. auto. intros x. rewrite filter_In, memb_iff. split; [tauto|]. auto. }
  assert (K : (length (filter (fun x => memb x e1) l) + length (minus l e1) = length l)%nat). { unfold minus. clear. induction l; simpl; auto. destruct (memb a e1); simpl; lia. } rewrite E in K. lia.
Qed.
Lemma newpos_bounds : forall o e1 l p, In p (newpos o e1 l) -> (o <= p <= o + length e1)%nat.
Proof. intros o e1 l p H. apply in_map_iff in H. destruct H as (b & <- & _). pose proof (below_le b e1). lia. Qed.
Lemma newpos_sorted : forall o e1 l, ss l -> StronglySorted le (newpos o e1 l).
Proof.
  intros o e1 l S. unfold newpos. pose proof (minus_ss l e1 S) as M. induction M as [|a q M IH F]; simpl. constructor. constructor; auto. apply Forall_map. rewrite Forall_forall in *. intros b B. pose proof (below_mono e1 a b (F b B)). lia.
Qed.
Lemma newpos_shift : forall o e1 l x d, ss e1 -> ss l -> incl e1 l -> (x < length e1)%nat -> (x + cle (newpos o e1 l) (o + x) = below (nth x e1 d) l)%nat.
Proof.
  intros o e1 l x d S1 S2 I X. set (a := nth x e1 d). assert (A : In a e1) by (apply nth_In; auto). unfold cle, newpos.
  assert (F : length (filter (fun p => Nat.leb p (o + x)) (map (fun b => (o + below b e1)%nat) (minus l e1))) = length (filter (fun c => cmp c a <? 0) (minus l e1))).
  { assert (G : forall b, In b (minus l e1) -> Nat.leb (o + below b e1) (o + x) = (cmp b a <? 0)).
    { intros b B. apply minus_in in B. destruct B as [_ B]. destruct (tri b a) as [[L|L]|L].
      - pose proof (below_mono e1 b a L) as K. unfold a in K at 1. rewrite nth_below in K by auto. replace (cmp b a <? 0) with true by (symmetry; apply Z.ltb_lt; auto). apply Nat.leb_le. lia.
      - subst b. tauto.
      - pose proof (below_strict e1 a b L A) as K. unfold a in K at 1. rewrite nth_below in K by auto. apply gt_vlt in L. replace (cmp b a <? 0) with false by (symmetry; apply Z.ltb_ge; lia). apply Nat.leb_gt. lia. }
    revert G. generalize (minus l e1). induction l0 as [|b r IH]; simpl; auto. intros G. rewrite G by (left; auto). destruct (cmp b a <? 0); simpl; rewrite IH; auto. }
  rewrite F. assert (E : filter (fun y => memb y e1) l = e1). { apply ss_ext. apply filter_ss; auto. auto. intros y. rewrite filter_In, memb_iff. split; [tauto|]. auto. }
  assert (N : x = below a (filter (fun y => memb y e1) l)). { rewrite E. symmetry. apply nth_below; auto. } rewrite N at 1. unfold below, minus. clear. induction l as [|b r IH]; simpl; auto. destruct (memb b e1); simpl; destruct (cmp b a <? 0); simpl; lia.
Qed.

(** ** Environments *)
Definition good (e : environment V) : Prop := ss (e_int e) /\ ss (e_real e) /\ disj (e_int e) (e_real e).
Lemma check_good : forall e, environment_check ops e = false <-> good e.
Proof.
  intros e. unfold environment_check, good. destruct (env_check ops (e_int e)) eqn:A. { split; [discriminate|]. intros (H & _). apply check_iff in H. congruence. } destruct (env_check ops (e_real e)) eqn:B. { split; [discriminate|]. intros (_ & H & _). apply check_iff in H. congruence. }
  apply check_iff in A. apply check_iff in B. rewrite negb_false_iff, inter_iff by auto. tauto.
Qed.
Lemma good_nodup : forall e, good e -> NoDup (e_vars e).
Proof.
  intros e (A & B & C). unfold e_vars. apply ss_NoDup in A. apply ss_NoDup in B. revert C. unfold disj. induction (e_int e) as [|x q IH]; simpl; auto. inversion A; subst. intros C. constructor; [|apply IH; auto; intros y Y; apply C; auto].
  rewrite in_app_iff. intros [K|K]; auto. apply (C x); auto.
Qed.
(** inclusion of environments, part by part *)
Definition sub (e1 e2 : environment V) : Prop := incl (e_int e1) (e_int e2) /\ incl (e_real e1) (e_real e2).
Definition posn (e1 e : environment V) : list nat := newpos 0 (e_int e1) (e_int e) ++ newpos (length (e_int e1)) (e_real e1) (e_real e).
Lemma both_ok : forall e1 e, good e1 -> good e -> sub e1 e -> both_dimchange ops e1 e = (Some (posn e1 e), false) /\ lce_change ops e1 e = Some (mkDC (length (e_int e) - length (e_int e1)) (posn e1 e)).
Proof.
  intros e1 e (A1 & B1 & _) (A & B & _) [I R]. unfold both_dimchange, lce_change, env_lce_dimchange. pose proof (NoDup_incl_length (ss_NoDup _ A1) I) as LI. pose proof (NoDup_incl_length (ss_NoDup _ B1) R) as LR.
  replace (Nat.ltb (length (e_int e)) _) with false by (symmetry; apply Nat.ltb_ge; lia). replace (Nat.ltb (length (e_real e)) _) with false by (symmetry; apply Nat.ltb_ge; lia).
  set (ni := (length (e_int e) - length (e_int e1))%nat). set (nr := (length (e_real e) - length (e_real e1))%nat).
  pose proof (dc_loop_ok (e_int e1) (e_int e) 0 0%nat [] (repeat 0%nat (ni + nr)) A1 A I) as K. simpl in K. rewrite K by (rewrite repeat_length; lia). clear K. cbn [fst]. fold ni.
  pose proof (newpos_length 0 (e_int e1) (e_int e) A1 A I) as L. fold ni in L. pose proof (dc_loop_ok (e_real e1) (e_real e) 0 (length (e_int e1)) (newpos 0 (e_int e1) (e_int e)) (skipn ni (repeat 0%nat (ni + nr))) B1 B R) as K. rewrite L in K.
  rewrite K by (rewrite skipn_length, repeat_length; lia). cbn [fst]. replace (skipn (length (e_real e) - length (e_real e1)) (skipn ni (repeat 0%nat (ni + nr)))) with (@nil nat). rewrite app_nil_r. split; reflexivity.
  symmetry. apply length_zero_iff_nil. rewrite !skipn_length, repeat_length. lia.
Qed.
Lemma dimchange_ok : forall e1 e, good e1 -> good e -> sub e1 e -> environment_dimchange ops e1 e = Some (Some (mkDC (length (e_int e) - length (e_int e1)) (posn e1 e))).
Proof.
  intros e1 e G1 G S. unfold environment_dimchange. destruct (both_ok e1 e G1 G S) as [-> _]. destruct G1 as (A1 & B1 & _). destruct S as [I R]. pose proof (NoDup_incl_length (ss_NoDup _ A1) I) as LI. pose proof (NoDup_incl_length (ss_NoDup _ B1) R) as LR.
  replace (Nat.ltb (length (e_int e)) _) with false by (symmetry; apply Nat.ltb_ge; lia). replace (Nat.ltb (length (e_real e)) _) with false by (symmetry; apply Nat.ltb_ge; lia). auto.
Qed.
Lemma cle_app : forall a b x, cle (a ++ b) x = (cle a x + cle b x)%nat.
Proof. intros. unfold cle. rewrite filter_app, app_length. auto. Qed.
Lemma cle_all : forall pos x, (forall p, In p pos -> (p <= x)%nat) -> cle pos x = length pos.
Proof. intros pos x. unfold cle. induction pos; simpl; auto. intros H. replace (Nat.leb a x) with true by (symmetry; apply Nat.leb_le; apply H; auto). simpl. rewrite IHpos; auto. Qed.
Lemma posn_shift : forall e1 e x v, good e1 -> good e -> sub e1 e -> nth_error (e_vars e1) x = Some v -> nth_error (e_vars e) (x + cle (posn e1 e) x) = Some v.
Proof.
  intros e1 e x v (A1 & B1 & _) (A & B & _) [I R] H. unfold posn. rewrite cle_app. unfold e_vars in *. pose proof (NoDup_incl_length (ss_NoDup _ A1) I) as LI.
  assert (Q : forall l a, ss l -> In a l -> nth_error l (below a l) = Some a). { intros l a S K. rewrite (nth_error_nth' l a). f_equal. apply below_nth; auto. destruct (In_nth l a a K) as (i & Li & E). rewrite <- E. rewrite nth_below; auto. }
  destruct (Nat.ltb x (length (e_int e1))) eqn:E.
  - apply Nat.ltb_lt in E. rewrite nth_error_app1 in H by auto. rewrite (cle_none (newpos (length (e_int e1)) _ _)). 2: { apply Forall_forall. intros p K. apply newpos_bounds in K. lia. }
    pose proof (newpos_shift 0 (e_int e1) (e_int e) x v A1 A I E) as K. simpl in K. rewrite Nat.add_0_r, K. rewrite (nth_error_nth _ _ _ H). assert (M : In v (e_int e)) by (apply I; eapply nth_error_In; eauto). pose proof (Q _ _ A M) as W. rewrite nth_error_app1; auto. apply nth_error_Some. congruence.
  - apply Nat.ltb_ge in E. rewrite nth_error_app2 in H by auto. assert (X : (x - length (e_int e1) < length (e_real e1))%nat) by (apply nth_error_Some; congruence).
    rewrite (cle_all (newpos 0 _ _)). 2: { intros p K. apply newpos_bounds in K. lia. } rewrite newpos_length by auto.
    pose proof (newpos_shift (length (e_int e1)) (e_real e1) (e_real e) _ v B1 B R X) as K. replace (length (e_int e1) + (x - length (e_int e1)))%nat with x in K by lia. rewrite (nth_error_nth _ _ _ H) in K.
    rewrite nth_error_app2 by lia. replace (x + (length (e_int e) - length (e_int e1) + cle (newpos (length (e_int e1)) (e_real e1) (e_real e)) x) - length (e_int e))%nat with (below v (e_real e)) by lia. apply Q; auto. apply R. eapply nth_error_In; eauto.
Qed.
Lemma posn_wf : forall e1 e, good e1 -> good e -> sub e1 e -> StronglySorted le (posn e1 e) /\ (forall p, In p (posn e1 e) -> (p <= e_dim e1)%nat) /\ length (posn e1 e) = (e_dim e - e_dim e1)%nat /\ (e_dim e1 <= e_dim e)%nat /\
  (forall p, In p (firstn (length (e_int e) - length (e_int e1)) (posn e1 e)) -> (p <= length (e_int e1))%nat) /\ (forall p, In p (skipn (length (e_int e) - length (e_int e1)) (posn e1 e)) -> (length (e_int e1) <= p)%nat).
Proof.
  intros e1 e (A1 & B1 & _) (A & B & _) [I R]. pose proof (NoDup_incl_length (ss_NoDup _ A1) I) as LI. pose proof (NoDup_incl_length (ss_NoDup _ B1) R) as LR. unfold posn.
  pose proof (newpos_length 0 _ _ A1 A I) as N1. pose proof (newpos_length (length (e_int e1)) _ _ B1 B R) as N2.
  split. { pose proof (newpos_sorted 0 (e_int e1) _ A) as K. pose proof (newpos_sorted (length (e_int e1)) (e_real e1) _ B) as K2. assert (BB : forall p, In p (newpos 0 (e_int e1) (e_int e)) -> (p <= length (e_int e1))%nat) by (intros p P; apply newpos_bounds in P; lia).
    clear N1. revert K BB. generalize (newpos 0 (e_int e1) (e_int e)). intros l K BB. induction K as [|p q K IH F]; simpl; auto. constructor. apply IH; intros; apply BB; right; auto.
    apply Forall_app. split; auto. apply Forall_forall. intros y Y. apply newpos_bounds in Y. specialize (BB p (or_introl eq_refl)). lia. }
  unfold e_dim. split; [|split; [|split; [|split]]].
  - intros p K. apply in_app_iff in K. destruct K as [K|K]; apply newpos_bounds in K; lia.
  - rewrite app_length. lia.
  - lia.
  - rewrite <- N1. rewrite firstn_app, Nat.sub_diag, firstn_all. simpl. rewrite app_nil_r. intros p K. apply newpos_bounds in K. lia.
  - rewrite <- N1. rewrite skipn_app, Nat.sub_diag, skipn_all. simpl. intros p K. apply newpos_bounds in K. lia.
Qed.
End Facts.

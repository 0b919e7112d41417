(** Facts about environments, continued: permutations, search, removal, renaming, common environments. *)
From Coq Require Import Arith ZArith Bool List Lia Sorted Permutation.
From Verif Require Import ApCore ApCoreDim ApEnv ApEnvFacts OctResize2 OctResize3 BoxDims.
Import ListNotations.
Open Scope Z_scope.

Section Facts.
Context {V : Type} (ops : vops V).
Local Notation cmp := (cmp ops).
Local Notation ss := (ss ops).
Local Notation good := (good ops).

Lemma map_insert : forall (x : V * nat) l, map fst (insert ops fst x l) = insert ops (fun v => v) (fst x) (map fst l).
Proof. intros x. induction l as [|y q IH]; simpl; auto. destruct (_ <=? 0); simpl; auto. rewrite IH. auto. Qed.
Lemma map_sort : forall l : list (V * nat), map fst (sort ops fst l) = sort ops (fun v => v) (map fst l).
Proof. induction l; simpl; auto. rewrite map_insert, IHl. auto. Qed.
Lemma map_fst_combine : forall A B (l : list A) (m : list B), length l = length m -> map fst (combine l m) = l.
Proof. induction l; intros [|b m] H; simpl in *; auto; try discriminate. f_equal. apply IHl. lia. Qed.
Lemma map_snd_combine : forall A B (l : list A) (m : list B), length l = length m -> map snd (combine l m) = m.
Proof. induction l; intros [|b m] H; simpl in *; auto; try discriminate. f_equal. apply IHl. lia. Qed.
Lemma set_nth_length : forall A (l : list A) i x, length (set_nth i x l) = length l.
Proof. induction l; intros [|i] x; simpl; auto. Qed.
Lemma fold_set : forall (kv : list (nat * (V * nat))) p, NoDup (map (fun t => snd (snd t)) kv) -> (forall t, In t kv -> (snd (snd t) < length p)%nat) ->
  let p' := fold_left (fun p iv => set_nth (snd (snd iv)) (fst iv) p) kv p in
  length p' = length p /\ (forall t, In t kv -> nth (snd (snd t)) p' 0%nat = fst t) /\ (forall k, (~ In k (map (fun t => snd (snd t)) kv)) -> nth k p' 0%nat = nth k p 0%nat).
Proof.
  induction kv as [|t q IH]; intros p D B; simpl in *. split; auto. split; [intros t []|auto].
  inversion D; subst. destruct (IH (set_nth (snd (snd t)) (fst t) p) H2) as (A1 & A2 & A3). { intros t' T. rewrite set_nth_length. apply B. auto. }
  split. rewrite A1. apply set_nth_length. split.
  - intros t' [<-|T]; auto. rewrite A3 by auto. rewrite set_nth_nth by (apply B; auto). rewrite Nat.eqb_refl. auto.
  - intros k K. rewrite A3 by tauto. rewrite set_nth_nth by (apply B; auto). destruct (Nat.eqb_spec k (snd (snd t))); auto. subst. tauto.
Qed.
Lemma combine_seq_in : forall A (l : list A) o i a, In (i, a) (combine (seq o (length l)) l) <-> (o <= i)%nat /\ nth_error l (i - o) = Some a.
Proof.
  induction l as [|b q IH]; intros o i a; simpl. split. tauto. intros [_ H]. destruct (i - o)%nat; discriminate. rewrite IH. split.
  - intros [E|[L H]]. inversion E; subst. split; auto. rewrite Nat.sub_diag. auto. split; [lia|]. replace (i - o)%nat with (S (i - S o)) by lia. auto.
  - intros [L H]. destruct (Nat.eq_dec i o) as [->|N]. rewrite Nat.sub_diag in H. inversion H; auto. right. split; [lia|]. replace (i - o)%nat with (S (i - S o)) in H by lia. auto.
Qed.
Lemma combine_in_seq : forall A (l : list A) o i a, In (a, i) (combine l (seq o (length l))) <-> (o <= i)%nat /\ nth_error l (i - o) = Some a.
Proof.
  induction l as [|b q IH]; intros o i a; simpl. split. tauto. intros [_ H]. destruct (i - o)%nat; discriminate. rewrite IH. split.
  - intros [E|[L H]]. inversion E; subst. split; auto. rewrite Nat.sub_diag. auto. split; [lia|]. replace (i - o)%nat with (S (i - S o)) by lia. auto.
  - intros [L H]. destruct (Nat.eq_dec i o) as [->|N]. rewrite Nat.sub_diag in H. inversion H; auto. right. split; [lia|]. replace (i - o)%nat with (S (i - S o)) in H by lia. auto.
Qed.
Lemma norm_perm_ok : forall l s p, env_normalize_perm ops l = (s, p) -> s = env_normalize ops l /\ is_perm (length l) p /\ (forall x v, nth_error l x = Some v -> nth_error s (nth x p 0%nat) = Some v).
Proof.
  intros l s p H. unfold env_normalize_perm in H. set (n := length l) in *. set (vd := sort ops fst (combine l (seq 0 n))) in *. inversion H as [[H1 H2]]. clear H.
  pose proof (sort_perm ops fst (combine l (seq 0 n))) as P. fold vd in P. assert (L : length vd = n). { rewrite (Permutation_length P), combine_length, seq_length. unfold n. lia. }
  assert (PS : Permutation (map snd vd) (seq 0 n)). { rewrite (Permutation_map snd P), map_snd_combine. auto. rewrite seq_length. auto. }
  set (kv := combine (seq 0 (length vd)) vd) in *. assert (KS : map (fun t => snd (snd t)) kv = map snd vd). { rewrite <- (map_map snd snd). unfold kv. rewrite map_snd_combine; auto. rewrite seq_length. auto. }
  destruct (fold_set kv (repeat 0%nat n)) as (A1 & A2 & A3). { rewrite KS. eapply Permutation_NoDup; [apply Permutation_sym; exact PS|]. apply seq_NoDup. }
  { intros t T. rewrite repeat_length. assert (I : In (snd (snd t)) (map (fun t => snd (snd t)) kv)) by (apply in_map with (f := fun t => snd (snd t)); auto). rewrite KS in I. apply (Permutation_in _ PS) in I. apply in_seq in I. lia. }
  rewrite H2 in *. rewrite repeat_length in A1.
  assert (Q : forall x v, nth_error l x = Some v -> nth_error vd (nth x p 0%nat) = Some (v, x)).
  { intros x v X. assert (I : In (v, x) vd). { apply (Permutation_in _ (Permutation_sym P)). apply combine_in_seq. split; [lia|]. rewrite Nat.sub_0_r. auto. } apply In_nth_error in I. destruct I as [i I]. assert (K : In (i, (v, x)) kv). { apply combine_seq_in. split; [lia|]. rewrite Nat.sub_0_r; auto. } specialize (A2 _ K). simpl in A2. rewrite A2. auto. }
  split; [|split].
  - unfold vd. rewrite map_sort, map_fst_combine; auto. rewrite seq_length; auto.
  - split; [auto|]. split.
    + intros i I. destruct (nth_error l i) as [v|] eqn:E; [|apply nth_error_None in E; unfold n in *; lia]. specialize (Q _ _ E). rewrite <- L. apply nth_error_Some. congruence.
    + intros i j I J E. destruct (nth_error l i) as [v|] eqn:E1; [|apply nth_error_None in E1; unfold n in *; lia]. destruct (nth_error l j) as [w|] eqn:E2; [|apply nth_error_None in E2; unfold n in *; lia].
      apply Q in E1. apply Q in E2. rewrite E in E1. rewrite E1 in E2. inversion E2; auto.
  - intros x v X. apply Q in X. erewrite map_nth_error; eauto. auto.
Qed.
(** the two parts of a permutation put together *)
Lemma app_perm : forall n m p q, is_perm n p -> is_perm m q -> is_perm (n + m) (p ++ map (fun x => (n + x)%nat) q).
Proof.
  intros n m p q (L1 & B1 & J1) (L2 & B2 & J2).
  assert (N1 : forall i, (i < n)%nat -> nth i (p ++ map (fun x => (n + x)%nat) q) 0%nat = nth i p 0%nat) by (intros; apply app_nth1; lia).
  assert (N2 : forall i, (n <= i < n + m)%nat -> nth i (p ++ map (fun x => (n + x)%nat) q) 0%nat = (n + nth (i - n) q 0)%nat).
  { intros i I. rewrite app_nth2 by lia. rewrite L1. erewrite nth_indep by (rewrite map_length; lia). apply map_nth with (f := fun x => (n + x)%nat). }
  split. rewrite app_length, map_length. lia. split.
  - intros i I. destruct (Nat.lt_ge_cases i n). rewrite N1 by auto. specialize (B1 i H). lia. rewrite N2 by lia. specialize (B2 (i - n)%nat ltac:(lia)). lia.
  - intros i j I J E. destruct (Nat.lt_ge_cases i n), (Nat.lt_ge_cases j n).
    + rewrite !N1 in E by auto. auto.
    + rewrite N1, N2 in E by lia. specialize (B1 i H). lia.
    + rewrite N2, N1 in E by lia. specialize (B1 j H0). lia.
    + rewrite !N2 in E by lia. assert (i - n = j - n)%nat by (apply J2; lia). lia.
Qed.
Lemma both_perm : forall a b s1 p1 s2 p2, env_normalize_perm ops a = (s1, p1) -> env_normalize_perm ops b = (s2, p2) ->
  is_perm (length a + length b) (p1 ++ map (fun x => (length a + x)%nat) p2) /\ forall x v, nth_error (a ++ b) x = Some v -> nth_error (s1 ++ s2) (nth x (p1 ++ map (fun x => (length a + x)%nat) p2) 0%nat) = Some v.
Proof.
  intros a b s1 p1 s2 p2 H1 H2. destruct (norm_perm_ok _ _ _ H1) as (E1 & P1 & Q1). destruct (norm_perm_ok _ _ _ H2) as (E2 & P2 & Q2). split. apply app_perm; auto.
  assert (LS : length s1 = length a) by (rewrite E1; apply Permutation_length, norm_perm). destruct P1 as (L1 & B1 & _). destruct P2 as (L2 & B2 & _).
  intros x v X. destruct (Nat.lt_ge_cases x (length a)).
  - rewrite nth_error_app1 in X by auto. rewrite app_nth1 by lia. apply Q1 in X. rewrite nth_error_app1; auto. apply nth_error_Some. congruence.
  - rewrite nth_error_app2 in X by auto. assert (Y : (x - length a < length b)%nat) by (apply nth_error_Some; congruence). rewrite app_nth2 by lia. rewrite L1. erewrite nth_indep by (rewrite map_length; lia). rewrite map_nth with (f := fun x => (length a + x)%nat) (d := 0%nat).
    rewrite nth_error_app2 by lia. rewrite LS. replace (length a + nth (x - length a) p2 0 - length a)%nat with (nth (x - length a) p2 0%nat) by lia. auto.
Qed.

(** ** Search *)
Lemma search_some : forall x l i, search ops x l = Some i -> nth_error l i = Some x.
Proof.
  intros x. induction l as [|y q IH]; intros i H; simpl in H. discriminate. destruct (cmp x y =? 0) eqn:E. inversion H; subst. apply Z.eqb_eq in E. apply (cmp_eq _ ops) in E. subst. auto.
  destruct (search ops x q) as [j|] eqn:S; simpl in H; inversion H; subst. simpl. auto.
Qed.
Lemma search_none : forall x l, search ops x l = None <-> ~ In x l.
Proof.
  intros x. induction l as [|y q IH]; simpl. tauto. destruct (cmp x y =? 0) eqn:E. apply Z.eqb_eq in E. apply (cmp_eq _ ops) in E. subst. split; [discriminate|tauto].
  apply Z.eqb_neq in E. destruct (search ops x q) as [j|] eqn:S; simpl. split; [discriminate|]. intros H. exfalso. apply H. right. apply search_some in S. eapply nth_error_In; eauto.
  split; auto. intros _ [->|I]. apply E. apply cmp_refl. apply IH; auto.
Qed.
Lemma dim_some : forall e x d, dim_of_var ops e x = Some d -> nth_error (e_vars e) d = Some x.
Proof.
  intros e x d H. unfold dim_of_var in H. unfold e_vars. destruct (search ops x (e_int e)) as [i|] eqn:S. inversion H; subst. apply search_some in S. rewrite nth_error_app1; auto. apply nth_error_Some. congruence.
  destruct (search ops x (e_real e)) as [i|] eqn:T; simpl in H; inversion H; subst. apply search_some in T. rewrite nth_error_app2 by lia. replace (length (e_int e) + i - length (e_int e))%nat with i by lia. auto.
Qed.
Lemma dim_none : forall e x, dim_of_var ops e x = None <-> ~ In x (e_vars e).
Proof.
  intros e x. unfold dim_of_var, e_vars. rewrite in_app_iff. destruct (search ops x (e_int e)) as [i|] eqn:S. { split; [discriminate|]. intros H. exfalso. apply H. left. apply search_some in S. eapply nth_error_In; eauto. }
  apply search_none in S. destruct (search ops x (e_real e)) as [i|] eqn:T; simpl. { split; [discriminate|]. intros H. exfalso. apply H. right. apply search_some in T. eapply nth_error_In; eauto. }
  apply search_none in T. tauto.
Qed.
Lemma dim_iff : forall e x d, good e -> (dim_of_var ops e x = Some d <-> nth_error (e_vars e) d = Some x).
Proof.
  intros e x d G. split. apply dim_some. intros H. destruct (dim_of_var ops e x) as [d'|] eqn:E.
  - f_equal. apply dim_some in E. pose proof (good_nodup ops e G) as D. rewrite NoDup_nth_error in D. apply D. apply nth_error_Some. congruence. congruence.
  - apply dim_none in E. exfalso. apply E. eapply nth_error_In; eauto.
Qed.

(** ** Removal *)
Lemma set_nth_app : forall A (a : list A) x y b, set_nth (length a) y (a ++ x :: b) = a ++ y :: b.
Proof. induction a; intros; simpl; auto. f_equal; auto. Qed.
Lemma swap_perm : forall A (t : list A) i j x y, (i <= j)%nat -> nth_error t i = Some x -> nth_error t j = Some y -> Permutation (set_nth j x (set_nth i y t)) t.
Proof.
  intros A t i j x y L X Y. destruct (nth_error_split _ _ X) as (a & b & -> & <-). rewrite set_nth_app. destruct (Nat.eq_dec (length a) j) as [<-|N].
  - rewrite set_nth_app. auto.
  - rewrite nth_error_app2 in Y by lia. destruct (j - length a)%nat as [|k] eqn:E; [lia|]. simpl in Y. destruct (nth_error_split _ _ Y) as (c & d & -> & <-).
    replace j with (length (a ++ y :: c)) by (rewrite app_length; simpl; lia). replace (a ++ y :: c ++ y :: d) with ((a ++ y :: c) ++ y :: d) by (rewrite <- app_assoc; auto). rewrite set_nth_app. rewrite <- app_assoc. simpl.
    apply Permutation_app_head. apply Permutation_trans with (x :: y :: c ++ d). 2: { constructor. apply Permutation_middle. } apply Permutation_trans with (y :: x :: c ++ d). 2: constructor. constructor. apply Permutation_sym, Permutation_middle.
Qed.
Lemma dim_int : forall e x d, good e -> dim_of_var ops e x = Some d -> if Nat.leb (length (e_int e)) d then In x (e_real e) else In x (e_int e).
Proof.
  intros e x d G H. apply dim_some in H. unfold e_vars in H. destruct (Nat.leb_spec (length (e_int e)) d). rewrite nth_error_app2 in H by auto. eapply nth_error_In; eauto. rewrite nth_error_app1 in H by auto. eapply nth_error_In; eauto.
Qed.
Lemma split_ok : forall e, good e -> forall fuel t i ni, (i <= ni <= length t)%nat -> (ni - i <= fuel)%nat ->
  (forall j x, (j < i)%nat -> nth_error t j = Some x -> In x (e_int e)) -> (forall j x, (ni <= j)%nat -> nth_error t j = Some x -> In x (e_real e)) ->
  match split_loop ops fuel e t i ni with
  | None => exists x, In x t /\ ~ In x (e_vars e)
  | Some (t', n') => Permutation t' t /\ (n' <= length t')%nat /\ (forall x, In x (firstn n' t') -> In x (e_int e)) /\ (forall x, In x (skipn n' t') -> In x (e_real e))
  end.
Proof.
  intros e G. induction fuel; intros t i ni B Fu I R; simpl.
  - replace (Nat.ltb i ni) with false by (symmetry; apply Nat.ltb_ge; lia). assert (i = ni) by lia. subst i. split; auto. split; [lia|]. split.
    + intros x X. apply In_nth_error in X. destruct X as [j X]. assert (J : (j < ni)%nat). { assert (K : (j < length (firstn ni t))%nat) by (apply nth_error_Some; congruence). rewrite firstn_length in K. lia. } apply (I j); auto. rewrite <- (firstn_skipn ni t), nth_error_app1; auto. apply nth_error_Some; congruence.
    + intros x X. apply In_nth_error in X. destruct X as [j X]. apply (R (ni + j)%nat); [lia|]. rewrite <- (firstn_skipn ni t), nth_error_app2; rewrite firstn_length_le by lia; [|lia]. replace (ni + j - ni)%nat with j by lia. auto.
  - destruct (Nat.ltb_spec i ni) as [L|L].
    + destruct (nth_error t i) as [x|] eqn:E; [|apply nth_error_None in E; lia]. destruct (dim_of_var ops e x) as [d|] eqn:D.
      2: { exists x. split. eapply nth_error_In; eauto. apply dim_none; auto. } pose proof (dim_int e x d G D) as K. destruct (Nat.leb (length (e_int e)) d).
      * destruct (nth_error t (ni - 1)) as [y|] eqn:E2; [|apply nth_error_None in E2; lia]. set (t' := set_nth (ni - 1) x (set_nth i y t)).
        assert (P : Permutation t' t) by (apply swap_perm; auto; lia). assert (LT : length t' = length t) by (unfold t'; rewrite !set_nth_length; auto).
        assert (NT : forall j d, nth j t' d = if Nat.eqb j (ni - 1) then x else if Nat.eqb j i then y else nth j t d). { intros. unfold t'. rewrite set_nth_nth by (rewrite set_nth_length; lia). rewrite set_nth_nth by lia. auto. }
        assert (NE : forall j z, nth_error t' j = Some z -> (j < length t)%nat /\ z = if Nat.eqb j (ni - 1) then x else if Nat.eqb j i then y else nth j t x). { intros j z Z. assert (J : (j < length t')%nat) by (apply nth_error_Some; congruence). split; [lia|]. rewrite <- NT. symmetry. apply nth_error_nth; auto. }
        specialize (IHfuel t' i (ni - 1)%nat ltac:(lia) ltac:(lia)). destruct (split_loop ops fuel e t' i (ni - 1)) as [[t2 n2]|].
        -- destruct IHfuel as (A1 & A2 & A3 & A4). ++ intros j z J Z. apply NE in Z. destruct Z as [J2 ->]. destruct (Nat.eqb_spec j (ni - 1)); [lia|]. destruct (Nat.eqb_spec j i); [lia|]. apply (I j); auto. apply nth_error_nth'; auto.
           ++ intros j z J Z. apply NE in Z. destruct Z as [J2 ->]. destruct (Nat.eqb_spec j (ni - 1)); auto. destruct (Nat.eqb_spec j i); [lia|]. apply (R j); [lia|]. apply nth_error_nth'; auto.
           ++ split; auto. apply Permutation_trans with t'; auto.
        -- destruct IHfuel as (z & Z1 & Z2). ++ intros j z J Z. apply NE in Z. destruct Z as [J2 ->]. destruct (Nat.eqb_spec j (ni - 1)); [lia|]. destruct (Nat.eqb_spec j i); [lia|]. apply (I j); auto. apply nth_error_nth'; auto.
           ++ intros j z J Z. apply NE in Z. destruct Z as [J2 ->]. destruct (Nat.eqb_spec j (ni - 1)); auto. destruct (Nat.eqb_spec j i); [lia|]. apply (R j); [lia|]. apply nth_error_nth'; auto.
           ++ exists z. split; auto. apply (Permutation_in _ P); auto.
      * apply IHfuel; try lia; auto. intros j z J Z. destruct (Nat.eq_dec j i) as [->|N]. congruence. apply (I j); auto. lia.
    + assert (i = ni) by lia. subst i. split; auto. split; [lia|]. split.
      * intros x X. apply In_nth_error in X. destruct X as [j X]. assert (J : (j < ni)%nat). { assert (K : (j < length (firstn ni t))%nat) by (apply nth_error_Some; congruence). rewrite firstn_length in K. lia. } apply (I j); auto. rewrite <- (firstn_skipn ni t), nth_error_app1; auto. apply nth_error_Some; congruence.
      * intros x X. apply In_nth_error in X. destruct X as [j X]. apply (R (ni + j)%nat); [lia|]. rewrite <- (firstn_skipn ni t), nth_error_app2; rewrite firstn_length_le by lia; [|lia]. replace (ni + j - ni)%nat with j by lia. auto.
Qed.
Definition env_minus (e : environment V) (t : list V) : environment V := mkEnv (minus ops (e_int e) t) (minus ops (e_real e) t).
Lemma NoDup_app_l : forall A (a b : list A), NoDup (a ++ b) -> NoDup a /\ NoDup b.
Proof. induction a; intros b H; simpl in *. split; auto. constructor. inversion H; subst. destruct (IHa b H3). split; auto. constructor; auto. intros I. apply H2. apply in_app_iff; auto. Qed.
Lemma remove_ok : forall e t, good e -> NoDup t -> incl t (e_vars e) -> environment_remove ops e t = Some (Some (env_minus e t)).
Proof.
  intros e t G D I. unfold environment_remove. destruct t as [|v0 vq]. { destruct e as [a b]. unfold env_minus. simpl. rewrite !minus_nil. auto. } set (t := v0 :: vq) in *. clearbody t.
  pose proof (split_ok e G (length t) t 0 (length t) ltac:(lia) ltac:(lia) ltac:(intros; lia)) as S. destruct (split_loop ops (length t) e t 0 (length t)) as [[t' n']|].
  2: { destruct S as (x & X & Y). intros j x J Z. assert (j < length t)%nat by (apply nth_error_Some; congruence). lia. exfalso. apply Y. apply I; auto. }
  destruct S as (P & L & A & B). intros j x J Z. assert (j < length t)%nat by (apply nth_error_Some; congruence). lia.
  assert (D' : NoDup t') by (eapply Permutation_NoDup; [apply Permutation_sym; eauto|auto]). rewrite <- (firstn_skipn n' t') in D'. apply NoDup_app_l in D'. destruct D' as [D1 D2].
  destruct G as (G1 & G2 & G3). rewrite !env_remove_spec by auto. f_equal. f_equal. unfold env_minus.
  assert (M : forall x, In x t <-> In x (firstn n' t') \/ In x (skipn n' t')). { intros x. rewrite <- in_app_iff, firstn_skipn. split; apply Permutation_in; auto. apply Permutation_sym; auto. }
  f_equal; apply (ss_ext ops); try (apply minus_ss; auto); intros x; rewrite !minus_in, M; split.
  - intros [X Y]. split; auto. intros [Z|Z]; auto. apply (G3 x); auto.
  - intros [X Y]. tauto.
  - intros [X Y]. split; auto. intros [Z|Z]; auto. apply (G3 x); auto.
  - intros [X Y]. tauto.
Qed.
Lemma remove_absent : forall e t x, good e -> In x t -> ~ In x (e_vars e) -> environment_remove ops e t = Some None.
Proof.
  intros e t x G X N. unfold environment_remove. destruct t as [|v0 vq]. destruct X. set (t := v0 :: vq) in *. clearbody t.
  pose proof (split_ok e G (length t) t 0 (length t) ltac:(lia) ltac:(lia) ltac:(intros; lia)) as S. destruct (split_loop ops (length t) e t 0 (length t)) as [[t' n']|]; auto.
  destruct S as (P & L & A & B). intros j y J Z. assert (j < length t)%nat by (apply nth_error_Some; congruence). lia.
  exfalso. apply N. unfold e_vars. rewrite in_app_iff. apply (Permutation_in _ (Permutation_sym P)) in X. rewrite <- (firstn_skipn n' t') in X. apply in_app_iff in X. destruct X; auto.
Qed.
Lemma minus_good : forall e t, good e -> good (env_minus e t).
Proof. intros e t (A & B & C). split; [|split]; simpl. apply minus_ss; auto. apply minus_ss; auto. intros x X Y. apply minus_in in X. apply minus_in in Y. apply (C x); tauto. Qed.

(** ** Union *)
Lemma compat_iff : forall e1 e2, good e1 -> good e2 -> (check_compatibility ops e1 e2 = false <-> disj (e_int e1) (e_real e2) /\ disj (e_int e2) (e_real e1)).
Proof. intros e1 e2 (A1 & B1 & C1) (A2 & B2 & C2). unfold check_compatibility. rewrite negb_false_iff, andb_true_iff, !inter_iff by auto. tauto. Qed.
Definition union (e1 e2 : environment V) : environment V := mkEnv (env_lce ops (e_int e1) (e_int e2)) (env_lce ops (e_real e1) (e_real e2)).
Lemma union_good : forall e1 e2, good e1 -> good e2 -> check_compatibility ops e1 e2 = false -> good (union e1 e2).
Proof.
  intros e1 e2 G1 G2 H. apply compat_iff in H; auto. destruct G1 as (A1 & B1 & C1), G2 as (A2 & B2 & C2), H as [H1 H2]. split; [|split]; simpl. apply lce_ss; auto. apply lce_ss; auto.
  intros x X Y. apply lce_in in X. apply lce_in in Y. destruct X, Y; [eapply C1|eapply H1|eapply H2|eapply C2]; eauto.
Qed.
Lemma union_sub : forall e1 e2, sub e1 (union e1 e2) /\ sub e2 (union e1 e2).
Proof. intros. repeat split; intros x X; simpl; apply lce_in; auto. Qed.
Lemma same_size_eq : forall e1 e, good e1 -> good e -> sub e1 e -> same_size e e1 = true -> e = e1.
Proof.
  intros [i1 r1] [i r] (A1 & B1 & _) (A & B & _) [I R] H. unfold same_size in H. simpl in *. apply andb_true_iff in H. destruct H as [H1 H2]. apply Nat.eqb_eq in H1. apply Nat.eqb_eq in H2.
  assert (incl i i1) by (apply NoDup_length_incl; auto; [eapply ss_NoDup; eauto|lia]). assert (incl r r1) by (apply NoDup_length_incl; auto; [eapply ss_NoDup; eauto|lia]).
  f_equal; apply (ss_ext ops); auto; intros x; split; auto.
Qed.
Lemma same_size_refl : forall e : environment V, same_size e e = true.
Proof. intros. unfold same_size. rewrite !Nat.eqb_refl. auto. Qed.

(** ** Inverting the insertion of dimensions *)
Lemma sorted_nth_le : forall pos i j, StronglySorted le pos -> (i <= j < length pos)%nat -> (nth i pos 0 <= nth j pos 0)%nat.
Proof.
  induction pos as [|p q IH]; intros i j S H; simpl in H. lia. inversion S; subst. rewrite Forall_forall in *. destruct i, j; simpl; auto; try lia. apply H3. apply nth_In. lia. apply IH; auto. lia.
Qed.
Lemma cle_lt : forall pos z t, StronglySorted le pos -> (t < length pos)%nat -> ((t < cle pos z)%nat <-> (nth t pos 0 <= z)%nat).
Proof.
  unfold cle. induction pos as [|p q IH]; intros z t S H; simpl in *. lia. inversion S; subst. destruct (Nat.leb_spec p z).
  - cbn [length]. destruct t; simpl. split; [auto|lia]. specialize (IH z t H2 ltac:(lia)). lia.
  - assert (E : filter (fun p => Nat.leb p z) q = []). { rewrite Forall_forall in H3. clear - H3 H0. induction q; simpl; auto. destruct (Nat.leb_spec a z). specialize (H3 a (or_introl eq_refl)). lia. apply IHq. intros; apply H3; right; auto. }
    rewrite E. simpl. split; [lia|]. intros Q. exfalso. destruct t; simpl in *. lia. rewrite Forall_forall in H3. assert (T : (t < length q)%nat) by lia. specialize (H3 _ (nth_In q 0%nat T)). lia.
Qed.
Lemma count_prefix : forall A (f : A -> bool) l n d, (n <= length l)%nat -> (forall i, (i < length l)%nat -> f (nth i l d) = Nat.ltb i n) -> length (filter f l) = n.
Proof.
  intros A f. induction l as [|a q IH]; intros n d L H; simpl in *. lia. pose proof (H 0%nat ltac:(lia)) as H0. simpl in H0. rewrite H0. destruct n; simpl.
  - apply (IH 0%nat d); [lia|]. intros i I. specialize (H (S i) ltac:(lia)). simpl in H. rewrite H. auto.
  - f_equal. apply (IH n d); [lia|]. intros i I. specialize (H (S i) ltac:(lia)). simpl in H. rewrite H. auto.
Qed.
Lemma invert_shift : forall pos z, StronglySorted le pos -> ~ In (z + cle pos z)%nat (dimchange_add_invert pos) /\ clt (dimchange_add_invert pos) (z + cle pos z) = cle pos z.
Proof.
  intros pos z S. assert (LC : (cle pos z <= length pos)%nat) by apply filter_len.
  assert (N : forall t, (t < length pos)%nat -> nth t (dimchange_add_invert pos) 0%nat = (nth t pos 0 + t)%nat) by (intros; unfold dimchange_add_invert; rewrite add_invert_nth by auto; lia).
  assert (LI : length (dimchange_add_invert pos) = length pos) by apply add_invert_length. split.
  - intros I. apply In_nth with (d := 0%nat) in I. destruct I as (t & T & E). rewrite LI in T. rewrite N in E by auto. pose proof (cle_lt pos z t S T). destruct (Nat.lt_ge_cases t (cle pos z)). lia. assert (~ (nth t pos 0 <= z)%nat) by (rewrite <- H; lia). lia.
  - unfold clt. apply count_prefix with (d := 0%nat). lia. intros t T. rewrite LI in T. rewrite N by auto. pose proof (cle_lt pos z t S T). destruct (Nat.lt_ge_cases t (cle pos z)).
    + replace (Nat.ltb t (cle pos z)) with true by (symmetry; apply Nat.ltb_lt; auto). apply Nat.ltb_lt. lia.
    + assert (~ (nth t pos 0 <= z)%nat) by (rewrite <- H; lia). replace (Nat.ltb t (cle pos z)) with false by (symmetry; apply Nat.ltb_ge; auto). apply Nat.ltb_ge. lia.
Qed.
Lemma invert_wf : forall pos n, box_add_ok n pos -> box_rem_ok (n + length pos) (dimchange_add_invert pos).
Proof.
  intros pos n [S B]. split. apply add_invert_sorted; auto. intros p P. apply In_nth with (d := 0%nat) in P. destruct P as (t & T & <-). unfold dimchange_add_invert in *. rewrite add_invert_length in T. rewrite add_invert_nth by auto. specialize (B (nth t pos 0%nat) (nth_In pos 0%nat T)). lia.
Qed.

(** ** Arrays of environments *)
Definition heads (t : list (list V)) : list V := concat (map (fun l => match l with x :: _ => [x] | [] => [] end) t).
Lemma min_name_spec : forall t x, let m := min_name ops x t in (m = x \/ In m (heads t)) /\ ~ vlt ops x m /\ forall y, In y (heads t) -> ~ vlt ops y m.
Proof.
  unfold min_name, heads. induction t as [|l q IH]; intros x; simpl. split; auto. split; [apply vlt_irrefl|tauto]. destruct l as [|y r]; simpl. apply IH. destruct (0 <? cmp x y) eqn:E.
  - apply Z.ltb_lt in E. apply gt_vlt in E. destruct (IH y) as (A & B & C). split. destruct A as [A|A]; auto. split. intros L. apply B. apply vlt_trans with x; auto. intros z [<-|Z]; auto.
  - apply Z.ltb_ge in E. destruct (IH x) as (A & B & C). split. destruct A as [A|A]; auto. split; auto. intros z [<-|Z]; auto. intros L. apply B. destruct (tri ops x y) as [[K|K]|K]. apply vlt_trans with y; auto. subst; auto. apply gt_vlt in K. lia.
Qed.
Lemma first_head : forall t x, first_name t = Some x -> In x (heads t).
Proof. unfold heads. induction t as [|[|y r] q IH]; intros x H; simpl in *. discriminate. auto. inversion H; auto. Qed.
Lemma first_none : forall t : list (list V), first_name t = None -> concat t = [].
Proof. induction t as [|[|y r] q IH]; intros H; simpl in *; auto. discriminate. Qed.
Lemma heads_in : forall t x, In x (heads t) -> In x (concat t).
Proof. unfold heads. induction t as [|[|y r] q IH]; intros x H; simpl in *; auto. rewrite in_app_iff. destruct H; auto. Qed.
(** the least name of all the arrays *)
Lemma min_ok : forall t x, first_name t = Some x -> let m := min_name ops x (tl t) in In m (heads t) /\ forall y, In y (heads t) -> ~ vlt ops y m.
Proof.
  intros t x H. destruct (min_name_spec (tl t) x) as (A & B & C). destruct t as [|l q]. discriminate. simpl in *. destruct l as [|y r].
  - split. unfold heads; simpl. destruct A as [->|A]; auto. apply first_head; auto. intros y Y. apply C. exact Y.
  - inversion H; subst y. unfold heads. simpl. split. destruct A; auto. intros y [<-|Y]; auto.
Qed.
Lemma head_min : forall t l y q x, In l t -> l = y :: q -> (forall z, In z (heads t) -> ~ vlt ops z x) -> ~ vlt ops y x.
Proof. intros t l y q x I -> H. apply H. unfold heads. apply in_concat. exists [y]. split; [|left; auto]. apply in_map_iff. exists (y :: q). auto. Qed.
Lemma advance_spec : forall t x, Forall ss t -> In x (heads t) -> (forall y, In y (heads t) -> ~ vlt ops y x) ->
  Forall ss (map (advance ops x) t) /\ (forall y, In y (concat (map (advance ops x) t)) -> vlt ops x y) /\ (forall y, In y (concat t) <-> y = x \/ In y (concat (map (advance ops x) t))) /\ (length (concat (map (advance ops x) t)) < length (concat t))%nat.
Proof.
  intros t x S I M.
  assert (K : forall l, In l t -> ss (advance ops x l) /\ (forall y, In y (advance ops x l) -> vlt ops x y) /\ (forall y, In y l -> y = x \/ In y (advance ops x l)) /\ incl (advance ops x l) l).
  { intros l L. rewrite Forall_forall in S. specialize (S l L). destruct l as [|y q]; simpl. repeat split; auto; intros z Z; destruct Z. pose proof (head_min t (y :: q) y q x L eq_refl M) as N.
    destruct (cmp x y =? 0) eqn:E.
    - apply Z.eqb_eq in E. apply (cmp_eq _ ops) in E. subst y. split. eapply ss_tail; eauto. split. intros z Z. eapply ss_head; eauto. split. intros z [<-|Z]; auto. intros z Z; right; auto.
    - apply Z.eqb_neq in E. split; auto. split; [|split; [auto|apply incl_refl]]. assert (XY : vlt ops x y). { destruct (tri ops x y) as [[W|W]|W]; auto. subst. rewrite cmp_refl in E. lia. tauto. } intros z [<-|Z]; auto. apply vlt_trans with y; auto. eapply ss_head; eauto. }
  split; [|split; [|split]].
  - apply Forall_map, Forall_forall. intros l L. apply K; auto.
  - intros y Y. apply in_concat in Y. destruct Y as (l & L & Y). apply in_map_iff in L. destruct L as (l' & <- & L). apply K in L. apply L; auto.
  - intros y. split.
    + intros Y. apply in_concat in Y. destruct Y as (l & L & Y). destruct (K l L) as (_ & _ & A & _). destruct (A y Y); auto. right. apply in_concat. exists (advance ops x l). split; auto. apply in_map; auto.
    + intros [->|Y]. apply heads_in; auto. apply in_concat in Y. destruct Y as (l & L & Y). apply in_map_iff in L. destruct L as (l' & <- & L). apply in_concat. exists l'. split; auto. apply K; auto.
  - assert (G : (length (concat (map (advance ops x) t)) <= length (concat t))%nat). { clear. induction t as [|l q IH]; simpl; auto. rewrite !app_length. assert (length (advance ops x l) <= length l)%nat. { destruct l; simpl; auto. destruct (_ =? 0); simpl; lia. } lia. }
    clear S M K G. unfold heads in I. induction t as [|l q IH]; simpl in *. tauto. rewrite !app_length.
    assert (G : (length (concat (map (advance ops x) q)) <= length (concat q))%nat). { clear. induction q as [|l q IH]; simpl; auto. rewrite !app_length. assert (length (advance ops x l) <= length l)%nat. { destruct l; simpl; auto. destruct (_ =? 0); simpl; lia. } lia. }
    assert (H : (length (advance ops x l) <= length l)%nat). { clear. destruct l; simpl; auto. destruct (_ =? 0); simpl; lia. }
    apply in_app_iff in I. destruct I as [I|I]; [|specialize (IH I); lia]. destruct l as [|y r]; [destruct I|]. destruct I as [<-|[]]. simpl. rewrite cmp_refl. simpl. lia.
Qed.
Lemma lce_array_spec : forall fuel t, Forall ss t -> (length (concat t) <= fuel)%nat -> ss (lce_array_loop ops fuel t) /\ forall y, In y (lce_array_loop ops fuel t) <-> In y (concat t).
Proof.
  induction fuel; intros t S L; simpl; destruct (first_name t) as [x|] eqn:F.
  - exfalso. apply first_head, heads_in in F. destruct (concat t); simpl in *; [tauto|lia].
  - split. constructor. rewrite (first_none _ F). tauto.
  - destruct (min_ok t x F) as [A B]. set (m := min_name ops x (tl t)) in *. destruct (advance_spec t m S A B) as (C1 & C2 & C3 & C4). destruct (IHfuel (map (advance ops m) t) C1 ltac:(lia)) as [D1 D2]. split.
    + constructor; auto. apply Forall_forall. intros y Y. apply D2 in Y. auto.
    + intros y. simpl. rewrite D2, C3. split; intros [H|H]; auto.
  - split. constructor. rewrite (first_none _ F). tauto.
Qed.

(** ** Renaming *)
Definition renamed (l : list (V * V)) (v w : V) : Prop := In (v, w) l \/ (~ In v (map fst l) /\ w = v).
Lemma NoDup_fst : forall (l : list (V * V)) a b c, NoDup (map fst l) -> In (a, b) l -> In (a, c) l -> b = c.
Proof.
  induction l as [|[x y] q IH]; intros a b c D H K; simpl in *. tauto. inversion D; subst. destruct H as [H|H], K as [K|K].
  - congruence.
  - inversion H; subst. exfalso. apply H2. apply in_map_iff. exists (a, c); auto.
  - inversion K; subst. exfalso. apply H2. apply in_map_iff. exists (a, b); auto.
  - eapply IH; eauto.
Qed.
Lemma rename_loop_ok : forall e, good e -> forall l arr, length arr = e_dim e -> NoDup (map fst l) ->
  match rename_loop ops e l arr with
  | None => exists x, In x (map fst l) /\ ~ In x (e_vars e)
  | Some arr' => length arr' = e_dim e /\ incl (map fst l) (e_vars e) /\
      forall d v, nth_error (e_vars e) d = Some v -> (forall y, In (v, y) l -> nth d arr' None = Some y) /\ (~ In v (map fst l) -> nth d arr' None = nth d arr None)
  end.
Proof.
  intros e G. induction l as [|[x y] q IH]; intros arr L D; simpl. { split; auto. split; [intros z []|]. intros d v _. split; [intros z []|auto]. }
  inversion D; subst. destruct (dim_of_var ops e x) as [dx|] eqn:E. 2: { exists x. split; auto. apply dim_none; auto. }
  apply dim_some in E. assert (Lx : (dx < length arr)%nat). { rewrite L. unfold e_dim. assert (dx < length (e_vars e))%nat by (apply nth_error_Some; congruence). unfold e_vars in *. rewrite app_length in *. auto. }
  specialize (IH (set_nth dx (Some y) arr)). rewrite set_nth_length in IH. specialize (IH L H2). destruct (rename_loop ops e q (set_nth dx (Some y) arr)) as [arr'|].
  - destruct IH as (A1 & A2 & A3). split; auto. split. { intros z [<-|Z]; auto. eapply nth_error_In; eauto. } intros d v V0. destruct (A3 d v V0) as [B1 B2]. split.
    + intros z [Z|Z]; auto. inversion Z; subst. rewrite B2 by auto. assert (d = dx). { pose proof (good_nodup ops e G) as ND. rewrite NoDup_nth_error in ND. apply ND. apply nth_error_Some. congruence. congruence. } subst. rewrite set_nth_nth by auto. rewrite Nat.eqb_refl. auto.
    + intros N. rewrite B2 by tauto. rewrite set_nth_nth by auto. destruct (Nat.eqb_spec d dx); auto. subst. exfalso. apply N. left. congruence.
  - destruct IH as (z & Z & W). exists z. auto.
Qed.
Lemma renamed_fun : forall l v w w', NoDup (map fst l) -> renamed l v w -> renamed l v w' -> w = w'.
Proof.
  intros l v w w' D [A|[A ->]] [B|[B ->]]; auto. eapply NoDup_fst; eauto. exfalso. apply B. apply in_map_iff. exists (v, w); auto. exfalso. apply A. apply in_map_iff. exists (v, w'); auto.
Qed.
Lemma rename_values : forall e l arr', good e -> NoDup (map fst l) -> rename_loop ops e l (repeat None (e_dim e)) = Some arr' ->
  Forall2 (renamed l) (e_vars e) (map (fun p => match fst p with Some y => y | None => snd p end) (combine arr' (e_vars e))).
Proof.
  intros e l arr' G D H. pose proof (rename_loop_ok e G l (repeat None (e_dim e)) (repeat_length _ _) D) as R. rewrite H in R. destruct R as (A1 & A2 & A3). assert (LV : length (e_vars e) = e_dim e) by (unfold e_vars, e_dim; rewrite app_length; auto).
  assert (Q : forall d v, nth_error (e_vars e) d = Some v -> renamed l v (match nth d arr' None with Some y => y | None => v end)).
  { intros d v E. destruct (A3 d v E) as [B1 B2]. destruct (in_dec (vdec ops) v (map fst l)) as [I|I].
    - apply in_map_iff in I. destruct I as ([a b] & Ea & I). simpl in Ea. subst a. rewrite (B1 b I). left; auto.
    - rewrite B2 by auto. rewrite nth_repeat. right; auto. }
  clear H A2 A3. rewrite <- LV in A1. revert arr' A1 Q. generalize (e_vars e). induction l0 as [|v q IH]; intros [|a arr'] A1 Q; simpl in *; try discriminate; constructor.
  - apply (Q 0%nat v eq_refl).
  - apply IH. lia. intros d w E. apply (Q (S d) w E).
Qed.
End Facts.

(** Linear independence of lists of integer vectors, for the lines and the equalities of a polyhedron. *)
From Coq Require Import ZArith Bool List Lia Reals Lra Permutation.
Import ListNotations.
From Verif Require Import PkCone PkVec PkCherni PkCherniFacts.
Open Scope R_scope.

Fixpoint lc (ks : list R) (L : list (list Z)) (i : nat) : R := match ks, L with k :: ks, l :: L => k * rv l i + lc ks L i | _, _ => 0 end.
Definition indep (n : nat) (L : list (list Z)) : Prop := forall ks, length ks = length L -> (forall i, (i < n)%nat -> lc ks L i = 0) -> Forall (fun k => k = 0) ks.
Lemma lc_perm : forall L L', Permutation L L' -> forall ks', length ks' = length L' -> exists ks, length ks = length L /\ Permutation ks ks' /\ forall i, lc ks L i = lc ks' L' i.
Proof.
  induction 1 as [|x l l' P IH|x y l|l1 l2 l3 P1 IH1 P2 IH2]; intros ks' E.
  - exists ks'. split; auto.
  - destruct ks' as [|k ks']; simpl in E; try lia. destruct (IH ks' ltac:(lia)) as (ks & A & B & C). exists (k :: ks). split. simpl; lia. split. auto. intros i. simpl. rewrite C. ring.
  - destruct ks' as [|k [|k2 ks']]; simpl in E; try lia. exists (k2 :: k :: ks'). split. simpl; lia. split. constructor. intros i. simpl. ring.
  - destruct (IH2 ks' E) as (ks2 & A2 & B2 & C2). destruct (IH1 ks2 A2) as (ks1 & A1 & B1 & C1). exists ks1. split; auto. split. eapply Permutation_trans; eauto. intros i. rewrite C1; auto.
Qed.
Lemma indep_perm : forall n L L', Permutation L L' -> indep n L -> indep n L'.
Proof. intros n L L' P H ks E Z. destruct (lc_perm L L' P ks E) as (k2 & A & B & C). apply (Permutation_Forall B). apply H; auto. intros i Hi. rewrite C; auto. Qed.
Lemma lc_lshape : forall n A L' p, Forall2 (fun a a' => exists u v, (u <> 0)%R /\ veq n (rv a') (lin2 u (rv a) v (rv p))) A L' ->
  forall ks, length ks = length L' -> exists k2 q, length k2 = length A /\ (forall i, (i < n)%nat -> lc ks L' i = lc k2 A i + q * rv p i) /\ (Forall (fun k => k = 0) k2 -> Forall (fun k => k = 0) ks).
Proof.
  induction 1 as [|a a' A L' (u & v & U & V) F IH]; intros [|k ks] E; simpl in E; try lia.
  - exists [], 0. split; auto. split; auto. intros i _. simpl. ring.
  - destruct (IH ks ltac:(lia)) as (k2 & q & L2 & C & Z). exists (k * u :: k2), (k * v + q). split. simpl; lia. split. intros i Hi. simpl. rewrite C, V by auto. unfold lin2. ring.
    intros FZ. inversion FZ; subst. constructor; auto. apply Rmult_integral in H1. tauto.
Qed.
Lemma lc_snoc : forall A p ks q i, length ks = length A -> lc (ks ++ [q]) (A ++ [p]) i = lc ks A i + q * rv p i.
Proof. induction A as [|a A IH]; intros p [|k ks] q i E; simpl in E; try lia; simpl. ring. rewrite IH by lia. ring. Qed.
Lemma lshape_indep : forall n L L', lshape n L L' -> indep n L -> indep n L'.
Proof.
  intros n L L' (A & p & P & F) I. apply (indep_perm n _ _ (Permutation_sym P)) in I. intros ks E Z. destruct (lc_lshape n A L' p F ks E) as (k2 & q & L2 & C & FZ). apply FZ.
  assert (Y : Forall (fun k => k = 0) (k2 ++ [q])). { apply I. rewrite !app_length; simpl; lia. intros i Hi. rewrite lc_snoc by auto. rewrite <- C; auto. } apply Forall_app in Y. tauto.
Qed.
Lemma indep_nil : forall n, indep n []. Proof. intros n [|k ks] E _; simpl in E; try lia. constructor. Qed.

(** span *)
Lemma gen_lc : forall n L x, gen n rv L [] x -> exists ks, length ks = length L /\ forall i, (i < n)%nat -> x i = lc ks L i.
Proof.
  intros n L x G. induction G as [x Z|x l k y G IH I V|x r k y G IH I K V]; [| |destruct I].
  - exists (repeat 0 (length L)). rewrite repeat_length. split; auto. intros i Hi. rewrite Z by auto. clear. induction L; simpl; auto. rewrite <- IHL. ring.
  - destruct IH as (ks & E & C). assert (A : forall L ks, In l L -> length ks = length L -> exists k2, length k2 = length L /\ forall i, lc k2 L i = lc ks L i + k * rv l i).
    { clear. induction L as [|a L IH]; intros [|q ks] I E; simpl in E; try lia; [destruct I|]. destruct I as [->|I]. exists (q + k :: ks). split. simpl; lia. intros i. simpl. ring. destruct (IH ks I ltac:(lia)) as (k2 & E2 & C). exists (q :: k2). split. simpl; lia. intros i. simpl. rewrite C. ring. }
    destruct (A L ks I E) as (k2 & E2 & C2). exists k2. split; auto. intros i Hi. rewrite C2, V by auto. unfold lin2. rewrite C by auto. ring.
Qed.
Lemma lc_gen : forall n L ks, length ks = length L -> gen n rv L [] (lc ks L).
Proof.
  intros n L. assert (G : forall M ks, incl M L -> length ks = length M -> gen n rv L [] (lc ks M)). { induction M as [|a M IH]; intros [|k ks] I E; simpl in E; try lia. apply gen_0. auto. simpl. apply gen_l with (lc ks M) a k. apply IH; auto. intros y Y. apply I. right; auto. apply I. left; auto. intros i _. unfold lin2. ring. } intros ks E. apply G; auto. intros y; auto.
Qed.
(** a list in the span of another one is not longer, when it is independent *)
Theorem steinitz : forall n A B, indep n B -> (forall b, In b B -> gen n rv A [] (rv b)) -> (length B <= length A)%nat.
Proof.
  intros n A B I S. destruct (le_lt_dec (length B) (length A)) as [|LT]; auto. exfalso.
  assert (M : exists M : list (list R), length M = length B /\ forall j, (j < length B)%nat -> length (nth j M []) = length A /\ forall i, (i < n)%nat -> rv (nth j B []) i = lc (nth j M []) A i).
  { clear I LT. induction B as [|b B IH]. exists []. split; auto. intros j Hj. simpl in Hj; lia. destruct (gen_lc n A (rv b) (S b (or_introl eq_refl))) as (ks & E & C). destruct IH as (M & LM & HM). intros x Hx. apply S. right; auto. exists (ks :: M). split. simpl; lia. intros [|j] Hj; simpl. auto. simpl in Hj. apply HM. lia. }
  destruct M as (M & LM & HM). set (es := map (fun a => fun j => nth a (nth j M []) 0) (seq 0 (length A))). destruct (solve (length B) es) as (v & (j0 & J0 & NZ) & SO). unfold es. rewrite map_length, seq_length; auto.
  set (ks := map v (seq 0 (length B))). assert (LK : length ks = length B) by (unfold ks; rewrite map_length, seq_length; auto).
  assert (Z : forall i, (i < n)%nat -> lc ks B i = 0).
  { intros i Hi. assert (E1 : forall (B : list (list Z)) s f, lc (map f (seq s (length B))) B i = sm (length B) (fun j => f (s + j)%nat * rv (nth j B []) i)).
    { clear. induction B as [|b B IH]; intros s f. reflexivity. cbn [length seq map lc]. rewrite IH. clear IH. assert (SH : forall m g, sm (S m) g = g 0%nat + sm m (fun j => g (S j))) by (clear; induction m; intros g; simpl; [ring|simpl in IHm; rewrite IHm; ring]). rewrite SH. cbn [nth]. rewrite Nat.add_0_r. f_equal. apply sm_ext. intros j _. replace (s + S j)%nat with (S s + j)%nat by lia. reflexivity. }
    unfold ks. rewrite E1. clear E1. assert (E2 : forall (A : list (list Z)) r, length r = length A -> lc r A i = sm (length A) (fun a => nth a r 0 * rv (nth a A []) i)).
    { clear. induction A as [|b A IH]; intros [|q r] E; simpl in E; try lia. reflexivity. cbn [length lc]. rewrite IH by lia. assert (SH : forall m g, sm (S m) g = g 0%nat + sm m (fun j => g (S j))) by (clear; induction m; intros g; simpl; [ring|simpl in IHm; rewrite IHm; ring]). rewrite SH. reflexivity. }
    rewrite (sm_ext _ _ (fun j => sm (length A) (fun a => v j * (nth a (nth j M []) 0 * rv (nth a A []) i)))). 2: { intros j Hj. simpl plus. destruct (HM j Hj) as [H1 H2]. rewrite H2 by auto. rewrite E2 by auto. symmetry. apply sm_scal. }
    assert (EX : forall p q (f : nat -> nat -> R), sm p (fun j => sm q (fun a => f j a)) = sm q (fun a => sm p (fun j => f j a))). { clear. induction p; intros q f; simpl. symmetry. apply sm_0; auto. rewrite IHp. symmetry. apply sm_plus. }
    rewrite EX. apply sm_0. intros a Ha. assert (SA := SO (fun j => nth a (nth j M []) 0)). rewrite (sm_ext _ _ (fun j => rv (nth a A []) i * (nth a (nth j M []) 0 * v j))). rewrite sm_scal. rewrite SA. ring. unfold es. apply in_map_iff. exists a. split; auto. apply in_seq. lia. intros j _. ring. }
  assert (F := I ks LK Z). rewrite Forall_forall in F. apply NZ. apply F. unfold ks. apply in_map. apply in_seq. lia.
Qed.
(** pivots *)
Lemma indep_cons : forall n a L i, (i < n)%nat -> rv a i <> 0 -> (forall l, In l L -> rv l i = 0) -> indep n L -> indep n (a :: L).
Proof.
  intros n a L i Hi NZ Z I [|k ks] E C; simpl in E; try lia. assert (ZL : forall L, (forall l, In l L -> rv l i = 0) -> forall ks, lc ks L i = 0). { clear. induction L as [|b L IH]; intros H [|k ks]; simpl; auto. rewrite IH, (H b) by (auto; try (left; auto); intros; apply H; right; auto). ring. }
  assert (K : k = 0). { specialize (C i Hi). simpl in C. rewrite ZL in C by auto. rewrite Rplus_0_r in C. apply Rmult_integral in C. tauto. } constructor; auto. apply I. lia. intros j Hj. specialize (C j Hj). simpl in C. rewrite K in C. lra.
Qed.

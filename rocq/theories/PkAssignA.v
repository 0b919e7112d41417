(** Parallel assignments and substitutions of polyhedra: proofs. *)
From Coq Require Import ZArith Bool List Lia Reals Lra Permutation Sorted.
Import ListNotations.
From Verif Require Import PkCone PkVec PkCherni PkCherniFacts PkSpec PkFarkas PkRank PkSimplifyEnd PkMinimize PkPoly PkPolyFacts PkPolyLeq PkPolyMeet PkLin PkRepr PkOps PkAssign.
Open Scope R_scope.
Notation eqn := (nat * pvec)%type (only parsing).

(** * The sort *)
Lemma ainsert_perm : forall e l, Permutation (asssub_insert e l) (e :: l).
Proof. induction l as [|f l IH]; simpl; auto. destruct (Nat.ltb (fst e) (fst f)); auto. rewrite IH. apply perm_swap. Qed.
Lemma aisort_perm : forall l, Permutation (asssub_isort l) l.
Proof.
  intros l. unfold asssub_isort. assert (H : forall l acc, Permutation (fold_left (fun acc e => asssub_insert e acc) l acc) (acc ++ l)). { induction l0 as [|e l0 IH]; intros acc; simpl. rewrite app_nil_r; auto. rewrite IH. rewrite ainsert_perm. simpl. rewrite Permutation_middle. auto. } apply H.
Qed.
Lemma ainsert_sorted : forall e l, StronglySorted (fun a b : eqn => (fst a <= fst b)%nat) l -> StronglySorted (fun a b : eqn => (fst a <= fst b)%nat) (asssub_insert e l).
Proof.
  induction l as [|f l IH]; intros H; simpl. repeat constructor. inversion H as [|? ? H1 H2]; subst. destruct (Nat.ltb_spec (fst e) (fst f)).
  - constructor; auto. constructor. lia. eapply Forall_impl; [|exact H2]. simpl. intros; lia.
  - constructor; auto. rewrite Forall_forall in *. intros x X. apply (Permutation_in _ (ainsert_perm e l)) in X. destruct X as [<-|X]; auto.
Qed.
Lemma aisort_sorted : forall l, StronglySorted (fun a b : eqn => (fst a <= fst b)%nat) (asssub_isort l).
Proof. intros l. unfold asssub_isort. assert (H : forall l acc, StronglySorted (fun a b : eqn => (fst a <= fst b)%nat) acc -> StronglySorted (fun a b : eqn => (fst a <= fst b)%nat) (fold_left (fun acc e => asssub_insert e acc) l acc)). { induction l0 as [|e l0 IH]; intros acc H; simpl; auto. apply IH. apply ainsert_sorted; auto. } apply H. constructor. Qed.
Definition ssorted (l : list eqn) : Prop := StronglySorted (fun a b : eqn => (fst a < fst b)%nat) l.
Lemma aisort_ssorted : forall l, NoDup (map fst l) -> ssorted (asssub_isort l).
Proof.
  intros l N. assert (N2 : NoDup (map fst (asssub_isort l))). { eapply Permutation_NoDup; [|exact N]. apply Permutation_map. symmetry. apply aisort_perm. } assert (S := aisort_sorted l). revert N2 S. generalize (asssub_isort l). clear. induction l as [|e l IH]; intros N S. constructor. inversion N; inversion S; subst. constructor; auto. apply IH; auto. rewrite Forall_forall in *. intros x X. assert (fst e <> fst x). { intros E. apply H1. rewrite E. apply in_map; auto. } specialize (H6 x X). lia.
Qed.

(** * The denominators *)
Definition eok (n : nat) (eqs : list eqn) : Prop := Forall (fun e : eqn => lenS n (snd e) /\ (0 < zn 0 (snd e))%Z /\ (fst e + 1 < n)%nat) eqs.
Lemma cden_spec : forall n eqs, eok n eqs -> (0 < common_den eqs)%Z /\ forall e, In e eqs -> (zn 0 (snd e) | common_den eqs)%Z.
Proof.
  intros n eqs H. unfold common_den. assert (G : forall eqs d, eok n eqs -> (0 < d)%Z -> (0 < fold_left (fun d e => d * zn 0 (snd e)) eqs d)%Z /\ (d | fold_left (fun d e => d * zn 0 (snd e)) eqs d)%Z /\ forall e, In e eqs -> (zn 0 (snd e) | fold_left (fun d e => d * zn 0 (snd e)) eqs d)%Z).
  { induction eqs0 as [|e q IH]; intros d F D; simpl. split; auto. split. apply Z.divide_refl. intros e []. inversion F as [|? ? (_ & F1 & _) F2]; subst. destruct (IH (d * zn 0 (snd e))%Z F2 ltac:(nia)) as (A & B & C). split; auto. split. eapply Z.divide_trans; [|exact B]. apply Z.divide_factor_l. intros e' [<-|I]; auto. eapply Z.divide_trans; [|exact B]. apply Z.divide_factor_r. }
  destruct (G eqs 1%Z H ltac:(lia)) as (A & _ & B). auto.
Qed.
Lemma cden_div : forall n eqs e, eok n eqs -> In e eqs -> IZR (common_den eqs / zn 0 (snd e)) = IZR (common_den eqs) / IZR (zn 0 (snd e)).
Proof.
  intros n eqs e H I. destruct (cden_spec n eqs H) as (D & V). destruct (V e I) as (m & M). rewrite M. unfold eok in H. rewrite Forall_forall in H. destruct (H e I) as (_ & P & _). rewrite Z.div_mul by lia. rewrite mult_IZR. field. apply not_0_IZR. lia.
Qed.

(** * The map *)
Definition eval1 (n : nat) (x : vec) (t : pvec) : R := dt n (rv (tl t)) x / IZR (zn 0 t).
Fixpoint amapA (n : nat) (eqs : list eqn) (x : vec) : vec := match eqs with [] => x | e :: q => fun j => if Nat.eqb j (fst e + 1) then eval1 n x (snd e) else amapA n q x j end.
Lemma amapA_0 : forall n eqs x, amapA n eqs x 0%nat = x 0%nat. Proof. induction eqs as [|e q IH]; intros x; cbn [amapA]; auto. destruct (Nat.eqb_spec 0 (fst e + 1)); [lia|auto]. Qed.
Lemma amapA_lin : forall n eqs, linear n n (amapA n eqs).
Proof.
  intros n eqs. split.
  - intros a x b y j Hj. induction eqs as [|e q IH]; cbn [amapA]. reflexivity. unfold lin2. destruct (Nat.eqb j (fst e + 1)). 2: apply IH. unfold eval1, Rdiv. change (fun i => a * x i + b * y i) with (lin2 a x b y). rewrite dt_lin. ring.
  - intros x y V j Hj. induction eqs as [|e q IH]; cbn [amapA]; auto. destruct (Nat.eqb j (fst e + 1)); auto. unfold eval1. rewrite (dt_ext n _ _ _ V). auto.
Qed.
Lemma amapA_in : forall n eqs x e, NoDup (map fst eqs) -> In e eqs -> amapA n eqs x (fst e + 1)%nat = eval1 n x (snd e).
Proof. induction eqs as [|f q IH]; intros x e N I. destruct I. simpl in N. inversion N; subst. cbn [amapA]. destruct I as [->|I]. rewrite Nat.eqb_refl; auto. destruct (Nat.eqb_spec (fst e + 1) (fst f + 1)). exfalso. apply H1. replace (fst f) with (fst e) by lia. apply in_map; auto. apply IH; auto. Qed.
Lemma amapA_out : forall n eqs x j, (forall e, In e eqs -> j <> (fst e + 1)%nat) -> amapA n eqs x j = x j.
Proof. induction eqs as [|f q IH]; intros x j H; cbn [amapA]; auto. destruct (Nat.eqb_spec j (fst f + 1)). exfalso. apply (H f); auto. left; auto. apply IH. intros; apply H; right; auto. Qed.
Lemma ss_nodup : forall l, ssorted l -> NoDup (map fst l).
Proof. induction 1 as [|a l H IH F]; simpl; constructor; auto. intros I. apply in_map_iff in I. destruct I as (b & E & I). rewrite Forall_forall in F. specialize (F b I). lia. Qed.

(** * Assignment *)
Lemma assign_cols_len : forall den q cols j eqs, length (assign_cols den q j cols eqs) = length cols.
Proof. induction cols as [|c cols IH]; intros j eqs; simpl; auto. destruct eqs as [|(d, t) eqs]; simpl; rewrite ?IH; auto. destruct (Nat.eqb (d + 2) j); simpl; rewrite IH; auto. Qed.
Lemma assign_cols_spec : forall den q cols j eqs k, ssorted eqs -> (forall e, In e eqs -> (j <= fst e + 2)%nat) -> (k < length cols)%nat ->
  (exists e, In e eqs /\ (fst e + 2 = j + k)%nat /\ nth k (assign_cols den q j cols eqs) 0%Z = (vector_product q (snd e) * (den / zn 0 (snd e)))%Z) \/ ((forall e, In e eqs -> (fst e + 2 <> j + k)%nat) /\ nth k (assign_cols den q j cols eqs) 0%Z = (nth k cols 0 * den)%Z).
Proof.
  induction cols as [|c cols IH]; intros j eqs k S B K; simpl in K. lia. simpl assign_cols. destruct eqs as [|(d, t) eqs].
  - right. split. intros e []. destruct k. reflexivity. simpl. destruct (IH (Datatypes.S j) [] k ltac:(constructor) ltac:(intros e []) ltac:(lia)) as [(e & [] & _)|(_ & E)]; auto.
  - inversion S as [|? ? S1 S2]; subst. rewrite Forall_forall in S2. destruct (Nat.eqb_spec (d + 2) j) as [E|E].
    + destruct k. left. exists (d, t). split. left; auto. split. simpl; lia. reflexivity. simpl nth. destruct (IH (Datatypes.S j) eqs k S1) as [(e & I & E1 & E2)|(N & E2)]. intros e I. specialize (S2 e I). simpl in S2. lia. lia.
      left. exists e. split. right; auto. split. lia. auto. right. split; auto. intros e [<-|I]. simpl. lia. specialize (N e I). lia.
    + destruct k. right. split; auto. intros e I. assert (B0 := B (d, t) ltac:(left; auto)). simpl in B0. destruct I as [<-|I]. simpl. lia. specialize (S2 e I). simpl in S2. lia.
      simpl nth. destruct (IH (Datatypes.S j) ((d, t) :: eqs) k S) as [(e & I & E1 & E2)|(N & E2)]. intros e I. assert (B0 := B (d, t) ltac:(left; auto)). simpl in B0. destruct I as [<-|I]. simpl. lia. specialize (S2 e I). simpl in S2. lia. lia.
      left. exists e. split; auto. split. lia. auto. right. split; auto. intros e I. specialize (N e I). lia.
Qed.

Lemma assign_array_img : forall n eqs q, lenS n q -> eok n eqs -> ssorted eqs -> rimg n (amapA n eqs) q (assign_row_array eqs q) /\ lenS n (assign_row_array eqs q) /\ zn 0 (assign_row_array eqs q) = zn 0 q.
Proof.
  intros n eqs q Lq OK SS. unfold assign_row_array. set (w := zn 0 q :: assign_cols (common_den eqs) q 1 (tl q) eqs). assert (Lt : length (tl q) = n) by (unfold lenS in Lq; destruct q; simpl in *; unfold pvec in *; lia).
  assert (Lw : lenS n w) by (unfold lenS, w; simpl; rewrite assign_cols_len, Lt; auto). destruct (norm_row n w Lw) as (L & Z0 & k & K & E). destruct (cden_spec n eqs OK) as (D & DV). assert (Dr : 0 < IZR (common_den eqs)) by (apply IZR_lt; auto). split; [|split; auto].
  split. rewrite Z0. reflexivity. exists (k * IZR (common_den eqs)). split. apply Rmult_lt_0_compat; auto. intros i Hi. rewrite E. unfold w at 1. unfold rv at 1. cbn [tl].
  destruct (assign_cols_spec (common_den eqs) q (tl q) 1 eqs i SS ltac:(intros; lia) ltac:(lia)) as [(e & I & E1 & ->)|(N & ->)].
  - replace i with (fst e + 1)%nat by lia. rewrite amapA_in; auto. 2: apply ss_nodup; auto. rewrite mult_IZR, (cden_div n eqs e OK I). unfold vector_product, eval1. unfold eok in OK. rewrite Forall_forall in OK. destruct (OK e I) as (Le & Pe & _). rewrite (prod_dt' n) by auto. rewrite (dt_sym n (rv (tl q))). field. apply not_0_IZR. lia.
  - rewrite amapA_out. 2: intros e I; specialize (N e I); lia. rewrite mult_IZR. unfold rv. ring.
Qed.

(** * Substitution *)
Lemma subst_cols_spec : forall den cols j eqs k, ssorted eqs -> (forall e, In e eqs -> (j <= fst e + 2)%nat) -> (k < length cols)%nat ->
  nth k (subst_cols den j cols eqs) 0%Z = (if existsb (fun e : eqn => Nat.eqb (fst e + 2) (j + k)) eqs then 0 else nth k cols 0 * den)%Z.
Proof.
  induction cols as [|c cols IH]; intros j eqs k S B K; simpl in K. lia. simpl subst_cols. destruct eqs as [|(d, t) eqs].
  - simpl. destruct k; auto. simpl. rewrite (IH (Datatypes.S j) [] k) by (try constructor; try lia; intros e []). reflexivity.
  - inversion S as [|? ? S1 S2]; subst. rewrite Forall_forall in S2. assert (B0 := B (d, t) ltac:(left; auto)). simpl in B0. assert (NE : forall j', (j' <= d + 2)%nat -> existsb (fun e : eqn => Nat.eqb (fst e + 2) j') eqs = false). { intros j' J. destruct (existsb _ eqs) eqn:X; auto. apply existsb_exists in X. destruct X as (e & I & X). apply Nat.eqb_eq in X. specialize (S2 e I). simpl in S2. lia. }
    destruct (Nat.eqb_spec (d + 2) j) as [E|E].
    + destruct k. simpl. replace (j + 0)%nat with j by lia. replace (Nat.eqb (d + 2) j) with true by (symmetry; apply Nat.eqb_eq; auto). reflexivity. simpl nth. rewrite (IH (Datatypes.S j) eqs k S1). 2: intros e I; specialize (S2 e I); simpl in S2; lia. 2: lia. cbn [existsb fst]. destruct (Nat.eqb_spec (d + 2) (j + Datatypes.S k)); [lia|]. simpl. replace (j + Datatypes.S k)%nat with (Datatypes.S (j + k)) by lia. reflexivity.
    + destruct k. cbn [existsb fst]. destruct (Nat.eqb_spec (d + 2) (j + 0)); [lia|]. rewrite NE by lia. reflexivity. simpl nth. rewrite (IH (Datatypes.S j) ((d, t) :: eqs) k S). replace (j + Datatypes.S k)%nat with (Datatypes.S j + k)%nat by lia. reflexivity. intros e [<-|I]. simpl; lia. specialize (S2 e I). simpl in S2. lia. lia.
Qed.
Lemma subst_add_spec : forall den q j eqs c, (forall e, In e eqs -> IZR (den / zn 0 (snd e)) = IZR den / IZR (zn 0 (snd e)) /\ (0 < zn 0 (snd e))%Z) ->
  IZR (subst_add den q j eqs c) = IZR c + IZR den * fold_right (fun (e : eqn) a => IZR (zn (fst e + 2) q) * IZR (zn j (snd e)) / IZR (zn 0 (snd e)) + a) 0 eqs.
Proof.
  intros den q j eqs. unfold subst_add. induction eqs as [|e eqs IH]; intros c H. simpl. ring. cbn [fold_left fold_right]. rewrite IH. 2: intros; apply H; right; auto. destruct (H e ltac:(left; auto)) as (H1 & H2). assert (0 < IZR (zn 0 (snd e))) by (apply IZR_lt; auto). destruct (Z.eqb_spec (zn (fst e + 2) q) 0) as [->|Z]. field. lra. rewrite plus_IZR, !mult_IZR, H1. field. lra.
Qed.
Lemma amapA_dt : forall n eqs c x (y : eqn -> R), (forall e, In e eqs -> (fst e + 1 < n)%nat) -> NoDup (map fst eqs) -> 
  dt n c (fun j => match find (fun e : eqn => Nat.eqb (fst e + 1) j) eqs with Some e => y e | None => x j end) = dt n (fun j => if existsb (fun e : eqn => Nat.eqb (fst e + 1) j) eqs then 0 else c j) x + fold_right (fun (e : eqn) a => c (fst e + 1)%nat * y e + a) 0 eqs.
Proof.
  intros n eqs. induction eqs as [|e eqs IH]; intros c x y B N.
  - simpl. rewrite Rplus_0_r. reflexivity.
  - simpl in N. inversion N as [|? ? N1 N2]; subst. rewrite (dt_split n (fst e + 1)) by (apply B; left; auto). cbn [find fold_right]. rewrite Nat.eqb_refl. set (c' := fun i => if Nat.eqb i (fst e + 1) then 0 else c i).
    replace (dt n c' (fun j : nat => match (if Nat.eqb (fst e + 1) j then Some e else find (fun e0 : eqn => Nat.eqb (fst e0 + 1) j) eqs) with Some e0 => y e0 | None => x j end)) with (dt n c' (fun j => match find (fun e : eqn => Nat.eqb (fst e + 1) j) eqs with Some e => y e | None => x j end)).
    + rewrite IH; auto. 2: intros; apply B; right; auto. rewrite (dt_fun n _ (fun j => if existsb (fun e0 : eqn => Nat.eqb (fst e0 + 1) j) (e :: eqs) then 0 else c j)).
      * assert (FE : fold_right (fun (e0 : eqn) a => c' (fst e0 + 1)%nat * y e0 + a) 0 eqs = fold_right (fun (e0 : eqn) a => c (fst e0 + 1)%nat * y e0 + a) 0 eqs).
        { assert (IN : forall e0, In e0 eqs -> fst e0 <> fst e) by (intros e0 I E; apply N1; rewrite <- E; apply in_map; auto). clear - IN. revert IN. induction eqs as [|f q IH]; intros IN; simpl; auto. rewrite IH by (intros; apply IN; right; auto). unfold c' at 1. specialize (IN f ltac:(left; auto)). destruct (Nat.eqb_spec (fst f + 1) (fst e + 1)); [lia|auto]. }
        rewrite FE. ring.
      * intros i Hi. cbn [existsb]. unfold c'. rewrite (Nat.eqb_sym (fst e + 1) i). destruct (existsb _ eqs), (Nat.eqb i (fst e + 1)); reflexivity.
    + unfold dt. apply sm_ext. intros i Hi. unfold c'. rewrite (Nat.eqb_sym (fst e + 1) i). destruct (Nat.eqb i (fst e + 1)); auto. ring.
Qed.

Lemma amapA_find : forall n eqs x j, amapA n eqs x j = match find (fun e : eqn => Nat.eqb (fst e + 1) j) eqs with Some e => eval1 n x (snd e) | None => x j end.
Proof. induction eqs as [|e q IH]; intros x j; simpl; auto. rewrite (Nat.eqb_sym j). destruct (Nat.eqb (fst e + 1) j); auto. Qed.
Lemma subst_array_pre : forall n eqs q, lenS n q -> eok n eqs -> ssorted eqs -> rpre n n (amapA n eqs) q (subst_row_array eqs q) /\ lenS n (subst_row_array eqs q) /\ zn 0 (subst_row_array eqs q) = zn 0 q.
Proof.
  intros n eqs q Lq OK SS. unfold subst_row_array. assert (Lt : length (tl q) = n) by (unfold lenS in Lq; destruct q; simpl in *; unfold pvec in *; lia). rewrite Lt.
  set (f := fun j => subst_add (common_den eqs) q (S j) eqs (nth j (subst_cols (common_den eqs) 1 (tl q) eqs) 0%Z)). set (w := zn 0 q :: map f (seq 0 n)).
  assert (Lw : lenS n w) by (unfold lenS, w; simpl; rewrite map_length, seq_length; auto). destruct (norm_row n w Lw) as (L & Z0 & k & K & E). destruct (cden_spec n eqs OK) as (D & DV). assert (Dr : 0 < IZR (common_den eqs)) by (apply IZR_lt; auto). split; [|split; auto].
  assert (OK' := OK). unfold eok in OK'. rewrite Forall_forall in OK'.
  split. rewrite Z0. reflexivity. exists (k * IZR (common_den eqs)). split. apply Rmult_lt_0_compat; auto. intros x.
  assert (RW : forall i, (i < n)%nat -> rv (tl (vector_normalize w)) i = k * IZR (common_den eqs) * ((if existsb (fun e : eqn => Nat.eqb (fst e + 1) i) eqs then 0 else rv (tl q) i) + fold_right (fun (e : eqn) a => IZR (zn (fst e + 2) q) * rv (tl (snd e)) i / IZR (zn 0 (snd e)) + a) 0 eqs)).
  { intros i Hi. rewrite E. unfold w. unfold rv at 1. cbn [tl]. change (nth i (map f (seq 0 n)) 0%Z) with (zn i (map f (seq 0 n))). rewrite zn_mapseq by auto. unfold f. rewrite subst_add_spec. 2: intros e I; split; [apply (cden_div n); auto|apply OK'; auto]. rewrite subst_cols_spec; auto. 2: intros; lia. 2: lia.
    assert (EE : existsb (fun e : eqn => Nat.eqb (fst e + 2) (1 + i)) eqs = existsb (fun e : eqn => Nat.eqb (fst e + 1) i) eqs). { clear. induction eqs; cbn [existsb]; auto. rewrite IHeqs. f_equal. destruct (Nat.eqb_spec (fst a + 2) (1 + i)), (Nat.eqb_spec (fst a + 1) i); auto; lia. }
    rewrite EE. assert (FE : fold_right (fun (e : eqn) a => IZR (zn (fst e + 2) q) * IZR (zn (S i) (snd e)) / IZR (zn 0 (snd e)) + a) 0 eqs = fold_right (fun (e : eqn) a => IZR (zn (fst e + 2) q) * rv (tl (snd e)) i / IZR (zn 0 (snd e)) + a) 0 eqs). { clear. induction eqs; simpl; auto. rewrite IHeqs, rv_zn. reflexivity. }
    rewrite FE. assert (AUX : forall (b : bool) (z zD : Z) F0, k * (IZR (if b then 0 else z * zD)%Z + IZR zD * F0) = k * IZR zD * ((if b then 0 else IZR z) + F0)) by (intros [] z zD F0; rewrite ?mult_IZR; ring). apply AUX. }
  rewrite (dt_fun n _ _ x RW). rewrite (dt_ext n (rv (tl q)) (amapA n eqs x) (fun j => match find (fun e : eqn => Nat.eqb (fst e + 1) j) eqs with Some e => eval1 n x (snd e) | None => x j end)) by (intros j _; apply amapA_find).
  rewrite (amapA_dt n eqs (rv (tl q)) x (fun e => eval1 n x (snd e))). 2: intros e I; apply OK'; auto. 2: apply ss_nodup; auto.
  set (c0 := fun j => if existsb (fun e : eqn => Nat.eqb (fst e + 1) j) eqs then 0 else rv (tl q) j).
  assert (G : forall l, (forall e, In e l -> In e eqs) -> dt n (fun i => fold_right (fun (e : eqn) a => IZR (zn (fst e + 2) q) * rv (tl (snd e)) i / IZR (zn 0 (snd e)) + a) 0 l) x = fold_right (fun (e : eqn) a => rv (tl q) (fst e + 1)%nat * eval1 n x (snd e) + a) 0 l).
  { induction l as [|e l IH]; intros I; cbn [fold_right]. rewrite dt_sym. apply dt_zero; auto. rewrite <- IH by (intros; apply I; right; auto). rewrite (rv_zn q). replace (S (fst e + 1)) with (fst e + 2)%nat by lia. unfold eval1.
    assert (0 < IZR (zn 0 (snd e))) by (apply IZR_lt; apply OK'; apply I; left; auto). rewrite (dt_fun n _ (lin2 (IZR (zn (fst e + 2) q) / IZR (zn 0 (snd e))) (rv (tl (snd e))) 1 (fun i => fold_right (fun (e : eqn) a => IZR (zn (fst e + 2) q) * rv (tl (snd e)) i / IZR (zn 0 (snd e)) + a) 0 l))). rewrite dt_sym, dt_lin, !(dt_sym n x). field. lra. intros i _. unfold lin2. field. lra. }
  rewrite <- (G eqs) by auto. rewrite (dt_fun n _ (lin2 (k * IZR (common_den eqs)) c0 (k * IZR (common_den eqs)) (fun i => fold_right (fun (e : eqn) a => IZR (zn (fst e + 2) q) * rv (tl (snd e)) i / IZR (zn 0 (snd e)) + a) 0 eqs))). rewrite dt_sym, dt_lin, !(dt_sym n x). ring. intros i _. unfold lin2, c0. ring.
Qed.

(** * Polyhedra *)
Definition asgA (i r : nat) (eqs : list eqn) (P : vec -> Prop) (y : vec) : Prop := exists x, P x /\ forall j, (j < i + r)%nat -> y j = amapA (d1 i r) eqs (homog x) (S j).
Definition sbsA (i r : nat) (eqs : list eqn) (P : vec -> Prop) (y : vec) : Prop := P (fun j => amapA (d1 i r) eqs (homog y) (S j)).
Definition asubA (assign : bool) := if assign then asgA else sbsA.
Lemma asubA_none : forall assign i r eqs (P : vec -> Prop), (forall x, ~ P x) -> forall x, ~ asubA assign i r eqs P x.
Proof. intros [] i r eqs P N x; simpl. intros (y & Y & _). apply (N y Y). intros X. apply (N _ X). Qed.
Lemma eok_perm : forall n l l', Permutation l l' -> eok n l -> eok n l'. Proof. intros n l l' P H. unfold eok in *. rewrite Forall_forall in *. intros e I. apply H. apply (Permutation_in _ (Permutation_sym P)); auto. Qed.
Lemma amapA_perm : forall n l l' x j, Permutation l l' -> NoDup (map fst l) -> amapA n l x j = amapA n l' x j.
Proof.
  intros n l l' x j P N. assert (N' : NoDup (map fst l')) by (eapply Permutation_NoDup; [apply Permutation_map; exact P|auto]). destruct (in_dec Nat.eq_dec j (map (fun e : eqn => (fst e + 1)%nat) l)) as [I|I].
  - apply in_map_iff in I. destruct I as (e & <- & I). rewrite (amapA_in n l), (amapA_in n l'); auto. apply (Permutation_in _ P); auto.
  - rewrite (amapA_out n l), (amapA_out n l'); auto. intros e Ie E. apply I. apply in_map_iff. exists e. split; auto. apply (Permutation_in _ (Permutation_sym P)); auto. intros e Ie E. apply I. apply in_map_iff. exists e. auto.
Qed.
Theorem array_det_spec : forall assign destr pa eqs i r P, repr pa i r P -> isbot pa = false -> eok (d1 i r) eqs -> NoDup (map fst eqs) ->
  let (po, pa') := poly_asssub_linexpr_array_det assign destr pa eqs in repr po i r (asubA assign i r (asssub_isort eqs) P) /\ (destr = false -> repr pa' i r P) /\ (isbot po = true -> forall x, ~ P x).
Proof.
  intros assign destr pa eqs i r P HP NB OK ND. unfold poly_asssub_linexpr_array_det. assert (OK' := eok_perm _ _ _ (Permutation_sym (aisort_perm eqs)) OK). assert (SS := aisort_ssorted eqs ND). set (es := asssub_isort eqs) in *.
  destruct (obtain_Fd assign pa i r P HP) as (H1 & N1). set (p1 := poly_obtain_F_dual assign (duals assign pa)) in *. assert (SW : swf (duals assign p1)) by apply H1. assert (PN := repr_pn _ _ _ _ H1).
  assert (DI : pint p1 = i /\ preal p1 = r) by (destruct H1 as (_ & I1 & R1 & _); destruct assign; simpl in *; auto). destruct DI as (I1 & R1).
  destruct (pF p1) as [F|] eqn:PF.
  - split; [|split].
    + destruct assign; simpl in *.
      * apply (image_F p1 _ i r i r P (amapA (d1 i r) es) F (assign_row_array es)); auto. apply amapA_lin. intros; apply amapA_0. intros f If. assert (lenS (d1 i r) f). { assert (Q := swf_F p1 F SW PF). rewrite PN in Q. rewrite Forall_forall in Q. apply Q; auto. } split; apply assign_array_img; auto.
      * apply (preimage_C (poly_dual p1) _ i r i r P (amapA (d1 i r) es) F (subst_row_array es)); auto. intros; apply amapA_0. intros f If. assert (lenS (d1 i r) f). { assert (Q := swf_C (poly_dual p1) F SW PF). rewrite PN in Q. rewrite Forall_forall in Q. apply Q; auto. } split; apply subst_array_pre; auto.
    + intros ->. destruct assign; simpl; auto.
    + intros B. exfalso. destruct assign; unfold isbot in B; simpl in B; discriminate.
  - assert (B : isbot (duals assign p1) = true) by (apply N1; destruct assign; simpl; auto). assert (NP := repr_none _ _ _ _ H1 B). split; [|split]; auto.
    + apply repr_bot; simpl; auto. apply asubA_none; auto.
    + intros ->. apply repr_bot; auto. destruct assign; simpl in B; auto. rewrite isbot_dual in B; auto.
Qed.
Theorem array_spec : forall (assign lazy destr : bool) pa eqs i r P, repr pa i r P -> eok (d1 i r) eqs -> NoDup (map fst eqs) ->
  forall (dest : option poly) (Q : vec -> Prop), (forall pb, dest = Some pb -> repr pb i r Q) ->
  match poly_asssub_linexpr_array assign lazy destr pa eqs dest with
  | Some (po, pa', pb') => repr po i r (fun x => asubA assign i r eqs P x /\ (dest <> None -> Q x)) /\ (destr = false -> repr pa' i r P) /\ (forall pb, pb' = Some pb -> repr pb i r Q)
  | None => assign = false /\ lazy = false /\ dest <> None /\ forall x, ~ asubA assign i r eqs P x
  end.
Proof.
  intros assign lazy destr pa eqs i r P HP OK ND dest Q HQ. unfold poly_asssub_linexpr_array. assert (HP1 := chern_if lazy pa i r P HP). set (p1 := if lazy then pa else poly_chernikova pa) in *. assert (DI : pint p1 = i /\ preal p1 = r) by (destruct HP1 as (_ & I1 & R1 & _); auto). destruct DI as (I1 & R1).
  assert (EQ : forall x, asubA assign i r (asssub_isort eqs) P x <-> asubA assign i r eqs P x).
  { assert (AP : forall x j, amapA (d1 i r) (asssub_isort eqs) x j = amapA (d1 i r) eqs x j) by (intros; symmetry; apply amapA_perm; auto; symmetry; apply aisort_perm). intros x. destruct assign; simpl. unfold asgA. split; intros (y & Y & E); exists y; (split; [auto|]); intros j Hj; rewrite E by auto; [|symmetry]; apply AP.
    unfold sbsA. split; (apply (repr_P_ext pa i r P); [exact HP|intros j _; try apply AP; symmetry; apply AP]). }
  destruct (isbot p1) eqn:B.
  - assert (NP := repr_none _ _ _ _ HP1 B). split; [|split; auto]. apply repr_bot; try (destruct destr; simpl; auto; fail). intros x (X & _). revert X. apply asubA_none; auto.
  - assert (DS := array_det_spec assign destr p1 eqs i r P HP1 B OK ND). destruct (poly_asssub_linexpr_array_det assign destr p1 eqs) as (po & pa') eqn:ED. destruct DS as (HO & HA & HB). apply (repr_ext _ _ _ _ _ EQ) in HO. destruct dest as [pb|].
    + assert (HQ' : repr pb i r Q) by auto. assert (MS := poly_meet_spec true lazy false false true po pb i r _ _ HO HQ'). destruct (poly_meet true lazy false false true po pb) as [[[po2 x] pb2]|].
      * destruct MS as (M1 & _ & M3). split; [|split; auto]. apply repr_ext with (T true (d1 i r) (asubA assign i r eqs P) Q). intros y. simpl. split. intros []; auto. intros [A1 A2]; split; auto. apply A2. discriminate. apply (chern_if lazy); auto. intros pb0 E. injection E as <-. auto.
      * destruct MS as (_ & L0 & _ & M4). destruct assign. 2: split; auto; split; auto; split; [discriminate|auto]. exfalso.
        subst lazy. destruct (chern_repr pa i r P HP) as (_ & _ & [C|C]). unfold p1 in B. congruence. unfold minimal2 in C. destruct (pC (poly_chernikova pa)); try discriminate. destruct (pF (poly_chernikova pa)) as [F|] eqn:PF; try discriminate.
        destruct (repr_F_point p1 i r P F HP1 PF) as (x & X). apply (M4 (fun j => amapA (d1 i r) eqs (homog x) (S j))). exists x. split; auto.
    + split; [|split; [auto|discriminate]]. apply repr_ext with (asubA assign i r eqs P). intros y. split. intros; split; auto. congruence. tauto. apply (chern_if lazy); auto.
Qed.

(** Facts about the core data structures. *)
From Coq Require Import Arith ZArith QArith Qround Qreals Reals Lra Lia Bool List Sorted Permutation.
From Verif Require Import Bound BoundFacts Util Itv Linexpr LinexprFacts OctResize2 OctResize3 ItvLin ItvLinFacts Box BoxDims BoxOps ApCore.
Import ListNotations.
Open Scope nat_scope.
#[local] Arguments Nat.leb : simpl never.
#[local] Arguments Nat.ltb : simpl never.
#[local] Arguments Nat.eqb : simpl never.
#[local] Arguments Nat.div : simpl never.

(** ** scalars *)
Lemma scalar_cmp_bcmp : forall a b, scalar_cmp a b = bcmp a b.
Proof. intros [|p|] [|q|]; reflexivity. Qed.
Lemma scalar_equal_bequal : forall a b, scalar_equal a b = bequal a b.
Proof. intros [|p|] [|q|]; reflexivity. Qed.
Lemma bequal_cmp : forall a b, bequal a b = true <-> bcmp a b = 0%Z.
Proof.
  intros [|p|] [|q|]; simpl; try (split; [discriminate|discriminate]); try tauto. rewrite Qeq_bool_iff. unfold qcmp, Qeq, Qcompare. rewrite <- Z.compare_eq_iff.
  destruct (Qnum p * QDen q ?= Qnum q * QDen p)%Z; split; intro; try discriminate; auto.
Qed.

(** ** binary search *)
(** position where [d] is or should be inserted *)
Definition cut (d : nat) (ts : list term) (i : nat) : Prop :=
  i <= length ts /\ (forall j, j < i -> odim_le d (fst (nth j ts hole)) = false) /\
  (forall j, i <= j < length ts -> odim_le d (fst (nth j ts hole)) = true) /\ (forall j, i < j < length ts -> odim_lt d (fst (nth j ts hole)) = true).
Lemma index_lin_ok : forall d ts i, cut d ts i -> index_lin d ts = i.
Proof.
  intros d ts. induction ts as [|t ts IH]; intros i (L & A & B & C); simpl in *. lia.
  destruct i as [|i].
  - specialize (B 0 ltac:(lia)). simpl in B. rewrite B. auto.
  - pose proof (A 0 ltac:(lia)) as A0. simpl in A0. rewrite A0. f_equal. apply IH. split. lia. split; [|split].
    + intros j J. apply (A (S j)). lia.
    + intros j J. apply (B (S j)). lia.
    + intros j J. apply (C (S j)). lia.
Qed.
Lemma nth_firstn_lt : forall A (l : list A) n j x, j < n -> nth j (firstn n l) x = nth j l x.
Proof. intros A l. induction l; intros [|n] [|j] x H; simpl; auto; try lia. apply IHl. lia. Qed.
Lemma nth_skipn_eq : forall A (l : list A) n j x, nth j (skipn n l) x = nth (n + j) l x.
Proof. intros A l. induction l; intros [|n] j x; simpl; auto. destruct j; auto. Qed.
Lemma odim_lt_le : forall d o, odim_lt d o = true -> odim_le d o = true.
Proof. intros d [x|]; simpl; auto. intro H. apply Nat.ltb_lt in H. apply Nat.leb_le. lia. Qed.
Lemma index_ok : forall fuel d ts i, length ts <= fuel -> cut d ts i -> index_of_or_after fuel d ts = i.
Proof.
  induction fuel as [|fuel IH]; intros d ts i LF C.
  - simpl. destruct (Nat.leb_spec (length ts) 10); [|lia]. apply index_lin_ok; auto.
  - simpl. destruct (Nat.leb_spec (length ts) 10) as [L|L]. apply index_lin_ok; auto.
    assert (MP : length ts / 2 < length ts /\ 0 < length ts / 2) by (split; [apply Nat.div_lt; lia|apply Nat.div_str_pos; lia]).
    set (mid := length ts / 2) in *. destruct C as (C1 & C2 & C3 & C4). destruct (odim_eq d (fst (nth mid ts hole))) eqn:QE.
    + destruct (fst (nth mid ts hole)) as [x|] eqn:X; [|discriminate]. simpl in QE. apply Nat.eqb_eq in QE. subst x.
      destruct (Nat.lt_trichotomy mid i) as [H|[H|H]]; auto.
      * specialize (C2 mid H). rewrite X in C2. simpl in C2. apply Nat.leb_gt in C2. lia.
      * specialize (C4 mid ltac:(lia)). rewrite X in C4. simpl in C4. apply Nat.ltb_lt in C4. lia.
    + destruct (odim_lt d (fst (nth mid ts hole))) eqn:QL.
      * assert (i <= mid). { destruct (Nat.le_gt_cases i mid); auto. specialize (C2 mid H). rewrite (odim_lt_le _ _ QL) in C2. discriminate. }
        apply IH. rewrite firstn_length. lia. unfold cut. rewrite firstn_length, Nat.min_l by lia. split; auto. split; [|split].
        -- intros j J. rewrite nth_firstn_lt by lia. auto.
        -- intros j J. rewrite nth_firstn_lt by lia. apply C3. lia.
        -- intros j J. rewrite nth_firstn_lt by lia. apply C4. lia.
      * assert (LE : odim_le d (fst (nth mid ts hole)) = false).
        { destruct (fst (nth mid ts hole)); simpl in *; try discriminate. apply Nat.eqb_neq in QE. apply Nat.ltb_ge in QL. apply Nat.leb_gt. lia. }
        assert (mid < i). { destruct (Nat.le_gt_cases i mid); auto. rewrite C3 in LE by lia. discriminate. }
        assert (X : index_of_or_after fuel d (skipn (mid + 1) ts) = i - (mid + 1)); [|rewrite X; lia].
        apply IH. rewrite skipn_length. lia. unfold cut. rewrite skipn_length. split; [lia|]. split; [|split].
        -- intros j J. rewrite nth_skipn_eq. apply C2. lia.
        -- intros j J. rewrite nth_skipn_eq. apply C3. lia.
        -- intros j J. rewrite nth_skipn_eq. apply C4. lia.
Qed.

(** ** sorted sparse expressions: terms with a dimension, then holes *)
Definition enc (l : list (nat * coeff)) (h : list coeff) : list term := map (fun p => (Some (fst p), snd p)) l ++ map (fun c => (None, c)) h.
Definition srt (l : list (nat * coeff)) : Prop := StronglySorted lt (map fst l).
Definition lin_sorted (t : linterms) : Prop := match t with Dense _ => True | Sparse ts => exists l h, ts = enc l h /\ srt l end.
Lemma enc_length : forall l h, length (enc l h) = length l + length h.
Proof. intros. unfold enc. rewrite app_length, !map_length. auto. Qed.
Lemma enc_dims : forall l h, term_dims (enc l h) = map fst l.
Proof.
  intros l h. unfold enc. induction l as [|[d c] l IH]; simpl. induction h; simpl; auto. rewrite IH. auto.
Qed.
Lemma lin_sorted_iff : forall ts, lin_sorted (Sparse ts) <-> holes_last (Sparse ts) /\ StronglySorted lt (term_dims ts).
Proof.
  intro ts. split.
  - intros (l & h & -> & S). split. 2: rewrite enc_dims; auto.
    exists (map (fun p => (Some (fst p), snd p)) l), (map (fun c => (None, c)) h). split; auto. split; apply Forall_map, Forall_forall; simpl; auto. discriminate.
  - intros [(l1 & l2 & -> & F1 & F2) S]. assert (G1 : exists l, l1 = map (fun p => (Some (fst p), snd p)) l).
    { clear S. induction F1 as [|[[d|] c] l1 H F1 IH]. exists []; auto. destruct IH as (l & ->). exists ((d, c) :: l); auto. simpl in H; congruence. }
    assert (G2 : exists h, l2 = map (fun c => (None, c)) h).
    { clear S. induction F2 as [|[[d|] c] l2 H F2 IH]. exists []; auto. simpl in H; congruence. destruct IH as (l & ->). exists (c :: l); auto. }
    destruct G1 as (l & ->), G2 as (h & ->). exists l, h. split; auto. unfold srt. rewrite <- (enc_dims l h). auto.
Qed.
Lemma srt_split : forall d l, srt l -> exists la lb, l = la ++ lb /\ Forall (fun p => fst p < d) la /\
  ((exists c lb', lb = (d, c) :: lb' /\ Forall (fun p => d < fst p) lb') \/ Forall (fun p => d < fst p) lb).
Proof.
  intros d l. unfold srt. induction l as [|[x c] l IH]; intro S; simpl in *.
  - exists [], []. split; auto.
  - inversion S as [|? ? S1 F]; subst. destruct (Nat.lt_trichotomy x d) as [H|[H|H]].
    + destruct (IH S1) as (la & lb & -> & A & B). exists ((x, c) :: la), lb. split; [auto|]. split; [constructor; auto|exact B].
    + subst. exists [], ((d, c) :: l). split; [auto|]. split; [constructor|]. left. exists c, l. split; [auto|]. rewrite Forall_map in F. exact F.
    + exists [], ((x, c) :: l). split; [auto|]. split; [constructor|]. right. constructor; [exact H|]. rewrite Forall_map in F. eapply Forall_impl; [|exact F]. simpl; intros; lia.
Qed.
Lemma enc_nth_l : forall l h j, j < length l -> nth j (enc l h) hole = (Some (fst (nth j l (0, czero))), snd (nth j l (0, czero))).
Proof.
  intros l h j J. unfold enc. rewrite app_nth1 by (rewrite map_length; auto). rewrite nth_indep with (d' := (fun p : nat * coeff => (Some (fst p), snd p)) (0, czero)) by (rewrite map_length; auto).
  rewrite (map_nth (fun p : nat * coeff => (Some (fst p), snd p))). auto.
Qed.
Lemma enc_nth_h : forall l h j, length l <= j -> nth j (enc l h) hole = (None, nth (j - length l) h czero).
Proof.
  intros l h j J. unfold enc. rewrite app_nth2 by (rewrite map_length; auto). rewrite map_length. change hole with ((fun c : coeff => (@None nat, c)) czero). rewrite map_nth. auto.
Qed.
Lemma Forall_nth_lt : forall A (P : A -> Prop) l d j, Forall P l -> j < length l -> P (nth j l d).
Proof. intros A P l d j F J. rewrite Forall_forall in F. apply F. apply nth_In; auto. Qed.
Lemma enc_cut : forall d la lb h, Forall (fun p => fst p < d) la ->
  ((exists c lb', lb = (d, c) :: lb' /\ Forall (fun p => d < fst p) lb') \/ Forall (fun p => d < fst p) lb) -> cut d (enc (la ++ lb) h) (length la).
Proof.
  intros d la lb h A B.
  assert (GE : forall j, j < length lb -> d <= fst (nth j lb (0, czero)) /\ (0 < j -> d < fst (nth j lb (0, czero)))).
  { intros j J. destruct B as [(c & lb' & -> & F)|F].
    - destruct j as [|j]; simpl in *. split; lia. pose proof (Forall_nth_lt _ _ _ (0, czero) j F ltac:(lia)). simpl in *. lia.
    - pose proof (Forall_nth_lt _ _ _ (0, czero) j F ltac:(lia)). simpl in *. lia. }
  unfold cut. rewrite enc_length, app_length. split; [lia|]. split; [|split].
  - intros j J. rewrite enc_nth_l by (rewrite app_length; lia). rewrite app_nth1 by auto. simpl. apply Nat.leb_gt. pose proof (Forall_nth_lt _ _ _ (0, czero) j A J). auto.
  - intros j J. destruct (Nat.lt_ge_cases j (length (la ++ lb))) as [L|L].
    + rewrite enc_nth_l by auto. rewrite app_length in L. rewrite app_nth2 by lia. simpl. apply Nat.leb_le. apply GE. lia.
    + rewrite enc_nth_h by auto. auto.
  - intros j J. destruct (Nat.lt_ge_cases j (length (la ++ lb))) as [L|L].
    + rewrite enc_nth_l by auto. rewrite app_length in L. rewrite app_nth2 by lia. simpl. apply Nat.ltb_lt. apply GE; lia.
    + rewrite enc_nth_h by auto. auto.
Qed.
Lemma set_nth_app : forall A (a : list A) x y b, set_nth (length a) x (a ++ y :: b) = a ++ x :: b.
Proof. induction a; intros; simpl; auto. rewrite IHa. auto. Qed.
Lemma nth_app_len : forall A (a : list A) y b d, nth (length a) (a ++ y :: b) d = y.
Proof. intros. rewrite app_nth2, Nat.sub_diag by lia. auto. Qed.
Lemma enc_app : forall la lb h, enc (la ++ lb) h = map (fun p => (Some (fst p), snd p)) la ++ enc lb h.
Proof. intros. unfold enc. rewrite map_app, app_assoc. auto. Qed.
(** insertion of a term at its place, on an arbitrary list of terms *)
Lemma ins_nil : forall d (A : list term), index_of d A = length A -> (A = [] \/ exists A0 x c, A = A0 ++ [(Some x, c)]) -> coeffref_sparse d A = (A ++ [(Some d, czero)], length A).
Proof.
  intros d A I H. unfold coeffref_sparse. rewrite I, Nat.leb_refl. simpl orb. rewrite Nat.ltb_irrefl. simpl andb. cbv iota.
  replace (Nat.eqb (length A) 0 || _) with true.
  2: { destruct H as [->|(A0 & x & c & ->)]; auto. rewrite app_length. simpl. replace (length A0 + 1 - 1) with (length A0) by lia. rewrite nth_app_len. simpl. rewrite orb_true_r. auto. }
  rewrite app_length. simpl length. replace (Nat.ltb (length A) (length A + 1 - 1)) with false by (symmetry; apply Nat.ltb_ge; lia).
  unfold set_dim. rewrite nth_app_len, set_nth_app. auto.
Qed.
Lemma ins_hole : forall d (A : list term) c (T : list term), index_of d (A ++ (None, c) :: T) = length A -> coeffref_sparse d (A ++ (None, c) :: T) = (A ++ (Some d, c) :: T, length A).
Proof.
  intros d A c T I. unfold coeffref_sparse. rewrite I, nth_app_len. simpl fst. simpl odim_eq. simpl negb. rewrite orb_true_r.
  replace (Nat.ltb (length A) (length (A ++ (None, c) :: T))) with true by (symmetry; apply Nat.ltb_lt; rewrite app_length; simpl; lia).
  change (true && true) with true. cbv iota. unfold set_dim. rewrite nth_app_len, set_nth_app. reflexivity.
Qed.
Lemma firstn_app_len : forall X (A T : list X), firstn (length A) (A ++ T) = A.
Proof. induction A; intros; simpl; auto. rewrite IHA. auto. Qed.
Lemma skipn_app_len : forall X (A T : list X), skipn (length A) (A ++ T) = T.
Proof. induction A; intros; simpl; auto. Qed.
Lemma rotate_eq : forall (A T : list term) z, firstn (length A) (A ++ T ++ [z]) ++ [z] ++ firstn (length (A ++ T ++ [z]) - length A - 1) (skipn (length A) (A ++ T ++ [z])) = A ++ z :: T.
Proof.
  intros. rewrite firstn_app_len, skipn_app_len. replace (length (A ++ T ++ [z]) - length A - 1) with (length T) by (rewrite !app_length; simpl; lia).
  rewrite firstn_app_len. auto.
Qed.
Lemma last_nth_app : forall (A T : list term) z, nth (length (A ++ T ++ [z]) - 1) (A ++ T ++ [z]) hole = z.
Proof. intros. rewrite app_assoc, app_length. simpl. rewrite Nat.add_sub. apply nth_app_len. Qed.
Lemma ins_mid : forall d (A : list term) x c (T : list term) y e, index_of d (A ++ (Some x, c) :: T) = length A -> d <> x -> (exists T0, (Some x, c) :: T = T0 ++ [(Some y, e)]) ->
  coeffref_sparse d (A ++ (Some x, c) :: T) = (A ++ (Some d, czero) :: (Some x, c) :: T, length A).
Proof.
  intros d A x c T y e I D (T0 & HT). unfold coeffref_sparse. rewrite I, nth_app_len. simpl odim_eq. rewrite (proj2 (Nat.eqb_neq d x) D). simpl negb. rewrite orb_true_r. cbv iota. simpl fst. rewrite andb_false_r.
  replace (Nat.eqb (length (A ++ (Some x, c) :: T)) 0) with false by (symmetry; apply Nat.eqb_neq; rewrite app_length; simpl; lia). simpl orb.
  replace (nth (length (A ++ (Some x, c) :: T) - 1) (A ++ (Some x, c) :: T) hole) with (Some y, e) by (rewrite HT; symmetry; apply last_nth_app). simpl fst. cbv iota.
  replace (Nat.ltb (length A) (length ((A ++ (Some x, c) :: T) ++ [hole]) - 1)) with true by (symmetry; apply Nat.ltb_lt; rewrite !app_length; simpl; lia).
  rewrite <- app_assoc. rewrite last_nth_app, rotate_eq. unfold set_dim. rewrite nth_app_len, set_nth_app. auto.
Qed.
Lemma ins_rot : forall d (A : list term) x c (T : list term) z, index_of d (A ++ ((Some x, c) :: T) ++ [(None, z)]) = length A -> d <> x ->
  coeffref_sparse d (A ++ ((Some x, c) :: T) ++ [(None, z)]) = (A ++ (Some d, z) :: (Some x, c) :: T, length A).
Proof.
  intros d A x c T z I D. pose proof (last_nth_app A ((Some x, c) :: T) (None, z)) as N2. pose proof (rotate_eq A ((Some x, c) :: T) (None, z)) as RO.
  assert (N1 : nth (length A) (A ++ ((Some x, c) :: T) ++ [(None, z)]) hole = (Some x, c)) by (simpl; apply nth_app_len).
  assert (LL : length A + 2 <= length (A ++ ((Some x, c) :: T) ++ [(None, z)])) by (rewrite !app_length; simpl; lia).
  unfold coeffref_sparse. set (ts := A ++ ((Some x, c) :: T) ++ [(None, z)]) in *. clearbody ts. rewrite I, N1, N2. simpl fst. simpl odim_eq.
  rewrite (proj2 (Nat.eqb_neq d x) D). simpl negb. rewrite orb_true_r, andb_false_r. cbv iota. rewrite (proj2 (Nat.eqb_neq (length ts) 0)) by lia. simpl orb. cbv iota.
  rewrite N2. rewrite (proj2 (Nat.ltb_lt (length A) (length ts - 1))) by lia. rewrite RO. unfold set_dim. rewrite nth_app_len, set_nth_app. reflexivity.
Qed.
Lemma ins_found : forall d (A : list term) c (T : list term), index_of d (A ++ (Some d, c) :: T) = length A -> coeffref_sparse d (A ++ (Some d, c) :: T) = (A ++ (Some d, c) :: T, length A).
Proof.
  intros d A c T I. unfold coeffref_sparse. rewrite I, nth_app_len. simpl odim_eq. rewrite Nat.eqb_refl. simpl negb. rewrite orb_false_r.
  replace (Nat.leb _ _) with false by (symmetry; apply Nat.leb_gt; rewrite app_length; simpl; lia). auto.
Qed.
(** the term of [d] is found or inserted at its place *)
Lemma index_enc : forall d la lb h, Forall (fun p => fst p < d) la ->
  ((exists c lb', lb = (d, c) :: lb' /\ Forall (fun p => d < fst p) lb') \/ Forall (fun p => d < fst p) lb) -> index_of d (enc (la ++ lb) h) = length la.
Proof. intros. unfold index_of. apply index_ok; auto. apply enc_cut; auto. Qed.
Lemma coeffref_found : forall d la c lb h, Forall (fun p => fst p < d) la -> Forall (fun p => d < fst p) lb ->
  coeffref_sparse d (enc (la ++ (d, c) :: lb) h) = (enc (la ++ (d, c) :: lb) h, length la).
Proof.
  intros d la c lb h A B. assert (I := index_enc d la ((d, c) :: lb) h A ltac:(left; eauto)). rewrite enc_app in *. simpl in *.
  set (mla := map (fun p : nat * coeff => (Some (fst p), snd p)) la) in *. assert (LM : length mla = length la) by (unfold mla; apply map_length).
  rewrite <- LM in *. apply ins_found. exact I.
Qed.
Lemma coeffref_new : forall d la lb h, Forall (fun p => fst p < d) la -> Forall (fun p => d < fst p) lb ->
  exists c h', coeffref_sparse d (enc (la ++ lb) h) = (enc (la ++ (d, c) :: lb) h', length la) /\ (forall x, In x (c :: h') -> x = czero \/ In x h).
Proof.
  intros d la lb h A B. assert (I := index_enc d la lb h A ltac:(right; auto)). rewrite enc_app in *.
  set (mla := map (fun p : nat * coeff => (Some (fst p), snd p)) la) in *. assert (LM : length mla = length la) by (unfold mla; apply map_length).
  rewrite <- LM in *. destruct lb as [|[x c] lb].
  - destruct h as [|c h].
    + exists czero, []. rewrite enc_app. fold mla. unfold enc in *. simpl in *. rewrite app_nil_r in *. split.
      apply ins_nil; auto. destruct la as [|p la] using rev_ind; [left; auto|right]. unfold mla. rewrite map_app. simpl. eauto. simpl. intros y [<-|[]]; auto.
    + exists c, h. rewrite enc_app. fold mla. unfold enc in *. simpl in *. split. apply ins_hole; auto. intros y [<-|J]; auto.
  - assert (D : d <> x) by (inversion B; subst; simpl in *; lia). destruct h as [|z h] using rev_ind.
    + exists czero, []. rewrite enc_app. fold mla. split. 2: simpl; intros y [<-|[]]; auto.
      assert (HT : exists T0 y e, enc ((x, c) :: lb) [] = T0 ++ [(Some y, e)]).
      { unfold enc. simpl. rewrite app_nil_r. clear. destruct lb as [|p lb] using rev_ind.
        - exists [], x, c; auto.
        - rewrite map_app. simpl. exists ((Some x, c) :: map (fun p : nat * coeff => (Some (fst p), snd p)) lb). do 2 eexists. reflexivity. }
      destruct HT as (T0 & y & e & HT). change (enc ((x, c) :: lb) []) with ((Some x, c) :: enc lb []) in *. apply ins_mid with y e; eauto.
    + clear IHh. exists z, h. rewrite enc_app. fold mla. split. 2: { intros y [<-|J]; right; apply in_or_app; simpl; auto. }
      replace (enc ((x, c) :: lb) (h ++ [z])) with (((Some x, c) :: enc lb h) ++ [(@None nat, z)]) in *. 2: { unfold enc. simpl. rewrite map_app, <- app_assoc. auto. }
      apply ins_rot; auto.
Qed.

(** ** reading and writing coefficients *)
Lemma sp_coeff_app : forall a b j, sp_coeff (a ++ b) j = match sp_coeff a j with Some k => Some k | None => sp_coeff b j end.
Proof. induction a as [|[[x|] c] a IH]; intros b j; simpl; auto. destruct (Nat.eqb x j); auto. Qed.
Lemma sp_coeff_holes : forall (h : list coeff) j, sp_coeff (map (fun c => (None, c)) h) j = None.
Proof. induction h; intros; simpl; auto. Qed.
Lemma sp_coeff_enc_h : forall l h h' j, sp_coeff (enc l h) j = sp_coeff (enc l h') j.
Proof. intros. unfold enc. rewrite !sp_coeff_app, !sp_coeff_holes. auto. Qed.
Lemma sp_coeff_lt : forall l h d, Forall (fun p => fst p < d) l -> sp_coeff (enc l h) d = None.
Proof. intros l h d F. apply sp_coeff_none. rewrite enc_dims. intro H. apply in_map_iff in H. destruct H as (p & E & I). rewrite Forall_forall in F. apply F in I. lia. Qed.
Lemma sp_coeff_gt : forall l h d, Forall (fun p => d < fst p) l -> sp_coeff (enc l h) d = None.
Proof. intros l h d F. apply sp_coeff_none. rewrite enc_dims. intro H. apply in_map_iff in H. destruct H as (p & E & I). rewrite Forall_forall in F. apply F in I. lia. Qed.
Lemma sp_coeff_mid : forall la lb h d c j, Forall (fun p => fst p < d) la ->
  sp_coeff (enc (la ++ (d, c) :: lb) h) j = if Nat.eqb j d then Some c else sp_coeff (enc (la ++ lb) h) j.
Proof.
  intros la lb h d c j F. rewrite !enc_app, !sp_coeff_app. change (map (fun p : nat * coeff => (Some (fst p), snd p)) la) with (map (fun p : nat * coeff => (Some (fst p), snd p)) la).
  replace (map (fun p : nat * coeff => (Some (fst p), snd p)) la) with (enc la []) by (unfold enc; simpl; rewrite app_nil_r; auto).
  destruct (Nat.eqb_spec j d) as [->|D].
  - rewrite sp_coeff_lt by auto. simpl. rewrite Nat.eqb_refl. auto.
  - simpl. rewrite (proj2 (Nat.eqb_neq d j)) by auto. auto.
Qed.
Lemma srt_mid : forall la lb d c, srt (la ++ lb) -> Forall (fun p => fst p < d) la -> Forall (fun p => d < fst p) lb -> srt (la ++ (d, c) :: lb).
Proof.
  intros la lb d c. unfold srt. induction la as [|[x k] la IH]; simpl; intros S A B.
  - constructor; auto. apply Forall_map. auto.
  - inversion S as [|? ? S1 F]; subst. inversion A as [|? ? A1 A2]; subst. constructor; auto. rewrite map_app in *. simpl in *. apply Forall_app in F. destruct F as [F1 F2].
    apply Forall_app. split; auto.
Qed.
Lemma srt_swap : forall la lb d c c', srt (la ++ (d, c) :: lb) -> srt (la ++ (d, c') :: lb).
Proof. intros la lb d c c'. unfold srt. rewrite !map_app. auto. Qed.
Lemma set_nth_mid : forall (A T : list term) n d c c', length A = n -> set_nth n (fst (nth n (A ++ (Some d, c) :: T) hole), c') (A ++ (Some d, c) :: T) = A ++ (Some d, c') :: T.
Proof. intros A T n d c c' <-. rewrite set_nth_app, nth_app_len. auto. Qed.
Lemma set_nth_enc : forall la d c c' lb h, set_nth (length la) (fst (nth (length la) (enc (la ++ (d, c) :: lb) h) hole), c') (enc (la ++ (d, c) :: lb) h) = enc (la ++ (d, c') :: lb) h.
Proof. intros. rewrite !enc_app. apply (set_nth_mid _ (enc lb h)). apply map_length. Qed.
Lemma srt_app_r : forall la lb, srt (la ++ lb) -> srt lb.
Proof. unfold srt. induction la; simpl; auto. intros lb S. inversion S; auto. Qed.
Lemma srt_drop_mid : forall la lb d c, srt (la ++ (d, c) :: lb) -> srt (la ++ lb).
Proof.
  unfold srt. induction la as [|[x k] la IH]; simpl; intros lb d c S; inversion S as [|? ? S1 F]; subst; auto. constructor; eauto.
  rewrite map_app in *. simpl in *. apply Forall_app in F. destruct F as [F1 F2]. inversion F2; subst. apply Forall_app; auto.
Qed.
Lemma set_sparse : forall l h k d c, srt l -> exists l' h', linexpr_set_coeff (mkLin k (Sparse (enc l h))) d c = Some (mkLin k (Sparse (enc l' h'))) /\ srt l' /\
  (forall j, sp_coeff (enc l' h') j = if Nat.eqb j d then Some c else sp_coeff (enc l h) j) /\ (forall x, In x h' -> x = czero \/ In x h).
Proof.
  intros l h k d c S. destruct (srt_split d l S) as (la & lb & -> & A & [(c0 & lb' & -> & B)|B]); unfold linexpr_set_coeff; simpl.
  - rewrite coeffref_found by auto. exists (la ++ (d, c) :: lb'), h. rewrite set_nth_enc. split; auto. split. eapply srt_swap; eauto. split; auto.
    intro j. rewrite !sp_coeff_mid by auto. destruct (Nat.eqb j d); auto.
  - destruct (coeffref_new d la lb h A B) as (c0 & h' & -> & HH). exists (la ++ (d, c) :: lb), h'. rewrite set_nth_enc. split; auto. split. apply srt_mid; auto. split.
    intro j. rewrite sp_coeff_mid by auto. destruct (Nat.eqb j d); auto. apply sp_coeff_enc_h. intros x X. apply HH. simpl; auto.
Qed.
Lemma get_sparse : forall l h k d, srt l -> linexpr_get_coeff (mkLin k (Sparse (enc l h))) d = Some (match sp_coeff (enc l h) d with Some c => c | None => czero end).
Proof.
  intros l h k d S. unfold linexpr_get_coeff. simpl. destruct (srt_split d l S) as (la & lb & -> & A & [(c0 & lb' & -> & B)|B]).
  - rewrite index_enc by eauto. rewrite sp_coeff_mid, Nat.eqb_refl by auto. rewrite enc_nth_l by (rewrite app_length; simpl; lia). rewrite nth_app_len. simpl. rewrite Nat.eqb_refl.
    rewrite (proj2 (Nat.ltb_lt _ _)) by (rewrite enc_length, app_length; simpl; lia). auto.
  - rewrite index_enc by auto. rewrite sp_coeff_none.
    2: { rewrite enc_dims, map_app, in_app_iff. intros [H|H]; apply in_map_iff in H; destruct H as (p & E & I). rewrite Forall_forall in A. apply A in I. lia. rewrite Forall_forall in B. apply B in I. lia. }
    replace (odim_eq d (fst (nth (length la) (enc (la ++ lb) h) hole))) with false. rewrite andb_false_r. auto.
    destruct lb as [|[x c] lb]. rewrite app_nil_r, enc_nth_h by auto. auto. rewrite enc_nth_l by (rewrite app_length; simpl; lia). rewrite nth_app_len. simpl. symmetry. apply Nat.eqb_neq. inversion B; subst. simpl in *. lia.
Qed.
Lemma set_nth_length : forall A (l : list A) i x, length (set_nth i x l) = length l.
Proof. induction l; intros [|i] x; simpl; auto. Qed.
Lemma set_nth_error : forall A (l : list A) i x j, i < length l -> nth_error (set_nth i x l) j = if Nat.eqb j i then Some x else nth_error l j.
Proof.
  induction l as [|y l IH]; intros [|i] x [|j] H; simpl in *; try lia; auto. rewrite IH by lia. reflexivity.
Qed.
(** the value of the coefficient of a dimension: 0 when there is none *)
Definition coeff_at (e : linexpr) (j : nat) : coeff := match lin_coeff e j with Some c => c | None => czero end.
Definition in_size (e : linexpr) (d : nat) : Prop := match le_terms e with Dense l => d < length l | Sparse _ => True end.
Lemma set_coeff_ok : forall e d c, lin_sorted (le_terms e) -> in_size e d -> exists e', linexpr_set_coeff e d c = Some e' /\ lin_sorted (le_terms e') /\ le_cst e' = le_cst e /\
  (forall j, lin_coeff e' j = if Nat.eqb j d then Some c else lin_coeff e j) /\ (forall j, in_size e' j <-> in_size e j).
Proof.
  intros [k [l|ts]] d c S I; unfold in_size in *; simpl in *.
  - unfold linexpr_set_coeff. simpl. rewrite (proj2 (Nat.ltb_lt _ _) I). eexists. split; [reflexivity|]. simpl. split; auto. split; auto. split. intro j. apply set_nth_error; auto. intro j. rewrite set_nth_length. tauto.
  - destruct S as (l & h & -> & S). destruct (set_sparse l h k d c S) as (l' & h' & -> & S' & V & _). eexists. split; [reflexivity|]. simpl. split; [exists l', h'; auto|]. split; auto. split; auto. tauto.
Qed.
Lemma set_coeff_none : forall e d c, linexpr_set_coeff e d c = None <-> ~ in_size e d.
Proof.
  intros [k [l|ts]] d c; unfold in_size, linexpr_set_coeff; simpl.
  - destruct (Nat.ltb_spec d (length l)); split; intro; try discriminate; auto; lia.
  - destruct (coeffref_sparse d ts). split; [discriminate|tauto].
Qed.
Lemma get_coeff_ok : forall e d, lin_sorted (le_terms e) -> in_size e d -> linexpr_get_coeff e d = Some (coeff_at e d).
Proof.
  intros [k [l|ts]] d S I; unfold in_size in *; simpl in *.
  - unfold linexpr_get_coeff, coeff_at, lin_coeff. simpl. rewrite (proj2 (Nat.ltb_lt _ _) I). f_equal. rewrite nth_error_nth' with (d := czero) by auto. auto.
  - destruct S as (l & h & -> & S). apply get_sparse; auto.
Qed.
Lemma get_coeff_none : forall e d, linexpr_get_coeff e d = None <-> ~ in_size e d.
Proof.
  intros [k [l|ts]] d; unfold in_size, linexpr_get_coeff; simpl.
  - destruct (Nat.ltb_spec d (length l)); split; intro; try discriminate; auto; lia.
  - destruct (Nat.ltb (index_of d ts) (length ts) && odim_eq d (fst (nth (index_of d ts) ts hole))); split; try discriminate; tauto.
Qed.

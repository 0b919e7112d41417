(** The conversion of PkCherni.v maintains a double description (PkCone.dd). *)
From Coq Require Import ZArith Bool List Lia Reals Lra Permutation.
Import ListNotations.
From Verif Require Import PkCone PkVec PkCherni.

(** * Lists *)
Lemma lset_length : forall A (l : list A) i x, length (lset i x l) = length l.
Proof. induction l; intros [|i] x; simpl; auto. Qed.
Lemma lset_nth : forall A (l : list A) i x j d, (i < length l)%nat -> nth j (lset i x l) d = if Nat.eqb j i then x else nth j l d.
Proof. induction l as [|y q IH]; intros [|i] x [|j] d H; simpl in *; try lia; auto. apply IH. lia. Qed.
Lemma lset_out : forall A (l : list A) i x, (length l <= i)%nat -> lset i x l = l.
Proof. induction l as [|y q IH]; intros [|i] x H; simpl in *; try lia; auto. rewrite IH by lia. auto. Qed.
Lemma lset_app : forall A (a : list A) x y b, lset (length a) y (a ++ x :: b) = a ++ y :: b.
Proof. induction a; simpl; intros; auto. rewrite IHa. auto. Qed.
Lemma nth_mid : forall A (a : list A) x b d, nth (length a) (a ++ x :: b) d = x.
Proof. intros. rewrite app_nth2, Nat.sub_diag by lia. auto. Qed.
Lemma exch_length : forall A (d : A) i j l, length (exch d i j l) = length l.
Proof. intros. unfold exch. rewrite !lset_length. auto. Qed.
Lemma exch_nth : forall A (d : A) i j l m d', (i < length l)%nat -> (j < length l)%nat -> nth m (exch d i j l) d' = if Nat.eqb m i then nth j l d else if Nat.eqb m j then nth i l d else nth m l d'.
Proof. intros. unfold exch. rewrite lset_nth by (rewrite lset_length; auto). destruct (Nat.eqb m i); auto. rewrite lset_nth; auto. Qed.
Lemma exch_app : forall A (d : A) a x b y c, exch d (length a) (length a + S (length b)) (a ++ x :: b ++ y :: c) = a ++ y :: b ++ x :: c /\ exch d (length a + S (length b)) (length a) (a ++ x :: b ++ y :: c) = a ++ y :: b ++ x :: c.
Proof.
  intros. unfold exch. rewrite !nth_mid. assert (E : a ++ x :: b ++ y :: c = (a ++ x :: b) ++ y :: c) by (rewrite <- app_assoc; auto). assert (L : (length a + S (length b))%nat = length (a ++ x :: b)) by (rewrite app_length; auto). rewrite L. rewrite E. rewrite nth_mid, lset_app.
  split. rewrite <- app_assoc. simpl. rewrite lset_app. auto. replace ((a ++ x :: b) ++ y :: c) with (a ++ x :: b ++ y :: c) by (rewrite <- app_assoc; auto). rewrite lset_app. replace (a ++ y :: b ++ y :: c) with ((a ++ y :: b) ++ y :: c) by (rewrite <- app_assoc; auto).
  replace (length (a ++ x :: b)) with (length (a ++ y :: b)) by (rewrite !app_length; auto). rewrite lset_app, <- app_assoc. auto.
Qed.
Lemma exch_same : forall A (d : A) i l, (i < length l)%nat -> exch d i i l = l.
Proof. intros A d i l H. apply (nth_ext _ _ d d). apply exch_length. intros m M. rewrite exch_nth by auto. destruct (Nat.eqb_spec m i); subst; auto. Qed.
Lemma split2 : forall A (l : list A) i j, (i < j)%nat -> (j < length l)%nat -> exists a x b y c, l = a ++ x :: b ++ y :: c /\ length a = i /\ j = (length a + S (length b))%nat.
Proof.
  intros A l i j I J. exists (firstn i l). destruct (skipn i l) as [|x q] eqn:E. { apply (f_equal (@length A)) in E. rewrite skipn_length in E. simpl in E. lia. }
  assert (LQ : length q = (length l - i - 1)%nat). { apply (f_equal (@length A)) in E. rewrite skipn_length in E. simpl in E. lia. } exists x, (firstn (j - i - 1) q). destruct (skipn (j - i - 1) q) as [|y c] eqn:E2. { apply (f_equal (@length A)) in E2. rewrite skipn_length in E2. simpl in E2. lia. }
  exists y, c. rewrite <- E2, firstn_skipn, <- E, firstn_skipn. rewrite !firstn_length. repeat split; lia.
Qed.
Lemma exch_sym : forall A (d : A) i j l, (i < length l)%nat -> (j < length l)%nat -> exch d i j l = exch d j i l.
Proof. intros A d i j l I J. apply (nth_ext _ _ d d). rewrite !exch_length; auto. intros m M. rewrite !exch_nth by auto. destruct (Nat.eqb_spec m i), (Nat.eqb_spec m j); subst; auto. Qed.
Lemma exch_perm : forall A (d : A) i j l, (i < length l)%nat -> (j < length l)%nat -> Permutation (exch d i j l) l.
Proof.
  assert (G : forall A (d : A) i j l, (i < j)%nat -> (j < length l)%nat -> Permutation (exch d i j l) l).
  { intros A d i j l I J. destruct (split2 _ l i j I J) as (a & x & b & y & c & -> & <- & ->). rewrite (proj1 (exch_app _ d a x b y c)). apply Permutation_app_head. change (y :: b ++ x :: c) with ((y :: b) ++ x :: c). rewrite <- Permutation_middle. simpl. apply perm_skip. apply Permutation_middle. }
  intros A d i j l I J. destruct (Nat.lt_trichotomy i j) as [H|[H|H]]. apply G; auto. subst. rewrite exch_same; auto. rewrite exch_sym by auto. apply G; auto.
Qed.
Lemma mapi_from : forall A B (F : nat -> A -> B) l s, map (fun p => F (fst p) (snd p)) (combine (seq s (length l)) l) = mapi (fun i => F (s + i)%nat) l.
Proof.
  intros A B F l. unfold mapi. assert (G : forall l s t (H : nat -> A -> B), (forall i x, F (s + i)%nat x = H (t + i)%nat x) -> map (fun p => F (fst p) (snd p)) (combine (seq s (length l)) l) = map (fun p => H (fst p) (snd p)) (combine (seq t (length l)) l)).
  { induction l0 as [|x q IH]; intros s t H E; simpl; auto. f_equal. specialize (E 0%nat x). rewrite !Nat.add_0_r in E. auto. apply IH. intros i y. replace (S s + i)%nat with (s + S i)%nat by lia. replace (S t + i)%nat with (t + S i)%nat by lia. apply E. }
  intros s. apply (G l s 0%nat (fun i => F (s + i)%nat)). intros; auto.
Qed.
Lemma mapi_cons : forall A B (F : nat -> A -> B) x l, mapi F (x :: l) = F 0%nat x :: mapi (fun i => F (S i)) l.
Proof. intros. unfold mapi at 1. simpl. f_equal. rewrite (mapi_from _ _ F l 1). auto. Qed.
Lemma mapi_length : forall A B (F : nat -> A -> B) l, length (mapi F l) = length l.
Proof. intros. unfold mapi. rewrite map_length, combine_length, seq_length. lia. Qed.
Lemma mapi_nth : forall A B (F : nat -> A -> B) l i d d', (i < length l)%nat -> nth i (mapi F l) d = F i (nth i l d').
Proof. intros A B F l. revert F. induction l as [|x q IH]; intros F [|i] d d' H; simpl in H; try lia; rewrite mapi_cons; simpl; auto. rewrite (IH (fun i => F (S i)) i d d') by lia. auto. Qed.
Lemma mapi_app : forall A B (F : nat -> A -> B) a b, mapi F (a ++ b) = mapi F a ++ mapi (fun i => F (length a + i)%nat) b.
Proof. intros A B F a. revert F. induction a as [|x q IH]; intros F b. reflexivity. change ((x :: q) ++ b) with (x :: (q ++ b)). rewrite (mapi_cons _ _ F x (q ++ b)), (mapi_cons _ _ F x q), (IH (fun i => F (S i)) b). reflexivity. Qed.
Lemma mapi_map : forall A B (F : nat -> A -> B) f l, (forall i x, nth_error l i = Some x -> F i x = f x) -> mapi F l = map f l.
Proof. intros A B F f l. revert F. induction l as [|x q IH]; intros F H. reflexivity. rewrite mapi_cons. simpl. rewrite (H 0%nat x eq_refl). f_equal. apply IH. intros i y E. apply (H (S i) y E). Qed.
Lemma firstn_app_l : forall A (a b : list A), firstn (length a) (a ++ b) = a.
Proof. intros. rewrite firstn_app, Nat.sub_diag, firstn_all. simpl. apply app_nil_r. Qed.
Lemma skipn_app_l : forall A (a b : list A), skipn (length a) (a ++ b) = b.
Proof. intros. rewrite skipn_app, Nat.sub_diag, skipn_all. auto. Qed.
(** drop the row at position [length a] *)
Lemma exch_drop : forall A (d : A) a x b, exists b', Permutation b b' /\ firstn (length (a ++ x :: b) - 1) (exch d (length a) (length (a ++ x :: b) - 1) (a ++ x :: b)) = a ++ b'.
Proof.
  intros A d a x b. rewrite app_length. simpl. destruct b as [|y0 b0] using rev_ind.
  - exists []. split; auto. simpl. replace (length a + 1 - 1)%nat with (length a) by lia. rewrite exch_same by (rewrite app_length; simpl; lia). rewrite firstn_app_l, app_nil_r. auto.
  - clear IHb0. exists (y0 :: b0). split. symmetry. apply Permutation_cons_append. rewrite app_length. simpl. replace (length a + S (length b0 + 1) - 1)%nat with (length a + S (length b0))%nat by lia. rewrite (proj1 (exch_app _ d a x b0 y0 [])). replace (length a + S (length b0))%nat with (length (a ++ y0 :: b0)) by (rewrite app_length; auto).
    replace (a ++ y0 :: b0 ++ [x]) with ((a ++ y0 :: b0) ++ [x]) by (rewrite <- app_assoc; auto). apply firstn_app_l.
Qed.

(** * Constraints and rows *)
Lemma len_tl : forall (q : pvec) n, length q = S n -> length (tl q) = n.
Proof. intros [|x q] n; simpl; intros; congruence. Qed.
Definition kc (c : pvec) : kcon := (rv (tl c), Z.eqb (zn 0 c) 0).
Definition tr (r : row) : list Z := tl (fst r).
Notation ddn n := (@dd n (list Z) rv).
Lemma dd_ext : forall n cs L R L' R', ddn n cs L R -> (forall l, In l L <-> In l L') -> Permutation R R' -> ddn n cs L' R'.
Proof.
  intros n cs L R L' R' D HL P. constructor.
  - intros x. rewrite (dd_gen _ _ _ _ _ D). split; apply gen_mono; intros z; try apply HL; apply Permutation_in; auto. symmetry; auto.
  - intros r r' I I'. apply (dd_irr _ _ _ _ _ D); eapply Permutation_in; try eassumption; symmetry; auto.
  - intros r I. apply (dd_ray _ _ _ _ _ D). eapply Permutation_in; [symmetry; exact P|auto].
  - eapply Permutation_NoDup; eauto. apply (dd_nodup _ _ _ _ _ D).
Qed.
Lemma sat_prod : forall n c t, length c = S n -> length t = n -> (sat n rv (kc c) t <-> prod_t (tl c) t = 0%Z).
Proof.
  intros n c t LC LT. unfold sat, kc. simpl fst. assert (L : length (tl c) = n) by (destruct c; simpl in *; lia). rewrite <- L. rewrite <- prod_dt by congruence. split. apply eq_IZR. intros ->. auto.
Qed.
Lemma prod_sym : forall a b, prod_t a b = prod_t b a.
Proof. induction a as [|x a IH]; intros [|y b]; simpl; auto. rewrite IH. lia. Qed.
Lemma dt_prod : forall n c t, length c = S n -> length t = n -> dt n (fst (kc c)) (rv t) = IZR (prod_t t (tl c)).
Proof. intros n c t LC LT. unfold kc. simpl fst. assert (L : length (tl c) = n) by (destruct c; simpl in *; lia). rewrite <- L at 1. rewrite <- prod_dt by congruence. rewrite prod_sym. auto. Qed.
Lemma firstn_S_nth : forall A (l : list A) k d, (k < length l)%nat -> firstn (S k) l = firstn k l ++ [nth k l d].
Proof. induction l as [|x q IH]; intros [|k] d H; simpl in *; try lia; auto. rewrite (IH k d) by lia. auto. Qed.

Definition good_bits (k : nat) (con : list pvec) (m : nat) (r : row) : Prop :=
  length (snd r) = m /\ forall j, nth j (snd r) false = if Nat.ltb j k then negb (Z.eqb (prod_t (tl (nth j con [])) (tr r)) 0) else false.
Definition inv (n m k : nat) (con : list pvec) (Lr Rr : list row) : Prop :=
  Forall (fun c : pvec => length c = S n) con /\ Forall (fun r => length (fst r) = S n) (Lr ++ Rr) /\ (length con <= m)%nat /\ (k <= length con)%nat /\
  ddn n (map kc (firstn k con)) (map tr Lr) (map tr Rr) /\ Forall (good_bits k con m) (Lr ++ Rr).

(** products *)
Definition haspr (c : pvec) (r : row) : Prop := fst r = prod_t (tr r) (tl c) :: tr r.
Lemma products_inv : forall n m k con Lr Rr c, inv n m k con Lr Rr -> inv n m k con (products c Lr) (products c Rr) /\ Forall (haspr c) (products c Lr ++ products c Rr).
Proof.
  intros n m k con Lr Rr c (A1 & A2 & A3 & A4 & A5 & A6). unfold products. rewrite <- map_app.
  assert (TR : forall l, map tr (map (fun r => setvec (setsign (vector_product (fst r) c) (fst r)) r) l) = map tr l) by (intros l; rewrite map_map; apply map_ext; auto). split.
  - split; auto. split. rewrite <- map_app, Forall_map. revert A2. apply Forall_impl. intros r Hr. unfold setvec, setsign. cbn [fst length]. rewrite (len_tl _ n); auto. split; auto. split; auto. split. rewrite !TR; auto. rewrite <- map_app, Forall_map. revert A6. apply Forall_impl. auto.
  - rewrite Forall_map. apply Forall_forall. intros r _. reflexivity.
Qed.
Lemma products_app : forall c a b, products c (a ++ b) = products c a ++ products c b.
Proof. intros. apply map_app. Qed.
Lemma haspr_zn : forall c r, haspr c r -> zn 0 (fst r) = prod_t (tr r) (tl c).
Proof. intros c r H. rewrite H. auto. Qed.

(** first row which does not saturate *)
Lemma first_nonzero_spec : forall rows, (forall i, (i < first_nonzero rows)%nat -> (i < length rows)%nat /\ zn 0 (fst (nth i rows row0)) = 0%Z) /\ (first_nonzero rows <= length rows)%nat /\ ((first_nonzero rows < length rows)%nat -> zn 0 (fst (nth (first_nonzero rows) rows row0)) <> 0%Z).
Proof.
  induction rows as [|r q (A & B & C)]; simpl. split; [intros; lia|]. split; [lia|intros; lia]. destruct (Z.eqb_spec (zn 0 (fst r)) 0) as [E|E].
  - split. intros [|i] I. split; auto. lia. destruct (A i ltac:(lia)). split; [lia|auto]. split; [lia|]. intros H. apply C. lia.
  - split; [intros; lia|]. split; [lia|auto].
Qed.

(** ** Exchange of the vectors *)
Lemma exch_vec_spec : forall Lr Rr inz, (inz < length Lr)%nat -> exists A pr, (if Nat.eqb inz (length Lr - 1) then Lr ++ Rr else exch_vec inz (length Lr - 1) (Lr ++ Rr)) = A ++ pr :: Rr /\
  length A = (length Lr - 1)%nat /\ Permutation (map fst (A ++ [pr])) (map fst Lr) /\ fst pr = fst (nth inz Lr row0) /\ (forall i, (i < inz)%nat -> nth i A row0 = nth i Lr row0) /\ map snd (A ++ [pr]) = map snd Lr.
Proof.
  intros Lr Rr inz H. destruct (Nat.eqb_spec inz (length Lr - 1)) as [E|E].
  - destruct Lr as [|y0 A] using rev_ind; [simpl in H; lia|]. clear IHA. rewrite app_length in *. simpl in *. exists A, y0. rewrite <- app_assoc. simpl. split; auto. split; [lia|]. split; auto. assert (IZ : inz = length A) by lia. split. rewrite IZ, nth_mid; auto. split; auto. intros i I. rewrite app_nth1 by lia. auto.
  - destruct (split2 _ Lr inz (length Lr - 1)) as (a & x & b & y & c & EL & <- & EJ); try lia. assert (c = []). { apply (f_equal (@length row)) in EL. rewrite app_length in EL. simpl in EL. rewrite app_length in EL. simpl in EL. destruct c; auto. simpl in EL. lia. } subst c. rewrite EJ.
    exists (a ++ (fst y, snd x) :: b), (fst x, snd y). rewrite EL. replace ((a ++ x :: b ++ [y]) ++ Rr) with (a ++ x :: b ++ y :: Rr) by (rewrite <- app_assoc; simpl; rewrite <- app_assoc; auto). split.
    + unfold exch_vec, setvec. rewrite nth_mid. assert (E2 : a ++ x :: b ++ y :: Rr = (a ++ x :: b) ++ y :: Rr) by (rewrite <- app_assoc; auto). assert (L2 : (length a + S (length b))%nat = length (a ++ x :: b)) by (rewrite app_length; auto). rewrite L2, E2, nth_mid, lset_app. rewrite <- !app_assoc. simpl. rewrite lset_app. auto.
    + split. rewrite app_length. simpl. lia. split. { rewrite <- app_assoc. rewrite !map_app. apply Permutation_app_head. simpl. rewrite !map_app. simpl. change (fst y :: map fst b ++ [fst x]) with ((fst y :: map fst b) ++ [fst x]). rewrite <- Permutation_cons_append. apply perm_skip. apply Permutation_cons_append. }
      split. rewrite nth_mid. auto. split. intros i I. rewrite !app_nth1 by lia. auto. rewrite <- app_assoc. rewrite !map_app. simpl. rewrite !map_app. auto.
Qed.

(** ** A line becomes a ray *)
Definition cf (c p : pvec) (t : list Z) : list Z := if Z.eqb (prod_t t (tl c)) 0 then t else tl (vector_combine (prod_t t (tl c) :: t) p (prod_t t (tl c)) 0).
Lemma combine_if_tr : forall c p r, haspr c r -> tr (combine_if true p r) = cf c p (tr r) /\ snd (combine_if true p r) = snd r.
Proof.
  intros c p r H. unfold combine_if, cf. rewrite (haspr_zn _ _ H). simpl. destruct (Z.eqb (prod_t (tr r) (tl c)) 0); simpl; auto. split; auto. unfold tr at 1. simpl. f_equal. f_equal. exact H.
Qed.
Lemma cf_spec : forall n c p t, length c = S n -> length p = S n -> length t = n -> zn 0 p = prod_t (tl p) (tl c) -> zn 0 p <> 0%Z ->
  length (cf c p t) = n /\ prod_t (cf c p t) (tl c) = 0%Z /\ exists u v, (u <> 0%R /\ ((0 < zn 0 p)%Z -> (0 < u)%R)) /\ veq n (rv (cf c p t)) (lin2 u (rv t) v (rv (tl p))).
Proof.
  intros n c p t LC LP LT ZP NZ. unfold cf. destruct (Z.eqb_spec (prod_t t (tl c)) 0) as [E|E].
  - split; auto. split; auto. exists 1%R, 0%R. split. split; intros; lra. intros i Hi. unfold lin2. ring.
  - set (z := prod_t t (tl c)) in *. destruct (combine_spec n (z :: t) p z 0) as (L & _ & h & H & V). simpl; congruence. auto. auto. simpl tl in V. change (zn 0 (z :: t)) with z in V.
    assert (LL : length (tl (vector_combine (z :: t) p z 0)) = n) by (apply len_tl; auto). split; auto. split.
    + apply eq_IZR. rewrite <- (dt_prod n c) by auto. rewrite (dt_ext _ _ _ _ V), dt_lin, !(dt_prod n c) by (auto; apply len_tl; auto). fold z. rewrite <- ZP. ring.
    + exists (h * IZR (zn 0 p))%R, (- (h * IZR z))%R. split; auto. split. apply Rmult_integral_contrapositive_currified. lra. apply not_0_IZR; auto. intros Q. apply IZR_lt in Q. apply Rmult_lt_0_compat; auto.
Qed.
Lemma good_bits_ray : forall n m k (con : list pvec) r r' u v (p : list Z), Forall (fun c : pvec => length c = S n) con -> (k < length con)%nat -> good_bits k con m r -> length (tr r) = n -> length (tr r') = n -> length p = n -> (forall j, (j < k)%nat -> prod_t (tl (nth j con [])) p = 0%Z) -> (u <> 0)%R -> veq n (rv (tr r')) (lin2 u (rv (tr r)) v (rv p)) -> snd r' = snd r -> prod_t (tl (nth k con [])) (tr r') = 0%Z -> good_bits (S k) con m r'.
Proof.
  intros n m k con r r' u v p HC KL [G1 G2] L1 L2 L3 PZ U V S Z. split. rewrite S; auto. intros j. rewrite S, G2. destruct (Nat.ltb_spec j k) as [J|J], (Nat.ltb_spec j (Datatypes.S k)); try lia; auto.
  - apply (f_equal negb). assert (LC : length (nth j con []) = Datatypes.S n) by (rewrite Forall_forall in HC; apply HC, nth_In; lia). assert (Q : forall t, length t = n -> IZR (prod_t (tl (nth j con [])) t) = dt n (fst (kc (nth j con []))) (rv t)) by (intros t T; rewrite dt_prod by auto; rewrite prod_sym; auto).
    pose proof (Q _ L2) as Q2. rewrite (dt_ext _ _ _ _ V), dt_lin, <- !Q, (PZ j J) in Q2 by auto. destruct (Z.eqb_spec (prod_t (tl (nth j con [])) (tr r)) 0) as [E|E], (Z.eqb_spec (prod_t (tl (nth j con [])) (tr r')) 0) as [F|F]; auto.
    + exfalso. apply F. apply eq_IZR. rewrite Q2, E. ring.
    + exfalso. apply E. apply eq_IZR. rewrite F in Q2. assert (X : (u * IZR (prod_t (tl (nth j con [])) (tr r)) = 0)%R) by lra. apply Rmult_integral in X. tauto.
  - assert (j = k) by lia. subst. rewrite Z. auto.
Qed.
(** the lines which remain: one line [p] is removed, and added to the others *)
Definition lshape (n : nat) (L L' : list (list Z)) : Prop := exists A p, Permutation (A ++ [p]) L /\ Forall2 (fun a a' => exists u v, (u <> 0)%R /\ veq n (rv a') (lin2 u (rv a) v (rv p))) A L'.
Lemma line_case_inv : forall n m k con Lr Rr, inv n m k con Lr Rr -> (k < length con)%nat -> Forall (haspr (nth k con [])) (Lr ++ Rr) -> (first_nonzero (Lr ++ Rr) < length Lr)%nat ->
  exists Lr' Rr', line_case (is_ineq (nth k con [])) k (first_nonzero (Lr ++ Rr)) (length Lr) (Lr ++ Rr) = (Lr' ++ Rr', length Lr') /\ inv n m (S k) con Lr' Rr' /\ lshape n (map tr Lr) (map tr Lr').
Proof.
  intros n m k con Lr Rr (A1 & A2 & A3 & A4 & A5 & A6) KL HP FN. set (c := nth k con []) in *. set (inz := first_nonzero (Lr ++ Rr)) in *.
  assert (LC : length c = S n) by (rewrite Forall_forall in A1; apply A1, nth_In; auto).
  destruct (exch_vec_spec Lr Rr inz FN) as (A & pr & E & LA & PF & FP & PRE & SN).
  (* the lines *)
  rewrite Forall_app in A2, HP, A6. destruct A2 as [A2l A2r], HP as [HPl HPr], A6 as [A6l A6r].
  assert (LIN : forall v, In v (map fst (A ++ [pr])) -> length v = S n /\ v = prod_t (tl v) (tl c) :: tl v /\ In (tl v) (map tr Lr)).
  { intros v I. apply (Permutation_in _ PF) in I. apply in_map_iff in I. destruct I as (r & <- & I). rewrite Forall_forall in A2l, HPl. split; [apply A2l; auto|]. split. apply HPl; auto. apply in_map_iff. exists r; auto. }
  assert (LZ : forall t j, In t (map tr Lr) -> (j < k)%nat -> prod_t (tl (nth j con [])) t = 0%Z).
  { intros t j I J. assert (Lj : length (nth j con []) = S n) by (rewrite Forall_forall in A1; apply A1, nth_In; lia). apply (sat_prod n (nth j con []) t); auto. apply in_map_iff in I. destruct I as (r & <- & I). apply len_tl. rewrite Forall_forall in A2l; auto.
    apply (dd_line _ _ _ _ _ _ _ A5); auto. apply in_map. rewrite <- (firstn_skipn k con) at 1. rewrite app_nth1 by (rewrite firstn_length; lia). apply nth_In. rewrite firstn_length; lia. }
  assert (BZ : forall b, In b (map snd (A ++ [pr])) -> length b = m /\ forall j, nth j b false = false).
  { intros b I. rewrite SN in I. apply in_map_iff in I. destruct I as (r & <- & I). rewrite Forall_forall in A6l. destruct (A6l r I) as [B1 B2]. split; auto. intros j. rewrite B2. destruct (Nat.ltb_spec j k) as [J|J]; auto. rewrite (LZ (tr r) j); auto. apply in_map; auto. }
  assert (GB : forall r, In r (A ++ [pr]) -> good_bits k con m r). { intros r I. destruct (BZ (snd r) (in_map snd _ _ I)) as [B1 B2]. split; auto. intros j. rewrite B2. destruct (Nat.ltb_spec j k) as [J|J]; auto. destruct (LIN (fst r) (in_map fst _ _ I)) as (_ & _ & I'). unfold tr. rewrite (LZ _ j); auto. }
  assert (HA : forall r, In r A -> haspr c r). { intros r I. apply (LIN (fst r)). apply in_map. apply in_app_iff; auto. }
  assert (Hpr : haspr c pr). { apply (LIN (fst pr)). apply in_map. apply in_app_iff; simpl; auto. }
  assert (Lpr : length (fst pr) = S n). { apply (LIN (fst pr)). apply in_map. apply in_app_iff; simpl; auto. }
  destruct (first_nonzero_spec (Lr ++ Rr)) as (FZ1 & _ & FZ2). fold inz in FZ1, FZ2. assert (NZ : zn 0 (fst pr) <> 0%Z). { rewrite FP. replace (nth inz Lr row0) with (nth inz (Lr ++ Rr) row0) by (rewrite app_nth1; auto). apply FZ2. rewrite app_length. lia. }
  (* the model *)
  unfold line_case. rewrite E. rewrite <- LA, nth_mid. set (p := if Z.ltb (zn 0 (fst pr)) 0 then vector_neg_from 0 (fst pr) else fst pr).
  assert (M1 : mapi (fun i r => combine_if (Nat.leb inz i && Nat.ltb i (length A)) (fst pr) r) (A ++ pr :: Rr) = map (combine_if true (fst pr)) A ++ pr :: Rr).
  { rewrite mapi_app. f_equal.
    - apply mapi_map. intros i r Er. assert (I : (i < length A)%nat) by (apply nth_error_Some; rewrite Er; discriminate). assert (Ei : nth i A row0 = r) by (apply (nth_error_nth A i row0 Er)). replace (Nat.ltb i (length A)) with true by (symmetry; apply Nat.ltb_lt; auto). destruct (Nat.leb_spec inz i); auto.
      rewrite PRE in Ei by auto. destruct (FZ1 i ltac:(auto)) as [_ Z]. rewrite app_nth1 in Z by lia. rewrite Ei in Z. unfold combine_if. rewrite Z. auto.
    - rewrite (mapi_map _ _ _ (fun r => r)). apply map_id. intros i r _. unfold combine_if. replace (Nat.ltb (length A + i) (length A)) with false by (symmetry; apply Nat.ltb_ge; lia). rewrite andb_false_r. auto. }
  rewrite M1. set (X := map (combine_if true (fst pr)) A) in *. assert (LX : length X = length A) by apply map_length. assert (M0 : lset (length A) (setvec p (nth (length A) (X ++ pr :: Rr) row0)) (X ++ pr :: Rr) = X ++ setvec p pr :: Rr) by (rewrite <- LX, nth_mid, lset_app; auto). rewrite M0. unfold X in *. clear X LX M0.
  assert (M2 : mapi (fun i r => combine_if (Nat.ltb (length A) i) p r) (map (combine_if true (fst pr)) A ++ setvec p pr :: Rr) = map (combine_if true (fst pr)) A ++ setvec p pr :: map (combine_if true p) Rr).
  { rewrite mapi_app. f_equal.
    - rewrite (mapi_map _ _ _ (fun r => r)). apply map_id. intros i r Er. assert (I : (i < length (map (combine_if true (fst pr)) A))%nat) by (apply nth_error_Some; rewrite Er; discriminate). rewrite map_length in I. unfold combine_if. replace (Nat.ltb (length A) i) with false by (symmetry; apply Nat.ltb_ge; lia). auto.
    - rewrite mapi_cons. f_equal. rewrite map_length. unfold combine_if. replace (Nat.ltb (length A) (length A + 0)) with false by (symmetry; apply Nat.ltb_ge; lia). auto. apply mapi_map. intros i r _. rewrite map_length. replace (Nat.ltb (length A) (length A + S i)) with true by (symmetry; apply Nat.ltb_lt; lia). auto. }
  rewrite M2. set (A' := map (combine_if true (fst pr)) A). set (R' := map (combine_if true p) Rr). assert (LA' : length A' = length A) by apply map_length.
  (* the oriented line *)
  assert (Zpr : zn 0 (fst pr) = prod_t (tl (fst pr)) (tl c)) by (apply haspr_zn; auto).
  assert (Pp : length p = S n /\ (0 < zn 0 p)%Z /\ zn 0 p = prod_t (tl p) (tl c) /\ exists e, (e * e = 1)%R /\ veq n (rv (tl p)) (lin2 e (rv (tl (fst pr))) 0 (rv (tl (fst pr))))).
  { unfold p. destruct (Z.ltb_spec (zn 0 (fst pr)) 0) as [N|N].
    - destruct (neg_from_spec n 0 (fst pr) ltac:(lia) Lpr) as (B1 & B2 & B3). split; auto. simpl in B2. split; [lia|]. split. 2: { exists (-1)%R. split; [lra|auto]. }
      apply eq_IZR. rewrite <- (dt_prod n c) by (auto; apply len_tl; auto). rewrite (dt_ext _ _ _ _ B3), dt_lin, (dt_prod n c) by (auto; apply len_tl; auto). rewrite <- Zpr, B2, opp_IZR. ring.
    - split; auto. split; [lia|]. split; auto. exists 1%R. split; [lra|]. intros i Hi. unfold lin2. ring. }
  destruct Pp as (Lp & Pp & Zp & e & EE & Ve).
  assert (PZ : forall j, (j < k)%nat -> prod_t (tl (nth j con [])) (tl (fst pr)) = 0%Z). { intros j J. apply LZ; auto. apply (LIN (fst pr)). apply in_map. apply in_app_iff; simpl; auto. }
  assert (PZ' : forall j, (j < k)%nat -> prod_t (tl (nth j con [])) (tl p) = 0%Z). { intros j J. assert (Lj : length (nth j con []) = S n) by (rewrite Forall_forall in A1; apply A1, nth_In; lia). apply eq_IZR. rewrite prod_sym, <- (dt_prod n (nth j con [])) by (auto; apply len_tl; auto). rewrite (dt_ext _ _ _ _ Ve), dt_lin, !(dt_prod n (nth j con [])) by (auto; apply len_tl; auto). rewrite prod_sym, PZ by auto. ring. }
  (* the double description *)
  assert (DD : ddn n (map kc (firstn (S k) con)) (map tr A') (lineR (map tr Rr) (kc c) (tl p) (cf c p))).
  { replace (map tr A') with (map (cf c (fst pr)) (map tr A)). 2: { unfold A'. rewrite !map_map. apply map_ext_in. intros r I. symmetry. apply combine_if_tr. apply HA; auto. }
    rewrite (firstn_S_nth _ con k []) by auto. rewrite map_app. apply line_dd with (l0 := tl (fst pr)).
    - apply dd_ext with (map tr Lr) (map tr Rr); auto. assert (Q : map tr Lr = map (@tl Z) (map fst Lr)) by (rewrite map_map; auto). intros l. rewrite Q. assert (Q2 : map tr (A ++ [pr]) = map (@tl Z) (map fst (A ++ [pr]))) by (rewrite map_map; auto). assert (Q3 : In l (map (@tl Z) (map fst Lr)) <-> In l (map tr (A ++ [pr]))). { rewrite Q2. split; apply Permutation_in; apply Permutation_map; auto. symmetry; auto. } rewrite Q3, map_app, in_app_iff. simpl. unfold tr at 2. tauto.
    - exists e. auto.
    - rewrite (dt_prod n c) by (auto; apply len_tl; auto). rewrite <- Zp. apply IZR_lt; auto.
    - intros l I. apply in_map_iff in I. destruct I as (r & <- & I). assert (Lt : length (tr r) = n) by (apply len_tl; apply (LIN (fst r)); apply in_map, in_app_iff; auto). destruct (cf_spec n c (fst pr) (tr r) LC Lpr Lt Zpr NZ) as (C1 & C2 & u & v & (U & _) & V). split. rewrite (dt_prod n c) by auto. rewrite C2; auto.
      exists u, (v * e)%R. split; auto. intros i Hi. rewrite V by auto. unfold lin2. rewrite Ve by auto. unfold lin2. replace (v * e * (e * rv (tl (fst pr)) i + 0 * rv (tl (fst pr)) i))%R with (v * (e * e) * rv (tl (fst pr)) i)%R by ring. rewrite EE. ring.
    - intros l I. apply in_map_iff in I. destruct I as (r & <- & I). assert (Lt : length (tr r) = n) by (apply len_tl; rewrite Forall_forall in A2r; auto). destruct (cf_spec n c p (tr r) LC Lp Lt Zp ltac:(lia)) as (C1 & C2 & u & v & (_ & U) & V). split. rewrite (dt_prod n c) by auto. rewrite C2; auto. exists u, v. split; auto. }
  assert (TR' : map tr R' = map (cf c p) (map tr Rr)). { unfold R'. rewrite !map_map. apply map_ext_in. intros r I. apply combine_if_tr. rewrite Forall_forall in HPr; auto. }
  assert (LEN : Forall (fun r => length (fst r) = S n) (A' ++ R')).
  { apply Forall_app. split; apply Forall_forall; intros r I; apply in_map_iff in I; destruct I as (q & <- & I); unfold combine_if; destruct (true && _) eqn:T; auto; try solve [apply (LIN (fst q)); apply in_map, in_app_iff; auto]; try solve [rewrite Forall_forall in A2r; auto].
    - unfold setvec. cbn [fst]. apply combine_spec; auto. apply (LIN (fst q)); apply in_map, in_app_iff; auto.
    - unfold setvec. cbn [fst]. apply combine_spec; auto. rewrite Forall_forall in A2r; auto. right; lia. }
  assert (GB' : Forall (good_bits (S k) con m) (A' ++ R')).
  { apply Forall_app. split; apply Forall_forall; intros r I; apply in_map_iff in I; destruct I as (q & <- & I).
    - destruct (combine_if_tr c (fst pr) q (HA q I)) as [T1 T2]. assert (Lt : length (tr q) = n) by (apply len_tl; apply (LIN (fst q)); apply in_map, in_app_iff; auto). destruct (cf_spec n c (fst pr) (tr q) LC Lpr Lt Zpr NZ) as (C1 & C2 & u & v & (U & _) & V).
      apply good_bits_ray with (n := n) (r := q) (u := u) (v := v) (p := tl (fst pr)); auto; rewrite ?T1; auto. apply GB, in_app_iff; auto. apply len_tl; auto. fold c. rewrite prod_sym; auto.
    - assert (Hq : haspr c q) by (rewrite Forall_forall in HPr; auto). destruct (combine_if_tr c p q Hq) as [T1 T2]. assert (Lt : length (tr q) = n) by (apply len_tl; rewrite Forall_forall in A2r; auto). destruct (cf_spec n c p (tr q) LC Lp Lt Zp ltac:(lia)) as (C1 & C2 & u & v & (U & _) & V).
      apply good_bits_ray with (n := n) (r := q) (u := u) (v := v) (p := tl p); auto; rewrite ?T1; auto. rewrite Forall_forall in A6r; auto. apply len_tl; auto. fold c. rewrite prod_sym; auto. }
  assert (SH : lshape n (map tr Lr) (map tr A')).
  { exists (map tr A), (tl (fst pr)). split. assert (Q : map tr (A ++ [pr]) = map (@tl Z) (map fst (A ++ [pr]))) by (rewrite map_map; auto). assert (Q2 : map tr Lr = map (@tl Z) (map fst Lr)) by (rewrite map_map; auto). rewrite map_app in Q. change (map tr A ++ [tl (fst pr)]) with (map tr A ++ map tr [pr]). rewrite Q, Q2. apply Permutation_map; auto.
    unfold A'. assert (HQ : forall r, In r A -> exists u v, (u <> 0)%R /\ veq n (rv (tr (combine_if true (fst pr) r))) (lin2 u (rv (tr r)) v (rv (tl (fst pr))))). { intros r I. destruct (combine_if_tr c (fst pr) r (HA r I)) as [T1 T2]. assert (Lt : length (tr r) = n) by (apply len_tl; apply (LIN (fst r)); apply in_map, in_app_iff; auto). destruct (cf_spec n c (fst pr) (tr r) LC Lpr Lt Zpr NZ) as (C1 & C2 & u & v & (U & _) & V). exists u, v. rewrite T1. auto. }
    clear - HQ. induction A as [|r A IH]; simpl; constructor. apply HQ. left; auto. apply IH. intros q I. apply HQ. right; auto. }
  destruct (BZ (snd pr)) as [BP1 BP2]. { rewrite map_app. apply in_app_iff. simpl. auto. }
  unfold is_ineq. destruct (Z.eqb_spec (zn 0 c) 0) as [EQ|NEQ]; cbn [negb].
  - destruct (exch_drop _ row0 A' (setvec p pr) R') as (R'' & PR & ED). rewrite LA' in ED. rewrite ED. exists A', R''. rewrite LA'. split; auto. split; auto.
    assert (PP : Permutation (A' ++ R') (A' ++ R'')) by (apply Permutation_app_head; auto). split; auto. split. eapply Permutation_Forall; eauto. split; auto. split. lia. split. 2: eapply Permutation_Forall; eauto.
    apply dd_ext with (map tr A') (map tr R'); auto. 2: tauto. 2: apply Permutation_map; auto. rewrite TR'. unfold lineR in DD. unfold kc at 2 in DD. simpl snd in DD. rewrite EQ in DD. exact DD.
  - replace (length A) with (length A') by auto. rewrite nth_mid, lset_app. exists A', ((p, lset k true (snd pr)) :: R'). split; auto. split; auto. split; auto. split. { apply Forall_app in LEN. destruct LEN. apply Forall_app. split; auto. } split; auto. split; [lia|]. split.
    + cbn [map]. rewrite TR'. unfold lineR in DD. unfold kc at 2 in DD. simpl snd in DD. destruct (Z.eqb_spec (zn 0 c) 0); [tauto|]. exact DD.
    + apply Forall_app in GB'. destruct GB' as [G1 G2]. apply Forall_app. split; auto. constructor; auto. split. simpl. rewrite lset_length; auto. intros j. unfold tr. cbn [fst snd]. rewrite lset_nth by (rewrite BP1; lia). destruct (Nat.eqb_spec j k) as [->|NE].
      * replace (Nat.ltb k (S k)) with true by (symmetry; apply Nat.ltb_lt; lia). fold c. rewrite prod_sym, <- Zp. destruct (Z.eqb_spec (zn 0 p) 0); auto. lia.
      * rewrite BP2. destruct (Nat.ltb_spec j (S k)); auto. rewrite PZ' by lia. auto.
Qed.

(** ** All the lines saturate the constraint *)
Definition sgz (r : row) : Z := zn 0 (fst r).
Lemma sort_rays_spec : forall U Lr Zr P M, Forall (fun r => sgz r = 0%Z) Zr -> Forall (fun r => (0 < sgz r)%Z) P -> Forall (fun r => (sgz r < 0)%Z) M ->
  exists Zr' P' M', sort_rays (length U) (length (Lr ++ Zr)) (length (Lr ++ Zr ++ P)) (length (Lr ++ Zr ++ P ++ U)) (Lr ++ Zr ++ P ++ U ++ M) = (length (Lr ++ Zr'), length (Lr ++ Zr' ++ P'), Lr ++ Zr' ++ P' ++ M') /\
    Permutation (Zr ++ P ++ U ++ M) (Zr' ++ P' ++ M') /\ Forall (fun r => sgz r = 0%Z) Zr' /\ Forall (fun r => (0 < sgz r)%Z) P' /\ Forall (fun r => (sgz r < 0)%Z) M'.
Proof.
  intros U. remember (length U) as f. revert U Heqf. induction f; intros [|u U] LU Lr Zr P M FZ FP FM; simpl in LU; try discriminate.
  - exists Zr, P, M. simpl. auto.
  - injection LU as LU. cbn [sort_rays]. replace (Nat.ltb (length (Lr ++ Zr ++ P)) (length (Lr ++ Zr ++ P ++ u :: U))) with true by (symmetry; apply Nat.ltb_lt; rewrite !app_length; simpl; lia).
    assert (NU : nth (length (Lr ++ Zr ++ P)) (Lr ++ Zr ++ P ++ (u :: U) ++ M) row0 = u). { replace (Lr ++ Zr ++ P ++ (u :: U) ++ M) with ((Lr ++ Zr ++ P) ++ u :: (U ++ M)) by (rewrite <- !app_assoc; auto). apply nth_mid. }
    rewrite NU. fold (sgz u). destruct (Z.eqb_spec (sgz u) 0) as [E|E].
    + assert (X : exists P', exch row0 (length (Lr ++ Zr ++ P)) (length (Lr ++ Zr)) (Lr ++ Zr ++ P ++ (u :: U) ++ M) = Lr ++ (Zr ++ [u]) ++ P' ++ U ++ M /\ Permutation P P').
      { destruct P as [|p0 P].
        - exists []. split; auto. rewrite app_nil_r. rewrite exch_same. rewrite <- app_assoc. auto. rewrite !app_length. simpl. lia.
        - exists (P ++ [p0]). split. 2: apply Permutation_cons_append. pose proof (proj2 (exch_app _ row0 (Lr ++ Zr) p0 P u (U ++ M))) as X. replace (length (Lr ++ Zr) + S (length P))%nat with (length (Lr ++ Zr ++ p0 :: P)) in X by (rewrite !app_length; simpl; lia). rewrite <- !app_assoc in X. simpl in X. rewrite <- !app_assoc. simpl. exact X. }
      destruct X as (P' & -> & PP). destruct (IHf U LU Lr (Zr ++ [u]) P' M) as (Z1 & P1 & M1 & H1 & H2 & H3); auto. apply Forall_app; split; auto. eapply Permutation_Forall; eauto.
      exists Z1, P1, M1. split. rewrite <- H1. f_equal; rewrite ?app_length; simpl; rewrite ?(Permutation_length PP); lia. split; auto. rewrite <- H2. rewrite <- app_assoc. apply Permutation_app_head. simpl. rewrite <- Permutation_middle. apply perm_skip. apply Permutation_app_tail; auto.
    + destruct (Z.ltb_spec (sgz u) 0) as [N|N].
      * assert (X : exists U', exch row0 (length (Lr ++ Zr ++ P)) (length (Lr ++ Zr ++ P ++ u :: U) - 1) (Lr ++ Zr ++ P ++ (u :: U) ++ M) = Lr ++ Zr ++ P ++ U' ++ u :: M /\ Permutation U U').
        { destruct U as [|y U] using rev_ind.
          - exists []. split; auto. replace (length (Lr ++ Zr ++ P ++ [u]) - 1)%nat with (length (Lr ++ Zr ++ P)) by (rewrite !app_length; simpl; lia). rewrite exch_same. auto. rewrite !app_length. simpl. lia.
          - clear IHU. exists (y :: U). split. 2: symmetry; apply Permutation_cons_append. pose proof (proj1 (exch_app _ row0 (Lr ++ Zr ++ P) u U y M)) as X. replace (length (Lr ++ Zr ++ P) + S (length U))%nat with (length (Lr ++ Zr ++ P ++ u :: U ++ [y]) - 1)%nat in X by (rewrite !app_length; simpl; rewrite app_length; simpl; lia). rewrite <- !app_assoc in X. simpl in *. rewrite <- !app_assoc. simpl. exact X. }
        destruct X as (U' & -> & PU). assert (LU' : f = length U') by (rewrite <- (Permutation_length PU); auto). destruct (IHf U' LU' Lr Zr P (u :: M)) as (Z1 & P1 & M1 & H1 & H2 & H3); auto.
        exists Z1, P1, M1. split. rewrite <- H1. f_equal; rewrite ?app_length; simpl; rewrite ?(Permutation_length PU); lia. split; auto. rewrite <- H2. do 2 apply Permutation_app_head. simpl. rewrite <- Permutation_middle. apply perm_skip. apply Permutation_app_tail; auto.
      * destruct (IHf U LU Lr Zr (P ++ [u]) M) as (Z1 & P1 & M1 & H1 & H2 & H3); auto. apply Forall_app; split; auto. constructor; auto. lia.
        exists Z1, P1, M1. split. rewrite <- H1. f_equal; rewrite ?app_length; simpl; try lia; rewrite <- ?app_assoc; auto. split; auto. rewrite <- H2. rewrite <- !app_assoc. auto.
Qed.

(** the rays added at the end replace the others *)
Lemma replace_rays_spec : forall f N A D G, (length N <= f)%nat -> exists N', Permutation N N' /\
  (let '(i, j, rows) := replace_rays f (length (A ++ D ++ N)) (length A) (length (A ++ D)) (A ++ D ++ N ++ G) in firstn (if Nat.eqb j (length (A ++ D)) then i else j) rows) = A ++ N'.
Proof.
  assert (D0 : forall N A G : list row, firstn (length (A ++ [] ++ N)) (A ++ [] ++ N ++ G) = A ++ N) by (intros; simpl; rewrite app_assoc; apply firstn_app_l).
  induction f; intros N A D G LF.
  - destruct N; simpl in LF; [|lia]. exists []. split; auto. cbn [replace_rays]. destruct D as [|d D]. replace (length (A ++ [])) with (length A) by (rewrite app_nil_r; auto). rewrite Nat.eqb_refl. apply D0. replace (Nat.eqb (length A) (length (A ++ d :: D))) with false by (symmetry; apply Nat.eqb_neq; rewrite app_length; simpl; lia). rewrite firstn_app_l, app_nil_r. auto.
  - cbn [replace_rays]. destruct D as [|d D].
    + replace (length (A ++ [])) with (length A) by (rewrite app_nil_r; auto). rewrite Nat.ltb_irrefl. simpl andb. exists N. split; auto. rewrite Nat.eqb_refl. apply D0.
    + destruct N as [|y N0] using rev_ind.
      * rewrite app_nil_r, Nat.ltb_irrefl, andb_false_r. exists []. split; auto. replace (Nat.eqb (length A) (length (A ++ d :: D))) with false by (symmetry; apply Nat.eqb_neq; rewrite app_length; simpl; lia). rewrite firstn_app_l, app_nil_r. auto.
      * clear IHN0. rewrite app_length in LF. simpl in LF. replace (Nat.ltb (length A) (length (A ++ d :: D))) with true by (symmetry; apply Nat.ltb_lt; rewrite app_length; simpl; lia). replace (Nat.ltb (length (A ++ d :: D)) (length (A ++ (d :: D) ++ N0 ++ [y]))) with true by (symmetry; apply Nat.ltb_lt; rewrite !app_length; simpl; lia). cbn [andb].
        pose proof (proj2 (exch_app _ row0 A d (D ++ N0) y G)) as X. replace (length A + S (length (D ++ N0)))%nat with (length (A ++ (d :: D) ++ N0 ++ [y]) - 1)%nat in X by (rewrite !app_length; simpl; lia). replace (A ++ d :: (D ++ N0) ++ y :: G) with (A ++ (d :: D) ++ (N0 ++ [y]) ++ G) in X by (rewrite <- !app_assoc; simpl; rewrite <- ?app_assoc; auto). rewrite X.
        destruct (IHf N0 (A ++ [y]) D (d :: G) ltac:(lia)) as (N' & P & E). exists (y :: N'). split. rewrite <- Permutation_cons_append. apply perm_skip; auto.
        replace (length (A ++ [y])) with (S (length A)) in E by (rewrite app_length; simpl; lia). replace (length ((A ++ [y]) ++ D)) with (length (A ++ d :: D)) in E by (rewrite !app_length; simpl; lia). replace (length ((A ++ [y]) ++ D ++ N0)) with (length (A ++ (d :: D) ++ N0 ++ [y]) - 1)%nat in E by (rewrite !app_length; simpl; lia).
        replace ((A ++ [y]) ++ D ++ N0 ++ d :: G) with (A ++ y :: (D ++ N0) ++ d :: G) in E by (rewrite <- !app_assoc; simpl; rewrite <- ?app_assoc; auto). rewrite E. rewrite <- app_assoc. auto.
Qed.
Lemma bor_spec : forall a b j, length a = length b -> nth j (bor a b) false = nth j a false || nth j b false.
Proof.
  intros a b j L. unfold bor. destruct (Nat.lt_ge_cases j (length a)) as [J|J].
  - rewrite (nth_indep _ false ((fun j => nth j a false || nth j b false) 0%nat)) by (rewrite map_length, seq_length; auto). rewrite (map_nth (fun j => nth j a false || nth j b false)), seq_nth by auto. auto.
  - rewrite !nth_overflow; auto; try lia. rewrite map_length, seq_length; auto.
Qed.
Lemma bor_length : forall a b, length (bor a b) = length a.
Proof. intros. unfold bor. rewrite map_length, seq_length. auto. Qed.
Lemma NoDup_list_prod : forall A B (l : list A) (m : list B), NoDup l -> NoDup m -> NoDup (list_prod l m).
Proof.
  intros A B l m H K. induction H as [|x l NI H IH]; simpl. constructor. apply NoDup_app'; auto.
  - clear - K. induction K as [|y m NJ K IH]; simpl; constructor; auto. rewrite in_map_iff. intros (z & E & I). injection E as ->. auto.
  - intros [a b] I J. apply in_map_iff in I. destruct I as (z & E & I). injection E as -> ->. apply in_prod_iff in J. tauto.
Qed.
Lemma NoDup_map_inj : forall A B (f : A -> B) l, NoDup l -> (forall x y, In x l -> In y l -> f x = f y -> x = y) -> NoDup (map f l).
Proof.
  intros A B f l H. induction H as [|x l NI H IH]; intros F; simpl; constructor.
  - intros I. apply in_map_iff in I. destruct I as (y & E & I). apply NI. rewrite (F x y); simpl; auto.
  - apply IH. intros; apply F; simpl; auto.
Qed.

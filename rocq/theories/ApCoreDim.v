(** Dimension changes and permutations; their effect on linear expressions. *)
From Coq Require Import Arith ZArith QArith Qround Qreals Reals Lra Lia Bool List Sorted Permutation.
From Verif Require Import Bound BoundFacts Util Itv Linexpr LinexprFacts OctResize2 OctResize3 ItvLin ItvLinFacts Box BoxDims BoxOps ApCore ApCoreFacts ApCoreEq.
Import ListNotations.
Open Scope nat_scope.
#[local] Arguments Nat.leb : simpl never.
#[local] Arguments Nat.ltb : simpl never.
#[local] Arguments Nat.eqb : simpl never.
#[local] Arguments Nat.compare : simpl never.
#[local] Arguments Qeq_bool : simpl never.

(** ** inverse of an insertion *)
(** the vector with [f] inserted once before position [i] for each occurrence of [i] in [pos] *)
Fixpoint ins {A : Type} (f : A) (pos : list nat) (i : nat) (v : list A) : list A :=
  repeat f (count_occ Nat.eq_dec pos i) ++ match v with [] => [] | x :: v => x :: ins f pos (S i) v end.
(** the vector without the positions of [rem] *)
Fixpoint del {A : Type} (rem : list nat) (i : nat) (v : list A) : list A :=
  match v with
  | [] => []
  | x :: v => if in_dec Nat.eq_dec i rem then del rem (S i) v else x :: del rem (S i) v
  end.
Lemma add_invert_length : forall pos k, length (add_invert_from k pos) = length pos.
Proof. induction pos; intros; simpl; auto. Qed.
Lemma add_invert_nth : forall pos k t, t < length pos -> nth t (add_invert_from k pos) 0 = nth t pos 0 + (k + t).
Proof. induction pos as [|p pos IH]; intros k [|t] H; simpl in *; try lia. rewrite IH by lia. lia. Qed.
Lemma add_invert_sorted : forall pos k, StronglySorted le pos -> StronglySorted lt (add_invert_from k pos).
Proof.
  induction pos as [|p pos IH]; intros k S; simpl; constructor; inversion S as [|? ? S1 F]; subst; auto. apply Forall_forall. intros y Y.
  apply In_nth with (d := 0) in Y. destruct Y as (t & T & <-). rewrite add_invert_length in T. rewrite add_invert_nth by auto. rewrite Forall_forall in F. specialize (F (nth t pos 0) (nth_In _ _ T)). lia.
Qed.
Lemma add_invert_app : forall a b k, add_invert_from k (a ++ b) = add_invert_from k a ++ add_invert_from (k + length a) b.
Proof. induction a as [|x a IH]; intros; simpl. rewrite Nat.add_0_r; auto. rewrite IH. do 3 f_equal. lia. Qed.
Lemma add_invert_repeat : forall m i k, add_invert_from k (repeat i m) = seq (i + k) m.
Proof. induction m; intros; simpl; auto. rewrite IHm. do 2 f_equal. lia. Qed.
Lemma sorted_group : forall pos i, StronglySorted le pos -> (forall p, In p pos -> i <= p) -> exists pos', pos = repeat i (count_occ Nat.eq_dec pos i) ++ pos' /\ (forall p, In p pos' -> i < p) /\ StronglySorted le pos' /\
  forall j, i < j -> count_occ Nat.eq_dec pos' j = count_occ Nat.eq_dec pos j.
Proof.
  induction pos as [|p pos IH]; intros i S L.
  - exists []. simpl. split; auto. split; [intros ? []|]. split; auto.
  - inversion S as [|? ? S1 F]; subst. simpl. destruct (Nat.eq_dec p i) as [->|D].
    + destruct (IH i S1 ltac:(intros; apply L; right; auto)) as (pos' & E & A & B & C). exists pos'. split. simpl. f_equal. auto. split; auto. split; auto. intros j J. rewrite C by auto. destruct (Nat.eq_dec i j); auto; lia.
    + assert (i < p) by (specialize (L p (or_introl eq_refl)); lia).
      assert (Z : count_occ Nat.eq_dec pos i = 0). { apply count_occ_not_In. intro X. rewrite Forall_forall in F. apply F in X. lia. }
      rewrite Z. exists (p :: pos). simpl. split; auto. split. intros q [<-|X]; auto. rewrite Forall_forall in F. apply F in X. lia. split; auto.
Qed.
Lemma del_ext : forall A (v : list A) r r' i, (forall j, i <= j -> (In j r <-> In j r')) -> del r i v = del r' i v.
Proof.
  induction v as [|x v IH]; intros r r' i H; simpl; auto. rewrite (IH r r' (S i)) by (intros; apply H; lia).
  destruct (in_dec Nat.eq_dec i r) as [X|X], (in_dec Nat.eq_dec i r') as [Y|Y]; auto; exfalso; specialize (H i (le_n i)); tauto.
Qed.
Lemma del_repeat : forall A (f : A) m r i v, (forall j, i <= j < i + m -> In j r) -> del r i (repeat f m ++ v) = del r (i + m) v.
Proof.
  induction m as [|m IH]; intros r i v H; simpl. rewrite Nat.add_0_r; auto. destruct (in_dec Nat.eq_dec i r) as [X|X]. rewrite IH by (intros; apply H; lia). f_equal; lia. exfalso. apply X, H. lia.
Qed.
Lemma ins_count : forall A (f : A) v pos pos' i, (forall j, i <= j -> count_occ Nat.eq_dec pos j = count_occ Nat.eq_dec pos' j) -> ins f pos i v = ins f pos' i v.
Proof. induction v as [|x v IH]; intros pos pos' i H; simpl; rewrite H by lia; auto. f_equal. f_equal. apply IH. intros; apply H; lia. Qed.
Lemma del_ins : forall A (f : A) v pos i k, StronglySorted le pos -> (forall p, In p pos -> i <= p <= i + length v) -> del (add_invert_from k pos) (i + k) (ins f pos i v) = v.
Proof.
  induction v as [|x v IH]; intros pos i k S L; destruct (sorted_group pos i S ltac:(intros; apply L; auto)) as (pos' & E & A1 & B & C); remember (count_occ Nat.eq_dec pos i) as m eqn:Hm.
  - cbn [ins]. rewrite <- Hm. rewrite app_nil_r. rewrite <- (app_nil_r (repeat f m)). rewrite del_repeat; auto. intros j J. rewrite E, add_invert_app, add_invert_repeat. apply in_or_app. left. apply in_seq. lia.
  - cbn [ins]. rewrite <- Hm. rewrite del_repeat. 2: { intros j J. rewrite E, add_invert_app, add_invert_repeat. apply in_or_app. left. apply in_seq. lia. }
    assert (NI : forall q, In q (add_invert_from (k + m) pos') -> i + k + m < q).
    { intros q Q. apply In_nth with (d := 0) in Q. destruct Q as (t & T & <-). rewrite add_invert_length in T. rewrite add_invert_nth by auto. specialize (A1 _ (nth_In _ 0 T)). lia. }
    cbn [del]. destruct (in_dec Nat.eq_dec (i + k + m) (add_invert_from k pos)) as [X|X].
    + exfalso. rewrite E, add_invert_app, add_invert_repeat, repeat_length in X. apply in_app_or in X. destruct X as [X|X]. apply in_seq in X. lia. apply NI in X. lia.
    + f_equal. rewrite (ins_count _ f v pos pos') by (intros; symmetry; apply C; lia). replace (Datatypes.S (i + k + m)) with (Datatypes.S i + (k + m)) by lia. rewrite <- (IH pos' (Datatypes.S i) (k + m)) at 2; auto.
      apply del_ext. intros j J. rewrite E at 1. rewrite add_invert_app, add_invert_repeat, repeat_length, in_app_iff, in_seq. intuition lia.
      intros p P. assert (In p pos) by (rewrite E; apply in_or_app; auto). specialize (A1 p P). specialize (L p H). simpl in L. lia.
Qed.
(** the inserted positions are those of the inverted specification *)
Lemma ins_length : forall A (f : A) v pos i, StronglySorted le pos -> (forall p, In p pos -> i <= p <= i + length v) -> length (ins f pos i v) = length v + length pos.
Proof.
  induction v as [|x v IH]; intros pos i S L; destruct (sorted_group pos i S ltac:(intros; apply L; auto)) as (pos' & E & A1 & B & C); remember (count_occ Nat.eq_dec pos i) as m eqn:Hm; cbn [ins]; rewrite <- Hm.
  - assert (pos' = []). { destruct pos' as [|p pos']; auto. assert (In p pos) by (rewrite E; apply in_or_app; simpl; auto). specialize (A1 p (or_introl eq_refl)). specialize (L p H). simpl in L. lia. }
    subst pos'. rewrite E. rewrite !app_nil_r, !repeat_length. auto.
  - rewrite app_length, repeat_length. simpl. rewrite (ins_count _ f v pos pos') by (intros; symmetry; apply C; lia). rewrite IH; auto. rewrite E, app_length, repeat_length. lia.
    intros p P. assert (In p pos) by (rewrite E; apply in_or_app; auto). specialize (A1 p P). specialize (L p H). simpl in L. lia.
Qed.
Lemma ins_fresh : forall A (f : A) v pos i k y, StronglySorted le pos -> (forall p, In p pos -> i <= p <= i + length v) -> In (i + k + y) (add_invert_from k pos) -> nth_error (ins f pos i v) y = Some f.
Proof.
  induction v as [|x v IH]; intros pos i k y S L H; destruct (sorted_group pos i S ltac:(intros; apply L; auto)) as (pos' & E & A1 & B & C); remember (count_occ Nat.eq_dec pos i) as m eqn:Hm; cbn [ins]; rewrite <- Hm.
  - assert (pos' = []). { destruct pos' as [|p pos']; auto. assert (In p pos) by (rewrite E; apply in_or_app; simpl; auto). specialize (A1 p (or_introl eq_refl)). specialize (L p H0). simpl in L. lia. }
    subst pos'. rewrite E, !app_nil_r, add_invert_repeat in H. rewrite app_nil_r. apply in_seq in H. rewrite nth_error_repeat by lia. auto.
  - rewrite E, add_invert_app, add_invert_repeat, repeat_length, in_app_iff in H. destruct H as [H|H].
    + apply in_seq in H. rewrite nth_error_app1 by (rewrite repeat_length; lia). apply nth_error_repeat. lia.
    + assert (NI : i + k + m < i + k + y). { apply In_nth with (d := 0) in H. destruct H as (t & T & Q). rewrite add_invert_length in T. rewrite add_invert_nth in Q by auto. specialize (A1 _ (nth_In _ 0 T)). lia. }
      rewrite nth_error_app2 by (rewrite repeat_length; lia). rewrite repeat_length. destruct (y - m) as [|z] eqn:Z; [lia|]. simpl. rewrite (ins_count _ f v pos pos') by (intros; symmetry; apply C; lia).
      apply IH with (k := k + m); auto. 2: replace (Datatypes.S i + (k + m) + z) with (i + k + y) by lia; auto.
      intros p P. assert (In p pos) by (rewrite E; apply in_or_app; auto). specialize (A1 p P). specialize (L p H0). simpl in L. lia.
Qed.

(** ** permutations *)
Lemma compose_length : forall p q, length (dimperm_compose p q) = length p.
Proof. intros. unfold dimperm_compose. rewrite map_length, seq_length. auto. Qed.
Lemma compose_nth : forall p q i, i < length p -> nth i (dimperm_compose p q) 0 = nth (nth i p 0) q 0.
Proof.
  intros p q i H. unfold dimperm_compose. rewrite nth_indep with (d' := (fun i => nth (nth i p 0) q 0) 0) by (rewrite map_length, seq_length; auto).
  rewrite map_nth with (f := fun i => nth (nth i p 0) q 0). rewrite seq_nth by auto. auto.
Qed.
Lemma set_nth_nth : forall A (l : list A) i x j d, i < length l -> nth j (set_nth i x l) d = if Nat.eqb j i then x else nth j l d.
Proof. induction l as [|y l IH]; intros [|i] x [|j] d H; simpl in *; try lia; auto. rewrite IH by lia. reflexivity. Qed.
(** writing [g i] at the place [nth i perm] *)
Lemma perm_write : forall A (g : nat -> A) perm n d m r, (forall i, i < n -> nth i perm 0 < length r) -> (forall i j, i < n -> j < n -> nth i perm 0 = nth j perm 0 -> i = j) -> m <= n ->
  let r' := fold_left (fun r i => set_nth (nth i perm 0) (g i) r) (seq 0 m) r in length r' = length r /\ forall i, i < m -> nth (nth i perm 0) r' d = g i.
Proof.
  intros A g perm n d m r B I. induction m as [|m IH]; intro L. simpl. split; auto. intros; lia.
  rewrite seq_S, fold_left_app. simpl. destruct (IH ltac:(lia)) as [L1 L2]. split. rewrite set_nth_length; auto. intros i Hi. rewrite set_nth_nth by (rewrite L1; apply B; lia).
  destruct (Nat.eqb_spec (nth i perm 0) (nth m perm 0)) as [Q|Q]. apply I in Q; try lia. subst; auto. apply L2. destruct (Nat.eq_dec i m); [subst; congruence|lia].
Qed.
Lemma invert_ok : forall n perm nperm, is_perm n perm -> length nperm = n -> is_perm n (dimperm_invert nperm perm) /\ (forall i, i < n -> nth (nth i perm 0) (dimperm_invert nperm perm) 0 = i) /\
  (forall i, i < n -> nth (nth i (dimperm_invert nperm perm) 0) perm 0 = i).
Proof.
  intros n perm nperm P L. assert (P0 := P). destruct P as (P1 & P2 & P3). unfold dimperm_invert. rewrite P1.
  destruct (perm_write nat (fun i => i) perm n 0 n nperm ltac:(intros; rewrite L; auto) P3 (le_n n)) as [L1 L2]. cbv zeta in *. set (r := fold_left _ _ _) in *.
  assert (K : forall i, i < n -> nth i r 0 < n /\ nth (nth i r 0) perm 0 = i). { intros i Hi. destruct (perm_surj n perm P0 i Hi) as (x & X & <-). rewrite L2 by auto. auto. }
  split. split. lia. split. intros; apply K; auto. intros i j Hi Hj E. destruct (K i Hi) as [_ <-], (K j Hj) as [_ <-]. congruence. split. auto. intros; apply K; auto.
Qed.
Lemma compose_perm : forall n p q, is_perm n p -> is_perm n q -> is_perm n (dimperm_compose p q).
Proof.
  intros n p q (P1 & P2 & P3) (Q1 & Q2 & Q3). split. rewrite compose_length; auto. split.
  - intros i H. rewrite compose_nth by lia. auto.
  - intros i j Hi Hj. rewrite !compose_nth by lia. intro E. apply P3; auto.
Qed.
Lemma list_nth_eq : forall (a b : list nat), length a = length b -> (forall i, i < length a -> nth i a 0 = nth i b 0) -> a = b.
Proof. intros. apply nth_ext with 0 0; auto. Qed.

(** ** adding dimensions to an expression *)
Lemma dim_while_ok : forall pos d fuel k, StronglySorted le pos -> k <= cle pos d -> length pos <= k + fuel -> dim_while fuel pos d k = cle pos d.
Proof.
  intros pos d fuel. induction fuel as [|fuel IH]; intros k S K F; simpl.
  - assert (cle pos d <= length pos). { unfold cle. clear. induction pos; simpl; auto. destruct (Nat.leb a d); simpl; lia. } lia.
  - assert (LE : cle pos d <= length pos). { unfold cle. clear. induction pos; simpl; auto. destruct (Nat.leb a d); simpl; lia. }
    assert (CH : forall t, t < length pos -> (nth t pos 0 <= d <-> t < cle pos d)).
    { clear - S. intros t T. revert t T. induction pos as [|p pos IH]; intros t T; simpl in *; [lia|]. inversion S as [|? ? S1 F]; subst. unfold cle in *. simpl. destruct (Nat.leb_spec p d).
      - destruct t as [|t]; simpl. lia. rewrite IH by (auto; lia). lia.
      - rewrite Forall_forall in F. assert (Z : length (filter (fun p => Nat.leb p d) pos) = 0).
        { clear - F H. induction pos as [|q pos IH]; simpl; auto. destruct (Nat.leb_spec q d). specialize (F q (or_introl eq_refl)). lia. apply IH. intros; apply F; simpl; auto. }
        rewrite Z. destruct t as [|t]; [lia|]. assert (TL : t < length pos) by lia. specialize (F (nth t pos 0) (nth_In pos 0 TL)). lia. }
    destruct (Nat.ltb_spec k (length pos)); simpl.
    + destruct (Nat.leb_spec (nth k pos 0) d). apply IH; auto. apply CH in H0; lia. lia. assert (~ (k < cle pos d)) by (intro X; apply CH in X; lia). lia.
    + lia.
Qed.
Lemma cle_mono : forall pos x y, x <= y -> cle pos x <= cle pos y.
Proof. intros pos x y H. unfold cle. induction pos as [|p pos IH]; simpl; auto. destruct (Nat.leb_spec p x), (Nat.leb_spec p y); simpl; lia. Qed.
Definition shift (pos : list nat) (x : nat) : nat := x + cle pos x.
Lemma add_sparse_enc : forall pos l h k, StronglySorted le pos -> srt l -> (forall p, In p l -> k <= cle pos (fst p)) -> add_sparse pos k (enc l h) = enc (map (fun p => (shift pos (fst p), snd p)) l) h.
Proof.
  intros pos l. induction l as [|[d c] l IH]; intros h k SP S K.
  - unfold enc. simpl. destruct h; auto.
  - change (enc ((d, c) :: l) h) with ((Some d, c) :: enc l h). cbn [add_sparse]. rewrite dim_while_ok; auto; try lia. 2: apply (K (d, c)); simpl; auto.
    rewrite IH; auto. unfold srt in S. simpl in S. inversion S; auto. unfold srt in S. simpl in S. inversion S as [|? ? S1 F]; subst. intros p P. rewrite Forall_map, Forall_forall in F. apply F in P. simpl in P. apply cle_mono. lia.
Qed.
Lemma shift_srt : forall pos l, srt l -> srt (map (fun p => (shift pos (fst p), snd p)) l).
Proof.
  unfold srt. induction l as [|[d c] l IH]; simpl; intro S; constructor; inversion S as [|? ? S1 F]; subst; auto. rewrite map_map. simpl. rewrite Forall_map in *. eapply Forall_impl; [|exact F]. intros [x k] H. simpl in *. unfold shift.
  pose proof (cle_mono pos d x). lia.
Qed.
Lemma sum_sparse_shift : forall g l h cs w, sum_sparse (enc (map (fun p : nat * coeff => (g (fst p), snd p)) l) h) cs w = sum_sparse (enc l h) cs (fun x => w (g x)).
Proof.
  induction l as [|[d c] l IH]; intros h cs w.
  - unfold enc. simpl. revert cs. induction h; intros [|r cs]; simpl; auto.
  - change (enc ((d, c) :: l) h) with ((Some d, c) :: enc l h). change (enc (map (fun p : nat * coeff => (g (fst p), snd p)) ((d, c) :: l)) h) with ((Some (g d), c) :: enc (map (fun p : nat * coeff => (g (fst p), snd p)) l) h).
    destruct cs as [|r cs]; simpl; auto. rewrite IH. auto.
Qed.
Lemma F2_enc : forall g l h cs, Forall2 (fun c (t : term) => fst t <> None -> coeff_in c (snd t)) cs (enc (map (fun p : nat * coeff => (g (fst p), snd p)) l) h) <->
  Forall2 (fun c (t : term) => fst t <> None -> coeff_in c (snd t)) cs (enc l h).
Proof.
  induction l as [|[d c] l IH]; intros h cs. unfold enc; simpl; tauto.
  change (enc ((d, c) :: l) h) with ((Some d, c) :: enc l h). change (enc (map (fun p : nat * coeff => (g (fst p), snd p)) ((d, c) :: l)) h) with ((Some (g d), c) :: enc (map (fun p : nat * coeff => (g (fst p), snd p)) l) h).
  split; intro H; inversion H as [|? ? ? ? HA HB]; subst; constructor; try (apply IH; exact HB); simpl in *; intro; apply HA; discriminate.
Qed.
Lemma terms_val_shift : forall g l h w r, terms_val (Sparse (enc (map (fun p : nat * coeff => (g (fst p), snd p)) l) h)) w r <-> terms_val (Sparse (enc l h)) (fun x => w (g x)) r.
Proof.
  intros. simpl. split; intros (cs & F & ->); exists cs.
  - rewrite F2_enc in F. split; auto. apply sum_sparse_shift.
  - split. rewrite F2_enc; auto. symmetry. apply sum_sparse_shift.
Qed.
(** re-indexing of a sum *)
Lemma lsum_reindex : forall n m c w s, (forall x, x < n -> s x < m) -> (forall x y, x < n -> y < n -> s x = s y -> x = y) ->
  (forall y, y < m -> (forall x, x < n -> s x <> y) -> (c y * w y = 0)%R) -> lsum m c w = lsum n (fun x => c (s x)) (fun x => w (s x)).
Proof.
  induction n as [|n IH]; intros m c w s B I Z.
  - simpl. apply lsum_zero. intros j J. apply Z; auto. intros; lia.
  - simpl. rewrite (lsum_out m c w (s n)) by auto. rewrite (IH m (fun j => if Nat.eqb j (s n) then 0%R else c j) w s).
    + rewrite Rplus_comm. f_equal. apply lsum_ext. intros j J. destruct (Nat.eqb_spec (s j) (s n)) as [Q|Q]; auto. apply I in Q; lia.
    + intros; apply B; lia.
    + intros; apply I; auto; lia.
    + intros y Y H. destruct (Nat.eqb_spec y (s n)) as [Q|Q]. lra. apply Z; auto. intros x X. destruct (Nat.eq_dec x n). subst; auto. apply H; lia.
Qed.
Lemma expr_val_reindex : forall n m e e' w s, wf_terms n (le_terms e) -> wf_terms m (le_terms e') -> le_cst e' = le_cst e -> (forall x, x < n -> s x < m) -> (forall x y, x < n -> y < n -> s x = s y -> x = y) ->
  (forall x, x < n -> forall r, ocoeff_in r (lin_coeff e' (s x)) <-> ocoeff_in r (lin_coeff e x)) ->
  (forall y, y < m -> (forall x, x < n -> s x <> y) -> forall r, ocoeff_in r (lin_coeff e' y) <-> r = 0%R) ->
  forall r, expr_val e' w r <-> expr_val e (fun x => w (s x)) r.
Proof.
  intros n m e e' w s W W' C B I M F r. rewrite (expr_val_lin m e' w r W'), (expr_val_lin n e _ r W). unfold lin_val. rewrite C. split.
  - intros (c0 & c & A1 & A2 & ->). exists c0, (fun x => c (s x)). split; auto. split. intros j J. apply M; auto. f_equal. apply lsum_reindex; auto. intros y Y H. specialize (A2 y Y). apply F in A2; auto. rewrite A2. lra.
  - intros (c0 & c & A1 & A2 & ->). set (inv := fun y => find (fun x => Nat.eqb (s x) y) (seq 0 n)). exists c0, (fun y => match inv y with Some x => c x | None => 0%R end).
    assert (IV : forall x, x < n -> inv (s x) = Some x).
    { intros x X. unfold inv. destruct (find (fun x0 => Nat.eqb (s x0) (s x)) (seq 0 n)) as [z|] eqn:Q.
      - apply find_some in Q. destruct Q as [Q1 Q2]. apply in_seq in Q1. apply Nat.eqb_eq in Q2. assert (z = x) by (apply I; auto; lia). subst; auto.
      - exfalso. apply find_none with (x := x) in Q; [|apply in_seq; lia]. rewrite Nat.eqb_refl in Q. discriminate. }
    split; auto. split.
    + intros y Y. destruct (inv y) as [x|] eqn:Q.
      * unfold inv in Q. apply find_some in Q. destruct Q as [Q1 Q2]. apply in_seq in Q1. apply Nat.eqb_eq in Q2. subst y. apply M; auto; try lia. apply A2; lia.
      * apply F; auto. intros x X E. subst y. rewrite IV in Q by auto. discriminate.
    + f_equal. rewrite (lsum_reindex n m _ w s); auto.
      * apply lsum_ext. intros j J. rewrite IV by auto. auto.
      * intros y Y H. destruct (inv y) as [x|] eqn:Q; [|lra]. unfold inv in Q. apply find_some in Q. destruct Q as [Q1 Q2]. apply in_seq in Q1. apply Nat.eqb_eq in Q2. exfalso. apply (H x); auto; lia.
Qed.
Lemma add_dense_ok : forall pos l, box_add_ok (length l) pos -> length (add_dense pos l) = length l + length pos /\
  (forall x, x < length l -> nth_error (add_dense pos l) (shift pos x) = nth_error l x) /\ (forall t, t < length pos -> nth_error (add_dense pos l) (t + nth t pos 0) = Some czero).
Proof.
  intros pos l [S B]. unfold add_dense. set (src := fun i => nth i (l ++ repeat czero (length pos)) czero).
  assert (LS := add_loop_spec true src pos czero (length l) S (length l) (length pos) src (le_n _)).
  destruct LS as [L1 L2]; auto; try (intros; lia).
  { intros t T. apply B. apply nth_In; auto. }
  split. rewrite map_length, seq_length; auto. set (res := add_loop true src pos czero (length l) (length l) (length pos) src) in *.
  assert (NE : forall y, y < length l + length pos -> nth_error (map res (seq 0 (length l + length pos))) y = Some (res y)).
  { intros y Y. rewrite nth_error_map. rewrite nth_error_nth' with (d := 0) by (rewrite seq_length; auto). rewrite seq_nth by auto. auto. }
  split.
  - intros x X. assert (cle pos x <= length pos). { unfold cle. clear. induction pos; simpl; auto. destruct (Nat.leb a x); simpl; lia. }
    unfold shift. rewrite NE by lia. rewrite L1 by auto. unfold src. rewrite app_nth1 by auto. rewrite nth_error_nth' with (d := czero) by auto. auto.
  - intros t T. specialize (B (nth t pos 0) (nth_In _ _ T)). rewrite NE by lia. rewrite L2 by auto. auto.
Qed.
Lemma shift_inj : forall pos x y, shift pos x = shift pos y -> x = y.
Proof. intros pos x y. unfold shift. destruct (Nat.lt_trichotomy x y) as [H|[H|H]]; auto; intro E. pose proof (cle_mono pos x y). lia. pose proof (cle_mono pos y x). lia. Qed.
(** expressions whose dense array covers all the positions *)
Definition add_fits (e : linexpr) (pos : list nat) : Prop := match le_terms e with Dense l => forall p, In p pos -> p <= length l | Sparse _ => True end.
Lemma add_dimensions_ok : forall n e pos w r, wf_terms n (le_terms e) -> lin_sorted (le_terms e) -> StronglySorted le pos -> add_fits e pos ->
  expr_val (linexpr_add_dimensions e pos) w r <-> expr_val e (fun x => w (shift pos x)) r.
Proof.
  intros n [k [l|ts]] pos w r W S SP F; unfold add_fits in F; simpl in *.
  - destruct (add_dense_ok pos l (conj SP F)) as (L1 & L2 & L3). destruct W as [WL WF].
    assert (COV : forall y, y < length l + length pos -> (exists x, x < length l /\ y = shift pos x) \/ exists t, t < length pos /\ y = t + nth t pos 0) by (intros; apply add_cover; auto).
    assert (LT : forall x, x < length l -> shift pos x < length l + length pos). { intros x X. unfold shift. assert (cle pos x <= length pos). { unfold cle. clear. induction pos; simpl; auto. destruct (Nat.leb a x); simpl; lia. } lia. }
    apply (expr_val_reindex (length l) (length l + length pos)); simpl; auto.
    + split. rewrite L1; auto. apply Forall_forall. intros c C. apply In_nth_error in C. destruct C as (y & Y). assert (YL : y < length l + length pos) by (rewrite <- L1; apply nth_error_Some; congruence).
      destruct (COV y YL) as [(x & X & ->)|(t & T & ->)]. rewrite L2 in Y by auto. apply nth_error_In in Y. rewrite Forall_forall in WF; auto. rewrite L3 in Y by auto. inversion Y; subst. exact I.
    + intros; apply shift_inj with pos; auto.
    + intros x X r0. unfold lin_coeff. simpl. rewrite L2 by auto. tauto.
    + intros y Y H r0. destruct (COV y Y) as [(x & X & ->)|(t & T & ->)]. exfalso. apply (H x); auto. unfold lin_coeff. simpl. rewrite L3 by auto. simpl. rewrite RMicromega.Q2R_0. tauto.
  - destruct S as (l & h & -> & S). unfold expr_val, linexpr_add_dimensions. cbn [le_terms le_cst]. rewrite (add_sparse_enc pos l h 0) by (auto; intros; lia).
    split; intros (c0 & r1 & A1 & A2 & ->); exists c0, r1; (split; [auto|split; auto]); apply terms_val_shift; auto.
Qed.
Lemma add_dimensions_sorted : forall e pos, lin_sorted (le_terms e) -> StronglySorted le pos -> lin_sorted (le_terms (linexpr_add_dimensions e pos)).
Proof.
  intros [k [l|ts]] pos S SP; simpl in *; auto. destruct S as (l & h & -> & S). exists (map (fun p => (shift pos (fst p), snd p)) l), h. split. apply add_sparse_enc; auto. intros; lia. apply shift_srt; auto.
Qed.

(** ** permuting the dimensions of an expression *)
Lemma terms_val_perm : forall ts ts', Permutation ts ts' -> forall v r, terms_val (Sparse ts) v r -> terms_val (Sparse ts') v r.
Proof.
  intros ts ts' P. induction P as [|t ts ts' P IH|t u ts|ts1 ts2 ts3 P1 IH1 P2 IH2]; intros v r H; auto.
  - destruct H as (cs & F & ->). inversion F as [|c ? cs' ? F1 F2]; subst. destruct (IH v (sum_sparse ts cs' v)) as (cs2 & G & E). exists cs'; auto.
    exists (c :: cs2). split. constructor; auto. destruct t as [[d|] k]; simpl; rewrite E; auto.
  - destruct H as (cs & F & ->). inversion F as [|c ? cs' ? F1 F2]; subst. inversion F2 as [|c' ? cs'' ? F3 F4]; subst. exists (c' :: c :: cs''). split. constructor; auto.
    destruct t as [[d|] k], u as [[d'|] k']; simpl; auto. lra.
Qed.
Lemma insert_perm : forall t ts, Permutation (t :: ts) (insert_term t ts).
Proof. induction ts as [|u ts IH]; simpl; auto. destruct (term_le t u); auto. rewrite perm_swap. constructor. auto. Qed.
Lemma sort_perm : forall ts, Permutation ts (sort_terms ts).
Proof. induction ts as [|t ts IH]; simpl; auto. rewrite <- insert_perm. constructor. auto. Qed.
Lemma term_dims_perm : forall ts ts' : list term, Permutation ts ts' -> Permutation (term_dims ts) (term_dims ts').
Proof.
  intros ts ts' P. induction P as [|t ts ts' P IH|t u ts|ts1 ts2 ts3 P1 IH1 P2 IH2]; auto. destruct t as [[d|] k]; simpl; auto. destruct t as [[d|] k], u as [[d'|] k']; simpl; auto. apply perm_swap. eapply Permutation_trans; eauto.
Qed.
Lemma insert_enc : forall t l h, srt l -> (forall d, fst t = Some d -> ~ In d (map fst l)) -> exists l' h', insert_term t (enc l h) = enc l' h' /\ srt l'.
Proof.
  intros [[d|] c] l h S N.
  - specialize (N d eq_refl). revert S N. induction l as [|[x k] l IH]; intros S N.
    + exists [(d, c)], h. unfold enc. simpl. split. destruct h; auto. repeat constructor.
    + change (enc ((x, k) :: l) h) with ((Some x, k) :: enc l h). cbn [insert_term]. unfold term_le. simpl fst. simpl odim_cmp. destruct (Nat.compare_spec d x) as [Q|Q|Q].
      * exfalso. apply N. simpl; auto.
      * exists ((d, c) :: (x, k) :: l), h. split; auto. unfold srt in *. simpl in *. constructor; auto. inversion S as [|? ? S1 F]; subst. constructor; auto. eapply Forall_impl; [|exact F]. simpl; intros; lia.
      * unfold srt in S. simpl in S. inversion S as [|? ? S1 F]; subst. destruct (IH S1) as (l' & h' & E & S2). intro; apply N; simpl; auto.
        exists ((x, k) :: l'), h'. rewrite E. split; auto. unfold srt. simpl. constructor; auto. apply Forall_forall. intros y Y.
        assert (PP := term_dims_perm _ _ (insert_perm (Some d, c) (enc l h))). rewrite E in PP. rewrite enc_dims in PP. simpl in PP. rewrite enc_dims in PP. apply (Permutation_in y (Permutation_sym PP)) in Y.
        destruct Y as [<-|Y]; auto. rewrite Forall_forall in F; auto.
  - exists l. clear N. induction l as [|[x k] l IH].
    + exists (c :: h). split; auto. unfold enc. simpl. destruct h; auto.
    + unfold srt in S. simpl in S. inversion S as [|? ? S1 F]; subst. destruct (IH S1) as (h' & E & _). exists h'. split; auto. change (enc ((x, k) :: l) h) with ((Some x, k) :: enc l h). simpl. rewrite E. auto.
Qed.
Lemma sort_enc : forall ts, NoDup (term_dims ts) -> exists l h, sort_terms ts = enc l h /\ srt l.
Proof.
  induction ts as [|t ts IH]; intro N. exists [], []. split; auto. constructor.
  assert (N1 : NoDup (term_dims ts)) by (destruct t as [[d|] c]; simpl in N; auto; inversion N; auto). destruct (IH N1) as (l & h & E & S). simpl. rewrite E. apply insert_enc; auto.
  intros d D H. destruct t as [o c]. simpl in D. subst o. simpl in N. inversion N; subst. apply H2. assert (PP := term_dims_perm _ _ (sort_perm ts)). rewrite E, enc_dims in PP. apply (Permutation_in d (Permutation_sym PP)). auto.
Qed.
Lemma permute_dims : forall perm ts, term_dims (map (permute_term perm) ts) = map (fun d => nth d perm 0) (term_dims ts).
Proof. induction ts as [|[[d|] c] ts IH]; simpl; auto. rewrite IH. auto. Qed.
Lemma terms_val_permute : forall perm ts w r, terms_val (Sparse (map (permute_term perm) ts)) w r <-> terms_val (Sparse ts) (fun x => w (nth x perm 0)) r.
Proof.
  intros perm ts w r. simpl. assert (SS : forall ts cs, sum_sparse (map (permute_term perm) ts) cs w = sum_sparse ts cs (fun x => w (nth x perm 0))).
  { induction ts0 as [|[[d|] c] ts0 IH]; intros [|x cs]; simpl; auto. rewrite IH; auto. }
  assert (FF : forall ts cs, Forall2 (fun c (t : term) => fst t <> None -> coeff_in c (snd t)) cs (map (permute_term perm) ts) <-> Forall2 (fun c (t : term) => fst t <> None -> coeff_in c (snd t)) cs ts).
  { induction ts0 as [|[[d|] c] ts0 IH]; intros cs; simpl; [tauto| |]; split; intro H; inversion H as [|? ? ? ? HA HB]; subst; constructor; try (apply IH; exact HB); simpl in *; auto; intro X; apply HA; auto; discriminate. }
  split; intros (cs & F & ->); exists cs; rewrite ?FF, ?SS in *; auto.
Qed.
Lemma permute_dense_ok : forall n perm l, is_perm n perm -> length l = n -> exists l', permute_dense perm l = Some l' /\ length l' = n /\ forall i, i < n -> nth_error l' (nth i perm 0) = nth_error l i.
Proof.
  intros n perm l (P1 & P2 & P3) L. unfold permute_dense. rewrite L.
  assert (G : forall m, m <= n -> fold_left (fun r i => match r with Some r => if Nat.ltb (nth i perm 0) (length r) then Some (set_nth (nth i perm 0) (nth i l czero) r) else None | None => None end) (seq 0 m) (Some l) =
    Some (fold_left (fun r i => set_nth (nth i perm 0) (nth i l czero) r) (seq 0 m) l)).
  { induction m as [|m IH]; intro M. auto. rewrite seq_S, !fold_left_app. simpl fold_left at 1. rewrite IH by lia.
    destruct (perm_write coeff (fun i => nth i l czero) perm n czero m l ltac:(intros; rewrite L; auto) P3 ltac:(lia)) as [L1 _]. cbv zeta in L1. simpl. rewrite L1, L. rewrite (proj2 (Nat.ltb_lt _ _)) by (apply P2; lia). auto. }
  rewrite G by auto. eexists. split; [reflexivity|]. destruct (perm_write coeff (fun i => nth i l czero) perm n czero n l ltac:(intros; rewrite L; auto) P3 (le_n n)) as [L1 L2]. cbv zeta in *.
  split. lia. intros i Hi. rewrite nth_error_nth' with (d := czero) by (rewrite L1, L; auto). rewrite L2 by auto. rewrite nth_error_nth' with (d := czero) by lia. auto.
Qed.
Definition perm_fits (n : nat) (e : linexpr) : Prop := match le_terms e with Dense l => length l = n | Sparse _ => True end.
Lemma permute_dimensions_ok : forall n e perm, wf_terms n (le_terms e) -> is_perm n perm -> perm_fits n e -> exists e', linexpr_permute_dimensions e perm = Some e' /\ lin_sorted (le_terms e') /\ le_cst e' = le_cst e /\
  forall w r, expr_val e' w r <-> expr_val e (fun x => w (nth x perm 0)) r.
Proof.
  intros n [k [l|ts]] perm W P F; unfold perm_fits in F; unfold linexpr_permute_dimensions; cbn [le_terms le_cst] in *.
  - destruct (permute_dense_ok n perm l P F) as (l' & -> & L & V). eexists. split; [reflexivity|]. simpl. split; auto. split; auto. intros w r. destruct W as [_ WF]. pose proof P as (P1 & P2 & P3).
    apply (expr_val_reindex n n); simpl; auto.
    + split; auto. lia.
    + split. lia. apply Forall_forall. intros c C. apply In_nth_error in C. destruct C as (y & Y). assert (YL : y < n) by (rewrite <- L; apply nth_error_Some; congruence). destruct (perm_surj n perm P y YL) as (x & X & <-). rewrite V in Y by auto. apply nth_error_In in Y. rewrite Forall_forall in WF; auto.
    + intros x X r0. unfold lin_coeff. simpl. rewrite V by auto. tauto.
    + intros y Y H. exfalso. destruct (perm_surj n perm P y Y) as (x & X & E). apply (H x); auto.
  - destruct W as (_ & ND & LT). eexists. split; [reflexivity|]. simpl. pose proof P as (P1 & P2 & P3).
    assert (ND2 : NoDup (term_dims (map (permute_term perm) ts))).
    { rewrite permute_dims. clear - ND LT P3. induction (term_dims ts) as [|d ds IH]; simpl; constructor; inversion ND; subst. intro H. apply in_map_iff in H. destruct H as (x & E & H). apply P3 in E. subst; auto. apply LT; simpl; auto. apply LT; simpl; auto. apply IH; auto. intros; apply LT; simpl; auto. }
    split. destruct (sort_enc _ ND2) as (l & h & E & S). exists l, h. auto. split; auto. intros w r. unfold expr_val. cbn [le_terms le_cst].
    assert (PP := sort_perm (map (permute_term perm) ts)).
    split; intros (c0 & r1 & A1 & A2 & ->); exists c0, r1; (split; [auto|split; auto]).
    + apply terms_val_permute. eapply terms_val_perm; [apply Permutation_sym; exact PP|auto].
    + eapply terms_val_perm; [exact PP|]. apply terms_val_permute. auto.
Qed.

(** Linear expressions: values in terms of one coefficient per dimension. *)
From Coq Require Import Arith Lia List ZArith QArith Qreals Reals Lra Bool.
From Verif Require Import Bound BoundFacts Linexpr.
Import ListNotations.
Open Scope nat_scope.

(** sum of c_j v_j for j < n *)
Fixpoint lsum (n : nat) (c v : nat -> R) : R :=
  match n with O => 0%R | S n => (lsum n c v + c n * v n)%R end.

(** the coefficient of dimension [j], if there is one *)
Fixpoint sp_coeff (ts : list (option nat * coeff)) (j : nat) : option coeff :=
  match ts with
  | [] => None
  | (Some d, k) :: ts => if Nat.eqb d j then Some k else sp_coeff ts j
  | (None, _) :: ts => sp_coeff ts j
  end.
Definition lin_coeff (e : linexpr) (j : nat) : option coeff :=
  match le_terms e with
  | Dense l => nth_error l j
  | Sparse ts => sp_coeff ts j
  end.
Definition ocoeff_in (r : R) (k : option coeff) : Prop :=
  match k with Some k => coeff_in r k | None => r = 0%R end.
Definition lin_val (n : nat) (e : linexpr) (v : nat -> R) (r : R) : Prop :=
  exists c0 c, coeff_in c0 (le_cst e) /\ (forall j, j < n -> ocoeff_in (c j) (lin_coeff e j)) /\ r = (c0 + lsum n c v)%R.

Lemma lsum_ext : forall n c c' v v', (forall j, j < n -> (c j * v j = c' j * v' j)%R) -> lsum n c v = lsum n c' v'.
Proof. induction n; intros c c' v v' H; simpl; auto. rewrite (IHn c c' v v'), H by auto. auto. Qed.
Lemma lsum_zero : forall n c v, (forall j, j < n -> (c j * v j = 0)%R) -> lsum n c v = 0%R.
Proof. induction n; intros c v H; simpl; auto. rewrite IHn, H by auto. lra. Qed.
Lemma lsum_one : forall n c v d, d < n -> (forall j, j < n -> j <> d -> (c j * v j = 0)%R) -> lsum n c v = (c d * v d)%R.
Proof.
  induction n; intros c v d Hd H; [lia|]. simpl. destruct (Nat.eq_dec d n) as [->|D].
  - rewrite lsum_zero; [lra|]. intros j Hj. apply H; lia.
  - rewrite (IHn c v d) by (try lia; intros; apply H; lia). rewrite (H n) by lia. lra.
Qed.
Lemma lsum_two : forall n c v i j, i < n -> j < n -> i <> j -> (forall k, k < n -> k <> i -> k <> j -> (c k * v k = 0)%R) ->
  lsum n c v = (c i * v i + c j * v j)%R.
Proof.
  induction n; intros c v i j Hi Hj D H; [lia|]. simpl. destruct (Nat.eq_dec i n) as [->|Di]; [|destruct (Nat.eq_dec j n) as [->|Dj]].
  - rewrite (lsum_one n c v j); [lra|lia|]. intros k Hk Dk. apply H; lia.
  - rewrite (lsum_one n c v i); [lra|lia|]. intros k Hk Dk. apply H; lia.
  - rewrite (IHn c v i j); try lia; [|intros; apply H; lia]. rewrite (H n) by lia. lra.
Qed.
Lemma lsum_add : forall n c c' v, lsum n (fun j => c j + c' j)%R v = (lsum n c v + lsum n c' v)%R.
Proof. induction n; intros; simpl; [lra|]. rewrite IHn. ring. Qed.
Lemma lsum_scale : forall n k c v, lsum n (fun j => k * c j)%R v = (k * lsum n c v)%R.
Proof. induction n; intros; simpl; [lra|]. rewrite IHn. ring. Qed.
Lemma lsum_opp : forall n c v, lsum n (fun j => - c j)%R v = (- lsum n c v)%R.
Proof. induction n; intros; simpl; [lra|]. rewrite IHn. ring. Qed.
Lemma lsum_more : forall n m c v, n <= m -> (forall j, n <= j < m -> (c j * v j = 0)%R) -> lsum m c v = lsum n c v.
Proof.
  intros n m c v L H. induction L; auto. simpl. rewrite IHL by (intros; apply H; lia). rewrite H by lia. lra.
Qed.
(** take out one term *)
Lemma lsum_out : forall n c v d, d < n -> lsum n c v = (c d * v d + lsum n (fun j => if Nat.eqb j d then 0 else c j)%R v)%R.
Proof.
  induction n; intros c v d Hd; [lia|]. simpl. destruct (Nat.eqb_spec n d) as [->|D].
  - rewrite (lsum_ext d (fun j => if Nat.eqb j d then 0%R else c j) c v v); [lra|].
    intros j Hj. destruct (Nat.eqb_spec j d); [lia|auto].
  - rewrite (IHn c v d) by lia. lra.
Qed.

(** dense *)
Lemma sum_dense_lsum : forall cs o n v, o + length cs <= n ->
  sum_dense o cs v = lsum n (fun j => if Nat.ltb j o then 0%R else nth (j - o) cs 0%R) v.
Proof.
  induction cs; intros o n v H; simpl in *.
  - symmetry. apply lsum_zero. intros j _. destruct (Nat.ltb j o); [lra|]. destruct (j - o); lra.
  - rewrite (lsum_out n (fun j => if Nat.ltb j o then _ else _) v o) by lia. rewrite (IHcs (S o) n) by lia.
    destruct (Nat.ltb_spec o o); [lia|]. replace (o - o) with 0 by lia. f_equal.
    apply lsum_ext. intros j Hj. f_equal. destruct (Nat.eqb_spec j o) as [->|D].
    + destruct (Nat.ltb_spec o (S o)); [auto|lia].
    + destruct (Nat.ltb_spec j (S o)), (Nat.ltb_spec j o); auto; try lia.
      replace (j - o) with (S (j - S o)) by lia. auto.
Qed.
(** sparse *)
Fixpoint sp_val (ts : list (option nat * coeff)) (cs : list R) (j : nat) : R :=
  match ts, cs with
  | (Some d, _) :: ts, c :: cs => if Nat.eqb d j then c else sp_val ts cs j
  | (None, _) :: ts, _ :: cs => sp_val ts cs j
  | _, _ => 0%R
  end.
Lemma sp_val_out : forall ts cs j, ~ In j (term_dims ts) -> sp_val ts cs j = 0%R.
Proof.
  induction ts as [|[[d|] k] ts IH]; intros cs j H; simpl in *; auto; destruct cs; auto.
  destruct (Nat.eqb_spec d j); auto. tauto.
Qed.
Lemma sum_sparse_lsum : forall ts cs n v, NoDup (term_dims ts) -> (forall d, In d (term_dims ts) -> d < n) ->
  sum_sparse ts cs v = lsum n (sp_val ts cs) v.
Proof.
  induction ts as [|[[d|] k] ts IH]; intros cs n v ND B; simpl in *.
  - symmetry. apply lsum_zero. intros. destruct cs; lra.
  - inversion ND; subst. destruct cs as [|c cs]; [symmetry; apply lsum_zero; intros; simpl; lra|].
    rewrite (lsum_out n _ v d) by auto. rewrite (IH cs n v) by auto. simpl. rewrite Nat.eqb_refl. f_equal.
    apply lsum_ext. intros j _. f_equal. rewrite (Nat.eqb_sym d j). destruct (Nat.eqb_spec j d) as [->|]; auto.
    apply sp_val_out; auto.
  - destruct cs as [|c cs]; [symmetry; apply lsum_zero; intros; simpl; lra|]. simpl. apply IH; auto.
Qed.
Lemma sp_coeff_none : forall ts j, ~ In j (term_dims ts) -> sp_coeff ts j = None.
Proof.
  induction ts as [|[[d|] k] ts IH]; intros j H; simpl in *; auto. destruct (Nat.eqb_spec d j); auto. tauto.
Qed.
Lemma sp_coeff_some : forall ts j, In j (term_dims ts) -> exists k, sp_coeff ts j = Some k.
Proof.
  induction ts as [|[[d|] k] ts IH]; intros j H; simpl in *; [tauto| |auto]. destruct (Nat.eqb_spec d j); [eauto|].
  destruct H; [tauto|auto].
Qed.
Lemma sp_forth : forall ts cs, Forall2 (fun c t => fst t <> None -> coeff_in c (snd t)) cs ts ->
  forall j, ocoeff_in (sp_val ts cs j) (sp_coeff ts j).
Proof.
  intros ts cs F. induction F as [|c [[d|] k] cs ts H F IH]; intros j; simpl; auto.
  destruct (Nat.eqb_spec d j); simpl; auto. apply H. discriminate.
Qed.
Lemma sp_back : forall ts c, NoDup (term_dims ts) -> (forall j, In j (term_dims ts) -> ocoeff_in (c j) (sp_coeff ts j)) ->
  exists cs, Forall2 (fun c t => fst t <> None -> coeff_in c (snd t)) cs ts /\ forall j, In j (term_dims ts) -> sp_val ts cs j = c j.
Proof.
  induction ts as [|[[d|] k] ts IH]; intros c ND H; simpl in *.
  - exists []. split; [constructor|tauto].
  - inversion ND; subst. destruct (IH c) as [cs [F E0]]; auto.
    { intros j I0. specialize (H j (or_intror I0)). destruct (Nat.eqb_spec d j); auto. subst. tauto. }
    exists (c d :: cs). split.
    + constructor; auto. simpl. intros _. specialize (H d (or_introl eq_refl)). rewrite Nat.eqb_refl in H. auto.
    + intros j I0. destruct (Nat.eqb_spec d j) as [->|D]; auto. apply E0. destruct I0; [tauto|auto].
  - destruct (IH c) as [cs [F E0]]; auto. exists (0%R :: cs). split; [constructor; auto; simpl; tauto|auto].
Qed.

Lemma expr_val_lin : forall n e v r, wf_terms n (le_terms e) -> (expr_val e v r <-> lin_val n e v r).
Proof.
  intros n e v r W. unfold expr_val, lin_val, lin_coeff. destruct (le_terms e) as [l|ts]; simpl in W.
  - destruct W as [W _]. split.
    + intros (c0 & r1 & H0 & (cs & F & ->) & ->). exists c0, (fun j => nth j cs 0%R). split; auto.
      assert (L : length cs = length l) by (clear - F; induction F; simpl; auto). split.
      * intros j _. clear - F. revert j. induction F; intros [|j]; simpl; auto.
      * rewrite (sum_dense_lsum cs 0 n) by (simpl; lia). f_equal. apply lsum_ext. intros j _. f_equal.
        destruct (Nat.ltb_spec j 0); [lia|]. rewrite Nat.sub_0_r. auto.
    + intros (c0 & c & H0 & H & ->). exists c0, (lsum n c v). split; auto. split; auto.
      exists (map c (seq 0 (length l))). split.
      * assert (G : forall o, (forall j, j < length l -> coeff_in (c (o + j)) (nth j l (Scal PInf))) -> Forall2 coeff_in (map c (seq o (length l))) l).
        { clear. induction l; intros o G; simpl; constructor.
          - specialize (G 0 ltac:(simpl; lia)). rewrite Nat.add_0_r in G. auto.
          - apply IHl. intros j Hj. specialize (G (S j) ltac:(simpl; lia)). simpl in G. rewrite Nat.add_succ_r in G. auto. }
        apply (G 0). intros j Hj. simpl. specialize (H j ltac:(lia)). destruct (nth_error l j) eqn:E0.
        -- erewrite nth_error_nth; eauto.
        -- apply nth_error_None in E0. lia.
      * rewrite (sum_dense_lsum _ 0 n) by (rewrite map_length, seq_length; simpl; lia). apply lsum_ext. intros j Hj.
        destruct (Nat.ltb_spec j 0); [lia|]. rewrite Nat.sub_0_r. f_equal.
        destruct (le_lt_dec (length l) j).
        -- rewrite nth_overflow by (rewrite map_length, seq_length; auto). specialize (H j Hj).
           assert (E0 : nth_error l j = None) by (apply nth_error_None; auto). rewrite E0 in H. auto.
        -- rewrite (nth_indep _ 0%R (c 0)) by (rewrite map_length, seq_length; auto). rewrite map_nth, seq_nth; auto.
  - destruct W as (_ & ND & B). split.
    + intros (c0 & r1 & H0 & (cs & F & ->) & ->). exists c0, (sp_val ts cs). split; auto. split.
      * intros j _. apply sp_forth; auto.
      * f_equal. apply sum_sparse_lsum; auto.
    + intros (c0 & c & H0 & H & ->). exists c0, (lsum n c v). split; auto. split; auto.
      destruct (sp_back ts c ND) as [cs [F E0]]; [intros; apply H; auto|].
      exists cs. split; auto. rewrite (sum_sparse_lsum ts cs n v) by auto. apply lsum_ext. intros j Hj. f_equal.
      destruct (in_dec Nat.eq_dec j (term_dims ts)) as [I0|I0].
      * symmetry; auto.
      * rewrite sp_val_out by auto. specialize (H j Hj). rewrite sp_coeff_none in H by auto. auto.
Qed.
Lemma wf_lin_coeff : forall n e j k, wf_terms n (le_terms e) -> lin_coeff e j = Some k -> wf_coeff k /\ j < n.
Proof.
  intros n e j k W H. unfold lin_coeff in H. destruct (le_terms e) as [l|ts]; simpl in W.
  - destruct W as [L F]. split; [rewrite Forall_forall in F; apply F; eapply nth_error_In; eauto|].
    assert (j < length l) by (apply nth_error_Some; congruence). lia.
  - destruct W as (F & ND & B).
    assert (I0 : In j (term_dims ts)).
    { destruct (in_dec Nat.eq_dec j (term_dims ts)); auto. rewrite sp_coeff_none in H by auto. discriminate. }
    split; auto. clear ND B. induction F as [|[[d|] k'] ts H0 F IH]; simpl in *; [tauto| |auto].
    destruct (Nat.eqb_spec d j).
    + inversion H; subst. apply H0. discriminate.
    + apply IH; auto. destruct I0; tauto.
Qed.

(** Box domain: adding, removing, permuting, forgetting, duplicating, folding dimensions. *)
From Coq Require Import Arith ZArith QArith Qround Qreals Reals Lra Lia Bool List Sorted.
From Verif Require Import Bound BoundFacts Util Itv ItvFacts ItvFacts2 ItvHistory Linexpr ItvLin OctResize2 OctResize3 Box BoxizeFacts BoxFacts.
Import ListNotations.
Open Scope nat_scope.
#[local] Arguments Nat.leb : simpl never.
#[local] Arguments Nat.ltb : simpl never.
#[local] Arguments Nat.eqb : simpl never.

Lemma eset_same : forall {A : Type} (e : nat -> A) d i, eset e d i d = i.
Proof. intros. unfold eset. rewrite Nat.eqb_refl. auto. Qed.
Lemma eset_other : forall {A : Type} (e : nat -> A) d i j, j <> d -> eset e d i j = e j.
Proof. intros. unfold eset. destruct (Nat.eqb_spec j d); congruence. Qed.

(** ** addition *)
Lemma add_while_spec : forall {A : Type} pos (fresh : A) i k res, let '(res', k') := add_while pos fresh i k res in
  k' <= k /\ (forall t, k' <= t < k -> nth t pos 0 = i /\ res' (i + t) = fresh) /\ (k' = 0 \/ nth (k' - 1) pos 0 <> i) /\
  (forall c, c < i + k' \/ i + k <= c -> res' c = res c).
Proof.
  intros A pos fresh i. induction k as [|k IH]; intros res; simpl.
  - split; [lia|]. split; [intros; lia|]. split; auto.
  - destruct (Nat.eqb_spec (nth k pos 0) i) as [E0|E0].
    + specialize (IH (eset res (i + k) fresh)). destruct (add_while pos fresh i k _) as [res' k']. destruct IH as (A0 & B & C & D).
      split; [lia|]. split; [|split; auto].
      * intros t T. destruct (Nat.eq_dec t k); [|apply B; lia]. subst t. split; auto. rewrite D by lia. apply eset_same.
      * intros c Hc. rewrite D by lia. apply eset_other. lia.
    + split; [lia|]. split; [intros; lia|]. split; auto. right. replace (S k - 1) with k by lia. auto.
Qed.
Lemma cle_char : forall pos x k, StronglySorted le pos -> k <= length pos -> (forall t, t < k -> nth t pos 0 <= x) ->
  (forall t, k <= t < length pos -> x < nth t pos 0) -> cle pos x = k.
Proof.
  intros pos x k S L A B. assert (C1 : k <= cle pos x).
  { destruct k; [lia|]. pose proof (cle_hi pos x k S ltac:(lia) (A k ltac:(lia))). lia. }
  assert (C2 : cle pos x <= k). { destruct (Nat.eq_dec k (length pos)). subst. apply cle_le. apply cle_lo; auto; try lia. apply B; lia. }
  lia.
Qed.
Lemma add_step : forall {A : Type} inplace (src : nat -> A) pos fresh size i k res, StronglySorted le pos ->
  k <= length pos -> (forall t, t < k -> nth t pos 0 <= i) -> (forall t, k <= t < length pos -> i < nth t pos 0) -> i <= size ->
  (forall x, i < x < size -> res (x + cle pos x) = src x) -> (forall t, k <= t < length pos -> res (t + nth t pos 0) = fresh) ->
  ((inplace : bool) = true -> forall c, c <= i -> res c = src c) ->
  let '(res', k') := add_while pos fresh i k (if i <? size then eset res (i + k) ((if inplace then res else src) i) else res) in
  k' <= length pos /\ (forall t, t < k' -> nth t pos 0 < i) /\ (forall t, k' <= t < length pos -> i <= nth t pos 0) /\
  (forall x, i <= x < size -> res' (x + cle pos x) = src x) /\ (forall t, k' <= t < length pos -> res' (t + nth t pos 0) = fresh) /\
  (inplace = true -> forall c, c < i -> res' c = src c).
Proof.
  intros A inplace src pos fresh size i k res SO KL K1 K2 IS HA HB HC. set (r1 := if i <? size then _ else res).
  assert (CI : cle pos i = k) by (apply cle_char; auto).
  assert (CX : forall x, i <= x -> k <= cle pos x). { intros x X. destruct k; [lia|]. pose proof (cle_hi pos x k SO ltac:(lia)). specialize (K1 k ltac:(lia)). lia. }
  assert (R1 : (forall x, i <= x < size -> r1 (x + cle pos x) = src x) /\ (forall t, k <= t < length pos -> r1 (t + nth t pos 0) = fresh) /\ (inplace = true -> forall c, c < i -> r1 c = src c)).
  { unfold r1. destruct (Nat.ltb_spec i size) as [L|L].
    - split; [|split].
      + intros x X. destruct (Nat.eq_dec x i) as [->|NX]. rewrite CI, eset_same. destruct inplace; auto.
        rewrite eset_other; [apply HA; lia|]. specialize (CX x ltac:(lia)). lia.
      + intros t T. rewrite eset_other; auto. specialize (K2 t T). lia.
      + intros EI c Hc. rewrite eset_other by lia. apply HC; auto. lia.
    - split; [|split]; auto. intros; lia. intros; apply HC; auto; lia. }
  clearbody r1. pose proof (add_while_spec pos fresh i k r1) as W. destruct (add_while pos fresh i k r1) as [res' k']. destruct W as (W1 & W2 & W3 & W4).
  destruct R1 as (RA & RB & RC). split; [lia|]. split; [|split; [|split; [|split]]].
  - intros t T. destruct W3 as [W3|W3]; [lia|]. pose proof (K1 (k' - 1) ltac:(lia)). pose proof (sorted_nth pos t (k' - 1) SO ltac:(lia) ltac:(lia)). lia.
  - intros t T. destruct (Nat.lt_ge_cases t k). destruct (W2 t ltac:(lia)) as [E0 E1]. lia. specialize (K2 t ltac:(lia)). lia.
  - intros x X. rewrite W4; [apply RA; lia|]. right. specialize (CX x ltac:(lia)). lia.
  - intros t T. destruct (Nat.lt_ge_cases t k). destruct (W2 t ltac:(lia)) as [E0 E1]. rewrite E0, Nat.add_comm. auto.
    rewrite W4; [apply RB; lia|]. right. specialize (K2 t ltac:(lia)). lia.
  - intros EI c Hc. rewrite W4 by (left; lia). apply RC; auto.
Qed.
Lemma add_loop_spec : forall {A : Type} inplace (src : nat -> A) pos fresh size, StronglySorted le pos -> forall i k res,
  k <= length pos -> (forall t, t < k -> nth t pos 0 <= i) -> (forall t, k <= t < length pos -> i < nth t pos 0) -> i <= size ->
  (forall x, i < x < size -> res (x + cle pos x) = src x) -> (forall t, k <= t < length pos -> res (t + nth t pos 0) = fresh) ->
  (inplace = true -> forall c, c <= i -> res c = src c) ->
  let res' := add_loop inplace src pos fresh size i k res in
  (forall x, x < size -> res' (x + cle pos x) = src x) /\ (forall t, t < length pos -> res' (t + nth t pos 0) = fresh).
Proof.
  intros A inplace src pos fresh size SO. induction i as [|i IH]; intros k res KL K1 K2 IS HA HB HC; cbn [add_loop];
    pose proof (add_step inplace src pos fresh size _ k res SO KL K1 K2 IS HA HB HC) as ST; cbv zeta;
    destruct (add_while _ _ _ _ _) as [res' k']; destruct ST as (S1 & S2 & S3 & S4 & S5 & S6).
  - assert (k' = 0) by (destruct k'; auto; specialize (S2 0 ltac:(lia)); lia). subst k'. split; intros; [apply S4|apply S5]; lia.
  - apply IH; [lia| | |lia| |exact S5|].
    + intros t T. specialize (S2 t T). lia.
    + intros t T. specialize (S3 t T). lia.
    + intros x X. apply S4; lia.
    + intros EI c Hc. apply S6; auto. lia.
Qed.
Lemma split_index : forall pos y, StronglySorted le pos -> exists k, k <= length pos /\ (forall t, t < k -> t + nth t pos 0 < y) /\ (forall t, k <= t < length pos -> y <= t + nth t pos 0).
Proof.
  intros pos y S. assert (G : forall m, m <= length pos -> exists k, k <= m /\ (forall t, t < k -> t + nth t pos 0 < y) /\ (forall t, k <= t < m -> y <= t + nth t pos 0)).
  { induction m; intros L. exists 0. split; auto. split; intros; lia. destruct (IHm ltac:(lia)) as (k & A & B & C).
    destruct (Nat.lt_ge_cases (m + nth m pos 0) y).
    - exists (Datatypes.S m). split; auto. split; [|intros; lia]. intros t T. pose proof (sorted_nth pos t m S ltac:(lia) ltac:(lia)). lia.
    - exists k. split; auto. split; auto. intros t T. destruct (Nat.eq_dec t m); subst; auto. apply C; lia. }
  apply G; auto.
Qed.
Lemma add_cover : forall pos size y, StronglySorted le pos -> (forall p, In p pos -> p <= size) -> y < size + length pos ->
  (exists x, x < size /\ y = x + cle pos x) \/ exists t, t < length pos /\ y = t + nth t pos 0.
Proof.
  intros pos size y S PB Y. destruct (split_index pos y S) as (k & A & B & C).
  destruct (Nat.eq_dec k (length pos)) as [EK|NK].
  - left. assert (k <= y). { destruct k; [lia|]. specialize (B k ltac:(lia)). lia. } exists (y - k). split; [lia|]. rewrite (cle_char pos (y - k) k); auto; try lia.
    intros t T. pose proof (B (k - 1) ltac:(lia)). pose proof (sorted_nth pos t (k - 1) S ltac:(lia) ltac:(lia)). lia.
  - destruct (Nat.eq_dec (k + nth k pos 0) y) as [EY|NY]. right. exists k. split; [lia|auto].
    pose proof (C k ltac:(lia)). destruct (Nat.lt_ge_cases y k). exfalso. destruct k; [lia|]. specialize (B k ltac:(lia)). lia.
    assert (cle pos (y - k) = k).
    { apply cle_char; auto.
      - intros t T. pose proof (B (k - 1) ltac:(lia)). pose proof (sorted_nth pos t (k - 1) S ltac:(lia) ltac:(lia)). lia.
      - intros t T. pose proof (sorted_nth pos k t S ltac:(lia) ltac:(lia)). lia. }
    destruct (Nat.lt_ge_cases (y - k) size). left. exists (y - k). split; auto. lia.
    exfalso. specialize (PB _ (nth_In pos 0 (ltac:(lia) : k < length pos))). lia.
Qed.

Definition box_add_ok (n : nat) (pos : list nat) : Prop := StronglySorted le pos /\ forall p, In p pos -> p <= n.
Lemma box_add_dim : forall inplace a pos ni pr, ni <= length pos -> bx_dim (box_add_dimensions inplace a pos ni pr) = bx_dim a + length pos.
Proof. intros. unfold bx_dim, box_add_dimensions. simpl. lia. Qed.
Lemma box_add_cells : forall inplace a pos ni pr p, bx_p a = Some p -> box_add_ok (bx_dim a) pos ->
  exists r, bx_p (box_add_dimensions inplace a pos ni pr) = Some r /\
    (forall x, x < bx_dim a -> r (x + cle pos x) = p x) /\ (forall t, t < length pos -> r (t + nth t pos 0) = if pr then itv_of_int 0 else itv_top).
Proof.
  intros inplace a pos ni pr p P [S B]. unfold box_add_dimensions. rewrite P. simpl. eexists. split; [reflexivity|].
  apply add_loop_spec; auto; try (intros; lia). intros t T. apply B, nth_In; auto.
Qed.
Lemma in_zero : forall x, in_itv x (itv_of_int 0) <-> x = 0%R.
Proof. intro x. unfold in_itv. simpl. unfold Q2R. simpl. split; [intros [A B]; lra|intros ->; split; lra]. Qed.
Lemma box_add_exact : forall inplace a pos ni pr w, box_add_ok (bx_dim a) pos -> ni <= length pos ->
  (gbox (box_add_dimensions inplace a pos ni pr) w <-> gbox a (fun x => w (x + cle pos x)) /\ (pr = true -> forall t, t < length pos -> w (t + nth t pos 0) = 0%R)
     /\ bx_p a <> None).
Proof.
  intros inplace a pos ni pr w OK NI. unfold gbox at 1. rewrite box_add_dim by auto. unfold gbox. destruct (bx_p a) as [p|] eqn:P.
  - destruct (box_add_cells inplace a pos ni pr p P OK) as (r & R & A & B). rewrite R. destruct OK as [S PB]. split.
    + intro H. split; [|split; [|congruence]].
      * intros x X. rewrite <- A by auto. apply H. pose proof (cle_le pos x). lia.
      * intros -> t T. apply in_zero. rewrite <- (B t T). apply H. specialize (PB _ (nth_In pos 0 T)). lia.
    + intros (H1 & H2 & _) y Y. destruct (add_cover pos (bx_dim a) y S PB Y) as [(x & X & ->)|(t & T & ->)].
      * rewrite A by auto. auto.
      * rewrite B by auto. destruct pr. apply in_zero; auto. apply in_itv_top.
  - unfold box_add_dimensions. rewrite P. simpl. tauto.
Qed.
Lemma itv_top_nonempty : nonempty itv_top. Proof. exists 0%R. apply in_itv_top. Qed.
Lemma zero_nonempty : nonempty (itv_of_int 0). Proof. exists 0%R. apply in_zero; auto. Qed.
Lemma box_add_nebox : forall inplace a pos ni pr, box_add_ok (bx_dim a) pos -> ni <= length pos -> nebox a -> nebox (box_add_dimensions inplace a pos ni pr).
Proof.
  intros inplace a pos ni pr OK NI W. unfold nebox in *. rewrite box_add_dim by auto. destruct (bx_p a) as [p|] eqn:P.
  - destruct (box_add_cells inplace a pos ni pr p P OK) as (r & R & A & B). rewrite R. destruct OK as [S PB]. intros y Y.
    destruct (add_cover pos (bx_dim a) y S PB Y) as [(x & X & ->)|(t & T & ->)]. rewrite A; auto. rewrite B by auto. destruct pr. apply zero_nonempty. apply itv_top_nonempty.
  - unfold box_add_dimensions. rewrite P. simpl. auto.
Qed.

(** ** removal *)
Lemma ssorted_lt : forall pos s t, StronglySorted lt pos -> s <= t -> t < length pos -> nth s pos 0 + (t - s) <= nth t pos 0.
Proof.
  induction pos as [|a pos IH]; intros s t S L Ht; simpl in *; [lia|]. inversion S as [|? ? S' F]; subst. rewrite Forall_forall in F.
  destruct t; [replace s with 0 by lia; simpl; lia|]. destruct s.
  - simpl. specialize (IH 0 t S' ltac:(lia) ltac:(lia)). assert (a < nth 0 pos 0) by (apply F, nth_In; lia). lia.
  - simpl. specialize (IH s t S' ltac:(lia) ltac:(lia)). lia.
Qed.
Lemma rem_while_spec : forall pos i, StronglySorted lt pos -> forall todo k, k <= length pos -> length pos <= k + todo ->
  (forall t, t < k -> nth t pos 0 <= i + t) -> (forall t, k <= t < length pos -> i + t <= nth t pos 0) ->
  let k' := rem_while pos i k todo in k <= k' <= length pos /\ (forall t, t < k' -> nth t pos 0 <= i + t) /\ (forall t, k' <= t < length pos -> i + t < nth t pos 0).
Proof.
  intros pos i S. induction todo as [|todo IH]; intros k KL TD K1 K2; simpl.
  - split; [lia|]. split; auto. intros; lia.
  - destruct (Nat.ltb_spec k (length pos)) as [L|L]; simpl.
    + destruct (Nat.eqb_spec (nth k pos 0) (i + k)) as [E0|E0].
      * destruct (IH (Datatypes.S k)) as (A & B & C); try lia.
        -- intros t T. destruct (Nat.eq_dec t k); subst; [lia|]. apply K1; lia.
        -- intros t T. apply K2; lia.
        -- split; [lia|]. auto.
      * split; [lia|]. split; auto. intros t T. pose proof (K2 k ltac:(lia)). pose proof (ssorted_lt pos k t S ltac:(lia) ltac:(lia)). lia.
    + split; [lia|]. split; auto. intros; lia.
Qed.
Lemma clt_char : forall pos x k, StronglySorted lt pos -> k <= length pos -> (forall t, t < k -> nth t pos 0 < x) -> (forall t, k <= t < length pos -> x <= nth t pos 0) -> clt pos x = k.
Proof.
  induction pos as [|a pos IH]; intros x k S L A B; simpl in *. unfold clt; simpl; lia.
  inversion S as [|? ? S' F]; subst. rewrite clt_S. destruct k.
  - pose proof (B 0 ltac:(lia)). simpl in H. destruct (Nat.ltb_spec a x); [lia|]. simpl. apply (IH x 0); [auto|lia|intros t T; lia|]. intros t T. apply (B (Datatypes.S t)); lia.
  - pose proof (A 0 ltac:(lia)). simpl in H. destruct (Nat.ltb_spec a x); [|lia]. rewrite (IH x k); [lia|auto|lia| |].
    intros t T. apply (A (Datatypes.S t)); lia. intros t T. apply (B (Datatypes.S t)); lia.
Qed.
Lemma rem_loop_spec : forall {A : Type} inplace (src : nat -> A) pos n, StronglySorted lt pos -> (forall p, In p pos -> p < n) -> forall todo i k res,
  i + todo = n - length pos -> k <= length pos ->
  (forall t, t < k -> nth t pos 0 < i + t) -> (forall t, k <= t < length pos -> i + t <= nth t pos 0) ->
  (forall y, y < i -> exists x, x < n /\ ~ In x pos /\ x = y + clt pos x /\ res y = src x) -> (inplace = true -> forall c, i <= c -> res c = src c) ->
  let res' := rem_loop inplace src pos todo i k res in
  forall y, y < n - length pos -> exists x, x < n /\ ~ In x pos /\ x = y + clt pos x /\ res' y = src x.
Proof.
  intros A0 inplace src pos n S PB. induction todo as [|todo IH]; intros i k res ID KL K1 K2 HA HC; cbn [rem_loop].
  - intros y Y. apply HA. lia.
  - destruct (rem_while_spec pos i S (length pos) k KL ltac:(lia)) as (A & B & C); auto.
    { intros t T. specialize (K1 t T). lia. }
    cbv zeta. set (k' := rem_while pos i k (length pos)) in *. clearbody k'.
    assert (CL : clt pos (i + k') = k'). { apply clt_char; [auto|lia| |]. intros t T. specialize (B t T). lia. intros t T. specialize (C t T). lia. }
    assert (NI : ~ In (i + k') pos). { intro I. apply In_nth with (d := 0) in I. destruct I as (t & T & E0). destruct (Nat.lt_ge_cases t k'). specialize (B t H). lia. specialize (C t ltac:(lia)). lia. }
    assert (LT : i + k' < n).
    { destruct (Nat.eq_dec k' (length pos)). lia. specialize (C k' ltac:(lia)). specialize (PB _ (nth_In pos 0 (ltac:(lia) : k' < length pos))). lia. }
    apply IH; [lia|lia| | | |].
    + intros t T. specialize (B t T). lia.
    + intros t T. specialize (C t T). lia.
    + intros y Y. destruct (Nat.eq_dec y i) as [->|NY].
      * exists (i + k'). rewrite eset_same, CL. split; auto. split; auto. split; auto. destruct inplace; auto. apply HC; auto. lia.
      * rewrite eset_other by auto. apply HA. lia.
    + intros EI c Hc. rewrite eset_other by lia. apply HC; auto. lia.
Qed.
Definition box_rem_ok (n : nat) (pos : list nat) : Prop := StronglySorted lt pos /\ forall p, In p pos -> p < n.
Lemma rem_len_le : forall n pos, box_rem_ok n pos -> length pos <= n.
Proof.
  intros n pos [S B]. destruct (length pos) eqn:L; [lia|]. pose proof (ssorted_lt pos 0 n0 S ltac:(lia) ltac:(lia)).
  specialize (B _ (nth_In pos 0 (ltac:(lia) : n0 < length pos))). lia.
Qed.
Lemma box_rem_dim : forall inplace a pos ni, ni <= length pos -> ni <= bx_int a -> length pos - ni <= bx_real a -> bx_dim (box_remove_dimensions inplace a pos ni) = bx_dim a - length pos.
Proof. intros. unfold bx_dim, box_remove_dimensions. simpl. lia. Qed.
Lemma rem_back : forall n pos x, box_rem_ok n pos -> x < n -> ~ In x pos -> x - clt pos x < n - length pos /\ clt pos x <= x.
Proof.
  intros n pos x [S B] X NI.
  assert (G : exists k, k <= length pos /\ (forall t, t < k -> nth t pos 0 < x) /\ (forall t, k <= t < length pos -> x < nth t pos 0)).
  { assert (H : forall m, m <= length pos -> exists k, k <= m /\ (forall t, t < k -> nth t pos 0 < x) /\ (forall t, k <= t < m -> x < nth t pos 0)).
    { induction m; intros L. exists 0. split; auto. split; intros; lia. destruct (IHm ltac:(lia)) as (k & A & B0 & C).
      destruct (Nat.lt_total (nth m pos 0) x) as [H|[H|H]].
      - exists (Datatypes.S m). split; auto. split; [|intros; lia]. intros t T. pose proof (ssorted_lt pos t m S ltac:(lia) ltac:(lia)). lia.
      - exfalso. apply NI. rewrite <- H. apply nth_In. lia.
      - exists k. split; auto. split; auto. intros t T. destruct (Nat.eq_dec t m); subst; auto. apply C; lia. }
    apply H; auto. }
  destruct G as (k & A & B0 & C). rewrite (clt_char pos x k); auto; [|intros t T; specialize (C t T); lia].
  assert (KX : k <= x). { destruct k; [lia|]. specialize (B0 k ltac:(lia)). pose proof (ssorted_lt pos 0 k S ltac:(lia) ltac:(lia)). lia. }
  split; auto.
  destruct (Nat.eq_dec k (length pos)); [lia|].
  pose proof (C k ltac:(lia)). pose proof (ssorted_lt pos k (length pos - 1) S ltac:(lia) ltac:(lia)). specialize (B _ (nth_In pos 0 (ltac:(lia) : length pos - 1 < length pos))). lia.
Qed.
Lemma clt_mono_strict : forall pos x y, StronglySorted lt pos -> x < y -> ~ In x pos -> clt pos y + x < clt pos x + y.
Proof.
  induction pos as [|a pos IH]; intros x y S L NI. unfold clt; simpl; lia. inversion S as [|? ? S' F]; subst. rewrite !clt_S. rewrite Forall_forall in F.
  assert (a <> x) by (intros ->; apply NI; simpl; auto). assert (NI' : ~ In x pos) by (intro; apply NI; simpl; auto).
  destruct (Nat.ltb_spec a x), (Nat.ltb_spec a y); try lia; try (specialize (IH x y S' L NI'); lia).
  (* x < a < y *)
  destruct (Nat.eq_dec (Datatypes.S a) y).
  - subst y. rewrite (clt_none pos (Datatypes.S a)); [|apply Forall_forall; intros z Z; specialize (F z Z); lia]. lia.
  - assert (clt pos x = 0). { apply clt_none. apply Forall_forall. intros z Z. specialize (F z Z). lia. }
    assert (NA : ~ In a pos) by (intro I; specialize (F a I); lia). specialize (IH a y S' ltac:(lia) NA).
    assert (clt pos a = 0). { apply clt_none. apply Forall_forall. intros z Z. specialize (F z Z). lia. } lia.
Qed.
Lemma rem_inj' : forall n pos x y, box_rem_ok n pos -> x < n -> y < n -> ~ In x pos -> ~ In y pos -> x - clt pos x = y - clt pos y -> x = y.
Proof.
  intros n pos x y OK X Y NX NY E0. destruct (rem_back n pos x OK X NX) as [_ A]. destruct (rem_back n pos y OK Y NY) as [_ B]. destruct OK as [S _].
  destruct (Nat.lt_total x y) as [H|[H|H]]; auto; exfalso. pose proof (clt_mono_strict pos x y S H NX). lia. pose proof (clt_mono_strict pos y x S H NY). lia.
Qed.
Lemma box_rem_cells : forall inplace a pos ni p, bx_p a = Some p -> box_rem_ok (bx_dim a) pos ->
  exists r, bx_p (box_remove_dimensions inplace a pos ni) = Some r /\
    (forall x, x < bx_dim a -> ~ In x pos -> r (x - clt pos x) = p x) /\
    (forall y, y < bx_dim a - length pos -> exists x, x < bx_dim a /\ ~ In x pos /\ y = x - clt pos x /\ r y = p x).
Proof.
  intros inplace a pos ni p P OK. assert (OK' := OK). destruct OK' as [S B]. unfold box_remove_dimensions. rewrite P. simpl. eexists. split; [reflexivity|].
  assert (G : forall y, y < bx_dim a - length pos -> exists x, x < bx_dim a /\ ~ In x pos /\ x = y + clt pos x /\ rem_loop inplace p pos (bx_dim a - length pos) 0 0 p y = p x).
  { apply rem_loop_spec; auto; try (intros; lia). intros t T. simpl. pose proof (ssorted_lt pos 0 t S ltac:(lia) ltac:(lia)). lia. }
  split.
  - intros x X NI. destruct (rem_back _ pos x OK X NI) as [L L2]. destruct (G _ L) as (x' & X' & NI' & E0 & ->). f_equal.
    apply (rem_inj' (bx_dim a) pos); auto. lia.
  - intros y Y. destruct (G y Y) as (x & X & NI & E0 & E1). exists x. split; auto. split; auto. split; auto. lia.
Qed.
Lemma box_rem_sound : forall inplace a pos ni v w, box_rem_ok (bx_dim a) pos -> ni <= length pos -> ni <= bx_int a -> length pos - ni <= bx_real a ->
  gbox a v -> (forall x, x < bx_dim a -> ~ In x pos -> w (x - clt pos x) = v x) -> gbox (box_remove_dimensions inplace a pos ni) w.
Proof.
  intros inplace a pos ni v w OK N1 N2 N3 G H. unfold gbox in *. rewrite box_rem_dim by auto. destruct (bx_p a) as [p|] eqn:P; [|tauto].
  destruct (box_rem_cells inplace a pos ni p P OK) as (r & R & A & B). rewrite R. intros y Y. destruct (B y Y) as (x & X & NI & -> & ->). rewrite H by auto. auto.
Qed.
Lemma box_rem_exact : forall inplace a pos ni w, box_rem_ok (bx_dim a) pos -> ni <= length pos -> ni <= bx_int a -> length pos - ni <= bx_real a -> nebox a ->
  (gbox (box_remove_dimensions inplace a pos ni) w <-> exists v, gbox a v /\ forall x, x < bx_dim a -> ~ In x pos -> w (x - clt pos x) = v x).
Proof.
  intros inplace a pos ni w OK N1 N2 N3 W. split.
  - intro G. unfold gbox in *. rewrite box_rem_dim in G by auto. unfold nebox in W. destruct (bx_p a) as [p|] eqn:P.
    + destruct (box_rem_cells inplace a pos ni p P OK) as (r & R & A & B). rewrite R in G.
      exists (fun x => if in_dec Nat.eq_dec x pos then pick (p x) else w (x - clt pos x)). split.
      * intros x X. destruct (in_dec Nat.eq_dec x pos). apply pick_in; auto. rewrite <- A by auto. apply G. apply (rem_back (bx_dim a)); auto.
      * intros x X NI. destruct (in_dec Nat.eq_dec x pos); tauto.
    + unfold box_remove_dimensions in G. rewrite P in G. destruct G.
  - intros (v & G & H). apply box_rem_sound with v; auto.
Qed.
Lemma box_rem_nebox : forall inplace a pos ni, box_rem_ok (bx_dim a) pos -> ni <= length pos -> ni <= bx_int a -> length pos - ni <= bx_real a -> nebox a -> nebox (box_remove_dimensions inplace a pos ni).
Proof.
  intros inplace a pos ni OK N1 N2 N3 W. unfold nebox in *. rewrite box_rem_dim by auto. destruct (bx_p a) as [p|] eqn:P.
  - destruct (box_rem_cells inplace a pos ni p P OK) as (r & R & A & B). rewrite R. intros y Y. destruct (B y Y) as (x & X & NI & -> & ->). auto.
  - unfold box_remove_dimensions. rewrite P. simpl. auto.
Qed.

(** ** permutation *)
Lemma perm_fold : forall {A : Type} (p : nat -> A) perm n (inj : forall i j, i < n -> j < n -> nth i perm 0 = nth j perm 0 -> i = j) m r x, m <= n -> x < m ->
  fold_left (fun r i => eset r (nth i perm 0) (p i)) (seq 0 m) r (nth x perm 0) = p x.
Proof.
  intros A p perm n inj. induction m; intros r x M X; [lia|]. rewrite seq_S, fold_left_app. simpl. destruct (Nat.eq_dec x m) as [->|NX].
  - apply eset_same.
  - rewrite eset_other. apply IHm; lia. intro E0. apply inj in E0; lia.
Qed.
Lemma box_permute_exact : forall a perm v w, is_perm (bx_dim a) perm -> (forall x, x < bx_dim a -> w (nth x perm 0) = v x) ->
  (gbox (box_permute_dimensions a perm) w <-> gbox a v).
Proof.
  intros a perm v w PM H. unfold gbox, box_permute_dimensions. destruct (bx_p a) as [p|] eqn:P; [|simpl; rewrite P; tauto]. simpl.
  change (bx_dim (set_p a _)) with (bx_dim a). assert (PM' := PM). destruct PM' as (L & P1 & P2). split.
  - intros G x X. rewrite <- H by auto. rewrite <- (perm_fold p perm (bx_dim a) P2 (bx_dim a) p x) by auto. apply G. auto.
  - intros G y Y. destruct (perm_surj _ _ PM y Y) as (x & X & <-). rewrite (perm_fold p perm (bx_dim a) P2) by auto. rewrite H by auto. auto.
Qed.
Lemma box_permute_nebox : forall a perm, is_perm (bx_dim a) perm -> nebox a -> nebox (box_permute_dimensions a perm).
Proof.
  intros a perm PM W. unfold nebox, box_permute_dimensions in *. destruct (bx_p a) as [p|] eqn:P; [|rewrite P; auto]. simpl.
  change (bx_dim (set_p a _)) with (bx_dim a). intros y Y. destruct (perm_surj _ _ PM y Y) as (x & X & <-). destruct PM as (L & P1 & P2). rewrite (perm_fold p perm (bx_dim a) P2) by auto. auto.
Qed.

(** ** forget *)
Lemma forget_cells : forall (f : itv) tdim p x, fold_left (fun p d => eset p d f) tdim p x = if in_dec Nat.eq_dec x tdim then f else p x.
Proof.
  intros f. induction tdim as [|t ts IH]; intros p x; cbn [fold_left]. destruct (in_dec Nat.eq_dec x []); [destruct i|auto].
  rewrite IH. unfold eset. destruct (in_dec Nat.eq_dec x ts) as [I|I], (in_dec Nat.eq_dec x (t :: ts)) as [J|J]; auto.
  - exfalso. apply J. simpl. auto.
  - destruct J as [J|J]; [|tauto]. subst t. rewrite Nat.eqb_refl. auto.
  - destruct (Nat.eqb_spec x t); auto. subst. exfalso. apply J. simpl. auto.
Qed.
Lemma box_forget_exact : forall a tdim project w, nebox a ->
  (gbox (box_forget_array a tdim project) w <-> exists v, gbox a v /\ forall x, x < bx_dim a -> (~ In x tdim -> w x = v x) /\ (In x tdim -> project = true -> w x = 0%R)).
Proof.
  intros a tdim project w W. unfold gbox, box_forget_array, nebox in *. destruct (bx_p a) as [p|] eqn:P.
  - simpl. change (bx_dim (set_p a _)) with (bx_dim a). split.
    + intro G. exists (fun x => if in_dec Nat.eq_dec x tdim then pick (p x) else w x). split.
      * intros x X. specialize (G x X). rewrite forget_cells in G. destruct (in_dec Nat.eq_dec x tdim); auto. apply pick_in; auto.
      * intros x X. specialize (G x X). rewrite forget_cells in G. destruct (in_dec Nat.eq_dec x tdim); split; try tauto. intros _ ->. apply in_zero; auto.
    + intros (v & G & H) x X. rewrite forget_cells. destruct (H x X) as [H1 H2]. destruct (in_dec Nat.eq_dec x tdim).
      * destruct project. apply in_zero; auto. apply in_itv_top.
      * rewrite H1 by auto. auto.
  - rewrite P. split; [tauto|]. intros (v & G & _). auto.
Qed.
Lemma box_forget_nebox : forall a tdim project, nebox a -> nebox (box_forget_array a tdim project).
Proof.
  intros a tdim project W. unfold nebox, box_forget_array in *. destruct (bx_p a) as [p|] eqn:P; [|rewrite P; auto]. simpl. change (bx_dim (set_p a _)) with (bx_dim a).
  intros x X. rewrite forget_cells. destruct (in_dec Nat.eq_dec x tdim); auto. destruct project. apply zero_nonempty. apply itv_top_nonempty.
Qed.

(** ** expand *)
Lemma cle_repeat : forall n o x, cle (repeat o n) x = if x <? o then 0 else n.
Proof.
  induction n; intros o x; simpl. unfold cle; simpl. destruct (x <? o); auto. rewrite cle_S, IHn. destruct (Nat.leb_spec o x), (Nat.ltb_spec x o); lia.
Qed.
Lemma nth_repeat' : forall n (o t : nat), t < n -> nth t (repeat o n) 0 = o.
Proof. induction n; intros o t T; [lia|]. destruct t; simpl; auto. apply IHn. lia. Qed.
Lemma repeat_ok : forall n o dim, o <= dim -> box_add_ok dim (repeat o n).
Proof.
  intros n o dim L. split. induction n; simpl; constructor; auto. apply Forall_forall. intros x X. apply repeat_spec in X. lia. intros p I. apply repeat_spec in I. lia.
Qed.
Lemma expand_fold : forall d m o (q : nat -> itv) x, (forall k, k < m -> o + k <> d) ->
  fold_left (fun q i => eset q i (q d)) (seq o m) q x = if (o <=? x) && (x <? o + m) then q d else q x.
Proof.
  intros d. induction m; intros o q x H; simpl. destruct (Nat.leb_spec o x), (Nat.ltb_spec x (o + 0)); auto; lia.
  rewrite IHm. 2: { intros k K. specialize (H (Datatypes.S k) ltac:(lia)). lia. }
  pose proof (H 0 ltac:(lia)). rewrite (eset_other q o (q d) d) by lia.
  destruct (Nat.eq_dec x o) as [->|NX]. rewrite eset_same. destruct (Nat.leb_spec o o), (Nat.ltb_spec o (o + Datatypes.S m)); try lia; simpl. destruct (_ && _); auto.
  rewrite eset_other by auto. destruct (Nat.leb_spec (Datatypes.S o) x), (Nat.ltb_spec x (Datatypes.S o + m)), (Nat.leb_spec o x), (Nat.ltb_spec x (o + Datatypes.S m)); auto; simpl; lia.
Qed.
Definition exp_off (a : box) (d : nat) : nat := if d <? bx_int a then bx_int a else bx_dim a.
Definition exp_shift (a : box) (d n x : nat) : nat := if x <? exp_off a d then x else x + n.
Lemma exp_off_ok : forall a d, d < bx_dim a -> d < exp_off a d <= bx_dim a.
Proof. intros a d D. unfold exp_off, bx_dim in *. destruct (Nat.ltb_spec d (bx_int a)); lia. Qed.
Lemma expand_dim : forall inplace a d n, bx_dim (box_expand inplace a d n) = bx_dim a + n.
Proof.
  intros. unfold box_expand. fold (exp_off a d). destruct (bx_p a); [destruct n as [|n]|]; try (unfold bx_dim; simpl; destruct (d <? bx_int a); lia).
  assert (L : (if d <? bx_int a then Datatypes.S n else 0) <= length (repeat (exp_off a d) (Datatypes.S n))) by (rewrite repeat_length; destruct (d <? bx_int a); lia).
  pose proof (box_add_dim inplace a (repeat (exp_off a d) (Datatypes.S n)) (if d <? bx_int a then Datatypes.S n else 0) false L) as D. rewrite repeat_length in D.
  destruct (bx_p (box_add_dimensions _ _ _ _ _)); auto.
Qed.
Lemma expand_cells : forall inplace a d n p, bx_p a = Some p -> d < bx_dim a ->
  exists r, bx_p (box_expand inplace a d n) = Some r /\ (forall x, x < bx_dim a -> r (exp_shift a d n x) = p x) /\ (forall k, k < n -> r (exp_off a d + k) = p d).
Proof.
  intros inplace a d n p P D. pose proof (exp_off_ok a d D) as OF. unfold box_expand. fold (exp_off a d). rewrite P. destruct n as [|n].
  - simpl. eexists. split; [reflexivity|]. split; [|intros; lia]. intros x X. unfold exp_shift. rewrite Nat.add_0_r. destruct (x <? exp_off a d); auto.
  - destruct (box_add_cells inplace a (repeat (exp_off a d) (Datatypes.S n)) (if d <? bx_int a then Datatypes.S n else 0) false p P) as (r & R & A & B).
    { apply repeat_ok. lia. }
    rewrite R. simpl. eexists. split; [reflexivity|].
    assert (SH : forall x, x + cle (repeat (exp_off a d) (Datatypes.S n)) x = exp_shift a d (Datatypes.S n) x). { intros x. rewrite cle_repeat. unfold exp_shift. destruct (x <? exp_off a d); lia. }
    change (eset r (exp_off a d) (r d)) with ((fun q i => eset q i (q d)) r (exp_off a d)).
    change (fold_left (fun q i => eset q i (q d)) (seq (Datatypes.S (exp_off a d)) n) ((fun q i => eset q i (q d)) r (exp_off a d))) with
      (fold_left (fun q i => eset q i (q d)) (seq (exp_off a d) (Datatypes.S n)) r).
    assert (RD : r d = p d). { rewrite <- (A d D), SH. unfold exp_shift. destruct (Nat.ltb_spec d (exp_off a d)); [auto|lia]. }
    split.
    + intros x X. rewrite expand_fold by (intros; lia). rewrite <- (A x X), SH. unfold exp_shift. destruct (Nat.ltb_spec x (exp_off a d)); [destruct (Nat.leb_spec (exp_off a d) x); [lia|auto]|].
      destruct (Nat.ltb_spec (x + Datatypes.S n) (exp_off a d + Datatypes.S n)); [lia|]. rewrite andb_false_r. auto.
    + intros k K. rewrite expand_fold by (intros; lia). rewrite <- RD. destruct (Nat.leb_spec (exp_off a d) (exp_off a d + k)); [|lia]. destruct (Nat.ltb_spec (exp_off a d + k) (exp_off a d + Datatypes.S n)); [auto|lia].
Qed.
Lemma exp_cover : forall a d n y, d < bx_dim a -> y < bx_dim a + n -> (exists x, x < bx_dim a /\ y = exp_shift a d n x) \/ exists k, k < n /\ y = exp_off a d + k.
Proof.
  intros a d n y D Y. pose proof (exp_off_ok a d D). unfold exp_shift. destruct (Nat.lt_ge_cases y (exp_off a d)).
  - left. exists y. split; [lia|]. destruct (Nat.ltb_spec y (exp_off a d)); lia.
  - destruct (Nat.lt_ge_cases y (exp_off a d + n)). right. exists (y - exp_off a d). lia.
    left. exists (y - n). split; [lia|]. destruct (Nat.ltb_spec (y - n) (exp_off a d)); lia.
Qed.
Lemma box_expand_exact : forall inplace a d n w, d < bx_dim a ->
  (gbox (box_expand inplace a d n) w <-> gbox a (fun x => w (exp_shift a d n x)) /\
    forall k, k < n -> gbox a (fun x => if x =? d then w (exp_off a d + k) else w (exp_shift a d n x))).
Proof.
  intros inplace a d n w D. unfold gbox at 1. rewrite expand_dim. unfold gbox. destruct (bx_p a) as [p|] eqn:P.
  - destruct (expand_cells inplace a d n p P D) as (r & R & A & B). rewrite R. pose proof (exp_off_ok a d D). split.
    + intro G. assert (K0 : forall x, x < bx_dim a -> in_itv (w (exp_shift a d n x)) (p x)).
      { intros x X. rewrite <- (A x X). apply G. unfold exp_shift. destruct (x <? exp_off a d); lia. }
      split; auto. intros k K x X. destruct (Nat.eqb_spec x d); auto. subst. rewrite <- (B k K). apply G. lia.
    + intros [H1 H2] y Y. destruct (exp_cover a d n y D Y) as [(x & X & ->)|(k & K & ->)].
      * rewrite A; auto.
      * rewrite B by auto. specialize (H2 k K d D). rewrite Nat.eqb_refl in H2. auto.
  - unfold box_expand. rewrite P. simpl. tauto.
Qed.
Lemma box_expand_nebox : forall inplace a d n, d < bx_dim a -> nebox a -> nebox (box_expand inplace a d n).
Proof.
  intros inplace a d n D W. unfold nebox in *. rewrite expand_dim. destruct (bx_p a) as [p|] eqn:P.
  - destruct (expand_cells inplace a d n p P D) as (r & R & A & B). rewrite R. intros y Y. destruct (exp_cover a d n y D Y) as [(x & X & ->)|(k & K & ->)].
    rewrite A; auto. rewrite B; auto.
  - unfold box_expand. rewrite P. simpl. auto.
Qed.

(** ** fold *)
Lemma fold_cells : forall t0 ts (p : nat -> itv) x, ~ In t0 ts ->
  fold_left (fun q t => eset q t0 (itv_join (q t0) (q t))) ts p x = if x =? t0 then fold_left itv_join (map p ts) (p t0) else p x.
Proof.
  intros t0. induction ts as [|t ts IH]; intros p x NI; cbn [fold_left map]. destruct (Nat.eqb_spec x t0); subst; auto.
  rewrite IH by (intro; apply NI; simpl; auto). rewrite eset_same.
  replace (map (eset p t0 (itv_join (p t0) (p t))) ts) with (map p ts).
  - destruct (Nat.eqb_spec x t0); auto. apply eset_other; auto.
  - apply map_ext_in. intros y Y. symmetry. apply eset_other. intros ->. apply NI; simpl; auto.
Qed.
Lemma joins_sound : forall l i x, (in_itv x i \/ Exists (in_itv x) l) -> in_itv x (fold_left itv_join l i).
Proof.
  induction l as [|j l IH]; intros i x H; simpl. destruct H as [H|H]; auto. inversion H. apply IH. destruct H as [H|H]. left. apply itv_join_sound; auto.
  inversion H; subst; auto. left. apply itv_join_sound; auto.
Qed.
Lemma joins_least : forall l i c, nonempty i -> Forall nonempty l -> itv_subset i c -> Forall (fun j => itv_subset j c) l -> itv_subset (fold_left itv_join l i) c.
Proof.
  induction l as [|j l IH]; intros i c NI NF SI SF; simpl; auto. inversion NF as [|? ? N1 N2]; subst. inversion SF; subst. destruct NI as [x X], N1 as [y Y]. apply IH; auto.
  exists x. apply itv_join_sound; auto. apply (itv_join_least i j c x y); auto.
Qed.
Definition box_fold_ok (n t0 : nat) (ts : list nat) : Prop := StronglySorted lt (t0 :: ts) /\ forall t, In t (t0 :: ts) -> t < n.
(** all the folded dimensions have the same type *)
Definition fold_types (a : box) (t0 : nat) (ts : list nat) : Prop := t0 < bx_int a -> forall t, In t ts -> t < bx_int a.
Lemma sorted_len : forall ts t0 m, StronglySorted lt (t0 :: ts) -> (forall t, In t ts -> t < m) -> t0 < m -> t0 + length ts < m.
Proof.
  intros ts t0 m S B T. destruct (length ts) eqn:L; [lia|]. pose proof (ssorted_lt (t0 :: ts) 0 (Datatypes.S n) S ltac:(lia) ltac:(simpl; lia)). simpl in H.
  specialize (B _ (nth_In ts 0 (ltac:(lia) : n < length ts))). lia.
Qed.
Lemma fold_counts : forall a t0 ts, box_fold_ok (bx_dim a) t0 ts -> fold_types a t0 ts ->
  let ni := if t0 <? bx_int a then length ts else 0 in ni <= length ts /\ ni <= bx_int a /\ length ts - ni <= bx_real a.
Proof.
  intros a t0 ts [S B] T. destruct (Nat.ltb_spec t0 (bx_int a)).
  - pose proof (sorted_len ts t0 (bx_int a) S (T H) H). simpl. lia.
  - pose proof (sorted_len ts t0 (bx_dim a) S ltac:(intros; apply B; simpl; auto) (B _ (or_introl eq_refl))). unfold bx_dim in *. simpl. lia.
Qed.
Lemma box_fold_dim : forall a t0 ts, box_fold_ok (bx_dim a) t0 ts -> fold_types a t0 ts -> bx_dim (box_fold a t0 ts) = bx_dim a - length ts.
Proof.
  intros a t0 ts OK T. pose proof (fold_counts a t0 ts OK T) as C. cbv zeta in C. unfold box_fold. destruct (bx_p a) as [p|]; [destruct ts as [|t ts]|].
  - simpl. unfold bx_dim in *. simpl in *. destruct (t0 <? bx_int a); lia.
  - rewrite box_rem_dim; auto; apply C.
  - simpl. unfold bx_dim in *. simpl. lia.
Qed.
Lemma box_fold_cells : forall a t0 ts p, bx_p a = Some p -> box_fold_ok (bx_dim a) t0 ts ->
  let q := fun x => if x =? t0 then fold_left itv_join (map p ts) (p t0) else p x in
  exists r, bx_p (box_fold a t0 ts) = Some r /\
    (forall x, x < bx_dim a -> ~ In x ts -> r (x - clt ts x) = q x) /\
    (forall y, y < bx_dim a - length ts -> exists x, x < bx_dim a /\ ~ In x ts /\ y = x - clt ts x /\ r y = q x).
Proof.
  intros a t0 ts p P [S B] q. inversion S as [|? ? S' F]; subst. rewrite Forall_forall in F.
  assert (NT : ~ In t0 ts) by (intro I; specialize (F t0 I); lia).
  assert (RO : box_rem_ok (bx_dim a) ts) by (split; [auto|intros; apply B; simpl; auto]).
  unfold box_fold. rewrite P. destruct ts as [|t ts].
  - simpl. exists p. split; auto. unfold q, clt. simpl. split; intros.
    + rewrite Nat.sub_0_r. destruct (Nat.eqb_spec x t0); subst; auto.
    + exists y. split; [lia|]. split; auto. split; [lia|]. destruct (Nat.eqb_spec y t0); subst; auto.
  - set (T := t :: ts) in *. set (f := fold_left _ T p).
    destruct (box_rem_cells true (set_p a (Some f)) T (if t0 <? bx_int a then length T else 0) f eq_refl RO) as (r & R & A1 & A2).
    exists r. split; auto. assert (FQ : forall x, f x = q x) by (intro x; apply fold_cells; auto). change (bx_dim (set_p a (Some f))) with (bx_dim a) in *. split.
    + intros x X NI. rewrite <- FQ. auto.
    + intros y Y. destruct (A2 y Y) as (x & X & NI & E0 & E1). exists x. rewrite <- FQ. auto.
Qed.
Definition box_folded (n t0 : nat) (ts : list nat) (t : nat) (v w : nat -> R) : Prop :=
  w t0 = v t /\ forall x, x < n -> ~ In x ts -> x <> t0 -> w (x - clt ts x) = v x.
Lemma clt_t0 : forall n t0 ts, box_fold_ok n t0 ts -> clt ts t0 = 0 /\ ~ In t0 ts.
Proof.
  intros n t0 ts [S B]. inversion S as [|? ? S' F]; subst. rewrite Forall_forall in F. split. apply clt_none. apply Forall_forall. intros x X. specialize (F x X). lia.
  intro I. specialize (F t0 I). lia.
Qed.
Lemma box_fold_sound : forall a t0 ts t v w, box_fold_ok (bx_dim a) t0 ts -> fold_types a t0 ts -> In t (t0 :: ts) -> gbox a v ->
  box_folded (bx_dim a) t0 ts t v w -> gbox (box_fold a t0 ts) w.
Proof.
  intros a t0 ts t v w OK T I G [F0 F]. destruct (clt_t0 _ _ _ OK) as [C0 NT]. unfold gbox in *. rewrite box_fold_dim by auto. destruct (bx_p a) as [p|] eqn:P; [|tauto].
  destruct (box_fold_cells a t0 ts p P OK) as (r & R & A & B). rewrite R. intros y Y. destruct (B y Y) as (x & X & NI & -> & ->).
  destruct (Nat.eqb_spec x t0) as [->|NX].
  - rewrite C0, Nat.sub_0_r, F0. apply joins_sound. destruct I as [<-|I]. left. apply G. apply OK. simpl; auto. right. apply Exists_exists. exists (p t). split. apply in_map; auto. apply G. apply OK. simpl; auto.
  - rewrite F by auto. auto.
Qed.
Lemma box_folded_ex : forall n t0 ts t v, box_fold_ok n t0 ts -> exists w, box_folded n t0 ts t v w.
Proof.
  intros n t0 ts t v OK. destruct (clt_t0 _ _ _ OK) as [C0 NT].
  assert (RO : box_rem_ok n ts) by (destruct OK as [S B]; inversion S; split; [auto|intros; apply B; simpl; auto]).
  pose (w' := fun y => if y =? t0 then v t else match find (fun x => negb (if in_dec Nat.eq_dec x ts then true else false) && (x - clt ts x =? y)) (seq 0 n) with Some x => v x | None => 0%R end).
  exists w'. split. unfold w'. rewrite Nat.eqb_refl. auto. intros x X NI NX. unfold w'.
  destruct (Nat.eqb_spec (x - clt ts x) t0) as [E0|_].
  { exfalso. apply NX. apply (rem_inj' n ts); auto. apply OK; simpl; auto. lia. }
  destruct (find _ _) as [x0|] eqn:Fd.
  - apply find_some in Fd. destruct Fd as [I0 Fd]. apply andb_true_iff in Fd. destruct Fd as [F1 F2]. apply Nat.eqb_eq in F2. apply in_seq in I0.
    destruct (in_dec Nat.eq_dec x0 ts); [discriminate|]. f_equal. apply (rem_inj' n ts); auto. lia.
  - exfalso. pose proof (find_none _ _ Fd x ltac:(apply in_seq; lia)) as Z. cbv beta in Z. rewrite Nat.eqb_refl in Z. destruct (in_dec Nat.eq_dec x ts); [tauto|discriminate].
Qed.
Lemma box_fold_best : forall a t0 ts c, box_fold_ok (bx_dim a) t0 ts -> fold_types a t0 ts -> nebox a -> bx_dim c = bx_dim a - length ts ->
  (forall t v w, In t (t0 :: ts) -> gbox a v -> box_folded (bx_dim a) t0 ts t v w -> gbox c w) -> forall w, gbox (box_fold a t0 ts) w -> gbox c w.
Proof.
  intros a t0 ts c OK T W DC H w G. destruct (clt_t0 _ _ _ OK) as [C0 NT]. unfold gbox in G. rewrite box_fold_dim in G by auto.
  destruct (bx_p a) as [p|] eqn:P.
  2: { unfold box_fold in G. rewrite P in G. destruct G. }
  destruct (box_fold_cells a t0 ts p P OK) as (r & R & A & B). rewrite R in G.
  assert (Wp : forall d, d < bx_dim a -> nonempty (p d)) by (unfold nebox in W; rewrite P in W; auto).
  destruct (nebox_point a W) as [X|[v0 G0]]; [congruence|].
  assert (OKB := OK). destruct OKB as [_ TB].
  (* any admissible value of one coordinate is a value of c *)
  assert (CC : exists pc, bx_p c = Some pc). { destruct (box_folded_ex _ t0 ts t0 v0 OK) as [w0 F0]. pose proof (H t0 v0 w0 ltac:(simpl; auto) G0 F0) as K. unfold gbox in K. destruct (bx_p c); [eauto|tauto]. }
  destruct CC as [pc PC].
  assert (CE : forall t x z, In t (t0 :: ts) -> x < bx_dim a -> in_itv z (p x) -> (x = t \/ (~ In x ts /\ x <> t0)) -> in_itv z (pc (if x =? t then t0 else x - clt ts x))).
  { intros t x z I X Z D. assert (K : gbox a (BoxFacts.upd v0 x z)) by (apply (gbox_upd a p); auto).
    destruct (box_folded_ex _ t0 ts t (BoxFacts.upd v0 x z) OK) as [w0 F0]. pose proof (H t _ w0 I K F0) as Gc. unfold gbox in Gc. rewrite PC, DC in Gc. destruct F0 as [F0 F1].
    destruct (Nat.eqb_spec x t) as [->|NX].
    - rewrite upd_same in F0. rewrite <- F0. apply Gc. pose proof (sorted_len ts t0 (bx_dim a) (proj1 OK) ltac:(intros; apply TB; simpl; auto) (TB _ (or_introl eq_refl))). lia.
    - destruct D as [D|[D1 D2]]; [tauto|]. specialize (F1 x X D1 D2). rewrite upd_same in F1. rewrite <- F1. apply Gc.
      apply (rem_back (bx_dim a)); auto. destruct OK as [S _]. inversion S; split; [auto|intros; apply TB; simpl; auto]. }
  unfold gbox. rewrite PC, DC. intros y Y. destruct (B y Y) as (x & X & NI & E0 & E1). specialize (G y Y). rewrite E1 in G. clear E1. rewrite E0 in *. clear E0 y Y.
  destruct (Nat.eqb_spec x t0) as [EX|NX].
  - rewrite EX in *. rewrite C0, Nat.sub_0_r in *.
    assert (SS : itv_subset (fold_left itv_join (map p ts) (p t0)) (pc t0)); [|apply SS; auto].
    assert (S1 : forall t, In t (t0 :: ts) -> itv_subset (p t) (pc t0)). { intros t I z Z. pose proof (CE t t z I (TB t I) Z (or_introl eq_refl)) as K. rewrite Nat.eqb_refl in K. auto. }
    apply joins_least; auto.
    + apply Forall_forall. intros j J. apply in_map_iff in J. destruct J as (t & <- & I). apply Wp, TB. simpl; auto.
    + apply S1. simpl; auto.
    + apply Forall_forall. intros j J. apply in_map_iff in J. destruct J as (t & <- & I). apply S1. simpl; auto.
  - pose proof (CE t0 x (w (x - clt ts x)) (or_introl eq_refl) X G (or_intror (conj NI NX))) as K. destruct (Nat.eqb_spec x t0); [tauto|auto].
Qed.
Lemma box_fold_nebox : forall a t0 ts, box_fold_ok (bx_dim a) t0 ts -> fold_types a t0 ts -> nebox a -> nebox (box_fold a t0 ts).
Proof.
  intros a t0 ts OK T W. unfold nebox in *. rewrite box_fold_dim by auto. destruct (bx_p a) as [p|] eqn:P.
  - destruct (box_fold_cells a t0 ts p P OK) as (r & R & A & B). rewrite R. intros y Y. destruct (B y Y) as (x & X & NI & -> & ->).
    destruct (Nat.eqb_spec x t0); auto. destruct (W t0 (proj2 OK t0 (or_introl eq_refl))) as [z Z]. exists z. apply joins_sound; auto.
  - unfold box_fold. rewrite P. simpl. auto.
Qed.

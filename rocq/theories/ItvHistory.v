(** Assembled statements on intervals. *)
From Coq Require Import ZArith QArith Qround Qreals Reals Lra Lia Psatz Bool List.
From Verif Require Import Bound BoundFacts Itv ItvFacts ItvFacts2 Util.
Import ListNotations.
Open Scope Z_scope.

Lemma itv_arith_sound : forall (N : numtype) (x y : R) (a b : itv),
  in_itv x a -> in_itv y b ->
  in_itv (x + y) (itv_add (N:=N) a b) /\
  in_itv (x - y) (itv_sub (N:=N) a b) /\
  in_itv (- x) (itv_neg a) /\
  in_itv (x * y) (itv_mul (N:=N) a b) /\
  (y <> 0%R -> in_itv (x / y) (itv_div (N:=N) a b)).
Proof.
  intros. split; [|split; [|split; [|split]]]; auto using itv_add_sound, itv_sub_sound,
    itv_neg_sound, itv_mul_sound, itv_div_sound.
Qed.

Lemma itv_scale_sound : forall (N : numtype) (x : R) (a : itv) (q : Q),
  in_itv x a ->
  in_itv (x * Q2R q) (itv_mul_num (N:=N) a q) /\
  (Q2R q <> 0%R -> in_itv (x / Q2R q) (itv_div_num (N:=N) a q)).
Proof.
  intros. split.
  - apply itv_mul_bound_sound; auto.
  - intros. apply itv_div_bound_sound; auto.
Qed.

Lemma itv_arith_best : forall (a b d : itv) (x0 y0 : R),
  in_itv x0 a -> in_itv y0 b ->
  ((forall x y, in_itv x a -> in_itv y b -> in_itv (x + y) d) ->
     itv_subset (itv_add (N:=exact_num) a b) d) /\
  ((forall x y, in_itv x a -> in_itv y b -> in_itv (x - y) d) ->
     itv_subset (itv_sub (N:=exact_num) a b) d) /\
  ((forall x, in_itv x a -> in_itv (- x) d) -> itv_subset (itv_neg a) d) /\
  ((forall x y, in_itv x a -> in_itv y b -> in_itv (x * y) d) ->
     itv_subset (itv_mul (N:=exact_num) a b) d).
Proof.
  intros a b d x0 y0 Hx Hy. split; [|split; [|split]].
  - eapply itv_add_best; eauto.
  - eapply itv_sub_best; eauto.
  - intros H z Hz. apply itv_neg_iff in Hz. rewrite <- (Ropp_involutive z). auto.
  - eapply itv_mul_best; eauto.
Qed.

Lemma itv_unary_sound : forall (N : numtype) (x : R) (a : itv),
  in_itv x a ->
  in_itv (Rabs x) (itv_abs a) /\
  (forall z, is_floor x z -> in_itv (IZR z) (itv_floor a)) /\
  (forall z, is_ceil x z -> in_itv (IZR z) (itv_ceil a)) /\
  (forall z, is_trunc x z -> in_itv (IZR z) (itv_trunc a)) /\
  (forall z, (Rabs (IZR z - x) < 1)%R -> in_itv (IZR z) (itv_to_int a)) /\
  ((0 <= x)%R -> in_itv (sqrt x) (itv_sqrt a)) /\
  (forall y r b, in_itv y b -> y <> 0%R -> is_mod x y r ->
     in_itv r (itv_mod (N:=N) false a b) /\
     (is_integer x -> is_integer y -> in_itv r (itv_mod (N:=N) true a b))).
Proof.
  intros N x a H. split; [|split; [|split; [|split; [|split; [|split]]]]]; intros;
    eauto using itv_abs_sound, itv_floor_sound, itv_ceil_sound, itv_trunc_sound,
      itv_to_int_sound, itv_sqrt_sound.
  split.
  - eapply itv_mod_sound; eauto. discriminate.
  - intros. eapply itv_mod_sound; eauto.
Qed.

Lemma itv_pow_sound_bounded : forall (x : R) (k : nat) (a n : itv),
  in_itv x a -> in_itv (INR k) n ->
  (Nat.odd k = true -> exists l : R, forall z, in_itv z a -> (l <= z)%R) ->
  in_itv (x ^ k) (itv_pow a n).
Proof.
  intros x k a n Hx Hn Hb. apply itv_pow_sound; auto. intros O E.
  destruct (Hb O) as [l Hl]. destruct Hx as [H1 H2].
  assert (in_itv (Rmin x (l - 1)) a) as G.
  { split; [rewrite E; exact I|]. apply le_rb_le with x; auto. apply Rmin_l. }
  apply Hl in G. pose proof (Rmin_r x (l - 1)). lra.
Qed.

Lemma itv_pow_unsound : exists (x : R) (k : nat) (a n : itv),
  in_itv x a /\ in_itv (INR k) n /\ ~ in_itv (x ^ k) (itv_pow a n).
Proof.
  exists (-10)%R, 3%nat, (mkItv PInf (Fin 5)), (itv_of_int 3).
  split; [|split].
  - split; simpl; auto. unfold Q2R; simpl; lra.
  - split; simpl; unfold Q2R; simpl; lra.
  - intros [H _]. vm_compute in H. exact H.
Qed.

(** the code never builds an interval with a bound -oo *)
Definition wf_itv (a : itv) : Prop := inf a <> MInf /\ sup a <> MInf.

Lemma itv_floor2_wf : forall a, wf_itv a -> wf_itv (itv_floor2 a).
Proof.
  intros [[|p|] [|q|]] [H1 H2]; split; simpl in *; congruence.
Qed.

Lemma bfloor_is_int : forall b, match bfloor b with Fin q => exists z, Q2R q = IZR z | _ => True end.
Proof. intros [|q|]; simpl; auto. exists (Qfloor q). apply Q2R_inject. Qed.

Lemma itv_lattice : forall (a b : itv), wf_itv a -> wf_itv b ->
  (itv_is_bottom a = true <-> forall x, ~ in_itv x a) /\
  (forall x0, in_itv x0 a ->
    (itv_is_leq a b = true <-> itv_subset a b) /\
    (itv_is_eq a b = true <-> forall x, in_itv x a <-> in_itv x b)) /\
  (forall x, in_itv x (fst (itv_meet a b)) <-> in_itv x a /\ in_itv x b) /\
  (snd (itv_meet a b) = true <-> forall x, ~ (in_itv x a /\ in_itv x b)) /\
  (forall x, in_itv x a \/ in_itv x b -> in_itv x (itv_join a b)) /\
  (forall x0 y0 d, in_itv x0 a -> in_itv y0 b -> itv_subset a d -> itv_subset b d ->
     itv_subset (itv_join a b) d) /\
  (forall z : Z, in_itv (IZR z) (fst (itv_canonicalize true a)) <-> in_itv (IZR z) a) /\
  (snd (itv_canonicalize true a) = true <-> forall z : Z, ~ in_itv (IZR z) a).
Proof.
  intros a b [Wa1 Wa2] [Wb1 Wb2].
  split; [|split; [|split; [|split; [|split; [|split; [|split]]]]]].
  - apply itv_empty_test_iff; auto.
  - intros x0 Hx. split; split; intros H.
    + apply itv_is_leq_sound; auto.
    + eapply itv_is_leq_complete; eauto.
    + apply itv_is_eq_sound; auto.
    + eapply itv_is_eq_complete; eauto.
  - intros; apply itv_meet_spec.
  - assert (G : snd (itv_meet a b) = itv_empty_test (fst (itv_meet a b))) by reflexivity.
    rewrite G. rewrite itv_empty_test_iff.
    + split; intros H x; specialize (H x); rewrite itv_meet_spec in *; auto.
    + simpl. apply bmin_not_MInf; auto.
    + simpl. apply bmin_not_MInf; auto.
  - intros; apply itv_join_sound; auto.
  - intros; eapply itv_join_least; eauto.
  - intros z. simpl. symmetry. apply itv_floor2_int.
  - assert (W : wf_itv (itv_floor2 a)) by (apply itv_floor2_wf; split; auto).
    simpl. rewrite itv_empty_test_iff by apply W. split.
    + intros H z Hz. apply (H (IZR z)). apply -> itv_floor2_int. auto.
    + intros H x [H1 H2].
      (* pick an integer bound, or any integer *)
      pose proof (bfloor_is_int (inf a)) as I1. pose proof (bfloor_is_int (sup a)) as I2.
      simpl in H1, H2.
      assert (EX : exists z, in_itv (IZR z) (itv_floor2 a)).
      { unfold in_itv; simpl.
        destruct (bfloor (sup a)) as [|q|]; [destruct H2| |].
        - destruct I2 as [z Hz]. exists z. simpl in *. split; [|lra].
          apply le_rb_le with (- x)%R; auto. lra.
        - destruct (bfloor (inf a)) as [|q|]; [destruct H1| |].
          + destruct I1 as [z Hz]. exists (- z)%Z. simpl in *. rewrite opp_IZR. split; auto. lra.
          + exists 0%Z. simpl; auto. }
      destruct EX as [z Hz]. apply (H z). apply itv_floor2_int. auto.
Qed.

Lemma itv_widening_ok : 
  (forall a b x, in_itv x a \/ in_itv x b -> in_itv x (itv_widening a b)) /\
  (forall (h y : nat -> itv), (forall k, h (S k) = itv_widening (h k) (y k)) ->
     forall n, exists s, (length s <= 3)%nat /\
       forall k, (k < n)%nat -> ~ In k s -> forall x, in_itv x (h (S k)) <-> in_itv x (h k)).
Proof.
  split; [intros; apply itv_widening_sound; auto|].
  intros h y Hh n.
  destruct (decr_changes (fun k => itv_weight (h k))
     (fun k => forall x, in_itv x (h (S k)) <-> in_itv x (h k))) with (n := n) as [s [L P]].
  - intros k. rewrite Hh. destruct (itv_widening_weight (h k) (y k)) as [[E|[E1 E2]]|E].
    + left. rewrite E. split; [tauto|lia].
    + left. unfold itv_widening. rewrite E1. split.
      * intros x. split; intro H; exfalso;
          [exact (canonical_bottom_empty _ E2 _ H)|exact (canonical_bottom_empty _ E1 _ H)].
      * unfold itv_weight. rewrite E1, E2. lia.
    + right; auto.
  - exists s. split; auto. pose proof (itv_weight_le (h 0%nat)). lia.
Qed.

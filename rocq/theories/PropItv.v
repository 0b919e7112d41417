(** Properties C01-C06: one-dimensional intervals. *)
From Coq Require Import ZArith QArith Qreals Reals Lra Lia List.
From Verif Require Import Bound BoundFacts Itv ItvFacts ItvFacts2 Util ItvHistory.
Import ListNotations.

(** C01: for every number type rounding up, interval +,-,neg,*,/ contain the
    results of the real operations. *)
Theorem C01_itv_arith_sound : forall (N : numtype) (x y : R) (a b : itv),
  in_itv x a -> in_itv y b ->
  in_itv (x + y) (itv_add (N:=N) a b) /\
  in_itv (x - y) (itv_sub (N:=N) a b) /\
  in_itv (- x) (itv_neg a) /\
  in_itv (x * y) (itv_mul (N:=N) a b) /\
  (y <> 0%R -> in_itv (x / y) (itv_div (N:=N) a b)).
Proof. exact itv_arith_sound. Qed.
Print Assumptions C01_itv_arith_sound.

Example C01_example :
  in_itv (-3) (mkItv PInf (Fin 5)) /\ in_itv 2 (mkItv (Fin 4) (Fin 7)) /\
  itv_mul (N:=exact_num) (mkItv PInf (Fin 5)) (mkItv (Fin 4) (Fin 7)) = itv_top /\
  itv_mul (N:=exact_num) (mkItv (Fin 3) (Fin 5)) (mkItv (Fin 4) (Fin 7)) = mkItv (Fin (3 * 7)) (Fin (5 * 7)).
Proof.
  repeat split; simpl; try (unfold Q2R; simpl; lra).
Qed.

(** C01, scalar multiples and quotients. *)
Theorem C01_itv_scale_sound : forall (N : numtype) (x : R) (a : itv) (q : Q),
  in_itv x a ->
  in_itv (x * Q2R q) (itv_mul_num (N:=N) a q) /\
  (Q2R q <> 0%R -> in_itv (x / Q2R q) (itv_div_num (N:=N) a q)).
Proof. exact itv_scale_sound. Qed.
Print Assumptions C01_itv_scale_sound.

(** C02: with exact numbers +,-,neg,* return the smallest interval. *)
Theorem C02_itv_arith_best : forall (a b d : itv) (x0 y0 : R),
  in_itv x0 a -> in_itv y0 b ->
  ((forall x y, in_itv x a -> in_itv y b -> in_itv (x + y) d) ->
     itv_subset (itv_add (N:=exact_num) a b) d) /\
  ((forall x y, in_itv x a -> in_itv y b -> in_itv (x - y) d) ->
     itv_subset (itv_sub (N:=exact_num) a b) d) /\
  ((forall x, in_itv x a -> in_itv (- x) d) -> itv_subset (itv_neg a) d) /\
  ((forall x y, in_itv x a -> in_itv y b -> in_itv (x * y) d) ->
     itv_subset (itv_mul (N:=exact_num) a b) d).
Proof. exact itv_arith_best. Qed.
Print Assumptions C02_itv_arith_best.

Example C02_example : in_itv 1 (mkItv (Fin 2) PInf) /\ in_itv (-1) (mkItv (Fin 3) (Fin 2)).
Proof. repeat split; simpl; unfold Q2R; simpl; lra. Qed.

(** C03: absolute value, roundings, square root, modulo. *)
Theorem C03_itv_unary_sound : forall (N : numtype) (x : R) (a : itv),
  in_itv x a ->
  in_itv (Rabs x) (itv_abs a) /\
  (forall z, is_floor x z -> in_itv (IZR z) (itv_floor a)) /\
  (forall z, is_ceil x z -> in_itv (IZR z) (itv_ceil a)) /\
  (forall z, is_trunc x z -> in_itv (IZR z) (itv_trunc a)) /\
  (forall z, (Rabs (IZR z - x) < 1)%R -> in_itv (IZR z) (itv_to_int a)) /\
  ((0 <= x)%R -> in_itv (sqrt x) (itv_sqrt a)) /\
  (forall y r b, in_itv y b -> y <> 0%R -> is_mod x y r ->
     in_itv r (itv_mod (N:=N) false a b) /\
     (is_integer x -> is_integer y -> in_itv r (itv_mod (N:=N) true a b))).
Proof. exact itv_unary_sound. Qed.
Print Assumptions C03_itv_unary_sound.

Example C03_example :
  is_trunc (-7 / 2) (-3) /\ is_mod (-7) 2 (-1) /\ in_itv (-7) (mkItv (Fin 7) (Fin 3)).
Proof.
  assert (T : is_trunc (-7 / 2) (-3)).
  { split; intro H; unfold is_floor, is_ceil; simpl; lra. }
  repeat split; try exact (proj1 T); try exact (proj2 T); simpl; try (unfold Q2R; simpl; lra).
  exists (-3)%Z. split; auto. simpl. lra.
Qed.

(** C04 holds when the exponent is even or the base bounded below; missing:
    odd exponent with a base unbounded below, see [C04_itv_pow_refuted]. *)
Theorem C04_itv_pow_sound_partial : forall (x : R) (k : nat) (a n : itv),
  in_itv x a -> in_itv (INR k) n ->
  (Nat.odd k = true -> exists l : R, forall z, in_itv z a -> (l <= z)%R) ->
  in_itv (x ^ k) (itv_pow a n).
Proof. exact itv_pow_sound_bounded. Qed.
Print Assumptions C04_itv_pow_sound_partial.

Example C04_example : in_itv (-2) (mkItv (Fin 3) PInf) /\ in_itv (INR 3) (itv_of_int 3).
Proof. repeat split; simpl; unfold Q2R; simpl; lra. Qed.

(** C04 is false in general: ]-oo,5]^3 does not contain (-10)^3. *)
Theorem C04_itv_pow_refuted : exists (x : R) (k : nat) (a n : itv),
  in_itv x a /\ in_itv (INR k) n /\ ~ in_itv (x ^ k) (itv_pow a n).
Proof. exact itv_pow_unsound. Qed.
Print Assumptions C04_itv_pow_refuted.

(** C05: inclusion, equality, meet, join, emptiness, integer tightening.
    Bounds are never -oo ([wf_itv]), as for every interval the code builds. *)
Theorem C05_itv_lattice : forall (a b : itv), wf_itv a -> wf_itv b ->
  (itv_is_bottom a = true <-> forall x, ~ in_itv x a) /\
  (forall x0, in_itv x0 a ->
    (itv_is_leq a b = true <-> itv_subset a b) /\
    (itv_is_eq a b = true <-> forall x, in_itv x a <-> in_itv x b)) /\
  (forall x, in_itv x (fst (itv_meet a b)) <-> in_itv x a /\ in_itv x b) /\
  (snd (itv_meet a b) = true <-> forall x, ~ (in_itv x a /\ in_itv x b)) /\
  (forall x, in_itv x a \/ in_itv x b -> in_itv x (itv_join a b)) /\
  (forall x0 y0 d, in_itv x0 a -> in_itv y0 b -> itv_subset a d -> itv_subset b d ->
     itv_subset (itv_join a b) d) /\
  (forall z : Z, in_itv (IZR z) (fst (itv_canonicalize true a)) <-> in_itv (IZR z) a) /\
  (snd (itv_canonicalize true a) = true <-> forall z : Z, ~ in_itv (IZR z) a).
Proof. exact itv_lattice. Qed.
Print Assumptions C05_itv_lattice.

Example C05_example : wf_itv (mkItv (Fin (-(1#2))) (Fin (2#3))) /\
  snd (itv_canonicalize true (mkItv (Fin (-(1#2))) (Fin (2#3)))) = true /\
  in_itv (1/2) (mkItv (Fin (-(1#2))) (Fin (2#3))).
Proof. repeat split; simpl; try discriminate; try (unfold Q2R; simpl; lra). Qed.

(** C06: widening covers both arguments, and in any history at most three
    steps change the set (empty -> something, and one per bound). *)
Theorem C06_itv_widening : 
  (forall a b x, in_itv x a \/ in_itv x b -> in_itv x (itv_widening a b)) /\
  (forall (h y : nat -> itv), (forall k, h (S k) = itv_widening (h k) (y k)) ->
     forall n, exists s, (length s <= 3)%nat /\
       forall k, (k < n)%nat -> ~ In k s -> forall x, in_itv x (h (S k)) <-> in_itv x (h k)).
Proof. exact itv_widening_ok. Qed.
Print Assumptions C06_itv_widening.

Example C06_example :
  itv_widening (mkItv (Fin 0) (Fin 1)) (mkItv (Fin 0) (Fin 2)) = mkItv (Fin 0) PInf.
Proof. reflexivity. Qed.

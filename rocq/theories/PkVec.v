(** Vectors of the polyhedra library: /repo/newpolka/pk_vector.c.

    A vector is an array of integers (numint_t = mpz in the MPQ instance of the library).  Its
    coefficient 0 is not part of the vector for the computations: it is the status (0 for an
    equality or a line, 1 for an inequality or a ray), and, during the conversion, a scalar product.

    Simplification: the integers are unbounded; the exception raised when [pk->max_coeff_size] is
    not zero and a coefficient has more bits is not modelled ([max_coeff_size] is 0 by default). *)
From Coq Require Import ZArith Bool List Lia Reals.
Import ListNotations.
From Verif Require Import PkCone.
Open Scope Z_scope.

Definition pvec : Type := list Z.
Definition zn (j : nat) (q : pvec) : Z := nth j q 0.

(** vector_min_notzero, pk_vector.c 112-144: index and value of the first minimal coefficient which is
    not zero, (0,0) when all are zero *)
Fixpoint min_notzero (v : list Z) (i idx : nat) (min : Z) : nat * Z :=
  match v with
  | [] => (idx, min)
  | x :: q => if (x =? 0) then min_notzero q (S i) idx min
              else if (min =? 0) || (x <? min) then min_notzero q (S i) i x
              else min_notzero q (S i) idx min
  end.
(** the for loop of vector_gcd, 161-165 *)
Fixpoint mod_others (v : list Z) (i idx : nat) (g : Z) : list Z :=
  match v with [] => [] | x :: q => (if Nat.eqb i idx then x else x mod g) :: mod_others q (S i) idx g end.
Fixpoint others_zero (v : list Z) (i idx : nat) : bool :=
  match v with [] => true | x :: q => (Nat.eqb i idx || (x =? 0)) && others_zero q (S i) idx end.
(** vector_gcd, 149-168; the fuel is enough when it is at least the sum of the coefficients *)
Fixpoint gcd_loop (fuel : nat) (v : list Z) : Z :=
  match fuel with
  | O => 0
  | S fuel => let (idx, g) := min_notzero v 0 0 0 in
              if g =? 0 then g else
              let v' := mod_others v 0 idx g in if others_zero v' 0 idx then g else gcd_loop fuel v'
  end.
Definition zsum (v : list Z) : Z := fold_right Z.add 0 v.
Definition vector_gcd (q : list Z) : Z := let v := map Z.abs q in gcd_loop (S (Z.to_nat (zsum v))) v.

(** vector_normalize, 180-198 *)
Definition vector_normalize (q : pvec) : pvec :=
  match q with
  | [] => []
  | s :: t => let g := vector_gcd t in if g >? 1 then s :: map (fun x => x / g) t else q
  end.
(** vector_combine, 373-404; [s] is the coefficient 0 of the destination *)
Definition combine_raw (q1 q2 : pvec) (s : Z) (k : nat) : pvec :=
  let g := Z.gcd (zn k q1) (zn k q2) in
  map (fun j => if Nat.eqb j k then 0 else if Nat.eqb j 0 then s else (zn k q2 / g) * zn j q1 - (zn k q1 / g) * zn j q2) (seq 0 (length q1)).
Definition vector_combine (q1 q2 : pvec) (s : Z) (k : nat) : pvec := vector_normalize (combine_raw q1 q2 s k).
(** vector_product, 418-429 *)
Fixpoint prod_t (a b : list Z) : Z := match a, b with x :: a, y :: b => x * y + prod_t a b | _, _ => 0 end.
Definition vector_product (q1 q2 : pvec) : Z := prod_t (tl q1) (tl q2).
(** the loop which negates all the coefficients from [from] on *)
Definition vector_neg_from (from : nat) (q : pvec) : pvec := map (fun j => if Nat.leb from j then - zn j q else zn j q) (seq 0 (length q)).

(** * Facts *)
Lemma gcd_min : forall v i idx min, (forall x, In x v -> 0 <= x) -> 0 <= min -> (forall idx' m', min_notzero v i idx min = (idx', m') ->
  0 <= m' /\ ((m' = min /\ idx' = idx) \/ (0 < m' /\ (i <= idx')%nat /\ nth (idx' - i) v 0 = m' /\ (idx' - i < length v)%nat)) /\ (0 < min -> m' <= min) /\ (forall x, In x v -> 0 < x -> 0 < m' <= x) /\ (0 < min -> 0 < m')).
Proof.
  induction v as [|x q IH]; intros i idx min P M idx' m' E; simpl in E.
  - injection E as <- <-. split; auto. split; auto. split; [lia|]. split; [intros x []|auto].
  - assert (PX : 0 <= x) by (apply P; left; auto). assert (PQ : forall y, In y q -> 0 <= y) by (intros; apply P; right; auto). destruct (Z.eqb_spec x 0) as [X|X].
    + destruct (IH (S i) idx min PQ M idx' m' E) as (A & B & C & D & G). split; auto. split. { destruct B as [B|(B1 & B2 & B3 & B4)]; auto. right. split; auto. split; [lia|]. replace (idx' - i)%nat with (S (idx' - S i)) by lia. split; auto. simpl. lia. } split; auto. split; auto. intros y [<-|Y] Py; [lia|auto].
    + destruct ((min =? 0) || (x <? min)) eqn:T.
      * destruct (IH (S i) i x PQ PX idx' m' E) as (A & B & C & D & G). split; auto. split. { right. destruct B as [[B1 B2]|(B1 & B2 & B3 & B4)]. subst. split; [lia|]. split; [lia|]. rewrite Nat.sub_diag. simpl. split; auto. lia. split; auto. split; [lia|]. replace (idx' - i)%nat with (S (idx' - S i)) by lia. split; auto. simpl. lia. }
        apply orb_prop in T. split. intros Mp. destruct T as [T|T]; [apply Z.eqb_eq in T; lia|]. apply Z.ltb_lt in T. specialize (C ltac:(lia)). lia. split. intros y [<-|Y] Py. specialize (C ltac:(lia)). specialize (G ltac:(lia)). lia. apply D; auto. intros; apply G; lia.
      * destruct (IH (S i) idx min PQ M idx' m' E) as (A & B & C & D & G). apply orb_false_elim in T. destruct T as [T1 T2]. apply Z.eqb_neq in T1. apply Z.ltb_ge in T2. split; auto. split. { destruct B as [B|(B1 & B2 & B3 & B4)]; auto. right. split; auto. split; [lia|]. replace (idx' - i)%nat with (S (idx' - S i)) by lia. split; auto. simpl. lia. }
        split; auto. split; auto. intros y [<-|Y] Py. specialize (C ltac:(lia)). specialize (G ltac:(lia)). lia. auto.
Qed.
Definition zgcd (v : list Z) : Z := fold_right Z.gcd 0 v.
Lemma zgcd_nonneg : forall v, 0 <= zgcd v.
Proof. destruct v; simpl. lia. apply Z.gcd_nonneg. Qed.
Lemma zgcd_divide : forall v d, (d | zgcd v) <-> forall x, In x v -> (d | x).
Proof.
  induction v as [|x q IH]; intros d; simpl. split; [intros _ x []|intros; apply Z.divide_0_r]. split.
  - intros H y [<-|Y]. eapply Z.divide_trans; [exact H|apply Z.gcd_divide_l]. apply (proj1 (IH d)); auto. eapply Z.divide_trans; [exact H|apply Z.gcd_divide_r].
  - intros H. apply Z.gcd_greatest. apply H; auto. apply IH. intros; apply H; auto.
Qed.
Lemma mod_others_nth : forall v i idx g j, nth j (mod_others v i idx g) 0 = if Nat.eqb (i + j) idx then nth j v 0 else nth j v 0 mod g.
Proof.
  induction v as [|x q IH]; intros i idx g j; simpl. { destruct j; simpl; destruct (Nat.eqb _ _); auto; destruct g; reflexivity. }
  destruct j; simpl. rewrite Nat.add_0_r. auto. rewrite IH. replace (i + S j)%nat with (S i + j)%nat by lia. auto.
Qed.
Lemma mod_others_length : forall v i idx g, length (mod_others v i idx g) = length v.
Proof. induction v; simpl; auto. Qed.
Lemma mod_others_gcd : forall v idx g, (idx < length v)%nat -> nth idx v 0 = g -> 0 < g -> zgcd (mod_others v 0 idx g) = zgcd v.
Proof.
  intros v idx g L E G. assert (N : forall j, nth j (mod_others v 0 idx g) 0 = if Nat.eqb j idx then nth j v 0 else nth j v 0 mod g) by (intros; rewrite mod_others_nth; auto).
  apply Z.divide_antisym_nonneg; try apply zgcd_nonneg; apply zgcd_divide.
  - assert (D : forall j, (j < length v)%nat -> (zgcd (mod_others v 0 idx g) | nth j (mod_others v 0 idx g) 0)). { intros j J. apply (proj1 (zgcd_divide _ _) (Z.divide_refl _)). apply nth_In. rewrite mod_others_length; auto. }
    intros x X. apply (In_nth _ _ 0) in X. destruct X as (j & J & <-). pose proof (D idx L) as D1. rewrite N, Nat.eqb_refl, E in D1. pose proof (D j J) as D2. rewrite N in D2. destruct (Nat.eqb_spec j idx); auto. rewrite (Z.div_mod (nth j v 0) g) by lia. apply Z.divide_add_r; auto. apply Z.divide_mul_l; auto.
  - assert (D : forall j, (j < length v)%nat -> (zgcd v | nth j v 0)). { intros j J. apply (proj1 (zgcd_divide _ _) (Z.divide_refl _)). apply nth_In. auto. }
    intros x X. apply (In_nth _ _ 0) in X. rewrite mod_others_length in X. destruct X as (j & J & <-). rewrite N. destruct (Nat.eqb_spec j idx); auto. rewrite Z.mod_eq by lia. apply Z.divide_sub_r; auto. apply Z.divide_mul_l. rewrite <- E. auto.
Qed.
Lemma others_zero_nth : forall v i idx, others_zero v i idx = true -> forall j, (i + j)%nat <> idx -> nth j v 0 = 0.
Proof. induction v as [|x q IH]; simpl; intros i idx H j N. destruct j; auto. apply andb_prop in H. destruct H as [H1 H2]. destruct j. apply orb_prop in H1. destruct H1 as [H1|H1]. apply Nat.eqb_eq in H1. lia. apply Z.eqb_eq in H1; auto. apply (IH (S i) idx); auto. lia. Qed.
Lemma others_zero_false : forall v i idx, others_zero v i idx = false -> exists j, (j < length v)%nat /\ (i + j)%nat <> idx /\ nth j v 0 <> 0.
Proof.
  induction v as [|x q IH]; simpl; intros i idx H. discriminate. apply andb_false_iff in H. destruct H as [H|H].
  - apply orb_false_elim in H. destruct H as [H1 H2]. apply Nat.eqb_neq in H1. apply Z.eqb_neq in H2. exists 0%nat. repeat split; try lia; auto.
  - destruct (IH _ _ H) as (j & A & B & C). exists (S j). repeat split; try lia; auto.
Qed.
Lemma zsum_nonneg : forall v, (forall x, In x v -> 0 <= x) -> 0 <= zsum v /\ forall x, In x v -> x <= zsum v.
Proof. unfold zsum. induction v as [|y q IH]; simpl; intros P. split; [lia|intros x []]. destruct IH as [A B]. intros; apply P; auto. pose proof (P y (or_introl eq_refl)). split; [lia|]. intros x [<-|X]; [lia|]. specialize (B x X). lia. Qed.
Lemma mod_others_sum : forall v i idx g, (forall x, In x v -> 0 <= x) -> 0 < g -> zsum (mod_others v i idx g) <= zsum v.
Proof. unfold zsum. induction v as [|y q IH]; simpl; intros i idx g P G. lia. specialize (IH (S i) idx g (fun x X => P x (or_intror X)) G). pose proof (P y (or_introl eq_refl)). pose proof (Z.mod_le y g ltac:(lia) G). destruct (Nat.eqb i idx); lia. Qed.
Lemma gcd_loop_spec : forall fuel v g, (forall x, In x v -> 0 <= x) -> min_notzero v 0 0 0 = (fst (min_notzero v 0 0 0), g) -> g < Z.of_nat fuel -> gcd_loop fuel v = zgcd v.
Proof.
  induction fuel; intros v g P E F.
  - destruct (gcd_min v 0 0 0 P ltac:(lia) _ _ E) as (A & _). lia.
  - simpl. rewrite E. destruct (min_notzero v 0 0 0) as [idx g'] eqn:EM. simpl in E. injection E as ->. destruct (gcd_min v 0 0 0 P ltac:(lia) _ _ EM) as (A & B & C & D & _). simpl.
    destruct (Z.eqb_spec g 0) as [G|G].
    + symmetry. subst g. assert (Z0 : forall x, In x v -> x = 0). { intros x X. pose proof (P x X). destruct (Z.eq_dec x 0); auto. specialize (D x X ltac:(lia)). lia. } clear - Z0. induction v as [|x q IH]; simpl; auto. rewrite IH by (intros; apply Z0; right; auto). rewrite (Z0 x) by (left; auto). auto.
    + destruct B as [[B _]|(B1 & _ & B3 & B4)]; [lia|]. rewrite Nat.sub_0_r in *. rewrite <- (mod_others_gcd v idx g B4 B3 B1). set (v' := mod_others v 0 idx g) in *.
      assert (N : forall j, nth j v' 0 = if Nat.eqb j idx then nth j v 0 else nth j v 0 mod g) by (intros; unfold v'; rewrite mod_others_nth; auto).
      assert (LV : length v' = length v) by apply mod_others_length.
      assert (P' : forall x, In x v' -> 0 <= x). { intros x X. apply (In_nth _ _ 0) in X. destruct X as (j & J & <-). rewrite N. destruct (Nat.eqb j idx). apply P. apply nth_In. lia. apply Z.mod_pos_bound; auto. }
      destruct (others_zero v' 0 idx) eqn:OZ.
      * apply Z.divide_antisym_nonneg; [lia|apply zgcd_nonneg| |]. apply zgcd_divide. intros x X. apply (In_nth _ _ 0) in X. destruct X as (j & J & <-). destruct (Nat.eq_dec j idx) as [->|NE]. rewrite N, Nat.eqb_refl, B3. apply Z.divide_refl. rewrite (others_zero_nth _ _ _ OZ j) by auto. apply Z.divide_0_r.
        apply (proj1 (zgcd_divide v' _) (Z.divide_refl _)). replace g with (nth idx v' 0). apply nth_In. lia. rewrite N, Nat.eqb_refl; auto.
      * destruct (others_zero_false _ _ _ OZ) as (j & J & NE & NZ). simpl in NE. pose proof (N j) as Nj. destruct (Nat.eqb_spec j idx); [tauto|]. pose proof (Z.mod_pos_bound (nth j v 0) g B1) as MB.
        destruct (min_notzero v' 0 0 0) as [idx' g'] eqn:EM'. destruct (gcd_min v' 0 0 0 P' ltac:(lia) _ _ EM') as (A' & B' & C' & D' & _). specialize (D' (nth j v' 0) (nth_In _ _ J) ltac:(rewrite Nj in *; lia)). apply (IHfuel v' g'); auto. rewrite EM'. auto. rewrite Nj in D'. lia.
Qed.
(** the loop computes the gcd *)
Theorem vector_gcd_spec : forall q, vector_gcd q = zgcd q.
Proof.
  intros q. unfold vector_gcd. assert (P : forall x, In x (map Z.abs q) -> 0 <= x) by (intros x X; apply in_map_iff in X; destruct X as (y & <- & _); lia).
  destruct (min_notzero (map Z.abs q) 0 0 0) as [idx g] eqn:E. rewrite (gcd_loop_spec _ _ g); auto.
  - clear. induction q as [|x q IH]; simpl; auto. rewrite IH. apply Z.gcd_abs_l.
  - rewrite E. auto.
  - destruct (zsum_nonneg _ P) as [A B]. destruct (gcd_min _ 0 0 0 P ltac:(lia) _ _ E) as (A' & [[-> _]|(_ & _ & B3 & B4)] & _). lia. rewrite Nat.sub_0_r in *. specialize (B g). rewrite <- B3 in B at 1. specialize (B (nth_In _ _ B4)). lia.
Qed.
Lemma div_cancel : forall g a b, 0 < g -> (g | a) -> (g | b) -> a / g = b / g -> a = b.
Proof. intros g a b G [x ->] [y ->] E. rewrite !Z.div_mul in E by lia. subst. auto. Qed.
(** normalization: the vector divided by a positive number *)
Lemma normalize_spec : forall s t, exists g, 0 < g /\ exists t', vector_normalize (s :: t) = s :: t' /\ length t' = length t /\ forall j, nth j t 0 = g * nth j t' 0.
Proof.
  intros s t. unfold vector_normalize. rewrite vector_gcd_spec. destruct (Z.gtb_spec (zgcd t) 1) as [G|G].
  - exists (zgcd t). split; [lia|]. eexists. split; [reflexivity|]. split. apply map_length. intros j. destruct (Nat.lt_ge_cases j (length t)) as [J|J].
    + replace (nth j (map (fun x => x / zgcd t) t) 0) with (nth j t 0 / zgcd t) by (symmetry; rewrite (nth_indep _ 0 (0 / zgcd t)) by (rewrite map_length; auto); apply (map_nth (fun x => x / zgcd t))). assert (D : (zgcd t | nth j t 0)). { apply (proj1 (zgcd_divide t _) (Z.divide_refl _)). apply nth_In; auto. } destruct D as [k ->]. rewrite Z.div_mul by lia. lia.
    + rewrite !nth_overflow; auto. lia. rewrite map_length; auto.
  - exists 1. split; [lia|]. exists t. split; auto. split; auto. intros; lia.
Qed.
(** real value of the coefficients after the status *)
Definition rv (t : list Z) : vec := fun i => IZR (nth i t 0).
Definition tv (q : pvec) : list Z := tl q.
Lemma prod_dt : forall a b, length a = length b -> IZR (prod_t a b) = dt (length a) (rv a) (rv b).
Proof.
  assert (G : forall a b, length a = length b -> forall x y, dt (S (length a)) (rv (x :: a)) (rv (y :: b)) = (IZR x * IZR y + dt (length a) (rv a) (rv b))%R).
  { intros a b L x y. assert (K : forall n, dt (S n) (rv (x :: a)) (rv (y :: b)) = (IZR x * IZR y + dt n (rv a) (rv b))%R). { induction n. unfold dt, rv. simpl. ring. unfold dt in *. cbn [sm] in *. rewrite IHn. unfold rv. cbn [nth]. ring. } apply K. }
  induction a as [|x a IH]; intros [|y b] L; simpl in L; try discriminate. reflexivity. cbn [length prod_t]. rewrite G by lia. rewrite plus_IZR, mult_IZR, IH by lia. auto.
Qed.
Lemma zn_tl : forall j q, zn (S j) q = nth j (tl q) 0.
Proof. intros j [|x q]; unfold zn; simpl; auto. destruct j; auto. Qed.
Lemma combine_spec : forall n q1 q2 s k, length q1 = S n -> length q2 = S n -> (zn k q1 <> 0 \/ zn k q2 <> 0) ->
  length (vector_combine q1 q2 s k) = S n /\ zn 0 (vector_combine q1 q2 s k) = (if Nat.eqb k 0 then 0 else s) /\
  exists h, (0 < h)%R /\ veq n (rv (tl (vector_combine q1 q2 s k))) (lin2 (h * IZR (zn k q2)) (rv (tl q1)) (- (h * IZR (zn k q1))) (rv (tl q2))).
Proof.
  intros n q1 q2 s k L1 L2 NZ. unfold vector_combine, combine_raw. rewrite L1. set (g := Z.gcd (zn k q1) (zn k q2)). cbn [seq map]. set (s' := if Nat.eqb 0 k then 0 else _). set (t := map _ (seq 1 n)).
  destruct (normalize_spec s' t) as (e & E & t' & -> & LT & H). assert (LN : length t = n) by (unfold t; rewrite map_length, seq_length; auto). split. simpl. lia. split. { unfold zn at 1, s'. simpl. rewrite Nat.eqb_sym. auto. }
  assert (G : 0 < g). { unfold g. pose proof (Z.gcd_nonneg (zn k q1) (zn k q2)). destruct (Z.eq_dec (Z.gcd (zn k q1) (zn k q2)) 0) as [Z0|Z0]; [|lia]. apply Z.gcd_eq_0 in Z0. lia. }
  destruct (Z.gcd_divide_l (zn k q1) (zn k q2)) as [b Hb]. destruct (Z.gcd_divide_r (zn k q1) (zn k q2)) as [a Ha]. fold g in Ha, Hb.
  exists (/ (IZR g * IZR e))%R. assert (Pg : (0 < IZR g)%R) by (apply IZR_lt; auto). assert (Pe : (0 < IZR e)%R) by (apply IZR_lt; auto). split. apply Rinv_0_lt_compat. apply Rmult_lt_0_compat; auto.
  intros i Hi. unfold rv, lin2. simpl tl. rewrite <- !zn_tl. assert (X : nth i t 0 = a * zn (S i) q1 - b * zn (S i) q2).
  { unfold t. rewrite (nth_indep _ 0 ((fun j => if Nat.eqb j k then 0 else if Nat.eqb j 0 then s else (zn k q2 / g) * zn j q1 - (zn k q1 / g) * zn j q2) 0%nat)) by (rewrite map_length, seq_length; auto). rewrite (map_nth (fun j => if Nat.eqb j k then 0 else if Nat.eqb j 0 then s else (zn k q2 / g) * zn j q1 - (zn k q1 / g) * zn j q2)). rewrite seq_nth by auto. change (1 + i)%nat with (S i).
    destruct (Nat.eqb_spec (S i) k) as [EK|NK]. rewrite EK. rewrite Ha, Hb. ring. cbn [Nat.eqb]. replace (zn k q2 / g) with a by (rewrite Ha; symmetry; apply Z.div_mul; lia). replace (zn k q1 / g) with b by (rewrite Hb; symmetry; apply Z.div_mul; lia). auto. }
  rewrite H in X. apply (f_equal IZR) in X. rewrite minus_IZR, !mult_IZR in X. replace (IZR (nth i t' 0)) with ((IZR a * IZR (zn (S i) q1) - IZR b * IZR (zn (S i) q2)) / IZR e)%R by (rewrite <- X; field; apply Rgt_not_eq; auto).
  apply (f_equal IZR) in Ha. apply (f_equal IZR) in Hb. rewrite mult_IZR in Ha, Hb. rewrite Ha, Hb. field. split; apply Rgt_not_eq; auto.
Qed.
Lemma neg_from_spec : forall n from q, (from <= 1)%nat -> length q = S n -> length (vector_neg_from from q) = S n /\ zn 0 (vector_neg_from from q) = (if Nat.eqb from 0 then - zn 0 q else zn 0 q) /\ veq n (rv (tl (vector_neg_from from q))) (lin2 (-1) (rv (tl q)) 0 (rv (tl q))).
Proof.
  intros n from q F L. unfold vector_neg_from. split. rewrite map_length, seq_length; auto. assert (N : forall j, (j < S n)%nat -> zn j (map (fun j => if Nat.leb from j then - zn j q else zn j q) (seq 0 (length q))) = if Nat.leb from j then - zn j q else zn j q).
  { intros j J. unfold zn at 1. rewrite (nth_indep _ 0 ((fun j => if Nat.leb from j then - zn j q else zn j q) 0%nat)) by (rewrite map_length, seq_length; lia). rewrite (map_nth (fun j => if Nat.leb from j then - zn j q else zn j q)). rewrite seq_nth by lia. auto. }
  split. rewrite N by lia. destruct from as [|[|f]]; auto; lia.
  intros i Hi. unfold rv, lin2. rewrite <- !zn_tl. rewrite N by lia. replace (Nat.leb from (S i)) with true by (symmetry; apply Nat.leb_le; lia). rewrite opp_IZR. ring.
Qed.

(** Two reduced minimal matrices of the same cone, whose rows have no common factor, have the same rows. *)
From Coq Require Import ZArith Bool List Lia Reals Lra Permutation.
Import ListNotations.
From Verif Require Import PkCone PkVec PkCherni PkCherniFacts PkRank PkSimplify PkSimplifyThm PkSimplifyEnd PkSpec PkMinimize PkPoly PkPolyFacts PkPolyLeq PropPkMinimize PkFarkas PkOps PkWiden PkCanon PkCanonFacts PkCanonNrm.
Open Scope nat_scope.

(** ** proportional rows *)
Lemma zgcd_scale : forall a t, (0 <= a)%Z -> zgcd (map (Z.mul a) t) = (a * zgcd t)%Z.
Proof. intros a t A. induction t as [|x t IH]; simpl. lia. rewrite IH, Z.gcd_mul_mono_l, Z.abs_eq; auto. Qed.
Lemma zgcd_zero : forall t, zgcd t = 0%Z -> forall x, In x t -> x = 0%Z.
Proof. intros t H x I. assert (D := proj1 (zgcd_divide t _) (Z.divide_refl _) x I). rewrite H in D. apply Z.divide_0_l in D. auto. Qed.
Lemma prop_int : forall t t' a b, (0 < a)%Z -> (0 < b)%Z -> map (Z.mul a) t = map (Z.mul b) t' -> (zgcd t <= 1)%Z -> (zgcd t' <= 1)%Z -> t = t'.
Proof.
  intros t t' a b A B E G G'. assert (Q : (a * zgcd t = b * zgcd t')%Z) by (rewrite <- !zgcd_scale by lia; rewrite E; auto). assert (N := zgcd_nonneg t). assert (N' := zgcd_nonneg t').
  assert (L : length t = length t') by (assert (X := f_equal (@length Z) E); rewrite !map_length in X; auto).
  assert (H : forall j, (a * nth j t 0 = b * nth j t' 0)%Z). { intros j. assert (X := f_equal (fun l => nth j l 0%Z) E). simpl in X. rewrite <- (Z.mul_0_r a) in X at 1. rewrite map_nth in X. rewrite X. rewrite <- (Z.mul_0_r b) at 1. rewrite map_nth. auto. }
  apply nth_ext with 0%Z 0%Z; auto. intros j J. destruct (Z.eq_dec (zgcd t) 0) as [Z|Z].
  - assert (Z' : zgcd t' = 0%Z) by nia. rewrite (zgcd_zero t Z (nth j t 0%Z)) by (apply nth_In; auto). rewrite (zgcd_zero t' Z' (nth j t' 0%Z)) by (apply nth_In; lia). auto.
  - assert (zgcd t = 1%Z) by lia. assert (zgcd t' = 1%Z) by nia. specialize (H j). nia.
Qed.
Lemma prop_real : forall n t t' k, length t = n -> length t' = n -> (0 < k)%R -> (forall i, i < n -> rv t i = (k * rv t' i)%R) -> (zgcd t <= 1)%Z -> (zgcd t' <= 1)%Z -> t = t'.
Proof.
  intros n t t' k L L' K H G G'. destruct (Forall_Exists_dec (fun x => x = 0%Z) (fun x => Z.eq_dec x 0) t') as [F|X].
  - rewrite Forall_forall in F. apply nth_ext with 0%Z 0%Z. congruence. intros j J. rewrite (F (nth j t' 0%Z)) by (apply nth_In; lia). apply eq_IZR. specialize (H j ltac:(lia)). unfold rv, zn in H. rewrite H. rewrite (F (nth j t' 0%Z)) by (apply nth_In; lia). ring.
  - apply Exists_exists in X. destruct X as (x & I & NZ). destruct (In_nth _ _ 0%Z I) as (c & C & E). assert (HC := H c ltac:(lia)). unfold rv, zn in HC. rewrite E in HC. set (y := nth c t 0%Z) in *.
    assert (SG : (0 < x * y)%Z). { apply lt_IZR. rewrite mult_IZR, HC. apply IZR_neq in NZ. assert (0 < IZR x * IZR x)%R by nra. nra. }
    apply prop_int with (Z.abs x) (Z.abs y); auto; try nia.
    assert (EQ : forall j, j < n -> (Z.abs x * nth j t 0 = Z.abs y * nth j t' 0)%Z). { intros j J. assert (HJ := H j J). unfold rv, zn in HJ. assert (Q : (x * nth j t 0 = y * nth j t' 0)%Z) by (apply eq_IZR; rewrite !mult_IZR, HJ, HC; ring). nia. }
    apply nth_ext with 0%Z 0%Z. rewrite !map_length. congruence. intros j J. rewrite map_length in J. rewrite <- (Z.mul_0_r (Z.abs x)) at 1. rewrite map_nth. rewrite <- (Z.mul_0_r (Z.abs y)) at 2. rewrite map_nth. apply EQ. lia.
Qed.
(** ** reduced equations *)
Definition pvat (C : list pvec) (q : pvec) (j : nat) : Prop := 1 <= j /\ (0 < zn j q)%Z /\ (forall col, j < col -> zn col q = 0%Z) /\ forall r, In r C -> r = q \/ zn j r = 0%Z.
Lemma pvat_uniq : forall C q j j', pvat C q j -> pvat C q j' -> j = j'.
Proof. intros C q j j' (A1 & A2 & A3 & A4) (B1 & B2 & B3 & B4). destruct (Nat.lt_trichotomy j j') as [H|[H|H]]; auto. rewrite A3 in B2 by auto; lia. rewrite B3 in A2 by auto; lia. Qed.
Fixpoint es (k : pvec -> R) (E : list pvec) (c : nat) : R := match E with [] => 0%R | q :: E => (k q * IZR (zn (S c) q) + es k E c)%R end.
Lemma es_ext : forall k k' E c, (forall q, In q E -> k q = k' q) -> es k E c = es k' E c.
Proof. intros k k' E c. induction E as [|q E IH]; intros H; simpl; auto. rewrite H by (left; auto). rewrite IH; auto. intros; apply H; right; auto. Qed.
Lemma es_zero : forall k E c, (forall q, In q E -> k q = 0%R \/ zn (S c) q = 0%Z) -> es k E c = 0%R.
Proof. intros k E c. induction E as [|q E IH]; intros H; simpl; auto. rewrite IH by (intros; apply H; right; auto). destruct (H q (or_introl eq_refl)) as [->| ->]; ring. Qed.
Lemma es_at : forall k E c q, NoDup E -> In q E -> (forall r, In r E -> r = q \/ zn (S c) r = 0%Z) -> es k E c = (k q * IZR (zn (S c) q))%R.
Proof.
  intros k E c q ND. induction ND as [|a E NI ND IH]; intros I H. destruct I. simpl. destruct I as [<-|I].
  - rewrite es_zero. ring. intros r Ir. destruct (H r (or_intror Ir)) as [->|X]; auto. contradiction.
  - rewrite IH; auto. destruct (H a (or_introl eq_refl)) as [->|X]. contradiction. rewrite X. ring. intros r Ir. apply H; right; auto.
Qed.
Definition updk (k : pvec -> R) (e : pvec) (m : R) : pvec -> R := fun q => if list_eq_dec Z.eq_dec q e then (k q + m)%R else k q.
Lemma es_upd : forall k e m E c, NoDup E -> In e E -> es (updk k e m) E c = (es k E c + m * IZR (zn (S c) e))%R.
Proof.
  intros k e m E c ND. induction ND as [|a E NI ND IH]; intros I. destruct I. simpl. unfold updk at 1. destruct I as [->|I].
  - destruct (list_eq_dec Z.eq_dec e e) as [_|X]; [|congruence]. rewrite (es_ext (updk k e m) k). ring. intros q J. unfold updk. destruct (list_eq_dec Z.eq_dec q e) as [->|]; auto. contradiction.
  - destruct (list_eq_dec Z.eq_dec a e) as [->|X]. contradiction. rewrite IH by auto. ring.
Qed.
Lemma span_es : forall n E x, NoDup E -> gen n rv (tls E) [] x -> exists k, forall c, c < n -> x c = es k E c.
Proof.
  intros n E x ND G. induction G as [y Z|y l m z K IH I EQ|y r m z K IH I Q EQ].
  - exists (fun _ => 0%R). intros c Hc. rewrite Z by auto. symmetry. apply es_zero. auto.
  - destruct IH as (k & Hk). unfold tls in I. apply in_map_iff in I. destruct I as (e & <- & I). exists (updk k e m). intros c Hc. rewrite EQ by auto. unfold lin2. rewrite (Hk c Hc), es_upd by auto. unfold rv. rewrite <- zn_tl. ring.
  - destruct I.
Qed.
Lemma indep_nodup : forall n E, indep n (tls E) -> NoDup E.
Proof.
  intros n E IN. assert (ND : NoDup (tls E)). { revert IN. generalize (tls E) as l. clear E. induction l as [|a l IH]; intros IN. constructor. constructor.
    - intros I. assert (SZ := steinitz n l (a :: l) IN). simpl in SZ. enough (S (length l) <= length l) by lia. apply SZ. intros b J. assert (Ib : In b l) by (destruct J as [<-|J]; auto). apply gen_ext with (lin2 1 (rv b) 0 (rv b)). apply gen_line; auto. intros i _. unfold lin2. ring.
    - apply IH. intros ks L H. assert (X : Forall (fun k => k = 0%R) (0%R :: ks)). { apply IN. simpl; auto. intros i Hi. simpl. rewrite H by auto. ring. } inversion X; auto. }
  unfold tls in ND. apply NoDup_map_inv in ND. auto.
Qed.
(** a combination of reduced equations which vanishes on the pivot columns is null *)
Lemma span_null : forall n E C x, NoDup E -> incl E C -> (forall q, In q E -> exists j, j <= n /\ pvat C q j) -> gen n rv (tls E) [] x -> (forall q j, In q E -> pvat C q j -> x (j - 1) = 0%R) -> forall c, c < n -> x c = 0%R.
Proof.
  intros n E C x ND IC RD G H c Hc. destruct (span_es n E x ND G) as (k & K). rewrite K by auto. apply es_zero. intros q I. left. destruct (RD q I) as (j & J & P). specialize (H q j I P). assert (J1 := proj1 P). rewrite K in H by lia. rewrite (es_at k E (j - 1) q ND I) in H. 2: { intros r Ir. replace (S (j - 1)) with j by lia. destruct P as (_ & _ & _ & P). apply P. apply IC; auto. }
  apply Rmult_integral in H. destruct H as [H|H]; auto. apply eq_IZR in H. replace (S (j - 1)) with j in H by lia. destruct P as (_ & P & _). lia.
Qed.
(** the last non null column of a combination is a pivot column *)
Lemma span_pivot : forall n E C x j, NoDup E -> incl E C -> (forall q, In q E -> exists j, j <= n /\ pvat C q j) -> gen n rv (tls E) [] x -> j < n -> x j <> 0%R -> (forall c, j < c -> c < n -> x c = 0%R) -> exists q, In q E /\ pvat C q (S j).
Proof.
  intros n E C x j ND IC RD G J X Z. destruct (span_es n E x ND G) as (k & K).
  destruct (Forall_Exists_dec (fun q => k q = 0%R \/ zn (S j) q = 0%Z)) with (l := E) as [F|F].
  - intros q. destruct (Req_EM_T (k q) 0), (Z.eq_dec (zn (S j) q) 0); auto. right. tauto.
  - exfalso. apply X. rewrite K by auto. apply es_zero. apply Forall_forall. auto.
  - apply Exists_exists in F. destruct F as (q & I & N). assert (N1 : k q <> 0%R) by tauto. assert (N2 : zn (S j) q <> 0%Z) by tauto. exists q. split; auto. destruct (RD q I) as (j' & J' & P). assert (P' := P). destruct P' as (P1 & P2 & P3 & P4).
    assert (XJ : x (j' - 1) <> 0%R). { rewrite K by lia. rewrite (es_at k E (j' - 1) q ND I). replace (S (j' - 1)) with j' by lia. apply Rmult_integral_contrapositive. split; auto. apply not_0_IZR. lia. intros r Ir. replace (S (j' - 1)) with j' by lia. apply P4. apply IC; auto. }
    assert (j' <= S j). { destruct (Nat.le_gt_cases j' (S j)) as [|GT]; auto. exfalso. apply XJ. apply Z; lia. } assert (S j <= j'). { destruct (Nat.le_gt_cases (S j) j') as [|GT]; auto. exfalso. apply N2. apply P3; auto. } replace (S j) with j' by lia. auto.
Qed.

(** ** same rows *)
Lemma eq_span : forall n C F a b C2 F2 a2 b2 e, mini n C F a b -> mini n C2 F2 a2 b2 -> (forall x, cone C2 x -> cone C x) -> In e C -> zn 0 e = 0%Z -> exists E2, incl E2 C2 /\ (forall q, In q E2 -> zn 0 q = 0%Z) /\ (forall q, In q C2 -> zn 0 q = 0%Z -> In q E2) /\ NoDup E2 /\ gen n rv (tls E2) [] (rv (tl e)).
Proof.
  intros n C F a b C2 F2 a2 b2 e M M2 H I Z. assert (LC := proj1 (mini_lens _ _ _ _ _ M)). rewrite Forall_forall in LC. assert (M2' := M2). destruct M2' as (E2 & I2 & L2 & R2 & EC2 & EF2 & K3 & K4 & K5 & K6 & K7 & K8 & K9 & K10 & K11). apply Forall_app in K6, K7. destruct K6 as [K6 _], K7 as [K7 _]. rewrite Forall_forall in K6, K7.
  exists E2. split. intros q J. rewrite EC2, in_app_iff; auto. split. intros q J. apply K6; auto. split. { intros q J Zq. rewrite EC2, in_app_iff in J. destruct J as [J|J]; auto. specialize (K7 q J). unfold st in K7. congruence. } split. apply (indep_nodup n); auto.
  apply lin_space with (map kc F2) (tls I2); auto.
  - apply (dual_K n C2 F2 a2 b2 _ M2). intros x X. apply H in X. unfold cone in X. rewrite Forall_forall in X. apply (row_ge n e x (LC e I)). apply X; auto.
  - apply (dual_K n C2 F2 a2 b2 _ M2). intros x X. apply H in X. unfold cone in X. rewrite Forall_forall in X. specialize (X e I). apply (row_dt n e x (LC e I)) in X. rewrite Z in X. simpl in X. rewrite dt_sym, dt_lin, dt_sym, X. lra.
Qed.
Lemma rdc_pv : forall n C, Forall (lenS n) C -> rdc C -> forall q, In q C -> zn 0 q = 0%Z -> exists j, j <= n /\ pvat C q j.
Proof.
  intros n C L R q I Z. destruct (R q I Z) as (j & P). exists j. split; auto. destruct P as (_ & P & _). destruct (Nat.le_gt_cases j n) as [|G]; auto. rewrite Forall_forall in L. specialize (L q I). unfold zn in P. rewrite nth_overflow in P by (unfold lenS in L; lia). lia.
Qed.
Lemma pv_same : forall n C F a b C2 F2 a2 b2, mini n C F a b -> mini n C2 F2 a2 b2 -> rdc C -> rdc C2 -> (forall x, cone C2 x -> cone C x) -> forall q j, In q C -> zn 0 q = 0%Z -> pvat C q j -> exists q2, In q2 C2 /\ zn 0 q2 = 0%Z /\ pvat C2 q2 j.
Proof.
  intros n C F a b C2 F2 a2 b2 M M2 R R2 H q j I Z P. destruct (eq_span n C F a b C2 F2 a2 b2 q M M2 H I Z) as (E2 & H1 & H2 & H3 & ND & G). assert (L := proj1 (mini_lens _ _ _ _ _ M)). assert (L2 := proj1 (mini_lens _ _ _ _ _ M2)).
  destruct (rdc_pv n C L R q I Z) as (j' & J' & P'). assert (j' = j) by (eapply pvat_uniq; eauto). subst j'. destruct P as (P1 & P2 & P3 & P4).
  destruct (span_pivot n E2 C2 (rv (tl q)) (j - 1) ND H1) as (q2 & I2 & Q2); auto.
  - intros e J. apply rdc_pv; auto.
  - lia.
  - unfold rv. rewrite <- zn_tl. replace (S (j - 1)) with j by lia. apply not_0_IZR. lia.
  - intros c C1 C3. unfold rv. rewrite <- zn_tl. rewrite P3 by lia. auto.
  - replace (S (j - 1)) with j in Q2 by lia. exists q2. auto.
Qed.
Theorem same_rows : forall n C F a b C2 F2 a2 b2, mini n C F a b -> mini n C2 F2 a2 b2 -> rdc C -> rdc C2 -> Forall nrm C -> Forall nrm C2 -> (forall x, cone C x <-> cone C2 x) -> incl C C2.
Proof.
  intros n C F a b C2 F2 a2 b2 M M2 R R2 N N2 H q I. assert (L := proj1 (mini_lens _ _ _ _ _ M)). assert (L2 := proj1 (mini_lens _ _ _ _ _ M2)). assert (HR : forall x, cone C2 x -> cone C x) by (intros; apply H; auto). assert (HL : forall x, cone C x -> cone C2 x) by (intros; apply H; auto).
  assert (LL := L). assert (LL2 := L2). rewrite Forall_forall in L, L2, N, N2.
  (* equal rows from proportional ones *)
  assert (FIN : forall q2 k, In q2 C2 -> zn 0 q2 = zn 0 q -> (0 < k)%R -> (forall c, c < n -> rv (tl q) c = (k * rv (tl q2) c)%R) -> In q C2).
  { intros q2 k I2 Z K Q. assert (T : tl q = tl q2). { apply (prop_real n) with k; auto. apply len_tl. apply L; auto. apply len_tl. apply L2; auto. apply N; auto. apply N2; auto. } assert (E : q = q2). { assert (X1 := L q I). assert (X2 := L2 q2 I2). unfold lenS in X1, X2. destruct q as [|s t], q2 as [|s2 t2]; simpl in *; try lia. unfold zn in Z. simpl in Z. congruence. } rewrite E; auto. }
  (* zero on the pivot columns *)
  assert (ZP : forall r j q2, In r C -> In q2 C2 -> zn 0 q2 = 0%Z -> pvat C2 q2 j -> (forall j', zn 0 r = 0%Z -> pvat C r j' -> j' <> j) -> zn j r = 0%Z).
  { intros r j q2 Ir I2 Z2 P2 NE. destruct (pv_same n C2 F2 a2 b2 C F a b M2 M R2 R HL q2 j I2 Z2 P2) as (e & Ie & Ze & Pe). assert (X := Pe). destruct X as (_ & _ & _ & X). destruct (X r Ir) as [->|]; auto. destruct (NE j Ze Pe); auto. }
  destruct (Z.eq_dec (zn 0 q) 0) as [Z|Z].
  - destruct (rdc_pv n C LL R q I Z) as (j & J & P). destruct (pv_same n C F a b C2 F2 a2 b2 M M2 R R2 HR q j I Z P) as (q2 & I2 & Z2 & P2). destruct (eq_span n C F a b C2 F2 a2 b2 q M M2 HR I Z) as (E2 & H1 & H2 & H3 & ND & G).
    assert (PP := proj1 (proj2 P)). assert (PP2 := proj1 (proj2 P2)). assert (J1 := proj1 P). apply FIN with q2 (IZR (zn j q) / IZR (zn j q2))%R; auto. congruence. { apply Rdiv_lt_0_compat; apply IZR_lt; auto. }
    set (w := lin2 1 (rv (tl q)) (- (IZR (zn j q) / IZR (zn j q2))) (rv (tl q2))). assert (W0 : forall c, c < n -> w c = 0%R). { apply (span_null n E2 C2); auto.
        - intros e Ie. apply rdc_pv; auto.
        - apply gen_l with (rv (tl q)) (tl q2) (- (IZR (zn j q) / IZR (zn j q2)))%R; auto. unfold tls. apply (in_map (fun q : pvec => tl q)). apply H3; auto. intros i Hi. reflexivity.
        - intros e j' Ie Pe. assert (J1' := proj1 Pe). unfold w, lin2, rv. rewrite <- !zn_tl. replace (S (j' - 1)) with j' by lia. destruct (Nat.eq_dec j' j) as [->|NE]. field. apply not_0_IZR. lia.
          rewrite (ZP q j' e I (H1 e Ie) (H2 e Ie) Pe). 2: { intros j2 _ Pj. assert (j2 = j) by (eapply pvat_uniq; eauto). congruence. } assert (X := Pe). destruct X as (_ & _ & _ & X). destruct (X q2 I2) as [->|X0]. exfalso. apply NE. eapply pvat_uniq; eauto. rewrite X0. ring. }
    intros c Hc. specialize (W0 c Hc). unfold w, lin2 in W0. lra.
  - assert (MI := M). destruct MI as (E & I1 & L1 & R1 & EC & EF & K3 & K4 & K5 & K6 & K7 & K8 & K9 & K10 & K11). apply Forall_app in K6, K7. destruct K6 as [K6 _], K7 as [K7 _].
    destruct (st_split E I1 K6 K7) as [Q1 Q2]. rewrite <- EC in Q1, Q2. assert (QI : ineqs C = tls I1) by (unfold ineqs, tls; rewrite Q2; reflexivity). rewrite <- QI in K9. assert (Iq : In (tl q) (ineqs C)). { rewrite EC in I. apply in_app_iff in I. rewrite Forall_forall in K6. destruct I as [I|I]. destruct Z; apply K6; auto. rewrite QI. unfold tls. apply (in_map (fun q : pvec => tl q)); auto. }
    destruct (facet_row n C F a b E C2 (tl q) M K9 LL2 H Iq) as (g & f & Ig & Zg & (k & e & K & Ge & V) & _ & _).
    assert (Z1 : zn 0 q = 1%Z). { rewrite EC in I. apply in_app_iff in I. rewrite Forall_forall in K6, K7. destruct I as [I|I]. destruct Z; apply K6; auto. apply K7; auto. }
    assert (Zg1 : zn 0 g = 1%Z). { assert (X := mini_st _ _ _ _ _ M2). rewrite Forall_forall in X. destruct (X g Ig); auto. contradiction. }
    assert (IE : incl E C) by (intros x X; rewrite EC, in_app_iff; auto). rewrite Forall_forall in K6.
    apply FIN with g k; auto. congruence. assert (W0 : forall c, c < n -> e c = 0%R). { apply (span_null n E C); auto.
      - apply (indep_nodup n); auto.
      - intros x X. apply rdc_pv; auto. apply K6; auto.
      - intros x j X P. assert (J1 := proj1 P). destruct (rdc_pv n C LL R x (IE x X) (K6 x X)) as (j2 & J2 & P2). assert (j2 = j) by (eapply pvat_uniq; eauto). subst j2. specialize (V (j - 1) ltac:(lia)). unfold lin2, rv in V. rewrite <- !zn_tl in V. replace (S (j - 1)) with j in V by lia.
        assert (A : zn j q = 0%Z). { destruct P as (_ & _ & _ & P). destruct (P q I) as [->|]; auto. exfalso. apply Z. apply K6; auto. }
        assert (B : zn j g = 0%Z). { destruct (pv_same n C F a b C2 F2 a2 b2 M M2 R R2 HR x j (IE x X) (K6 x X) P) as (x2 & Ix2 & Zx2 & Px2). destruct Px2 as (_ & _ & _ & Px2). destruct (Px2 g Ig) as [->|]; auto. congruence. }
        rewrite A, B in V. lra. }
    intros c Hc. rewrite (V c Hc). unfold lin2. rewrite W0 by auto. ring.
Qed.

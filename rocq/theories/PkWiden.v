(** Widening of polyhedra: a constraint of the second argument which saturates the same generators of the first
    argument as one of its constraints is equivalent to it; the pairs (number of equalities, number of facets)
    decrease. *)
From Coq Require Import ZArith Bool List Lia Reals Lra Permutation Classical.
Import ListNotations.
From Verif Require Import PkCone PkVec PkCherni PkCherniFacts PkSpec PkFarkas PkRank PkMinimize PkSimplifyEnd PkPoly PkPolyFacts PkPolyLeq PkOps PropPkMinimize.
Open Scope R_scope.

Definition same (n : nat) (F : list pvec) (u v : vec) : Prop := forall f, In f F -> (dt n (rv (tl f)) u = 0 <-> dt n (rv (tl f)) v = 0).
Lemma gen_one : forall n (E : list (list Z)) i c, gen n rv E [i] c -> exists k e, 0 <= k /\ gen n rv E [] e /\ veq n c (lin2 1 e k (rv i)).
Proof.
  intros n E i c G. induction G as [x H|x l k y G (k0 & e & K0 & GE & V) IL V2|x r k y G (k0 & e & K0 & GE & V) IR K V2].
  - exists 0, x. split. lra. split. apply gen_0; auto. intros j J. unfold lin2. lra.
  - exists k0, (lin2 1 e k (rv l)). split; auto. split. eapply gen_l; eauto. intros j J; auto. intros j J. rewrite V2 by auto. unfold lin2. rewrite (V j J). unfold lin2. lra.
  - destruct IR as [<-|[]]. exists (k0 + k), e. split. lra. split; auto. intros j J. rewrite V2 by auto. unfold lin2. rewrite (V j J). unfold lin2. lra.
Qed.
Lemma span_sat : forall n F (E I : list (list Z)) e f, ddn n (map kc F) E I -> gen n rv E [] e -> In f F -> dt n (rv (tl f)) e = 0.
Proof.
  intros n F E I e f D G IF. assert (H : holds n (rv (tl f), true) e). { apply (gen_holds n rv _ E []); auto. intros l IL. apply (dd_line _ _ _ _ _ _ (kc f) D IL). apply in_map; auto. intros r []. } exact H.
Qed.
(** a vector of the dual cone which saturates at least what an extreme ray does is a multiple of it *)
Lemma extreme : forall n F (E I : list (list Z)) i c, ddn n (map kc F) E I -> In i I -> inC n (map kc F) c -> (forall f, In f F -> dt n (rv (tl f)) (rv i) = 0 -> dt n (rv (tl f)) c = 0) ->
  exists k e, 0 <= k /\ gen n rv E [] e /\ veq n c (lin2 1 e k (rv i)).
Proof.
  intros n F E I i c D II IC S. apply gen_one. apply (dd_gen _ _ _ _ _ D) in IC. destruct (gen_used n rv _ _ _ IC) as (R' & INC & G & U). apply (gen_mono n rv E R' E [i]); auto. apply incl_refl.
  intros r IR. left. destruct (list_eq_dec Z.eq_dec i r) as [->|NE]; auto. exfalso. destruct (dd_irr _ _ _ _ _ D i r II (INC r IR) NE) as (c0 & IC0 & S1 & S2). apply in_map_iff in IC0. destruct IC0 as (f & <- & IF). unfold sat, kc in S1, S2. simpl in S1, S2.
  destruct (U r IR) as (k & y & K & GY & V). apply S2. specialize (S f IF S1). rewrite (dt_ext n _ _ _ V), dt_lin in S.
  assert (Y : 0 <= dt n (rv (tl f)) y). { apply (holds_ge n (kc f)). apply (dd_gen _ _ _ _ _ D). apply (gen_mono n rv E R' E I); auto. apply incl_refl. apply in_map; auto. }
  assert (Z1 : 0 <= dt n (rv (tl f)) (rv r)). { apply (holds_ge n (kc f)). apply (dd_ray_in _ _ _ _ _ _ D (INC r IR)). apply in_map; auto. } nra.
Qed.
(** [c] is a positive multiple of [i] up to the equalities [E] *)
Definition equiv (n : nat) (E : list (list Z)) (c i : vec) : Prop := exists k e, 0 < k /\ gen n rv E [] e /\ veq n c (lin2 1 e k i).
Lemma equiv_sat : forall n F (E I : list (list Z)) c i, ddn n (map kc F) E I -> equiv n E c i -> same n F c i.
Proof. intros n F E I c i D (k & e & K & G & V) f IF. rewrite (dt_ext n _ _ _ V), dt_lin, (span_sat n F E I e f D G IF). split; intros H. apply (Rmult_eq_reg_l k); lra. rewrite H. lra. Qed.
Lemma gen_neg : forall n (E : list (list Z)) e k, gen n rv E [] e -> gen n rv E [] (lin2 k e 0 e).
Proof.
  intros n E e k G. induction G as [x H|x l k0 y G IH IL V|x r k0 y G IH IR K V]. 3: destruct IR.
  - apply gen_0. intros j J. unfold lin2. rewrite H by auto. lra.
  - eapply gen_l. exact IH. exact IL. instantiate (1 := k * k0). intros j J. unfold lin2. rewrite (V j J). unfold lin2. lra.
Qed.
Lemma equiv_sym : forall n E c i, equiv n E c i -> equiv n E i c.
Proof. intros n E c i (k & e & K & G & V). exists (/ k), (lin2 (- / k) e 0 e). split. apply Rinv_0_lt_compat; auto. split. apply gen_neg; auto. intros j J. unfold lin2. rewrite (V j J). unfold lin2. field. lra. Qed.
Lemma equiv_trans : forall n E c i j, equiv n E c i -> equiv n E i j -> equiv n E c j.
Proof. intros n E c i j (k & e & K & G & V) (k2 & e2 & K2 & G2 & V2). exists (k * k2), (lin2 1 e k e2). split. nra. split.
  eapply gen_ext. apply (gen_add n rv). exact G. apply (gen_neg n E e2 k). auto. intros m M; unfold lin2; lra. intros m M. rewrite (V m M). unfold lin2. rewrite (V2 m M). unfold lin2. lra. Qed.
Lemma equiv_span : forall n E E' c i, (forall e, In e E -> gen n rv E' [] (rv e)) -> equiv n E c i -> equiv n E' c i.
Proof. intros n E E' c i S (k & e & K & G & V). exists k, e. split; auto. split; auto. eapply gen_incl. exact G. intros l IL k0. apply gen_neg. auto. intros r []. Qed.
Lemma span_all : forall n E E' c, (forall e, In e E -> gen n rv E' [] (rv e)) -> gen n rv E [] c -> gen n rv E' [] c.
Proof. intros n E E' c S G. eapply gen_incl. exact G. intros l IL k0. apply gen_neg. auto. intros r []. Qed.

(** independent vectors in a span of the same size span it *)
Lemma span_full : forall n (E E2 : list (list Z)), indep n E2 -> length E2 = length E -> (forall e, In e E2 -> gen n rv E [] (rv e)) -> forall e, In e E -> gen n rv E2 [] (rv e).
Proof.
  intros n E E2 ID LE SP e IE. destruct (classic (indep n (e :: E2))) as [N|N].
  - exfalso. assert (L := steinitz n E (e :: E2) N). simpl in L. assert (S (length E2) <= length E)%nat; [|lia]. apply L. intros b [<-|IB]; auto. eapply gen_ext. apply (gen_line n rv E [] e 1); auto. intros j J. unfold lin2. lra.
  - unfold indep in N. apply not_all_ex_not in N. destruct N as (ks & N). apply imply_to_and in N. destruct N as (LK & N). apply imply_to_and in N. destruct N as (Z & N). destruct ks as [|k ks]; [simpl in LK; lia|]. simpl in LK, Z.
    destruct (Req_EM_T k 0) as [->|NZ]. exfalso. apply N. constructor; auto. apply ID. lia. intros i Hi. specialize (Z i Hi). lra.
    eapply gen_ext. apply (gen_neg n E2 (lc ks E2) (- / k)). apply lc_gen. lia. intros i Hi. unfold lin2. specialize (Z i Hi). apply (Rmult_eq_reg_l k); auto. field_simplify; auto. lra.
Qed.
(** injections between finite lists *)
Lemma inj_count : forall (A B : Type) (R : A -> B -> Prop) (la : list A) (lb : list B), NoDup la -> (forall a, In a la -> exists b, In b lb /\ R a b) -> (forall a a' b, In a la -> In a' la -> R a b -> R a' b -> a = a') ->
  (length la <= length lb)%nat /\ (length la = length lb -> forall b, In b lb -> exists a, In a la /\ R a b).
Proof.
  intros A B R. induction la as [|a la IH]; intros lb ND T I. simpl. split. lia. intros E b IB. destruct lb; simpl in *; [destruct IB|lia].
  inversion ND as [|? ? NI ND']; subst. destruct (T a (or_introl eq_refl)) as (b & IB & RB). apply in_split in IB. destruct IB as (l1 & l2 & ->).
  destruct (IH (l1 ++ l2) ND') as (L & S). intros a' IA. destruct (T a' (or_intror IA)) as (b' & IB' & RB'). apply in_app_iff in IB'. destruct IB' as [IB'|[<-|IB']]. exists b'; split; auto; apply in_app_iff; auto. exfalso. apply NI. rewrite (I a a' b); simpl; auto. exists b'; split; auto; apply in_app_iff; auto.
  intros x y z IX IY. apply I; simpl; auto.
  rewrite app_length in *. simpl. split. lia. intros E b' IB'. apply in_app_iff in IB'. destruct IB' as [IB'|[<-|IB']]. 2: exists a; simpl; auto.
  all: (destruct S with (b := b') as (x & IX & RX); [lia|apply in_app_iff; auto|exists x; simpl; auto]).
Qed.

Definition sameb (n : nat) (F : list pvec) (u v : vec) : bool := forallb (fun f => Bool.eqb (satb n (kc f) u) (satb n (kc f) v)) F.
Lemma sameb_iff : forall n F u v, sameb n F u v = true <-> same n F u v.
Proof.
  intros n F u v. unfold sameb, same. rewrite forallb_forall. split; intros H f IF; specialize (H f IF).
  - apply eqb_prop in H. pose proof (satb_iff n (kc f) u) as A. pose proof (satb_iff n (kc f) v) as B. simpl in A, B. rewrite <- A, <- B, H. tauto.
  - pose proof (satb_iff n (kc f) u) as A. pose proof (satb_iff n (kc f) v) as B. simpl in A, B. apply eqb_true_iff. destruct (satb n (kc f) u), (satb n (kc f) v); auto. symmetry. apply B, H, A; auto. apply A, H, B; auto.
Qed.
(** the number of inequalities of a minimal representation, besides the positivity constraint *)
Definition nf (n : nat) (C F : list pvec) (p : vec) : nat := length (filter (fun t : list Z => negb (sameb n F (rv t) p)) (ineqs C)).
Lemma dual_K : forall n C F a b y, mini n C F a b -> (inC n (map kc F) y <-> forall x, cone C x -> 0 <= dt n y x).
Proof.
  intros n C F a b y M. destruct (mini_lens _ _ _ _ _ M) as (LC & LF). rewrite <- (cone_inC n F y LF), (cone_dual n F y LF). split; intros H x X; apply H; apply (mini_points n C F a b M); auto.
Qed.
Lemma mini_ineqs : forall n C F a b, mini n C F a b -> exists E, C = E ++ map (fun t => (1 :: t)%Z) (ineqs C) /\ length E = a /\ Forall (st 0) E /\ ddn n (map kc F) (tls E) (ineqs C) /\ indep n (tls E).
Proof.
  intros n C F a b (E & I & L & R & -> & -> & LE & LL & FL & S0 & S1 & D1 & D2 & I1 & I2). apply Forall_app in S0, S1. destruct S0 as [S0 _], S1 as [S1 _]. exists E. assert (IQ : ineqs (E ++ I) = tls I). { unfold ineqs. rewrite (proj2 (st_split E I S0 S1)). reflexivity. }
  rewrite IQ. split; [|tauto]. f_equal. unfold tls. rewrite map_map. rewrite Forall_app, Forall_app in FL. destruct FL as ((_ & FI) & _). clear - FI S1. induction I as [|i I IH]; simpl; auto. inversion FI; inversion S1; subst. f_equal; auto. destruct i; [unfold lenS in *; simpl in *; lia|]. unfold st, zn in *. simpl in *. subst. auto.
Qed.
Lemma row_ge : forall n c x, lenS n c -> row_holds c x -> 0 <= dt n (rv (tl c)) x. Proof. intros n c x L H. apply (row_dt n c x L) in H. destruct (zn 0 c =? 0)%Z; lra. Qed.

(** each inequality of a minimal representation is equivalent to a row of any representation of the same cone *)
Lemma facet_row : forall n C2 F2 a2 b2 E2 PG i2, mini n C2 F2 a2 b2 -> ddn n (map kc F2) (tls E2) (ineqs C2) -> Forall (lenS n) PG -> (forall x, cone C2 x <-> cone PG x) -> In i2 (ineqs C2) ->
  exists g f, In g PG /\ zn 0 g <> 0%Z /\ equiv n (tls E2) (rv i2) (rv (tl g)) /\ In f F2 /\ dt n (rv (tl f)) (rv (tl g)) <> 0.
Proof.
  intros n C2 F2 a2 b2 E2 PG i2 M2 DD2 LPG EQ HI. assert (DK2 := fun y => dual_K n C2 F2 a2 b2 y M2). set (I2 := ineqs C2) in *.
  assert (PGD : forall g, In g PG -> inC n (map kc F2) (rv (tl g))). { intros g IG. apply DK2. intros x X. apply EQ in X. rewrite Forall_forall in LPG. apply row_ge; auto. apply (proj1 (cone_in _ _) X g IG). }
    assert (G2 : gen n rv (eqs PG) (ineqs PG) (rv i2)). { apply gen_split. apply (bidual n _ _ LPG). intros x X. apply EQ in X. revert x X. apply DK2. apply (dd_ray_in _ _ _ _ _ _ DD2 HI). }
    destruct (gen_used n rv _ _ _ G2) as (R' & INC' & GR & U). destruct (dd_ray _ _ _ _ _ DD2 i2 HI) as (c0 & IC0 & NS). apply in_map_iff in IC0. destruct IC0 as (f & <- & IF). unfold sat, kc in NS. simpl in NS.
    assert (LZ : forall l f', In l (eqs PG) -> In f' F2 -> dt n (rv (tl f')) (rv l) = 0).
    { intros l f' IL IF'. unfold eqs in IL. apply in_map_iff in IL. destruct IL as (g & <- & IG). apply filter_In in IG. destruct IG as (IG & Z0). apply Z.eqb_eq in Z0. rewrite Forall_forall in LPG.
      assert (IB : inC n (map kc F2) (lin2 (-1) (rv (tl g)) 0 (rv (tl g)))). { apply DK2. intros x X. apply EQ in X. pose proof (proj1 (cone_in _ _) X g IG) as H. apply (row_dt n g x (LPG g IG)) in H. rewrite Z0 in H. simpl in H. rewrite dt_sym, dt_lin, (dt_sym n x), H. lra. }
      specialize (PGD g IG). specialize (PGD (kc f') (in_map kc _ _ IF')). specialize (IB (kc f') (in_map kc _ _ IF')). apply holds_ge in PGD, IB. unfold kc in PGD, IB; simpl in PGD, IB. rewrite dt_lin in IB. lra. }
    assert (EX : exists r, In r R' /\ dt n (rv (tl f)) (rv r) <> 0). { apply NNPP. intros N. apply NS. apply (gen_holds n rv (rv (tl f), true) (eqs PG) R'); auto. intros l IL. simpl. auto. intros r IR. unfold holds. simpl. apply NNPP. intros N2. apply N. exists r; auto. }
    destruct EX as (r & IR & NR). assert (IRQ := INC' r IR). unfold ineqs in IRQ. apply in_map_iff in IRQ. destruct IRQ as (g & ER & IG). apply filter_In in IG. destruct IG as (IG & NZ). apply negb_true_iff, Z.eqb_neq in NZ.
    destruct (extreme n F2 (tls E2) I2 i2 (rv r) DD2 HI) as (k & e & K & GE & V). rewrite <- ER. apply PGD; auto.
    { intros f' IF' Z0. destruct (U r IR) as (k & y & K & GY & V). rewrite (dt_ext n _ _ _ V), dt_lin in Z0.
      assert (Y : 0 <= dt n (rv (tl f')) y). { apply (gen_holds n rv (rv (tl f'), false) (eqs PG) R'); auto. intros l IL. simpl. auto. intros r' IR'. assert (Q := INC' r' IR'). unfold ineqs in Q. apply in_map_iff in Q. destruct Q as (g' & <- & IG'). apply filter_In in IG'. destruct IG' as (IG' & _). unfold holds; simpl. apply (holds_ge n (kc f')). apply PGD; auto. apply in_map; auto. }
      assert (Y2 : 0 <= dt n (rv (tl f')) (rv r)). { rewrite <- ER. apply (holds_ge n (kc f')). apply PGD; auto. apply in_map; auto. } nra. }
    assert (KP : 0 < k). { destruct K as [K|K]; auto. exfalso. apply NR. rewrite (dt_ext n _ _ _ V), dt_lin, (span_sat n F2 _ _ e f DD2 GE IF), <- K. lra. }
    assert (EQV : equiv n (tls E2) (rv r) (rv i2)) by (exists k, e; auto). apply equiv_sym in EQV. subst r.
    exists g, f. auto.
Qed.
Theorem widen_step : forall n C F a b C2 F2 a2 b2 p G, mini n C F a b -> mini n C2 F2 a2 b2 -> lenS n p -> st 1 p -> Forall (lenS n) G ->
  (forall x, cone C2 x <-> cone (p :: G) x) -> (forall x, cone C x -> cone (p :: G) x) -> (forall g, In g G -> exists c', In c' C /\ same n F (rv (tl g)) (rv (tl c'))) ->
  (a2 <= a)%nat /\ (a2 = a -> (nf n C2 F2 (rv (tl p)) <= nf n C F (rv (tl p)))%nat /\ (nf n C2 F2 (rv (tl p)) = nf n C F (rv (tl p)) -> forall x, cone C2 x -> cone C x)).
Proof.
  intros n C F a b C2 F2 a2 b2 p G M M2 LP SP LG EQ INC KEEP. assert (DK := fun y => dual_K n C F a b y M). assert (DK2 := fun y => dual_K n C2 F2 a2 b2 y M2).
  destruct (mini_lens _ _ _ _ _ M) as (LC & LF). destruct (mini_lens _ _ _ _ _ M2) as (LC2 & LF2).
  destruct (mini_ineqs _ _ _ _ _ M) as (E & EC & LE & SE & DD & IE). destruct (mini_ineqs _ _ _ _ _ M2) as (E2 & EC2 & LE2 & SE2 & DD2 & IE2). set (I := ineqs C) in *. set (I2 := ineqs C2) in *.
  assert (LPG : Forall (lenS n) (p :: G)) by (constructor; auto).
  assert (D2D : forall y, inC n (map kc F2) y -> inC n (map kc F) y). { intros y H. apply DK. intros x X. apply (proj1 (DK2 y) H). apply EQ, INC; auto. }
  assert (SPAN : forall e, In e (tls E2) -> gen n rv (tls E) [] (rv e)).
  { intros e HE. apply (lin_space n _ _ _ _ DD). apply D2D. apply (dd_gen _ _ _ _ _ DD2). eapply gen_ext. apply (gen_line n rv _ _ e 1); auto. intros j J; unfold lin2; lra. apply D2D. apply (dd_gen _ _ _ _ _ DD2). apply (gen_line n rv); auto. }
  assert (A2 : (a2 <= a)%nat). { assert (S1 := steinitz n (tls E) (tls E2) IE2 SPAN). assert (LT : forall l, length (tls l) = length l) by (intros; apply map_length). rewrite !LT in S1. rewrite <- LE, <- LE2. exact S1. } split; auto. intros AE.
  assert (SPAN2 : forall e, In e (tls E) -> gen n rv (tls E2) [] (rv e)). { apply span_full; auto. assert (LT : forall l, length (tls l) = length l) by (intros; apply map_length). rewrite !LT. transitivity a2; auto. transitivity a; auto. }
  assert (PG : forall g, In g (p :: G) -> inC n (map kc F2) (rv (tl g))). { intros g IG. apply DK2. intros x X. apply EQ in X. rewrite Forall_forall in LPG. apply row_ge; auto. apply (proj1 (cone_in _ _) X g IG). }
  (* each facet of the result is the positivity or a facet of the argument *)
  assert (FAC : forall i2, In i2 I2 -> equiv n (tls E2) (rv i2) (rv (tl p)) \/ exists i, In i I /\ equiv n (tls E2) (rv i2) (rv i)).
  { intros i2 HI. destruct (facet_row n C2 F2 a2 b2 E2 (p :: G) i2 M2 DD2 LPG EQ HI) as (g & f & IG & _ & EQV & IF & NR).
    destruct IG as [<-|IG]. left; auto. destruct (KEEP g IG) as (c' & IC' & SM). right.
    assert (GD : inC n (map kc F) (rv (tl g))) by (apply D2D, PG; right; auto).
    rewrite EC in IC'. apply in_app_iff in IC'. destruct IC' as [IC'|IC'].
    - exfalso. apply NR. apply (span_sat n F2 (tls E2) I2); auto. apply (span_all n (tls E)); auto. assert (Z0 : forall f', In f' F -> dt n (rv (tl f')) (rv (tl g)) = 0). { intros f' IF'. apply (SM f' IF'). apply (dd_line _ _ _ _ _ _ (kc f') DD). apply (in_map (fun q : pvec => tl q)); auto. apply in_map; auto. }
      apply (lin_space n _ _ _ _ DD); auto. intros c1 IC1. specialize (GD c1 IC1). apply in_map_iff in IC1. destruct IC1 as (f' & <- & IF'). unfold holds, kc in *. simpl in *. rewrite dt_lin, (Z0 f' IF'). destruct (zn 0 f' =? 0)%Z; lra.
    - apply in_map_iff in IC'. destruct IC' as (i & <- & II). exists i. split; auto. simpl in SM. destruct (extreme n F (tls E) I i (rv (tl g)) DD II GD) as (k1 & e1 & K1 & GE1 & V1). intros f' IF' Z0. apply (SM f' IF'); auto.
      destruct (dd_ray _ _ _ _ _ DD i II) as (c1 & IC1 & N1). apply in_map_iff in IC1. destruct IC1 as (f1 & <- & IF1). unfold sat, kc in N1. simpl in N1.
      assert (KP1 : 0 < k1). { destruct K1 as [K1|K1]; auto. exfalso. apply N1. apply (SM f1 IF1). rewrite (dt_ext n _ _ _ V1), dt_lin, (span_sat n F _ _ e1 f1 DD GE1 IF1), <- K1. lra. }
      eapply equiv_trans. exact EQV. apply (equiv_span n (tls E)); auto. exists k1, e1; auto. }
  assert (PD2 := PG p (or_introl eq_refl)). assert (PD := D2D _ PD2).
  assert (INJ : forall i1 i2, In i1 I2 -> In i2 I2 -> same n F2 (rv i1) (rv i2) -> i1 = i2). { intros i1 i2 H1 H2 S1. destruct (list_eq_dec Z.eq_dec i1 i2) as [|NE]; auto. exfalso. destruct (dd_irr _ _ _ _ _ DD2 i1 i2 H1 H2 NE) as (c & IC & A & B). apply in_map_iff in IC. destruct IC as (f & <- & IF). apply B. apply (S1 f IF). exact A. }
  assert (CLS : forall i, In i I -> same n F (rv i) (rv (tl p)) -> equiv n (tls E) (rv (tl p)) (rv i)).
  { intros i II S1. destruct (extreme n F (tls E) I i (rv (tl p)) DD II PD) as (k1 & e1 & K1 & GE1 & V1). intros f' IF' Z0. apply (S1 f' IF'); auto. destruct (dd_ray _ _ _ _ _ DD i II) as (c1 & IC1 & N1). apply in_map_iff in IC1. destruct IC1 as (f1 & <- & IF1). unfold sat, kc in N1. simpl in N1.
    exists k1, e1. split; auto. destruct K1 as [K1|K1]; auto. exfalso. apply N1. apply (S1 f1 IF1). rewrite (dt_ext n _ _ _ V1), dt_lin, (span_sat n F _ _ e1 f1 DD GE1 IF1), <- K1. lra. }
  destruct (inj_count (list Z) (list Z) (fun i2 i => equiv n (tls E2) (rv i2) (rv i)) (filter (fun t : list Z => negb (sameb n F2 (rv t) (rv (tl p)))) I2) (filter (fun t : list Z => negb (sameb n F (rv t) (rv (tl p)))) I)) as (LEN & SUR).
  - apply NoDup_filter. apply DD2.
  - intros i2 H. apply filter_In in H. destruct H as (H & N). apply negb_true_iff in N. destruct (FAC i2 H) as [Q|(i & II & Q)].
    + exfalso. apply (equiv_sat n F2 (tls E2) I2) in Q; auto. apply sameb_iff in Q. congruence.
    + exists i. split; auto. apply filter_In. split; auto. apply negb_true_iff. destruct (sameb n F (rv i) (rv (tl p))) eqn:SB; auto. exfalso. apply sameb_iff in SB. assert (Q2 := CLS i II SB). apply (equiv_span n (tls E) (tls E2)) in Q2; auto. apply equiv_sym in Q2.
      assert (Q3 := equiv_trans _ _ _ _ _ Q Q2). apply (equiv_sat n F2 (tls E2) I2) in Q3; auto. apply sameb_iff in Q3. congruence.
  - intros i1 i2 i H1 H2 Q1 Q2. apply filter_In in H1, H2. apply INJ; try tauto. apply (equiv_sat n F2 (tls E2) I2); auto. eapply equiv_trans. exact Q1. apply equiv_sym; auto.
  - fold (nf n C2 F2 (rv (tl p))) in LEN, SUR. unfold nf. fold I I2. split; auto. intros EQN x X. specialize (SUR EQN).
    assert (XE : forall e, gen n rv (tls E2) [] e -> dt n e x = 0). { intros e GE. rewrite dt_sym. apply (gen_holds n rv (x, true) (tls E2) []); auto. 2: intros r []. intros l IL. simpl. rewrite dt_sym. unfold tls in IL. apply in_map_iff in IL. destruct IL as (q & <- & IQ). rewrite Forall_forall in SE2, LC2. assert (IQ2 : In q C2) by (rewrite EC2; apply in_app_iff; auto). pose proof (proj1 (cone_in _ _) X q IQ2) as H. apply (row_dt n q x (LC2 q IQ2)) in H. rewrite (SE2 q IQ) in H. exact H. }
    assert (XQ : forall u v, equiv n (tls E2) u v -> 0 <= dt n v x -> 0 <= dt n u x). { intros u v (k & e & K & GE & V) H. rewrite dt_sym, (dt_ext n _ _ _ V), dt_lin, !(dt_sym n x), (XE e GE). nra. }
    apply cone_in. intros c IC. rewrite Forall_forall in LC. apply (row_dt n c x (LC c IC)). rewrite EC in IC. apply in_app_iff in IC. destruct IC as [IC|IC].
    + rewrite Forall_forall in SE. rewrite (SE c IC). simpl. apply XE. apply SPAN2. apply (in_map (fun q : pvec => tl q)); auto.
    + apply in_map_iff in IC. destruct IC as (i & <- & II). simpl. destruct (sameb n F (rv i) (rv (tl p))) eqn:SB.
      * apply sameb_iff in SB. apply (XQ _ (rv (tl p))). apply equiv_sym. apply (equiv_span n (tls E)); auto. apply EQ in X. apply row_ge; auto. apply (Forall_inv X).
      * destruct (SUR i) as (i2 & H2 & Q). apply filter_In. split; auto. rewrite SB; auto. apply filter_In in H2. destruct H2 as (H2 & _). apply (XQ _ (rv i2)). apply equiv_sym; auto.
        assert (IQ2 : In (1 :: i2)%Z C2). { rewrite EC2. apply in_app_iff. right. apply (in_map (fun t => (1 :: t)%Z)); auto. } pose proof (proj1 (cone_in _ _) X _ IQ2) as H. rewrite Forall_forall in LC2. apply (row_ge n _ x (LC2 _ IQ2)) in H. exact H.
Qed.

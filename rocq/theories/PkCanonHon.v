(** Honest polyhedra: the flags "sorted" and "Gauss form" of the matrices tell the truth and the rows have no common
    factor.  The canonical form of an honest polyhedron only depends on its points. *)
From Coq Require Import ZArith Bool List Lia Reals Lra Permutation Sorted.
Import ListNotations.
From Verif Require Import PkCone PkVec PkCherni PkCherniFacts PkRank PkSimplify PkSimplifyThm PkSimplifyEnd PkSpec PkMinimize PkPoly PkPolyFacts PkPolyLeq PropPkMinimize PkCanon PkCanonFacts PkCanonNrm PkCanonUniq.
Open Scope nat_scope.

(** ** sorted matrices *)
Definition vle (a b : pvec) : Prop := vector_compare a b <> Gt.
Definition vsorted (l : list pvec) : Prop := StronglySorted vle l.
Lemma lcmp_opp : forall a b, lcmp b a = CompOpp (lcmp a b).
Proof. induction a as [|x a IH]; intros [|y b]; simpl; auto. rewrite (Z.compare_antisym x y). destruct (x ?= y)%Z; simpl; auto. Qed.
Lemma vcmp_opp : forall a b, vector_compare b a = CompOpp (vector_compare a b).
Proof. intros a b. unfold vector_compare. rewrite (Z.compare_antisym (zn 0 a) (zn 0 b)). destruct (zn 0 a ?= zn 0 b)%Z; cbn [CompOpp]; auto. rewrite (lcmp_opp (skipn 2 a) (skipn 2 b)). destruct (lcmp (skipn 2 a) (skipn 2 b)); cbn [CompOpp]; auto. rewrite (Z.compare_antisym (zn 1 a) (zn 1 b)). auto. Qed.
Definition key (q : pvec) : list Z := zn 0 q :: skipn 2 q ++ [zn 1 q].
Lemma lcmp_app : forall a b x y, length a = length b -> lcmp (a ++ [x]) (b ++ [y]) = match lcmp a b with Eq => (x ?= y)%Z | c => c end.
Proof. induction a as [|z a IH]; intros [|w b] x y L; simpl in *; try lia. destruct (x ?= y)%Z; auto. rewrite IH by lia. destruct (z ?= w)%Z; auto. Qed.
Lemma vcmp_key : forall a b, length a = length b -> vector_compare a b = lcmp (key a) (key b).
Proof. intros a b L. unfold vector_compare, key. cbn [lcmp]. destruct (zn 0 a ?= zn 0 b)%Z; auto. rewrite lcmp_app. auto. rewrite !skipn_length. lia. Qed.
Lemma lcmp_trans : forall a b c, length a = length b -> length b = length c -> lcmp a b <> Gt -> lcmp b c <> Gt -> lcmp a c <> Gt.
Proof.
  induction a as [|x a IH]; intros [|y b] [|z c] L1 L2 H1 H2; simpl in *; try lia; auto. assert (XY : (x <= y)%Z) by (destruct (Z.compare_spec x y); try lia; congruence). assert (YZ : (y <= z)%Z) by (destruct (Z.compare_spec y z); try lia; congruence).
  destruct (Z.eq_dec x z) as [E|E].
  - assert (y = x) by lia. subst y z. rewrite Z.compare_refl in *. apply IH with b; auto; lia.
  - replace (x ?= z)%Z with Lt by (symmetry; apply Z.compare_lt_iff; lia). discriminate.
Qed.
Lemma vle_trans : forall a b c, length a = length b -> length b = length c -> vle a b -> vle b c -> vle a c.
Proof.
  unfold vle. intros a b c L1 L2 H1 H2. rewrite vcmp_key in * by congruence. apply lcmp_trans with (key b); auto; unfold key; cbn [length]; rewrite !app_length, !skipn_length; cbn [length]; lia.
Qed.
Lemma vle_antisym : forall a b, length a = length b -> vle a b -> vle b a -> a = b.
Proof. unfold vle. intros a b L H1 H2. rewrite vcmp_opp in H2. destruct (vector_compare a b) eqn:E; simpl in *; try congruence. apply vcmp_eq; auto. Qed.
Lemma insert_sorted : forall A (k : A -> pvec) m x l, length (k x) = m -> Forall (fun y => length (k y) = m) l -> vsorted (map k l) -> vsorted (map k (insert k x l)).
Proof.
  intros A k m x l L F S. induction l as [|y l IH]; simpl. constructor; constructor. simpl in S. assert (F0 := F). apply Forall_cons_iff in F. destruct F as [Ly F]. apply StronglySorted_inv in S. destruct S as [S HY].
  assert (CASE : vle (k x) (k y) -> vsorted (k x :: k y :: map k l)). { intros H. constructor. constructor; auto. constructor; auto. apply Forall_forall. intros z I. apply vle_trans with (k y); auto. congruence. apply in_map_iff in I. destruct I as (w & <- & I). rewrite Forall_forall in F. rewrite (F w I). auto. rewrite Forall_forall in HY. auto. }
  destruct (vector_compare (k x) (k y)) eqn:E.
  - apply CASE. unfold vle. rewrite E; discriminate.
  - apply CASE. unfold vle. rewrite E; discriminate.
  - simpl. constructor. apply IH; auto. apply Forall_forall. intros z I. apply in_map_iff in I. destruct I as (w & <- & I). apply (Permutation_in w (insert_perm A k x l)) in I. destruct I as [<-|I]. unfold vle. rewrite vcmp_opp, E. simpl. discriminate. rewrite Forall_forall in HY. apply HY. apply in_map; auto.
Qed.
Lemma isort_sorted : forall A (k : A -> pvec) m l, Forall (fun y => length (k y) = m) l -> vsorted (map k (isort k l)).
Proof.
  intros A k m l F. induction F as [|x l X F IH]; simpl. constructor. apply insert_sorted with m; auto. apply (Permutation_Forall (Permutation_sym (isort_perm A k l))). auto.
Qed.
Lemma sorted_unique : forall m a b, Forall (fun q : pvec => length q = m) a -> vsorted a -> vsorted b -> NoDup a -> NoDup b -> incl a b -> incl b a -> a = b.
Proof.
  intros m. induction a as [|x a IH]; intros b F SA SB NA NB I1 I2. destruct b as [|y b]; auto. destruct (I2 y (or_introl eq_refl)). destruct b as [|y b]. destruct (I1 x (or_introl eq_refl)).
  apply StronglySorted_inv in SA. destruct SA as [SA HX]. apply StronglySorted_inv in SB. destruct SB as [SB HY]. apply NoDup_cons_iff in NA. destruct NA as [NX NA]. apply NoDup_cons_iff in NB. destruct NB as [NY NB]. assert (F0 := F). apply Forall_cons_iff in F. destruct F as [Lx F]. rewrite Forall_forall in F0, HX, HY.
  assert (E : x = y). { destruct (I1 x (or_introl eq_refl)) as [|I]; auto. destruct (I2 y (or_introl eq_refl)) as [|I']; auto. apply vle_antisym; auto. rewrite Lx. symmetry. apply F0. right; auto. }
  subst y. f_equal. apply IH; auto. intros z I. destruct (I1 z (or_intror I)) as [->|]; auto. contradiction. intros z I. destruct (I2 z (or_intror I)) as [->|]; auto. contradiction.
Qed.
Lemma mini_nodup : forall n C F a b, mini n C F a b -> NoDup C.
Proof.
  intros n C F a b (E & I & L & R & EC & EF & K3 & K4 & K5 & K6 & K7 & K8 & K9 & K10 & K11). apply Forall_app in K6, K7. destruct K6 as [K6 _], K7 as [K7 _]. rewrite Forall_forall in K6, K7. subst C. assert (NE := indep_nodup n E K10). assert (NI := dd_nodup _ _ _ _ _ K9). unfold tls in NI. apply NoDup_map_inv in NI.
  clear - NE NI K6 K7. induction NE as [|e E N NE IH]; simpl; auto. constructor. rewrite in_app_iff. intros [X|X]; auto. assert (A := K6 e (or_introl eq_refl)). assert (B := K7 e X). unfold st in A, B. congruence. apply IH. intros; apply K6; right; auto.
Qed.
(** ** honest polyhedra *)
(** The flags only have to be right when both matrices are present: poly_chernikova, which computes the missing one, recomputes them. *)
Definition hon (po : poly) : Prop :=
  (forall C, pC po = Some C -> Forall nrm C /\ (pF po <> None -> pCs po = true -> vsorted C)) /\ (forall F, pF po = Some F -> Forall nrm F /\ (pC po <> None -> pFs po = true -> vsorted F)) /\
  (forall C F, pC po = Some C -> pF po = Some F -> (pconsgauss po = true -> rdc C) /\ (pgengauss po = true -> rdc F)).
Lemma nrm_perm : forall l l', Permutation l l' -> Forall nrm l' -> Forall nrm l. Proof. intros l l' P F. apply (Permutation_Forall (Permutation_sym P)); auto. Qed.
Lemma hon_chern : forall po, swf po -> hon po -> hon (poly_chernikova po).
Proof.
  intros po W H. assert (W' := W). unfold swf in W'. unfold poly_chernikova. destruct (pC po) as [C|] eqn:EC, (pF po) as [F|] eqn:EF; auto.
  - destruct H as (H1 & _ & _). destruct (H1 C EC) as [N _]. destruct W' as (L & _). fold (sorted_or (pCs po) C). assert (P := sorted_or_perm (pCs po) C). set (C1 := sorted_or (pCs po) C) in *. assert (N1 := nrm_perm _ _ P N). assert (L1 : Forall (lenS (pn po)) C1) by (apply (Permutation_Forall (Permutation_sym P)); auto). assert (M := minimize_spec true (pn po) C1 L1). assert (MN := minimize_n true (pcols po) C1 N1). replace (pcols po) with (S (pn po)) in * by (unfold pcols, pn; lia).
    destruct (cherni_minimize true (S (pn po)) C1) as [[[[[C' F'] sF] ne] nl]|]. 2: { split; [|split]; intros; simpl in *; discriminate. } destruct M as (_ & _ & _ & _ & RD). destruct MN as [N2 N3]. split; [|split]; cbn [pC pF pCs pFs pconsgauss pgengauss]; intros X.
    intros Q. injection Q as <-. split; auto. intros _; discriminate. intros Q. injection Q as <-. split; auto. intros _; discriminate. intros Y Q1 Q2. injection Q1 as <-. split; auto. discriminate.
  - destruct H as (_ & H1 & _). destruct (H1 F EF) as [N _]. destruct W' as (L & _). fold (sorted_or (pFs po) F). assert (P := sorted_or_perm (pFs po) F). set (C1 := sorted_or (pFs po) F) in *. assert (N1 := nrm_perm _ _ P N). assert (L1 : Forall (lenS (pn po)) C1) by (apply (Permutation_Forall (Permutation_sym P)); auto). assert (M := minimize_spec false (pn po) C1 L1). assert (MN := minimize_n false (pcols po) C1 N1). replace (pcols po) with (S (pn po)) in * by (unfold pcols, pn; lia).
    destruct (cherni_minimize false (S (pn po)) C1) as [[[[[C' F'] sF] ne] nl]|]. 2: { split; [|split]; intros; simpl in *; discriminate. } destruct M as (_ & _ & _ & _ & RD). destruct MN as [N2 N3]. split; [|split]; cbn [poly_dual pC pF pCs pFs pconsgauss pgengauss]; intros X.
    intros Q. injection Q as <-. split; auto. intros _; discriminate. intros Q. injection Q as <-. split; auto. intros _; discriminate. intros Y Q1 Q2. injection Q2 as <-. split; auto. discriminate.
Qed.
(** with both Gauss forms *)
Definition hon_C (po : poly) : Prop := forall C, pC po = Some C -> rdc C.
Definition hon_F (po : poly) : Prop := forall F, pF po = Some F -> rdc F.
Lemma hon_dual : forall po, hon po -> pC po <> None -> pF po <> None -> hon (mkPoly (pint po) (preal po) (pF po) (pFs po) (pC po) (pCs po) (psatF po) (psatC po) (pnbline po) (pnbeq po) (pgengauss po) (pconsgauss po)).
Proof. intros po (H1 & H2 & H3) _ _. split; [|split]; cbn [pC pF pCs pFs pconsgauss pgengauss]; auto. intros C F EC EF. destruct (H3 F C EF EC). auto. Qed.
Lemma hon_gauss_C : forall po, swf po -> minimal2 po = true -> hon po -> hon (gauss_C po) /\ hon_C (gauss_C po).
Proof.
  intros po W M H. assert (HH := H). destruct H as (H1 & H2 & H3). unfold gauss_C. destruct (pconsgauss po) eqn:G.
  - split; auto. intros C EC. unfold minimal2 in M. rewrite EC in M. destruct (pF po) as [F|] eqn:EF; try discriminate. destruct (H3 C F EC eq_refl) as [A B]. auto.
  - unfold minimal2 in M. destruct (pC po) as [C|] eqn:EC; try discriminate. destruct (pF po) as [F|] eqn:EF; try discriminate. unfold swf in W. rewrite EC, EF in W. destruct W as (MI & _). destruct (gauss_mini _ _ _ _ _ MI) as (_ & _ & _ & _ & RD). replace (S (pn po)) with (pcols po) in * by (unfold pcols, pn; lia).
    destruct (H1 C eq_refl) as [N _]. split. 2: { intros X Q. cbn [pC] in Q. injection Q as <-. auto. }
    split; [|split]; cbn [pC pF pCs pFs pconsgauss pgengauss]. intros X Q. injection Q as <-. split. apply matrix_gauss_n; auto. intros _; discriminate. intros X Q. injection Q as <-. destruct (H2 F eq_refl) as [NF SF]. split; auto. intros _. apply SF. discriminate. intros X Y Q1 Q2. injection Q1 as <-. injection Q2 as <-. split; auto. intros GG. apply (H3 C F); auto.
Qed.
Lemma hon_gauss_F : forall po, swf po -> minimal2 po = true -> hon po -> hon_C po -> hon (gauss_F po) /\ hon_C (gauss_F po) /\ hon_F (gauss_F po).
Proof.
  intros po W M H HC. assert (HH := H). destruct H as (H1 & H2 & H3). unfold gauss_F. destruct (pgengauss po) eqn:G.
  - split; auto. split; auto. intros F EF. unfold minimal2 in M. rewrite EF in M. destruct (pC po) as [C|] eqn:EC; try discriminate. destruct (H3 C F eq_refl EF) as [A B]. auto.
  - unfold minimal2 in M. destruct (pC po) as [C|] eqn:EC; try discriminate. destruct (pF po) as [F|] eqn:EF; try discriminate. unfold swf in W. rewrite EC, EF in W. destruct W as (MI & _). apply mini_dual in MI. destruct (gauss_mini _ _ _ _ _ MI) as (_ & _ & _ & _ & RD). replace (S (pn po)) with (pcols po) in * by (unfold pcols, pn; lia).
    destruct (H2 F eq_refl) as [N _]. split; [|split]. 2: { intros X Q. cbn [pC] in Q. injection Q as <-. apply HC; auto. } 2: { intros X Q. cbn [pF] in Q. injection Q as <-. auto. }
    split; [|split]; cbn [pC pF pCs pFs pconsgauss pgengauss]. intros X Q. injection Q as <-. destruct (H1 C eq_refl) as [NC SC]. split; auto. intros _. apply SC. discriminate. intros X Q. injection Q as <-. split. apply matrix_gauss_n; auto. intros _; discriminate. intros X Y Q1 Q2. injection Q1 as <-. injection Q2 as <-. split; auto.
Qed.
Lemma sorted_C_shape : forall po C, swf po -> pC po = Some C -> exists C', pC (poly_obtain_sorted_C po) = Some C' /\ Permutation C' C /\ (pCs po = false -> vsorted C') /\ (pCs po = true -> C' = C) /\ pCs (poly_obtain_sorted_C po) = true /\
  pF (poly_obtain_sorted_C po) = pF po /\ pFs (poly_obtain_sorted_C po) = pFs po /\ pconsgauss (poly_obtain_sorted_C po) = pconsgauss po /\ pgengauss (poly_obtain_sorted_C po) = pgengauss po.
Proof.
  intros po C W EC. assert (LC : Forall (lenS (pn po)) C) by (apply (swf_C po C); auto). unfold poly_obtain_sorted_C. rewrite EC. destruct (pCs po) eqn:SO0. { exists C. rewrite EC. repeat (split; auto); try discriminate. }
  assert (WS : forall s, s = match pF po with Some F => satmat C F | None => s end -> pF po <> None -> exists C', fst (matrix_sort_rows_with_sat C s) = C' /\ Permutation C' C /\ vsorted C').
  { intros s ES NF. eexists. split. reflexivity. unfold matrix_sort_rows_with_sat. cbn [fst]. destruct (pF po) as [F|]; [|congruence]. subst s. destruct (satmat_sort C F) as [P Q]. split; auto. apply (isort_sorted row (fun r => fst r) (S (pn po))). apply Forall_forall. intros [q b] I. apply in_combine_l in I. rewrite Forall_forall in LC. apply LC; auto. }
  assert (W' := W). unfold swf in W'. rewrite EC in W'. destruct (pF po) as [F|] eqn:EF.
  - destruct W' as (M & A & B & D).
    assert (FIN : forall s, s = satmat C F -> exists C', pC (let (C', s') := matrix_sort_rows_with_sat C s in mkPoly (pint po) (preal po) (Some C') true (Some F) (pFs po) None (Some s') (pnbeq po) (pnbline po) (pconsgauss po) (pgengauss po)) = Some C' /\ Permutation C' C /\ vsorted C'). { intros s ES. destruct (WS s ES) as (C' & Q & P & SO). discriminate. destruct (matrix_sort_rows_with_sat C s) as [c1 s1]. simpl in Q. subst c1. exists C'. auto. }
    destruct (psatF po) as [s|] eqn:SF; [|destruct (psatC po) as [s|] eqn:SC; [|exfalso; apply D; auto]].
    + destruct (FIN s) as (C' & Q & P & SO). apply B; auto. destruct (matrix_sort_rows_with_sat C s) as [c1 s1]. exists C'. cbn [pC pCs pF pFs pconsgauss pgengauss] in *. repeat (split; auto); try discriminate.
    + destruct (FIN (transpose (length C) s)) as (C' & Q & P & SO). rewrite (A s eq_refl). apply transpose_satmat. destruct (matrix_sort_rows_with_sat C (transpose (length C) s)) as [c1 s1]. exists C'. cbn [pC pCs pF pFs pconsgauss pgengauss] in *. repeat (split; auto); try discriminate.
  - destruct W' as (_ & -> & ->). exists (matrix_sort_rows C). cbn [pC pCs pF pFs pconsgauss pgengauss]. split; auto. split. apply isort_perm. split. intros _. unfold matrix_sort_rows. assert (Q := isort_sorted pvec (fun q => q) (S (pn po)) C LC). rewrite map_id in Q. exact Q. repeat (split; auto); try discriminate.
Qed.
Lemma rdc_perm' : forall C C', Permutation C' C -> rdc C -> rdc C'.
Proof. intros C C' P. apply rdc_perm. intros q. split; intros I. apply (Permutation_in q P I). apply (Permutation_in q (Permutation_sym P) I). Qed.
Lemma hon_sorted_C : forall po, swf po -> hon po -> hon (poly_obtain_sorted_C po) /\ (hon_C po -> hon_C (poly_obtain_sorted_C po)) /\ (hon_F po -> hon_F (poly_obtain_sorted_C po)) /\ (pC po <> None -> pCs (poly_obtain_sorted_C po) = true).
Proof.
  intros po W H. destruct (pC po) as [C|] eqn:EC. 2: { unfold poly_obtain_sorted_C. rewrite EC. split; [exact H|]. split; [auto|]. split; [auto|congruence]. }
  destruct (sorted_C_shape po C W EC) as (C' & Q1 & P & S1 & S2 & Q2 & Q3 & Q4 & Q5 & Q6). destruct H as (H1 & H2 & H3). destruct (H1 C EC) as [N SO].
  split; [|split; [|split]]. 4: auto. 2: { intros HC X Q. rewrite Q1 in Q. injection Q as <-. apply (rdc_perm' C); auto. } 2: { intros HF X Q. rewrite Q3 in Q. auto. }
  split; [|split]. intros X Q. rewrite Q1 in Q. injection Q as <-. split. apply (nrm_perm _ C); auto. intros NF _. rewrite Q3 in NF. destruct (pCs po) eqn:E; auto. rewrite S2 by auto. auto.
  intros X Q. rewrite Q3 in Q. rewrite Q4, Q1. destruct (H2 X Q) as [NX SX]. split; auto. intros _. apply SX. congruence. intros X Y QX QY. rewrite Q1 in QX. injection QX as <-. rewrite Q3 in QY. rewrite Q5, Q6. destruct (H3 C Y EC QY) as [A B]. split; auto. intros G. apply (rdc_perm' C); auto.
Qed.

Lemma sorted_F_shape : forall po F, swf po -> pF po = Some F -> exists F', pF (poly_obtain_sorted_F po) = Some F' /\ Permutation F' F /\ (pFs po = false -> vsorted F') /\ (pFs po = true -> F' = F) /\ pFs (poly_obtain_sorted_F po) = true /\
  pC (poly_obtain_sorted_F po) = pC po /\ pCs (poly_obtain_sorted_F po) = pCs po /\ pconsgauss (poly_obtain_sorted_F po) = pconsgauss po /\ pgengauss (poly_obtain_sorted_F po) = pgengauss po.
Proof. intros po F W EF. destruct (sorted_C_shape (poly_dual po) F (swf_dual po W) EF) as (F' & Q1 & P & S1 & S2 & Q2 & Q3 & Q4 & Q5 & Q6). unfold poly_obtain_sorted_F. set (q := poly_obtain_sorted_C (poly_dual po)) in *. clearbody q. exists F'. cbn [poly_dual pC pF pCs pFs pconsgauss pgengauss] in *. auto 12. Qed.
Lemma hon_sorted_F : forall po, swf po -> hon po -> hon (poly_obtain_sorted_F po) /\ (hon_C po -> hon_C (poly_obtain_sorted_F po)) /\ (hon_F po -> hon_F (poly_obtain_sorted_F po)) /\ (pF po <> None -> pFs (poly_obtain_sorted_F po) = true).
Proof.
  intros po W H. destruct (pF po) as [F|] eqn:EF. 2: { assert (E : poly_obtain_sorted_F po = po). { unfold poly_obtain_sorted_F, poly_obtain_sorted_C. cbn [poly_dual pC]. rewrite EF. destruct po; reflexivity. } rewrite E. split; [exact H|]. split; [auto|]. split; [auto|congruence]. }
  destruct (sorted_F_shape po F W EF) as (F' & Q1 & P & S1 & S2 & Q2 & Q3 & Q4 & Q5 & Q6). destruct H as (H1 & H2 & H3). destruct (H2 F EF) as [N SO].
  split; [|split; [|split]]. 4: auto. 2: { intros HC X Q. rewrite Q3 in Q. auto. } 2: { intros HF X Q. rewrite Q1 in Q. injection Q as <-. apply (rdc_perm' F); auto. }
  split; [|split]. intros X Q. rewrite Q3 in Q. rewrite Q4, Q1. destruct (H1 X Q) as [NX SX]. split; auto. intros _. apply SX. congruence. intros X Q. rewrite Q1 in Q. injection Q as <-. split. apply (nrm_perm _ F); auto. intros NC _. rewrite Q3 in NC. destruct (pFs po) eqn:E; auto. rewrite S2 by auto. auto.
  intros X Y QX QY. rewrite Q1 in QY. injection QY as <-. rewrite Q3 in QX. rewrite Q5, Q6. destruct (H3 X F QX EF) as [A B]. split; auto. intros G. apply (rdc_perm' F); auto.
Qed.
(** the canonical form *)
Definition canon (po : poly) : Prop := hon po /\ pk_is_canonical po = true.
Theorem chern3_hon : forall po i r S, repr po i r S -> hon po -> canon (poly_chernikova3 po).
Proof.
  intros po i r S H HO. unfold poly_chernikova3. destruct (chern_repr po i r S H) as (R1 & E1 & O). assert (H1 := hon_chern po (proj1 (proj1 H)) HO). set (p := poly_chernikova po) in *. clearbody p. destruct (pC p) as [C|] eqn:EC.
  2: { split; auto. unfold pk_is_canonical. rewrite EC. destruct O as [O|O]. unfold isbot in O. rewrite EC in O. destruct (pF p); auto. unfold minimal2 in O. rewrite EC in O. discriminate. }
  assert (M : minimal2 p = true). { destruct O as [O|O]; auto. unfold isbot in O. rewrite EC in O. discriminate. }
  destruct (gauss_C_spec p (proj1 (proj1 R1)) M) as (W1 & _ & _ & _ & M1). destruct (hon_gauss_C p (proj1 (proj1 R1)) M H1) as (H2 & C2).
  destruct (gauss_F_spec _ W1 M1) as (W2 & _ & _ & _ & M2). destruct (hon_gauss_F _ W1 M1 H2 C2) as (H3 & C3 & F3).
  assert (M3 := sorted_C_min _ W2). rewrite M2 in M3. destruct (sorted_C_spec _ W2) as (W3 & _ & _ & _ & _ & _). destruct (hon_sorted_C _ W2 H3) as (H4 & C4 & F4 & S4). specialize (C4 C3). specialize (F4 F3).
  destruct (sorted_F_spec _ W3 M3) as (W4 & _ & _ & _ & M4 & _). destruct (hon_sorted_F _ W3 H4) as (H5 & C5 & F5 & S5). specialize (C5 C4). specialize (F5 F4).
  assert (SC : pCs (poly_obtain_sorted_C (gauss_F (gauss_C p))) = true). { apply S4. clear - M2. unfold minimal2 in M2. destruct (pC _); discriminate. }
  assert (SF : pFs (poly_obtain_sorted_F (poly_obtain_sorted_C (gauss_F (gauss_C p)))) = true). { apply S5. clear - M3. unfold minimal2 in M3. destruct (pC _), (pF _); discriminate. }
  set (p3 := poly_obtain_sorted_C (gauss_F (gauss_C p))) in *. assert (SC' : pCs (poly_obtain_sorted_F p3) = true). { destruct (pF p3) as [F|] eqn:EF. destruct (sorted_F_shape p3 F W3 EF) as (F' & Q1 & P & S1 & S2 & Q2 & Q3 & Q4 & Q5 & Q6). congruence. unfold minimal2 in M3. rewrite EF in M3. destruct (pC p3); discriminate. }
  set (p4 := poly_obtain_sorted_F p3) in *. clearbody p4. clear - H5 C5 F5 SC' SF M4. split.
  - destruct H5 as (A & B & D). split; [|split]; cbn [set_gauss pC pF pCs pFs pconsgauss pgengauss]; auto.
  - unfold pk_is_canonical. cbn [set_gauss pC pF pCs pFs pconsgauss pgengauss]. unfold minimal2 in M4. destruct (pC p4), (pF p4); auto. rewrite SC', SF. auto.
Qed.
Lemma canon_matrices : forall po C F, canon po -> pC po = Some C -> pF po = Some F -> Forall nrm C /\ vsorted C /\ rdc C /\ Forall nrm F /\ vsorted F /\ rdc F.
Proof.
  intros po C F ((H1 & H2 & H3) & CA) EC EF. unfold pk_is_canonical in CA. rewrite EC, EF in CA. repeat (apply andb_prop in CA; destruct CA as [CA ?]). destruct (H1 C EC) as [A1 A2]. destruct (H2 F EF) as [B1 B2]. destruct (H3 C F EC EF) as [D1 D2]. split; auto. split. apply A2; auto; congruence. split; auto. split; auto. split; auto. apply B2; auto; congruence.
Qed.
Lemma cones_of_points : forall pa pb i r S A F B G, repr pa i r S -> repr pb i r S -> pC pa = Some A -> pF pa = Some F -> pC pb = Some B -> pF pb = Some G -> forall x, cone A x <-> cone B x.
Proof.
  assert (ONE : forall pa pb i r S A F B G, repr pa i r S -> repr pb i r S -> pC pa = Some A -> pF pa = Some F -> pC pb = Some B -> pF pb = Some G -> forall x, cone A x -> cone B x).
  { intros pa pb i r S A F B G ((W & P) & D1 & D2 & GA) ((W2 & P2) & D3 & D4 & GB) EA EF EB EG x X. apply (leq_cone pa B); auto. congruence. assert (PN : pn pa = pn pb) by (unfold pn, pdim; congruence). rewrite PN. apply (swf_C pb B); auto. intros y Y. apply GA in Y. apply GB in Y. unfold gamma in Y. apply (cK_C pb B EB) in Y. exact Y. apply (cK_C pa A EA); auto. }
  intros pa pb i r S A F B G RA RB EA EF EB EG x. split; [apply (ONE pa pb i r S A F B G)|apply (ONE pb pa i r S B G A F)]; auto.
Qed.
Theorem canon_eq : forall pa pb i r S A F B G, repr pa i r S -> repr pb i r S -> canon pa -> canon pb -> pC pa = Some A -> pF pa = Some F -> pC pb = Some B -> pF pb = Some G -> A = B /\ F = G.
Proof.
  intros pa pb i r S A F B G RA RB CA CB EA EF EB EG. destruct (canon_matrices pa A F CA EA EF) as (N1 & S1 & R1 & N2 & S2 & R2). destruct (canon_matrices pb B G CB EB EG) as (N3 & S3 & R3 & N4 & S4 & R4).
  assert (CC := cones_of_points pa pb i r S A F B G RA RB EA EF EB EG). assert (PN : pn pa = pn pb) by (destruct RA as (_ & X1 & X2 & _), RB as (_ & X3 & X4 & _); unfold pn, pdim; congruence). destruct RA as ((WA & _) & _). destruct RB as ((WB & _) & _). unfold swf in WA, WB. rewrite EA, EF in WA. rewrite EB, EG in WB. destruct WA as (MA & _). destruct WB as (MB & _). rewrite PN in MA.
  assert (MA' := mini_dual _ _ _ _ _ MA). assert (MB' := mini_dual _ _ _ _ _ MB).
  assert (CF : forall y, cone F y <-> cone G y). { intros y. split; intros Y. eapply (mini_dual_incl (pn pb) B G _ _ A F); eauto. intros x X; apply CC; auto. eapply (mini_dual_incl (pn pb) A F _ _ B G); eauto. intros x X; apply CC; auto. }
  assert (LA := proj1 (mini_lens _ _ _ _ _ MA)). assert (LF := proj1 (mini_lens _ _ _ _ _ MA')). split.
  - apply (sorted_unique (Datatypes.S (pn pb))); auto. eapply mini_nodup; eauto. eapply mini_nodup; eauto. eapply same_rows; [exact MA|exact MB|..]; auto. eapply same_rows; [exact MB|exact MA|..]; auto. intros x. symmetry. auto.
  - apply (sorted_unique (Datatypes.S (pn pb))); auto. eapply mini_nodup; eauto. eapply mini_nodup; eauto. eapply same_rows; [exact MA'|exact MB'|..]; auto. eapply same_rows; [exact MB'|exact MA'|..]; auto. intros x. symmetry. auto.
Qed.

(** Facts on the canonical form: the Gauss pivot on a minimal matrix keeps the cone, the saturations and the
    minimality, and gives reduced equations. *)
From Coq Require Import ZArith Bool List Lia Reals Lra Permutation.
Import ListNotations.
From Verif Require Import PkCone PkVec PkCherni PkCherniFacts PkRank PkSimplify PkSimplifyThm PkSimplifyEnd PkSpec PkMinimize PkPoly PkPolyFacts PkPolyLeq PropPkMinimize PkCanon.
Open Scope nat_scope.

Lemma F2_nth : forall (A B : Type) (P : A -> B -> Prop) l l' d d', Forall2 P l l' -> forall i, i < length l -> P (nth i l d) (nth i l' d').
Proof. induction 1; intros i Hi; simpl in Hi. lia. destruct i; simpl; auto. apply IHForall2. lia. Qed.
Lemma mini_change : forall n E I F a b E' I', mini n (E ++ I) F a b -> Forall (st 0) E -> Forall (st 1) I -> Forall (lenS n) (E' ++ I') -> Forall (st 0) E' -> Forall (st 1) I' -> length E' = length E -> indep n (tls E') ->
  (forall x, cone (E' ++ I') x <-> cone (E ++ I) x) -> Forall2 (fun i i' : pvec => forall f, In f F -> (dt n (rv (tl f)) (rv (tl i)) = 0 <-> dt n (rv (tl f)) (rv (tl i')) = 0)%R) I I' -> mini n (E' ++ I') F a b.
Proof.
  intros n E I F a b E' I' (E0 & I0 & L & R & EC & EF & L1 & L2 & FL & S0 & S1 & D1 & D2 & IE & IL) SE SI FL' SE' SI' LE IE' CC F2.
  assert (S0E := proj1 (proj1 (Forall_app _ _ _) S0)). assert (S0L := proj2 (proj1 (Forall_app _ _ _) S0)). assert (S1I := proj1 (proj1 (Forall_app _ _ _) S1)). assert (S1R := proj2 (proj1 (Forall_app _ _ _) S1)).
  assert (X : E0 = E /\ I0 = I). { destruct (st_split E0 I0 S0E S1I) as [Q1 Q2]. destruct (st_split E I SE SI) as [Q3 Q4]. rewrite <- EC in Q1, Q2. split; congruence. } destruct X as [-> ->].
  apply Forall_app in FL. destruct FL as [FC FF].
  assert (CI : forall x, inC n (map kc (E ++ I)) x <-> inC n (map kc (E' ++ I')) x) by (intros x; rewrite <- (cone_inC n _ x FC), <- (cone_inC n _ x FL'); symmetry; auto).
  assert (LI : length I' = length I) by (apply (Forall2_len _ _ _ _ _ F2)).
  assert (NT : forall l k, nth k (tls l) [] = tl (nth k l [])) by (intros l k; unfold tls; change (@nil Z) with (tl (@nil Z)) at 1; rewrite (map_nth (fun q : pvec => tl q)); auto).
  assert (LT : forall l, length (tls l) = length l) by (intros; unfold tls; apply map_length).
  assert (SAT : forall k f, k < length I -> In f F -> (sat n rv (kc f) (tl (nth k I [])) <-> sat n rv (kc f) (tl (nth k I' [])))) by (intros k f K J; unfold sat, kc; cbn [fst]; apply (F2_nth pvec pvec _ _ _ [] [] F2 k K f J)).
  destruct D2 as [G2 IR RY ND].
  assert (DIFF : forall k l, k < length I -> l < length I -> k <> l -> exists c, In c (map kc F) /\ sat n rv c (tl (nth k I' [])) /\ ~ sat n rv c (tl (nth l I' []))).
  { intros k l K K' NE. destruct (IR (tl (nth k I [])) (tl (nth l I []))) as (c & Ic & Sc & Nc). rewrite <- NT; apply nth_In; rewrite LT; auto. rewrite <- NT; apply nth_In; rewrite LT; auto. rewrite <- !NT. intros Q. apply NE. apply (proj1 (NoDup_nth _ []) ND); auto; rewrite LT; auto.
    exists c. split; auto. apply in_map_iff in Ic. destruct Ic as (f & <- & If). rewrite <- !SAT; auto. }
  exists E', I', L, R. split; auto. split; auto. split. congruence. split; auto. split. apply Forall_app; auto. split. apply Forall_app; auto. split. apply Forall_app; auto. split. { apply dd_change with (cs := map kc (E ++ I)); auto. }
  split; [|split; auto]. constructor.
  - assert (Z := dual_gen n (tls L) (tls R) (tls E') (tls I')). rewrite (gcs_kc L R S0L S1R), <- EF in Z. apply Z. unfold tls. rewrite <- map_app. apply (tls_len n (E' ++ I')); auto. intros x. rewrite <- (cnE_kc n E' I' x SE' SI'). rewrite <- CI. apply (dd_gen _ _ _ _ _ D1).
  - intros r r' Ir Ir' NE. destruct (In_nth _ _ [] Ir) as (k & K & <-). destruct (In_nth _ _ [] Ir') as (l & K' & <-). rewrite LT, LI in K, K'. rewrite !NT in *. apply DIFF; auto. congruence.
  - intros r Ir. destruct (In_nth _ _ [] Ir) as (k & K & <-). rewrite LT, LI in K. rewrite !NT in *. destruct (RY (tl (nth k I []))) as (c & Ic & Nc). rewrite <- NT; apply nth_In; rewrite LT; auto. exists c. split; auto. apply in_map_iff in Ic. destruct Ic as (f & <- & If). rewrite <- SAT; auto.
  - apply (NoDup_nth (tls I') []). intros k l K K' Q. rewrite LT, LI in K, K'. rewrite !NT in Q. destruct (Nat.eq_dec k l) as [|NE]; auto. exfalso. destruct (DIFF k l K K' NE) as (c & _ & A & B). rewrite Q in A. auto.
Qed.
Lemma map_fst_nil : forall (l : list pvec), map (fun r : row => fst r) (map (fun q => (q, @nil bool)) l) = l. Proof. intros l. rewrite map_map. apply map_id. Qed.
Lemma cone_split : forall n E I x, Forall (lenS n) (E ++ I) -> Forall (st 0) E -> Forall (st 1) I -> (cone (E ++ I) x <-> (forall e, In e E -> dt n (rv (tl e)) x = 0%R) /\ (forall i, In i I -> (0 <= dt n (rv (tl i)) x)%R)).
Proof.
  intros n E I x FL SE SI. rewrite (cone_inC n _ x FL), (cnE_kc n E I x SE SI). unfold cnE, tls. split; intros [A B]; split.
  intros e J. apply A. apply (in_map (fun q : pvec => tl q)); auto. intros e J. apply B. apply (in_map (fun q : pvec => tl q)); auto.
  intros e J. apply in_map_iff in J. destruct J as (q & <- & J). auto. intros e J. apply in_map_iff in J. destruct J as (q & <- & J). auto.
Qed.
Theorem gauss_mini : forall n C F a b, mini n C F a b -> let C' := matrix_gauss (S n) a C in
  mini n C' F a b /\ satmat C' F = satmat C F /\ satmat F C' = satmat F C /\ (forall x, cone C' x <-> cone C x) /\ rdc C'.
Proof.
  intros n C F a b M. assert (M0 := M). destruct M as (E & I & L & R & EC & EF & L1 & L2 & FL & S0 & S1 & D1 & D2 & IE & IL). apply Forall_app in S0, S1. destruct S0 as [SE SL], S1 as [SI SR]. apply Forall_app in FL. destruct FL as [FC FF].
  unfold matrix_gauss. replace (S n - 1) with n by lia. set (e := fun q : pvec => (q, @nil bool)). rewrite EC, map_app. set (Er := map e E). set (Ir := map e I).
  assert (FEr : Forall (fun r : row => length (fst r) = S n /\ zn 0 (fst r) = 0%Z /\ snd r = []) Er). { apply Forall_forall. intros r J. apply in_map_iff in J. destruct J as (q & <- & J). rewrite Forall_forall in FC, SE. split. apply FC. rewrite EC, in_app_iff; auto. split; auto. apply SE; auto. }
  assert (FIr : Forall (fun r : row => length (fst r) = S n /\ zn 0 (fst r) = 1%Z) Ir). { apply Forall_forall. intros r J. apply in_map_iff in J. destruct J as (q & <- & J). rewrite Forall_forall in FC, SI. split. apply FC. rewrite EC, in_app_iff; auto. apply SI; auto. }
  destruct (gauss_spec n n [] a [] [] Er Ir) as (E1 & Zr & intp & G1 & G2 & (G31 & G32 & G33 & G34 & G35) & G4 & G5); auto.
  { split; auto. split; auto. split. intros k K. simpl in K; lia. split. intros k l _ K. simpl in K; lia. intros col r J K. rewrite Forall_forall in FEr. destruct (FEr r J) as (Q & _). unfold zn. apply nth_overflow. lia. }
  { simpl. unfold Er. rewrite map_length; auto. }
  cbn [app length] in G1, G4. match goal with |- context[gauss n a 0 [] ?l] => change l with (@app row Er Ir) end. rewrite G1. clear G1.
  assert (TR : forall l, map tr (map e l) = tls l) by (intros l; unfold tls; rewrite map_map; reflexivity).
  assert (E1F : forall r, In r E1 -> length (fst r) = S n /\ zn 0 (fst r) = 0%Z /\ snd r = []) by (intros r J; rewrite Forall_forall in G32; apply G32, in_app_iff; auto).
  assert (ZZ : Zr = []).
  { assert (ST : length (tls E) <= length (map tr E1)). { apply (steinitz n); auto. intros t J. unfold tls in J. apply in_map_iff in J. destruct J as (q & <- & J). apply farkas_lists.
      rewrite app_nil_r. apply Forall_forall. intros t K. apply in_map_iff in K. destruct K as (r & <- & K). apply len_tl. apply E1F; auto.
      intros x [X _]. assert (Y : eq0 n Er x). { apply G4. intros r K. apply in_app_iff in K. destruct K as [K|K]. apply X. apply in_map; auto. rewrite dt_sym. apply dt_zero. intros i Hi. unfold rv, tr. rewrite <- zn_tl. rewrite (G35 (S i) r K); auto. lia. } specialize (Y (e q)). unfold tr, e in Y. simpl in Y. rewrite Y. apply Rle_refl. apply (in_map e); auto. }
    rewrite map_length in ST. unfold tls in ST. rewrite map_length in ST. destruct Zr as [|z Zr]; auto. rewrite app_length in G2. simpl in G2. lia. }
  subst Zr. cbn [app] in *. rewrite app_nil_r in *.
  assert (PV : piv n intp E1). { split; auto. intros k K. destruct (G33 k K) as (X1 & X2 & X3). split; auto. }
  assert (LD1 : ld intp E1). { apply G5. split; intros k; simpl; lia. }
  assert (RD1 : redr (length E1) intp E1 Ir) by (intros k i K1 K2; lia).
  assert (FK : Forall (fun r : row => length (fst r) = S n) (E1 ++ Ir)). { apply Forall_app. split. apply Forall_forall. intros r J. apply E1F; auto. eapply Forall_impl; [|exact FIr]. simpl. tauto. }
  destruct (backsub_full n intp (length E1) E1 Ir FK PV LD1 RD1 (le_n _)) as (E3 & K3 & -> & (B1 & B2 & B3 & B4) & L3 & PV3 & LD3 & RD3).
  rewrite map_app. pose (E' := map fst E3 : list pvec). pose (I' := map fst K3 : list pvec). match goal with |- context[@app ?T ?u ?v] => change (@app T u v) with (@app pvec E' I') end.
  assert (OE : forall r, In r E3 -> length (fst r) = S n /\ zn 0 (fst r) = 0%Z). { intros r J. destruct (In_nth _ _ row0 J) as (k & K & <-). rewrite L3 in K. destruct (F2_nth _ _ _ _ _ row0 row0 B1 k K) as (_ & X2 & X3). split; auto. rewrite X2. apply E1F, nth_In; auto. }
  assert (LK : length K3 = length Ir) by (apply (Forall2_len _ _ _ _ _ B2)).
  assert (OK : forall r, In r K3 -> length (fst r) = S n /\ zn 0 (fst r) = 1%Z). { intros r J. destruct (In_nth _ _ row0 J) as (k & K & <-). rewrite LK in K. destruct (F2_nth _ _ _ _ _ row0 row0 B2 k K) as (_ & X2 & X3). split; auto. rewrite X2. rewrite Forall_forall in FIr. apply FIr, nth_In; auto. }
  assert (SE' : Forall (st 0) E') by (apply Forall_forall; intros q J; apply in_map_iff in J; destruct J as (r & <- & J); apply OE; auto).
  assert (SI' : Forall (st 1) I') by (apply Forall_forall; intros q J; apply in_map_iff in J; destruct J as (r & <- & J); apply OK; auto).
  assert (FL' : Forall (lenS n) (E' ++ I')) by (apply Forall_forall; intros q J; apply in_app_iff in J; destruct J as [J|J]; apply in_map_iff in J; destruct J as (r & <- & J); [apply OE|apply OK]; auto).
  assert (FLC : Forall (lenS n) (E ++ I)) by (rewrite <- EC; auto).
  assert (EE : forall x, eq0 n Er x <-> eq0 n E3 x) by (intros x; rewrite G4; auto).
  assert (EQ : forall x, (forall q, In q E -> dt n (rv (tl q)) x = 0%R) <-> eq0 n Er x). { intros x. split. intros H r J. apply in_map_iff in J. destruct J as (q & <- & J). apply H; auto. intros H q J. apply (H (e q)). apply (in_map e); auto. }
  assert (EQ3 : forall x, (forall q, In q E' -> dt n (rv (tl q)) x = 0%R) <-> eq0 n E3 x). { intros x. split. intros H r J. apply H. apply in_map; auto. intros H q J. apply in_map_iff in J. destruct J as (r & <- & J). apply H; auto. }
  assert (PR : forall x, eq0 n Er x -> Forall2 (fun i i' : pvec => exists u, (0 < u)%R /\ dt n (rv (tl i')) x = (u * dt n (rv (tl i)) x)%R) I I'). { intros x X. apply G4 in X. apply B4 in X. unfold Ir in X. unfold I'. clear - X. remember (map e I) as Q. revert I HeqQ. induction X as [|r r' l l' H F IH]; intros [|i I] Q; simpl in Q; try discriminate. constructor. injection Q as -> ->. simpl. constructor; auto. }
  assert (CC : forall x, cone (E' ++ I') x <-> cone (E ++ I) x).
  { intros x. rewrite !(cone_split n) by auto. rewrite EQ, EQ3, <- EE. split; intros [A B]; split; auto; intros i J; destruct (In_nth _ _ [] J) as (k & K & <-); specialize (PR x A); assert (LI := Forall2_len _ _ _ _ _ PR).
    - destruct (F2_nth pvec pvec _ _ _ [] [] PR k K) as (u & U & Q). assert (K1 : k < length I') by (eapply Nat.lt_le_trans; [exact K|]; apply Nat.eq_le_incl; (exact LI || symmetry; exact LI)). assert (H := B _ (nth_In _ [] K1)). assert (H2 : (0 <= u * dt n (rv (tl (@nth pvec k I []))) x)%R). { eapply Rle_trans; [exact H|]. right. exact Q. } change (0 <= dt n (rv (tl (@nth pvec k I []))) x)%R. nra.
    - assert (K1 : k < length I) by (eapply Nat.lt_le_trans; [exact K|]; apply Nat.eq_le_incl; (exact LI || symmetry; exact LI)). clear K. rename K1 into K. destruct (F2_nth pvec pvec _ _ _ [] [] PR k K) as (u & U & Q). assert (H := B (nth k I []) (nth_In _ _ K)). eapply Rle_trans; [|right; symmetry; exact Q]. apply Rmult_le_pos; [lra|exact H]. }
  assert (FX : forall f, In f F -> cone (E ++ I) (rv (tl f))). { intros f J. rewrite <- EC. apply (mini_points n C F a b M0). apply in_gen; auto. }
  assert (FX0 : forall f, In f F -> eq0 n Er (rv (tl f))). { intros f J. apply EQ. apply (cone_split n E I); auto. }
  assert (F2 : Forall2 (fun i i' : pvec => forall f, In f F -> (dt n (rv (tl f)) (rv (tl i)) = 0 <-> dt n (rv (tl f)) (rv (tl i')) = 0)%R) I I').
  { assert (LI : length I' = length I). { eapply eq_trans; [apply map_length|]. eapply eq_trans; [exact LK|]. apply map_length. }
    assert (NX : forall k, k < length I -> forall f, In f F -> (dt n (rv (tl f)) (rv (tl (@nth pvec k I []))) = 0 <-> dt n (rv (tl f)) (rv (tl (@nth pvec k I' []))) = 0)%R). { intros k K f J. destruct (F2_nth pvec pvec _ _ _ [] [] (PR _ (FX0 f J)) k K) as (u & U & Q). rewrite !(dt_sym n (rv (tl f))). rewrite Q. split. intros ->; ring. intros H. apply Rmult_integral in H. destruct H; auto. lra. }
    clear - NX LI. clearbody I'. revert I' LI NX. induction I as [|i I IH]; intros [|i' I'] LI NX; simpl in LI; try lia; constructor. apply (NX 0). simpl; lia. apply IH. lia. intros k K. apply (NX (S k)). simpl; lia. }
  assert (LE : length E' = length E). { eapply eq_trans; [apply map_length|]. eapply eq_trans; [exact L3|]. lia. }
  assert (M' : mini n (E' ++ I') F a b). { apply mini_change with E I; auto. rewrite <- EC; auto. unfold tls, E'. rewrite map_map. apply (piv_indep n intp E3); auto. }
  assert (SM : satmat (E' ++ I') F = satmat (E ++ I) F).
  { assert (SB : forall c c' : pvec, lenS n c -> lenS n c' -> (forall f, In f F -> (dt n (rv (tl c)) (rv (tl f)) = 0 <-> dt n (rv (tl c')) (rv (tl f)) = 0)%R) -> satbits (tls F) (tl c') = satbits (tls F) (tl c)).
    { intros c c' Lc Lc' H. apply satbits_eq. intros g J. unfold tls in J. apply in_map_iff in J. destruct J as (f & <- & J). rewrite Forall_forall in FF. assert (Lf := FF f J). specialize (H f J). rewrite <- !(prod_dtn n) in H by auto. unfold vector_product in H. rewrite !(prod_sym _ (tl f)). split; intros Q; apply eq_IZR, H; rewrite Q; auto. }
    assert (FA := FL'). assert (FB := FLC). apply Forall_app in FA, FB. destruct FA as [FA1 FA2], FB as [FB1 FB2]. rewrite Forall_forall in FA1, FA2, FB1, FB2.
    unfold satmat. rewrite !map_app. change (map (fun b0 : pvec => tl b0) F) with (tls F). f_equal.
    - assert (ZE : forall A : list pvec, (forall q, In q A -> satbits (tls F) (tl q) = repeat false (length (tls F))) -> map (fun a0 : pvec => satbits (tls F) (tl a0)) A = repeat (repeat false (length (tls F))) (length A)). { induction A as [|q A IH]; intros H; simpl; auto. rewrite H by (left; auto). f_equal. apply IH. intros; apply H; right; auto. }
      rewrite !ZE, LE; auto; intros q J; apply satbits_repeat; intros g K; unfold tls in K; apply in_map_iff in K; destruct K as (f & <- & K); apply eq_IZR; rewrite prod_sym; change (prod_t (tl f) (tl q)) with (vector_product f q); rewrite (prod_dtn n); auto; try (rewrite Forall_forall in FF; apply FF; auto).
      apply (proj2 (EQ _)); auto. apply (proj2 (EQ3 _)); auto. apply EE; auto.
    - clear - F2 SB FA2 FB2. revert FA2 FB2. induction F2 as [|i i' I I' H F2 IH]; intros FA2 FB2; simpl; auto. f_equal. apply SB. apply FB2; left; auto. apply FA2; left; auto. intros f J. rewrite !(dt_sym n _ (rv (tl f))). apply H; auto. apply IH; intros; [apply FA2|apply FB2]; right; auto. }
  split; auto. split; auto. split; [|split; auto].
  - rewrite <- (transpose_satmat (E' ++ I') F), <- (transpose_satmat (E ++ I) F), SM. auto.
  - unfold E', I'. rewrite <- map_app. apply (redr_rdc n intp); auto. apply Forall_forall. intros r J. destruct (OK r J) as [_ ->]. discriminate.
Qed.

(** ** the canonical form represents the same polyhedron *)
Lemma gauss_C_spec : forall po, swf po -> minimal2 po = true -> let po' := gauss_C po in
  swf po' /\ pint po' = pint po /\ preal po' = preal po /\ (forall x, cK po' x <-> cK po x) /\ minimal2 po' = true.
Proof.
  intros po H M. unfold gauss_C. destruct (pconsgauss po). { cbv zeta. split; [exact H|]. split; [reflexivity|]. split; [reflexivity|]. split; [intros x; apply iff_refl|exact M]. } unfold minimal2 in M. destruct (pC po) as [C|] eqn:EC; try discriminate. destruct (pF po) as [F|] eqn:EF; try discriminate.
  assert (W := H). unfold swf in W. rewrite EC, EF in W. destruct W as (MI & A & B & D). destruct (gauss_mini _ _ _ _ _ MI) as (G1 & G2 & G3 & G4 & _). replace (S (pn po)) with (pcols po) in * by (unfold pcols, pn; lia).
  cbv zeta. split. { unfold swf. cbn [pC pF psatC psatF pnbeq pnbline]. split. exact G1. split. intros s E. rewrite G3. auto. split. intros s E. rewrite G2. auto. auto. }
  split; auto. split; auto. split. intros x. unfold cK. cbn [pC]. rewrite EC. apply G4. auto.
Qed.
Lemma gauss_F_spec : forall po, swf po -> minimal2 po = true -> let po' := gauss_F po in
  swf po' /\ pint po' = pint po /\ preal po' = preal po /\ (forall x, cK po' x <-> cK po x) /\ minimal2 po' = true.
Proof.
  intros po H M. unfold gauss_F. destruct (pgengauss po). { cbv zeta. split; [exact H|]. split; [reflexivity|]. split; [reflexivity|]. split; [intros x; apply iff_refl|exact M]. } unfold minimal2 in M. destruct (pC po) as [C|] eqn:EC; try discriminate. destruct (pF po) as [F|] eqn:EF; try discriminate.
  assert (W := H). unfold swf in W. rewrite EC, EF in W. destruct W as (MI & A & B & D). apply mini_dual in MI. destruct (gauss_mini _ _ _ _ _ MI) as (G1 & G2 & G3 & G4 & _). replace (S (pn po)) with (pcols po) in * by (unfold pcols, pn; lia).
  cbv zeta. split. { unfold swf. cbn [pC pF psatC psatF pnbeq pnbline]. split. apply mini_dual. exact G1. split. intros s E. rewrite G2. auto. split. intros s E. rewrite G3. auto. auto. }
  split; auto. split; auto. split. intros x. unfold cK. cbn [pC]. rewrite EC. tauto. auto.
Qed.
Lemma sorted_C_min : forall po, swf po -> minimal2 (poly_obtain_sorted_C po) = minimal2 po.
Proof. intros po H. destruct (sorted_C_spec po H) as (_ & _ & _ & _ & EF & EC). unfold minimal2. rewrite EF. destruct (pC (poly_obtain_sorted_C po)), (pC po); simpl in EC; try discriminate; auto. Qed.
Lemma sorted_F_spec : forall po, swf po -> minimal2 po = true -> let po' := poly_obtain_sorted_F po in
  swf po' /\ pint po' = pint po /\ preal po' = preal po /\ (forall x, cK po' x <-> cK po x) /\ minimal2 po' = true /\ pC po' = pC po.
Proof.
  intros po H M. unfold poly_obtain_sorted_F. assert (H' := swf_dual po H). assert (M' : minimal2 (poly_dual po) = true) by (rewrite min_dual; auto). destruct (sorted_C_spec _ H') as (W & D1 & D2 & K & EF & EC). assert (MM := sorted_C_min _ H'). rewrite M' in MM. set (q := poly_obtain_sorted_C (poly_dual po)) in *.
  cbv zeta. split. apply swf_dual; auto. split. exact D1. split. exact D2. assert (E : pC (poly_dual q) = pC po) by exact EF. split. intros x. unfold cK. rewrite E. unfold minimal2 in M. destruct (pC po); try discriminate. tauto. split; auto. rewrite min_dual; auto.
Qed.
Lemma set_gauss_swf : forall po, swf po -> swf (set_gauss po). Proof. auto. Qed.
Lemma minimal_bot : forall po, minimal2 po = true -> isbot po = false. Proof. intros po. unfold minimal2, isbot. destruct (pC po), (pF po); auto; discriminate. Qed.
Lemma min_repr : forall po po' i r S, repr po i r S -> minimal2 po = true -> swf po' -> pint po' = pint po -> preal po' = preal po -> (forall x, cK po' x <-> cK po x) -> minimal2 po' = true -> repr po' i r S.
Proof.
  intros po po' i r S ((W & P) & <- & <- & G) M W' D1 D2 K M'. split. split; auto. right. destruct P as [B|[P1 P2]]. rewrite (minimal_bot po M) in B; discriminate. split. intros x X. apply P1, K; auto. intros _. destruct P2 as (x & X1 & X2). unfold minimal2 in M. destruct (pC po), (pF po); discriminate. exists x. rewrite K. auto.
  split; auto. split; auto. intros x. rewrite <- G. unfold gamma. apply K.
Qed.
Lemma min_set : forall po, minimal2 (set_gauss po) = minimal2 po. Proof. reflexivity. Qed.
Lemma repr_set : forall po i r S, repr po i r S -> repr (set_gauss po) i r S. Proof. intros po i r S H. exact H. Qed.
Theorem chern3_repr : forall po i r S, repr po i r S -> let po' := poly_chernikova3 po in repr po' i r S /\ ev po po' /\ (isbot po' = true \/ minimal2 po' = true).
Proof.
  intros po i r S H. cbv zeta. unfold poly_chernikova3. destruct (chern_repr po i r S H) as (R1 & E1 & O). set (p := poly_chernikova po) in *. clearbody p. destruct (pC p) as [C|] eqn:EC; auto.
  assert (M : minimal2 p = true). { destruct O as [O|O]; auto. unfold isbot in O. rewrite EC in O. discriminate. }
  destruct (gauss_C_spec p (proj1 (proj1 R1)) M) as (W1 & A1 & B1 & K1 & M1). assert (R2 := min_repr p _ i r S R1 M W1 A1 B1 K1 M1).
  destruct (gauss_F_spec _ W1 M1) as (W2 & A2 & B2 & K2 & M2). assert (R3 := min_repr _ _ i r S R2 M1 W2 A2 B2 K2 M2).
  destruct (sorted_C_spec _ W2) as (W3 & A3 & B3 & K3 & _ & _). assert (M3 := sorted_C_min _ W2). rewrite M2 in M3. assert (R4 := min_repr _ _ i r S R3 M2 W3 A3 B3 K3 M3).
  destruct (sorted_F_spec _ W3 M3) as (W4 & A4 & B4 & K4 & M4 & _). assert (R5 := min_repr _ _ i r S R4 M3 W4 A4 B4 K4 M4).
  split. apply repr_set; exact R5. rewrite min_set, M4. unfold ev. rewrite min_set, M4. split; [right; left|right]; reflexivity.
Qed.

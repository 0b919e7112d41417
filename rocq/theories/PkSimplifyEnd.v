(** The simplification keeps the set of points and leaves a minimal system: conclusion. *)
From Coq Require Import ZArith Bool List Lia Reals Lra Permutation.
Import ListNotations.
From Verif Require Import PkCone PkVec PkCherni PkCherniFacts PkRank PkCherniRay PkFarkas PkSimplify PkSimplifyFacts PkSimplifyThm.
Open Scope nat_scope.

Definition satbits (G : list (list Z)) (t : list Z) : list bool := map (fun g => negb (prod_t t g =? 0)%Z) G.
(** the generators seen as constraints on the constraints *)
Definition gcs (L R : list (list Z)) : list kcon := map (fun l => (rv l, true)) L ++ map (fun r => (rv r, false)) R.
Definition cnE (n : nat) (E I : list (list Z)) (x : vec) : Prop := (forall e, In e E -> dt n (rv e) x = 0%R) /\ (forall i, In i I -> (0 <= dt n (rv i) x)%R).
Lemma farkas_lists : forall n E I y, Forall (fun t : list Z => length t = n) (E ++ I) -> (forall x, cnE n E I x -> (0 <= dt n y x)%R) -> gen n rv E I y.
Proof.
  intros n E I y F V. set (con := map (fun t => 0%Z :: t) E ++ map (fun t => 1%Z :: t) I : list pvec).
  assert (EE : eqs con = E). { unfold eqs, con. rewrite filter_app, map_app. assert (A : forall l, map (fun c : pvec => tl c) (filter (fun c => (zn 0 c =? 0)%Z) (map (fun t => 0%Z :: t) l)) = l) by (induction l; simpl; auto; f_equal; auto). assert (B : forall l : list (list Z), filter (fun c => (zn 0 c =? 0)%Z) (map (fun t => 1%Z :: t) l) = []) by (induction l; simpl; auto). rewrite A, B. apply app_nil_r. }
  assert (EI : ineqs con = I). { unfold ineqs, con. rewrite filter_app, map_app. assert (A : forall l, map (fun c : pvec => tl c) (filter (fun c => negb (zn 0 c =? 0)%Z) (map (fun t => 1%Z :: t) l)) = l) by (induction l; simpl; auto; f_equal; auto). assert (B : forall l : list (list Z), filter (fun c => negb (zn 0 c =? 0)%Z) (map (fun t => 0%Z :: t) l) = []) by (induction l; simpl; auto). rewrite A, B. auto. }
  rewrite <- EE, <- EI. rewrite Forall_forall in F. apply farkas.
  - apply Forall_forall. intros c H. unfold con in H. apply in_app_iff in H. destruct H as [H|H]; apply in_map_iff in H; destruct H as (t & <- & H); simpl; f_equal; apply F, in_app_iff; auto.
  - intros x H. apply V. split. intros e Ie. assert (K := H (kc (0%Z :: e))). apply K. unfold con. rewrite map_app. apply in_app_iff. left. apply in_map, in_map; auto. intros i Ii. assert (K := H (kc (1%Z :: i))). apply K. unfold con. rewrite map_app. apply in_app_iff. right. apply in_map, in_map; auto.
Qed.
Lemma dual_gen : forall n L R E I, Forall (fun t : list Z => length t = n) (E ++ I) -> (forall x, cnE n E I x <-> gen n rv L R x) -> forall y, inC n (gcs L R) y <-> gen n rv E I y.
Proof.
  intros n L R E I F D y. split.
  - intros H. apply farkas_lists; auto. intros x Hx. apply D in Hx. assert (K : holds n (y, false) x). { apply (gen_holds n rv (y, false) L R x); auto. intros l Il. cbn [fst]. rewrite dt_sym. assert (K := H (rv l, true)). apply K. unfold gcs. apply in_app_iff. left. apply (in_map (fun l => (rv l, true))); auto. intros r Ir. unfold holds. cbn [fst snd]. rewrite dt_sym. assert (K := H (rv r, false)). apply K. unfold gcs. apply in_app_iff. right. apply (in_map (fun r => (rv r, false))); auto. } exact K.
  - intros G c Ic. unfold gcs in Ic. apply in_app_iff in Ic.
    assert (GX : forall x, cnE n E I x -> (0 <= dt n x y)%R). { intros x [H1 H2]. assert (K : holds n (x, false) y). { apply (gen_holds n rv (x, false) E I y); auto. intros l Il. cbn [fst]. rewrite dt_sym; auto. intros r Ir. unfold holds. cbn [fst snd]. rewrite dt_sym; auto. } exact K. }
    destruct Ic as [Ic|Ic]; apply in_map_iff in Ic; destruct Ic as (g & <- & Ig); unfold holds; cbn [fst snd].
    + assert (A := GX (lin2 1 (rv g) 0 (rv g))). assert (B := GX (lin2 (-1) (rv g) 0 (rv g))). rewrite dt_sym in A, B. rewrite dt_lin in A, B. rewrite (dt_sym n y) in A, B. assert (X : forall k, cnE n E I (lin2 k (rv g) 0 (rv g))) by (intros k; apply D, gen_line; auto). specialize (A (X _)). specialize (B (X _)). lra.
    + apply GX, D, gen_ray; auto.
Qed.
Lemma gcs_in : forall L R c, In c (gcs L R) -> exists g, In g (L ++ R) /\ fst c = rv g.
Proof. intros L R c I. unfold gcs in I. apply in_app_iff in I. destruct I as [I|I]; apply in_map_iff in I; destruct I as (g & <- & I); exists g; rewrite in_app_iff; auto. Qed.
Lemma gcs_has : forall L R g, In g (L ++ R) -> exists c, In c (gcs L R) /\ fst c = rv g.
Proof. intros L R g I. apply in_app_iff in I. unfold gcs. destruct I as [I|I]; [exists (rv g, true)|exists (rv g, false)]; split; auto; apply in_app_iff; [left; apply (in_map (fun l => (rv l, true))); auto|right; apply (in_map (fun l => (rv l, false))); auto]. Qed.
Lemma sat_g : forall n g t c, length g = n -> length t = n -> fst c = rv g -> (sat n rv c t <-> prod_t t g = 0%Z).
Proof. intros n g t c LG LT E. unfold sat. rewrite E. rewrite dt_sym. rewrite <- LT. rewrite <- prod_dt by congruence. split. apply eq_IZR. intros ->; auto. Qed.
(** in terms of saturation rows *)
Lemma satbits_nth : forall G t j, nth j (satbits G t) false = (Nat.ltb j (length G) && negb (prod_t t (nth j G []) =? 0)%Z)%bool.
Proof. intros G t j. unfold satbits. destruct (Nat.ltb_spec j (length G)) as [L|L]. rewrite (nth_indep _ false (negb (prod_t t [] =? 0)%Z)) by (rewrite map_length; auto). rewrite (map_nth (fun g => negb (prod_t t g =? 0)%Z)). auto. rewrite nth_overflow; auto. rewrite map_length; auto. Qed.
Lemma bsub_sat : forall G t t', bsub (satbits G t') (satbits G t) <-> forall g, In g G -> prod_t t g = 0%Z -> prod_t t' g = 0%Z.
Proof.
  intros G t t'. split.
  - intros B g I Z. apply (In_nth _ _ []) in I. destruct I as (j & J & <-). specialize (B j). rewrite !satbits_nth in B. apply Nat.ltb_lt in J. rewrite J, Z in B. simpl in B. destruct (Z.eqb_spec (prod_t t' (nth j G [])) 0) as [E|E]; auto. simpl in B. specialize (B eq_refl). discriminate.
  - intros H j. rewrite !satbits_nth. destruct (Nat.ltb_spec j (length G)) as [J|J]; simpl; auto. intros N. apply negb_true_iff in N. apply negb_true_iff. apply Z.eqb_neq. apply Z.eqb_neq in N. intros Z. apply N. apply H; auto. apply nth_In; auto.
Qed.
Lemma satbits_eq : forall G t t', satbits G t = satbits G t' <-> forall g, In g G -> (prod_t t g = 0%Z <-> prod_t t' g = 0%Z).
Proof.
  intros G t t'. split.
  - intros E g I. split; [apply (proj1 (bsub_sat G t t'))|apply (proj1 (bsub_sat G t' t))]; auto; rewrite E; intros j; auto.
  - intros H. unfold satbits. apply map_ext_in. intros g I. f_equal. specialize (H g I). destruct (Z.eqb_spec (prod_t t g) 0), (Z.eqb_spec (prod_t t' g) 0); tauto.
Qed.
Lemma nbsat_filter : forall G t, nbsat (satbits G t) = Z.of_nat (length (filter (fun g => (prod_t t g =? 0)%Z) G)).
Proof. intros G t. unfold nbsat, satbits. f_equal. induction G as [|g G IH]; simpl; auto. destruct (prod_t t g =? 0)%Z; simpl; auto. Qed.
Lemma satbits_repeat : forall G t, (forall g, In g G -> prod_t t g = 0%Z) -> satbits G t = repeat false (length G).
Proof. induction G as [|g G IH]; simpl; intros t H; auto. rewrite H by auto. simpl. f_equal. apply IH; auto. Qed.
Lemma satbits_allzero : forall G t, forallb negb (satbits G t) = true -> forall g, In g G -> prod_t t g = 0%Z.
Proof. intros G t H g I. rewrite forallb_forall in H. specialize (H (negb (prod_t t g =? 0)%Z)). unfold satbits in H. specialize (H (in_map (fun g => negb (prod_t t g =? 0)%Z) G g I)). rewrite negb_involutive in H. apply Z.eqb_eq; auto. Qed.
(** constraints saturated by few generators *)
Lemma cover_few : forall n L R E I K, Forall (fun t : list Z => length t = n) (L ++ R) -> Forall (fun t : list Z => length t = n) (E ++ I) -> (forall y, inC n (gcs L R) y <-> gen n rv E I y) ->
  (forall i, In i I -> exists g, In g (L ++ R) /\ prod_t i g <> 0%Z) -> (forall i, In i I -> In i K \/ length (filter (fun g => (prod_t i g =? 0)%Z) (L ++ R)) + length E + 1 < n) ->
  forall i, In i I -> exists k, In k K /\ forall g, In g (L ++ R) -> prod_t i g = 0%Z -> prod_t k g = 0%Z.
Proof.
  intros n L R E I K FG FE D NS H. rewrite Forall_forall in FG, FE.
  assert (LI : forall i, In i I -> length i = n) by (intros i Ii; apply FE, in_app_iff; auto).
  assert (SG : forall i c g, In i I -> In g (L ++ R) -> fst c = rv g -> (sat n rv c i <-> prod_t i g = 0%Z)) by (intros i c g Ii Ig Ec; apply sat_g; auto).
  assert (NR : forall r, In r I -> exists c, In c (gcs L R) /\ ~ sat n rv c r). { intros i Ii. destruct (NS i Ii) as (g & Ig & N). destruct (gcs_has L R g Ig) as (c & Ic & Ec). exists c. split; auto. rewrite (SG i c g); auto. }
  assert (G : forall m i, unsat n (gcs L R) (rv i) <= m -> In i I -> exists k, In k K /\ forall g, In g (L ++ R) -> prod_t i g = 0%Z -> prod_t k g = 0%Z).
  { induction m as [m IH] using lt_wf_ind. intros i U Ii. destruct (H i Ii) as [IK|FEW]. exists i. auto.
    destruct (few_sat n rv (gcs L R) E I i (map rv (filter (fun g => (prod_t i g =? 0)%Z) (L ++ R))) D NR Ii) as (i' & Ii' & S1 & c & Ic & S2 & S3).
    - intros c Ic S. destruct (gcs_in L R c Ic) as (g & Ig & Ec). rewrite Ec. apply in_map. apply filter_In. split; auto. apply Z.eqb_eq. apply (SG i c g); auto.
    - rewrite map_length. lia.
    - assert (LT : unsat n (gcs L R) (rv i') < unsat n (gcs L R) (rv i)). { apply unsat_lt. auto. exists c. split; auto. }
      destruct (IH (unsat n (gcs L R) (rv i')) ltac:(lia) i' (le_n _) Ii') as (k & Ik & HK). exists k. split; auto. intros g Ig Z. apply HK; auto. destruct (gcs_has L R g Ig) as (c' & Ic' & Ec'). apply (SG i' c' g); auto. apply S1; auto. apply (SG i c' g); auto. }
  intros i Ii. apply (G _ i (le_n _) Ii).
Qed.
(** what the saturation of the equations gives *)
Lemma gen_prod0 : forall n L R t, length t = n -> Forall (fun t : list Z => length t = n) (L ++ R) -> (forall x, gen n rv L R x -> dt n (rv t) x = 0%R) -> forall g, In g (L ++ R) -> prod_t t g = 0%Z.
Proof.
  intros n L R t LT F H g I. rewrite Forall_forall in F. assert (X : gen n rv L R (lin2 1 (rv g) 0 (rv g))). { apply in_app_iff in I. destruct I as [I|I]. apply gen_line; auto. apply gen_ext with (rv g). apply gen_ray; auto. intros i _. unfold lin2. ring. } apply H in X. rewrite dt_lin in X. assert (E : dt n (rv t) (rv g) = 0%R) by lra. rewrite <- LT in E. rewrite <- prod_dt in E by (rewrite LT; symmetry; apply F; auto). apply eq_IZR; auto.
Qed.
Lemma prod0_gen : forall n L R t, length t = n -> Forall (fun t : list Z => length t = n) (L ++ R) -> (forall g, In g (L ++ R) -> prod_t t g = 0%Z) -> forall x, gen n rv L R x -> dt n (rv t) x = 0%R.
Proof.
  intros n L R t LT F H x G. rewrite Forall_forall in F. assert (E : forall g, In g (L ++ R) -> dt n (rv t) (rv g) = 0%R) by (intros g I; rewrite <- LT; rewrite <- prod_dt by (rewrite LT; symmetry; apply F; auto); rewrite H; auto).
  assert (K : holds n (rv t, true) x). { apply (gen_holds n rv (rv t, true) L R x); auto. intros l I. apply E, in_app_iff; auto. intros r I. unfold holds. cbn [fst snd]. apply E, in_app_iff; auto. } exact K.
Qed.
Definition rowok (n : nat) (G : list (list Z)) (r : row) : Prop := length (fst r) = S n /\ snd r = satbits G (tr r).
Definition inCr (n : nat) (rows : list row) (x : vec) : Prop := inC n (map (fun r => kc (fst r)) rows) x.
Lemma kc_eq0 : forall n q x, zn 0 q = 0%Z -> holds n (kc q) x -> dt n (rv (tl q)) x = 0%R.
Proof. intros n q x Z H. unfold holds, kc in H. cbn [fst snd] in H. rewrite Z in H. exact H. Qed.
Lemma kc_ge0 : forall n q x, zn 0 q <> 0%Z -> holds n (kc q) x -> (0 <= dt n (rv (tl q)) x)%R.
Proof. intros n q x Z H. unfold holds, kc in H. cbn [fst snd] in H. replace (zn 0 q =? 0)%Z with false in H by (symmetry; apply Z.eqb_neq; auto). exact H. Qed.
Lemma inCr_cnE : forall n Er Ir x, Forall (fun r : row => zn 0 (fst r) = 0%Z) Er -> Forall (fun r : row => zn 0 (fst r) <> 0%Z) Ir -> (inCr n (Er ++ Ir) x <-> cnE n (map tr Er) (map tr Ir) x).
Proof.
  intros n Er Ir x FE FI. rewrite Forall_forall in FE, FI. unfold inCr. split.
  - intros H. split.
    + intros e I. apply in_map_iff in I. destruct I as (r & <- & I). apply kc_eq0; auto. apply H. apply (in_map (fun r => kc (fst r))), in_app_iff; auto.
    + intros e I. apply in_map_iff in I. destruct I as (r & <- & I). apply kc_ge0; auto. apply H. apply (in_map (fun r => kc (fst r))), in_app_iff; auto.
  - intros [H1 H2] c I. apply in_map_iff in I. destruct I as (r & <- & I). unfold holds, kc. cbn [fst snd]. apply in_app_iff in I. destruct I as [I|I].
    rewrite FE by auto. apply (H1 (tr r)), in_map; auto. replace (zn 0 (fst r) =? 0)%Z with false by (symmetry; apply Z.eqb_neq; auto). apply (H2 (tr r)), in_map; auto.
Qed.
Lemma tr_setsign : forall s r, tr (setvec (setsign s (fst r)) r) = tr r. Proof. reflexivity. Qed.
Lemma len_setsign : forall n s (q : pvec), length q = S n -> length (setsign s q) = S n. Proof. intros n s q L. unfold setsign. cbn [length]. rewrite (len_tl q n); auto. Qed.
Lemma nbsat_bits : forall m b, length b = m -> (nbsat b <= Z.of_nat m)%Z.
Proof. intros m b <-. unfold nbsat. induction b as [|c b IH]; simpl. lia. destruct c; simpl; lia. Qed.
Lemma nbsat_sub : forall a b, length a = length b -> bsub a b -> (nbsat b <= nbsat a)%Z /\ (nbsat a = nbsat b -> a = b).
Proof.
  unfold nbsat. induction a as [|x a IH]; intros [|y b] L B; simpl in L; try discriminate. simpl; split; auto; lia.
  destruct (IH b) as [A C]. lia. intros j; apply (B (S j)). assert (B0 := B 0). simpl in B0. destruct x, y; cbn [filter negb]; cbn [length] in *; try (specialize (B0 eq_refl); discriminate); rewrite ?Nat2Z.inj_succ; split; try lia; intros Q; f_equal; try (apply C; lia); try lia.
Qed.
Lemma Forall2_len : forall (A B : Type) (P : A -> B -> Prop) l l', Forall2 P l l' -> length l' = length l.
Proof. induction 1; simpl; auto. Qed.
Theorem simplify_spec : forall n L R rows, Forall (fun t : list Z => length t = n) (L ++ R) -> Forall (rowok n (L ++ R)) rows -> (forall x, inCr n rows x <-> gen n rv L R x) ->
  exists Er Ir, cherni_simplify (S n) rows = (Er ++ Ir, length Er) /\ Forall (rowok n (L ++ R)) (Er ++ Ir) /\ Forall (fun r : row => zn 0 (fst r) = 0%Z) Er /\ Forall (fun r : row => zn 0 (fst r) = 1%Z) Ir /\
    (forall x, inCr n rows x <-> inCr n (Er ++ Ir) x) /\ ddn n (gcs L R) (map tr Er) (map tr Ir) /\ indep n (map tr Er) /\ rdc (map fst (Er ++ Ir)).
Proof.
  intros n L R rows FG FR D. set (G := L ++ R) in *. assert (OK : forall r, In r rows -> rowok n G r) by (apply Forall_forall; auto).
  destruct (first_ineq_spec rows) as (A & U & ER & LA & FA). destruct (simp_eq_spec U A []) as (Ir0 & SE & PI). rewrite app_nil_r in SE. cbn [app] in SE, PI. unfold cherni_simplify. rewrite <- LA. replace (length rows - length A) with (length U) by (rewrite ER, app_length; lia). rewrite <- ER in SE. rewrite SE. clear SE.
  set (E0 := A ++ map fE (filter iseq U)) in *. set (z := repeat false (length G)).
  (* what the rows mean *)
  assert (TE : forall r, In r E0 -> exists r0, In r0 rows /\ iseq r0 = true /\ tr r = tr r0 /\ snd r = snd r0 /\ zn 0 (fst r) = 0%Z /\ length (fst r) = S n).
  { intros r I. unfold E0 in I. apply in_app_iff in I. destruct I as [I|I]. rewrite Forall_forall in FA. assert (In r rows) by (rewrite ER, in_app_iff; auto). exists r. split; auto. split. unfold iseq, is_ineq. rewrite FA by auto. reflexivity. split; auto. split; auto. split; auto. apply OK; auto.
    apply in_map_iff in I. destruct I as (r0 & <- & I). apply filter_In in I. destruct I as [I Q]. exists r0. assert (In r0 rows) by (rewrite ER, in_app_iff; auto). split; auto. split; auto. split; auto. split; auto. split; auto. unfold fE. cbn [setvec fst]. apply len_setsign. apply OK; auto. }
  assert (TI : forall r, In r Ir0 -> exists r0, In r0 rows /\ iseq r0 = false /\ tr r = tr r0 /\ snd r = snd r0 /\ zn 0 (fst r) = nbsat (snd r) /\ length (fst r) = S n).
  { intros r I. apply (Permutation_in r PI) in I. apply in_map_iff in I. destruct I as (r0 & <- & I). apply filter_In in I. destruct I as [I Q]. exists r0. assert (In r0 rows) by (rewrite ER, in_app_iff; auto). split; auto. split. apply negb_true_iff; auto. split; auto. split; auto. split; auto. unfold fI. cbn [setvec fst]. apply len_setsign. apply OK; auto. }
  assert (ZE : forall r0, In r0 rows -> iseq r0 = true -> forall g, In g G -> prod_t (tr r0) g = 0%Z).
  { intros r0 I Q. destruct (OK r0 I) as [L0 B0]. unfold iseq in Q. apply orb_prop in Q. destruct Q as [Q|Q].
    - apply (gen_prod0 n); auto. apply len_tl; auto. intros x Gx. apply D in Gx. apply kc_eq0. unfold is_ineq in Q. apply negb_true_iff, negb_false_iff in Q. apply Z.eqb_eq; auto. apply Gx. apply (in_map (fun r => kc (fst r))); auto.
    - rewrite B0 in Q. apply satbits_allzero; auto. }
  assert (FE : Forall (fun r : row => length (fst r) = S n /\ zn 0 (fst r) = 0%Z /\ snd r = z) E0).
  { apply Forall_forall. intros r I. destruct (TE r I) as (r0 & I0 & Q & T & S & Z & LR). split; auto. split; auto. rewrite S. destruct (OK r0 I0) as [_ ->]. apply satbits_repeat. apply ZE; auto. }
  assert (D0 : forall x, cnE n (map tr E0) (map tr Ir0) x <-> gen n rv L R x).
  { intros x. rewrite <- D. split.
    - intros [H1 H2] c I. apply in_map_iff in I. destruct I as (r & <- & I). unfold holds, kc. cbn [fst snd]. change (rv (tl (fst r))) with (rv (tr r)). assert (IS : (exists r', In r' E0 /\ tr r' = tr r) \/ (iseq r = false /\ exists r', In r' Ir0 /\ tr r' = tr r)).
      { rewrite ER in I. apply in_app_iff in I. destruct I as [I|I]. left. exists r. split; auto. unfold E0. apply in_app_iff; auto. destruct (iseq r) eqn:Q. left. exists (fE r). split; auto. unfold E0. apply in_app_iff. right. apply in_map, filter_In; auto. right. split; auto. exists (fI r). split; auto. apply (Permutation_in _ (Permutation_sym PI)). apply in_map, filter_In. rewrite Q; auto. }
      destruct IS as [(r' & I' & T)|(Q & r' & I' & T)]. assert (K := H1 (tr r') (in_map tr _ _ I')). rewrite T in K. rewrite K. destruct (_ =? _)%Z; auto; lra. assert (K := H2 (tr r') (in_map tr _ _ I')). rewrite T in K. unfold iseq, is_ineq in Q. apply orb_false_elim in Q. destruct Q as [Q _]. apply negb_false_iff, negb_true_iff in Q. rewrite Q. auto.
    - intros H. assert (GX := proj1 (D x) H). split.
      + intros e I. apply in_map_iff in I. destruct I as (r & <- & I). destruct (TE r I) as (r0 & I0 & Q & T & S & Z & LR). rewrite T. apply (prod0_gen n L R); auto. apply len_tl. apply OK; auto.
      + intros e I. apply in_map_iff in I. destruct I as (r & <- & I). destruct (TI r I) as (r0 & I0 & Q & T & S & Z & LR). rewrite T. apply (holds_ge n (kc (fst r0))). apply H. apply (in_map (fun r => kc (fst r))); auto. }
  (* gauss *)
  destruct (gauss_spec n n z (length E0) [] [] E0 Ir0) as (E1 & Zr & intp & G1 & G2 & G3 & G4 & G5); auto.
  { split; auto. split; auto. split. intros a La. simpl in La; lia. split. intros a b _ Lb. simpl in Lb; lia. intros col r I J. cbn [app] in FE. rewrite Forall_forall in FE. destruct (FE r I) as (F1 & _). unfold zn. apply nth_overflow. lia. }
  cbn [app length] in G1, G4. replace (S n - 1) with n by lia. rewrite G1. clear G1. destruct G3 as (G31 & G32 & G33 & G34 & G35).
  assert (PV : piv n intp E1). { split; auto. intros a La. destruct (G33 a La) as (X1 & X2 & X3). split; auto. }
  assert (D1 : forall x, cnE n (map tr E1) (map tr Ir0) x <-> gen n rv L R x).
  { intros x. rewrite <- D0. unfold cnE. assert (Q : (forall e, In e (map tr E1) -> dt n (rv e) x = 0%R) <-> (forall e, In e (map tr E0) -> dt n (rv e) x = 0%R)); [|tauto]. transitivity (eq0 n E0 x). 2: { split. intros H e I. apply in_map_iff in I. destruct I as (r & <- & I). auto. intros H r I. apply H, in_map; auto. } rewrite G4. split.
    - intros H r I. apply in_app_iff in I. destruct I as [I|I]. apply H, in_map; auto. rewrite dt_sym. apply dt_zero. intros i Hi. unfold rv, tr. rewrite <- zn_tl. rewrite (G35 (S i) r I); auto. lia.
    - intros H e I. apply in_map_iff in I. destruct I as (r & <- & I). apply H, in_app_iff; auto. }
  (* null equations are removed *)
  assert (LEN : length rows = length (E0 ++ Ir0)). { rewrite ER. unfold E0. rewrite (app_length (A ++ _)), (Permutation_length PI), !app_length, !map_length. assert (X : length (filter iseq U) + length (filter (fun r => negb (iseq r)) U) = length U) by (clear; induction U as [|u U IH]; simpl; auto; destruct (iseq u); simpl; lia). lia. }
  assert (MV : exists I1 D1, Permutation Ir0 I1 /\ (if Nat.ltb (length E1) (length E0) then move_eqs (length rows) (length rows) (length E1) (length E0) (E1 ++ Zr ++ Ir0) else E1 ++ Zr ++ Ir0) = E1 ++ I1 ++ D1).
  { destruct (Nat.ltb_spec (length E1) (length E0)) as [LT|GE].
    - destruct (move_eqs_spec (length rows) E1 [] Zr Ir0 []) as (I1 & D' & P & Q). rewrite LEN, app_length; lia. cbn [app] in P, Q. rewrite !app_nil_r in Q. exists I1, D'. split; auto. rewrite <- Q. rewrite <- G2. replace (length (E1 ++ Zr ++ Ir0)) with (length rows); auto. rewrite LEN, app_assoc, !app_length, <- G2, app_length. lia.
    - assert (Zr = []) by (destruct Zr; auto; rewrite <- G2, app_length in GE; simpl in GE; lia). subst Zr. exists Ir0, []. rewrite app_nil_r. auto. }
  destruct MV as (I1 & DD & P1 & ->). assert (LC : length rows - (length E0 - length E1) = length (E1 ++ I1)). { rewrite LEN, !app_length, <- G2, app_length, (Permutation_length P1). lia. } rewrite LC.
  (* inequalities *)
  destruct (remove_few_spec (length (E1 ++ I1)) (Z.of_nat (S n) - Z.of_nat (length E1) - 2) E1 [] I1 DD) as (K1 & X1 & D2 & Q2 & P2 & F2). rewrite app_length; lia. rewrite app_nil_r in Q2. cbn [app] in Q2, P2. rewrite Q2. clear Q2.
  assert (TK : forall r, In r Ir0 -> rowok n G r /\ zn 0 (fst r) = nbsat (snd r) /\ exists g, In g G /\ prod_t (tr r) g <> 0%Z).
  { intros r I. destruct (TI r I) as (r0 & I0 & Q & T & S & Z & LR). destruct (OK r0 I0) as [L0 B0]. split. split; auto. rewrite S, T; auto. split; auto. unfold iseq in Q. apply orb_false_elim in Q. destruct Q as [_ Q]. rewrite B0 in Q. rewrite T. clear - Q. unfold satbits in Q. induction G as [|g G' IH]; simpl in Q. discriminate. destruct (Z.eqb_spec (prod_t (tr r0) g) 0). simpl in Q. destruct (IH Q) as (g' & I & N). exists g'. split; auto. right; auto. exists g. split; auto. left; auto. }
  assert (TK1 : forall r, In r (K1 ++ X1) -> In r Ir0) by (intros r I; apply (Permutation_in r (Permutation_sym P1)), (Permutation_in r (Permutation_sym P2)); auto).
  assert (TK2 : forall r, In r Ir0 -> In r (K1 ++ X1)) by (intros r I; apply (Permutation_in r P2), (Permutation_in r P1); auto).
  assert (PW0 : pairwise [] K1) by (intros a k b H; destruct a; discriminate).
  destruct (red_outer_spec (length G) (length (E1 ++ K1)) E1 [] K1 D2) as (K2 & X2 & D3 & Q3 & P3 & C3 & PW). rewrite app_length; lia. { cbn [app]. apply Forall_forall. intros r I. destruct (TK r) as [[_ ->] _]. apply TK1, in_app_iff; auto. unfold satbits. apply map_length. } auto.
  rewrite app_nil_r in Q3. cbn [app] in Q3, P3, C3. rewrite Q3. clear Q3.
  assert (TK3 : forall r, In r K2 -> In r Ir0) by (intros r I; apply TK1, in_app_iff; left; apply (Permutation_in r (Permutation_sym P3)), in_app_iff; auto).
  assert (LE1 : forall r, In r E1 -> length (fst r) = S n /\ zn 0 (fst r) = 0%Z /\ snd r = z) by (intros r I; rewrite Forall_forall in G32; apply G32, in_app_iff; auto).
  assert (FL : Forall (fun t : list Z => length t = n) (map tr E1 ++ map tr Ir0)). { apply Forall_forall. intros t I. rewrite <- map_app in I. apply in_map_iff in I. destruct I as (r & <- & I). apply len_tl. apply in_app_iff in I. destruct I as [I|I]. apply LE1; auto. apply TK; auto. }
  assert (DG1 := dual_gen n L R _ _ FL D1).
  assert (NS : forall i, In i (map tr Ir0) -> exists g, In g (L ++ R) /\ prod_t i g <> 0%Z). { intros i I. apply in_map_iff in I. destruct I as (r & <- & I). apply TK; auto. }
  assert (COV : forall i, In i (map tr Ir0) -> exists k, In k (map tr K2) /\ forall g, In g (L ++ R) -> prod_t i g = 0%Z -> prod_t k g = 0%Z).
  { intros i Ii. destruct (cover_few n L R (map tr E1) (map tr Ir0) (map tr K1) FG FL DG1 NS) with (i := i) as (k & Ik & HK); auto.
    - intros i' I'. apply in_map_iff in I'. destruct I' as (r & <- & I'). assert (I2 := TK2 r I'). apply in_app_iff in I2. destruct I2 as [I2|I2]. left. apply in_map; auto. right. rewrite Forall_forall in F2. specialize (F2 r I2). destruct (TK r I') as ((_ & B) & Z & _). rewrite Z, B, nbsat_filter in F2. fold G. rewrite map_length. lia.
    - apply in_map_iff in Ik. destruct Ik as (r & <- & Ik). destruct (C3 r Ik) as (w & Iw & Bw). exists (tr w). split. apply in_map; auto. intros g Ig Z. destruct (TK w (TK3 w Iw)) as ((_ & B1) & _). destruct (TK r) as ((_ & B2) & _). apply TK1, in_app_iff; auto. rewrite B1, B2 in Bw. apply (proj1 (bsub_sat G (tr r) (tr w)) Bw); auto. }
  assert (SG : forall i c g, length i = n -> In g (L ++ R) -> fst c = rv g -> (sat n rv c i <-> prod_t i g = 0%Z)) by (intros i c g Li Ig Ec; apply sat_g; auto; rewrite Forall_forall in FG; apply FG; auto).
  assert (LI : forall i, In i (map tr Ir0) -> length i = n) by (intros i I; rewrite Forall_forall in FL; apply FL, in_app_iff; auto).
  assert (IK : incl (map tr K2) (map tr Ir0)) by (intros i I; apply in_map_iff in I; destruct I as (r & <- & I); apply in_map; auto).
  assert (DG2 : forall y, inC n (gcs L R) y <-> gen n rv (map tr E1) (map tr K2) y).
  { apply (reduce_rays n rv (gcs L R) (map tr E1) (map tr Ir0)); auto.
    - intros i Ii. destruct (NS i Ii) as (g & Ig & N). destruct (gcs_has L R g Ig) as (c & Ic & Ec). exists c. split; auto. rewrite (SG i c g); auto.
    - intros i Ii. destruct (COV i Ii) as (k & Ik & HK). exists k. split; auto. intros c Ic. destruct (gcs_in L R c Ic) as (g & Ig & Ec). rewrite (SG i c g), (SG k c g); auto. }
  assert (D2' : forall x, cnE n (map tr E1) (map tr K2) x <-> gen n rv L R x).
  { intros x. rewrite <- D1. split; intros [H1 H2]; split; auto. intros i Ii. assert (GI : gen n rv (map tr E1) (map tr K2) (rv i)) by (apply DG2, DG1, gen_ray; auto). assert (K : holds n (x, false) (rv i)). { apply (gen_holds n rv (x, false) _ _ (rv i)) with (3 := GI). intros l Il. cbn [fst]. rewrite dt_sym; auto. intros r Ir. unfold holds. cbn [fst snd]. rewrite dt_sym; auto. } unfold holds in K. cbn [fst snd] in K. rewrite dt_sym. auto. }
  (* status *)
  rewrite (app_assoc E1). rewrite firstn_app_l. set (st := fun r : row => setvec (setsign 1 (fst r)) r).
  assert (MS : mapi (fun (i : nat) (r : row) => if Nat.leb (length E1) i then setvec (setsign 1 (fst r)) r else r) (E1 ++ K2) = E1 ++ map st K2).
  { rewrite mapi_app. f_equal. rewrite (mapi_map _ _ _ (fun r => r)). apply map_id. intros i x H. assert (i < length E1) by (apply nth_error_Some; intros N; assert (Y := eq_trans (eq_sym H) N); discriminate Y). replace (Nat.leb (length E1) i) with false; auto. symmetry; apply Nat.leb_gt; auto. apply mapi_map. intros i x _. replace (Nat.leb (length E1) (length E1 + i)) with true; auto. symmetry; apply Nat.leb_le; lia. }
  match goal with |- context[backsubstitute _ _ ?m] => change m with (mapi (fun (i : nat) (r : row) => if Nat.leb (length E1) i then setvec (setsign 1 (fst r)) r else r) (E1 ++ K2)) end. rewrite MS. assert (FK : Forall (fun r : row => length (fst r) = S n) (E1 ++ map st K2)). { apply Forall_forall. intros r I. apply in_app_iff in I. destruct I as [I|I]. apply LE1; auto. apply in_map_iff in I. destruct I as (r0 & <- & I). cbn [st setvec fst]. apply len_setsign. apply (TK r0 (TK3 r0 I)). }
  assert (LD1 : ld intp E1). { apply G5. split; intros a; simpl; lia. }
  assert (RD1 : redr (length E1) intp E1 (map st K2)) by (intros a i A1 A2; lia).
  destruct (backsub_full n intp (length E1) E1 (map st K2) FK PV LD1 RD1 (le_n _)) as (E3 & K3 & -> & (S1 & S2 & S3 & S4) & L3 & PV3 & LD3 & RD3). rewrite <- L3. exists E3, K3. split; auto.
  (* the bits of the result *)
  assert (ZG : forall r, In r E1 -> forall g, In g G -> prod_t (tr r) g = 0%Z). { intros r I. apply (gen_prod0 n); auto. apply len_tl, LE1; auto. intros x Gx. apply D1 in Gx. apply Gx, in_map; auto. }
  assert (X0 : forall g, In g G -> eq0 n E1 (rv g)). { intros g I r Ir. assert (LR : length (tr r) = n) by (apply len_tl, LE1; auto). rewrite <- LR. rewrite <- prod_dt. rewrite ZG; auto. rewrite LR. symmetry. rewrite Forall_forall in FG. apply FG; auto. }
  assert (BK : Forall2 (fun r r' : row => snd r' = snd r /\ zn 0 (fst r') = zn 0 (fst r) /\ length (fst r') = S n /\ satbits G (tr r') = satbits G (tr r)) (map st K2) K3).
  { assert (LS : forall r, In r (map st K2) -> length (tr r) = n) by (intros r I; apply len_tl; rewrite Forall_forall in FK; apply FK, in_app_iff; auto). assert (PX : forall g, In g G -> Forall2 (propor n (rv g)) (map st K2) K3) by (intros g I; apply S4, X0; auto). clear - S2 PX LS FG. revert LS PX. induction S2 as [|r r' l l' (B1 & B2 & B3) F IH]; intros LS PX; constructor.
    - split; auto. split; auto. split; auto. apply satbits_eq. intros g I. specialize (PX g I). inversion PX as [|? ? ? ? (u & U & E) _]; subst. rewrite Forall_forall in FG. assert (LG := FG g I). assert (LR : length (tr r) = n) by (apply LS; left; auto). assert (LR' : length (tr r') = n) by (apply len_tl; auto). assert (E1' : dt n (rv (tr r)) (rv g) = IZR (prod_t (tr r) g)) by (rewrite prod_dt by congruence; rewrite LR; auto). assert (E2' : dt n (rv (tr r')) (rv g) = IZR (prod_t (tr r') g)) by (rewrite prod_dt by congruence; rewrite LR'; auto). rewrite E1', E2' in E. split; intros Z; rewrite Z in E. symmetry in E. rewrite Rmult_comm in E. apply Rmult_integral in E. destruct E as [E|E]; [|lra]. apply eq_IZR; auto. rewrite Rmult_0_r in E. apply eq_IZR; auto.
    - apply IH. intros x I. apply LS; right; auto. intros g I. specialize (PX g I). inversion PX; auto. }
  assert (OKE : forall r, In r E3 -> rowok n G r /\ zn 0 (fst r) = 0%Z).
  { intros r I. destruct (In_nth _ _ row0 I) as (i & Hi & Er). assert (B : basic n (nth i E1 row0) (nth i E3 row0)). { clear - S1 Hi. revert i Hi. induction S1; intros i Hi; simpl in Hi. lia. destruct i; auto. simpl. apply IHS1. lia. } rewrite Er in B. destruct B as (B1 & B2 & B3). destruct (LE1 (nth i E1 row0)) as (C1 & C2 & C3'). apply nth_In. lia. split. 2: congruence. split; auto. rewrite B1, C3'. unfold z. symmetry. apply satbits_repeat. apply (gen_prod0 n); auto. apply len_tl; auto. intros x Gx. apply D1 in Gx. destruct Gx as [Gx _]. assert (Q : eq0 n E1 x) by (intros q Iq; apply Gx, in_map; auto). apply S3 in Q. auto. }
  assert (BKN : forall i, i < length K2 -> let r := nth i K2 row0 in let r' := nth i K3 row0 in snd r' = snd r /\ zn 0 (fst r') = 1%Z /\ length (fst r') = S n /\ satbits G (tr r') = satbits G (tr r)).
  { intros i Hi. clear - BK Hi. revert i Hi. remember (map st K2) as K eqn:EK. revert K2 EK. induction BK as [|r r' l l' H F IH]; intros K2 EK i Hi; destruct K2 as [|k K2]; simpl in Hi; try lia; try discriminate. injection EK as -> ->. destruct i. simpl. destruct H as (H1 & H2 & H3 & H4). split; auto. simpl. apply (IH K2 eq_refl i). lia. }
  assert (LK : length K3 = length K2). { assert (X := Forall2_len _ _ _ _ _ BK). rewrite map_length in X. auto. }
  assert (OKK : forall i, i < length K3 -> rowok n G (nth i K3 row0) /\ zn 0 (fst (nth i K3 row0)) = 1%Z).
  { intros i Hi. rewrite LK in Hi. destruct (BKN i Hi) as (B1 & B2 & B3 & B4). split; auto. split; auto. rewrite B1, B4. apply (TK (nth i K2 row0)). apply TK3, nth_In; auto. }
  split. { apply Forall_forall. intros r I. apply in_app_iff in I. destruct I as [I|I]. apply OKE; auto. destruct (In_nth _ _ row0 I) as (i & Hi & <-). apply OKK; auto. }
  assert (ST0 : Forall (fun r : row => zn 0 (fst r) = 0%Z) E3) by (apply Forall_forall; intros r I; apply OKE; auto). assert (ST1 : Forall (fun r : row => zn 0 (fst r) = 1%Z) K3) by (apply Forall_forall; intros r I; destruct (In_nth _ _ row0 I) as (i & Hi & <-); apply OKK; auto). split; auto. split; auto.
  assert (D3' : forall x, cnE n (map tr E3) (map tr K3) x <-> gen n rv L R x).
  { intros x. rewrite <- D2'. unfold cnE. assert (QE : forall E : list row, (forall e, In e (map tr E) -> dt n (rv e) x = 0%R) <-> eq0 n E x). { intros E. split. intros H r I. apply H, in_map; auto. intros H e I. apply in_map_iff in I. destruct I as (r & <- & I). auto. } rewrite !QE. rewrite <- S3. split; intros [H1 H2]; split; auto; specialize (S4 x H1); clear - S4 H2 BK.
    - assert (K : forall K K3, Forall2 (propor n x) K K3 -> (forall i, In i (map tr K3) -> (0 <= dt n (rv i) x)%R) -> forall i, In i (map tr K) -> (0 <= dt n (rv i) x)%R). { clear. induction 1 as [|r r' l l' (u & U & E) F IH]; intros H i I. destruct I. destruct I as [<-|I]. assert (K := H (tr r') (or_introl eq_refl)). rewrite E in K. nra. apply IH; auto. intros j J. apply H. right; auto. } intros i I. apply (K _ _ S4 H2). rewrite map_map. auto.
    - assert (K : forall K K3, Forall2 (propor n x) K K3 -> (forall i, In i (map tr K) -> (0 <= dt n (rv i) x)%R) -> forall i, In i (map tr K3) -> (0 <= dt n (rv i) x)%R). { clear. induction 1 as [|r r' l l' (u & U & E) F IH]; intros H i I. destruct I. destruct I as [<-|I]. assert (K := H (tr r) (or_introl eq_refl)). rewrite E. nra. apply IH; auto. intros j J. apply H. right; auto. } intros i I. apply (K _ _ S4); auto. rewrite map_map. auto. }
  assert (FL3 : Forall (fun t : list Z => length t = n) (map tr E3 ++ map tr K3)). { apply Forall_forall. intros t I. rewrite <- map_app in I. apply in_map_iff in I. destruct I as (r & <- & I). apply len_tl. apply in_app_iff in I. destruct I as [I|I]. apply OKE; auto. destruct (In_nth _ _ row0 I) as (i & Hi & <-). apply OKK; auto. }
  split.
  { intros x. rewrite D, inCr_cnE; auto. rewrite D3'. tauto. eapply Forall_impl; [|exact ST1]. intros r ->. discriminate. }
  (* minimality *)
  assert (DIS : forall i j, i < length K2 -> j < length K2 -> i <> j -> ~ bsub (satbits G (tr (nth j K2 row0))) (satbits G (tr (nth i K2 row0)))).
  { intros i j Hi Hj NE B. set (u := nth i K2 row0) in *. set (w := nth j K2 row0) in *. destruct (TK u) as ((_ & Bu) & Zu & _). apply TK3, nth_In; auto. destruct (TK w) as ((_ & Bw) & Zw & _). apply TK3, nth_In; auto. rewrite <- Bu, <- Bw in B.
    assert (LL : length (snd w) = length (snd u)) by (rewrite Bu, Bw; unfold satbits; rewrite !map_length; auto). destruct (nbsat_sub _ _ LL B) as [NB EQ].
    assert (SP : exists a b, K2 = a ++ u :: b /\ In w (a ++ b ++ [])). { destruct (nth_split K2 row0 Hi) as (a & b & EK & La). exists a, b. split; auto. rewrite app_nil_r. unfold w. rewrite EK. destruct (Nat.lt_trichotomy j i) as [Q|[Q|Q]]; [|lia|]. rewrite app_nth1 by lia. apply in_app_iff. left. apply nth_In. lia. rewrite app_nth2 by lia. replace (j - length a) with (S (j - length a - 1)) by lia. cbn [nth]. apply in_app_iff. right. apply nth_In. rewrite EK, app_length in Hj. simpl in Hj. lia. }
    destruct SP as (a & b & EK & IW). destruct (PW a u b EK w IW) as [N1 N2]. unfold strict, same, nbz in *. rewrite Zu, Zw in *. destruct (Z.eq_dec (nbsat (snd w)) (nbsat (snd u))) as [E|N].
    - apply N2. split; auto. apply bit_eq_spec; auto. symmetry. auto.
    - apply N1. split. lia. apply bit_sub_spec; auto. }
  split; [|split; [eapply piv_indep; eauto|eapply redr_rdc; eauto; eapply Forall_impl; [|exact ST1]; intros r ->; discriminate]].
  constructor.
  - apply dual_gen; auto.
  - intros r r' Ir Ir' NE. apply in_map_iff in Ir. destruct Ir as (q & <- & Ir). apply in_map_iff in Ir'. destruct Ir' as (q' & <- & Ir'). destruct (In_nth _ _ row0 Ir) as (i & Hi & Ei). destruct (In_nth _ _ row0 Ir') as (j & Hj & Ej). assert (NIJ : i <> j) by (intros ->; congruence). rewrite LK in Hi, Hj. assert (B := DIS i j Hi Hj NIJ). destruct (BKN i Hi) as (_ & _ & _ & Bi). destruct (BKN j Hj) as (_ & _ & _ & Bj). rewrite <- Bi, <- Bj, Ei, Ej in B.
    assert (EX : exists g, In g G /\ prod_t (tr q) g = 0%Z /\ prod_t (tr q') g <> 0%Z). { assert (DEC : (exists g, In g G /\ prod_t (tr q) g = 0%Z /\ prod_t (tr q') g <> 0%Z) \/ forall g, In g G -> prod_t (tr q) g = 0%Z -> prod_t (tr q') g = 0%Z). { clear. induction G as [|g G IH]. right; intros ? []. destruct (Z.eq_dec (prod_t (tr q) g) 0) as [E|E], (Z.eq_dec (prod_t (tr q') g) 0) as [E'|E']. 2: left; exists g; split; [left|]; auto. all: destruct IH as [(h & I & H)|H]; [left; exists h; split; [right|]; auto|right; intros h [<-|I]; auto; tauto]. } destruct DEC as [X|X]; auto. exfalso. apply B. apply bsub_sat. auto. }
    destruct EX as (g & Ig & Z1 & Z2). destruct (gcs_has L R g Ig) as (c & Ic & Ec). exists c. split; auto. rewrite Forall_forall in FL3. rewrite (SG _ c g), (SG _ c g); auto; apply FL3, in_app_iff; right; apply in_map; auto.
  - intros r Ir. apply in_map_iff in Ir. destruct Ir as (q & <- & Ir). destruct (In_nth _ _ row0 Ir) as (i & Hi & Ei). rewrite LK in Hi. destruct (BKN i Hi) as (_ & _ & _ & Bi). rewrite Ei in Bi. destruct (TK (nth i K2 row0)) as (_ & _ & g & Ig & Ng). apply TK3, nth_In; auto. destruct (gcs_has L R g Ig) as (c & Ic & Ec). exists c. split; auto. rewrite Forall_forall in FL3. rewrite (SG _ c g); auto. 2: apply FL3, in_app_iff; right; apply in_map; auto. intros Z. apply Ng. apply (proj1 (satbits_eq G (tr q) _) Bi g Ig); auto.
  - apply (NoDup_nth (map tr K3) []). intros i j Hi Hj EQ. rewrite map_length in Hi, Hj. change [] with (tr row0) in EQ. rewrite !map_nth in EQ. destruct (Nat.eq_dec i j) as [|NE]; auto. exfalso. rewrite LK in Hi, Hj. apply (DIS i j Hi Hj NE). destruct (BKN i Hi) as (_ & _ & _ & Bi). destruct (BKN j Hj) as (_ & _ & _ & Bj). rewrite <- Bi, <- Bj, EQ. intros q; auto.
Qed.

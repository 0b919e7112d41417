(** Facts about the polyhedra of PkPoly.v: duality, normalisation of the representations. *)
From Coq Require Import ZArith Bool List Lia Reals Lra Permutation.
Import ListNotations.
From Verif Require Import PkCone PkVec PkCherni PkCherniFacts PkRank PkCherniRay PkSpec PkFarkas PkSimplify PkSimplifyFacts PkSimplifyThm PkSimplifyEnd PkMinimize PropPkCherni PropPkMinimize PkPoly.
Open Scope R_scope.

(** * Rows *)
Lemma cone_in : forall con x, cone con x <-> forall c, In c con -> row_holds c x. Proof. intros. unfold cone. apply Forall_forall. Qed.
Lemma cone_app : forall a b x, cone (a ++ b) x <-> cone a x /\ cone b x. Proof. intros. unfold cone. apply Forall_app. Qed.
Lemma insert_perm : forall A (key : A -> pvec) x l, Permutation (insert key x l) (x :: l).
Proof. induction l as [|y l IH]; simpl; auto. destruct (vector_compare (key x) (key y)); auto. rewrite perm_swap. constructor; auto. Qed.
Lemma isort_perm : forall A (key : A -> pvec) l, Permutation (isort key l) l.
Proof. induction l as [|x l IH]; simpl; auto. rewrite insert_perm. constructor; auto. Qed.
Lemma lcmp_eq : forall a b, length a = length b -> lcmp a b = Eq -> a = b.
Proof. induction a as [|x a IH]; intros [|y b] L H; simpl in *; try discriminate; auto. destruct (Z.compare_spec x y) as [->| |]; try discriminate. f_equal. apply IH; auto. Qed.
Lemma vcmp_eq : forall a b, length a = length b -> vector_compare a b = Eq -> a = b.
Proof.
  intros a b L H. unfold vector_compare, zn in H. destruct (Z.compare_spec (nth 0 a 0%Z) (nth 0 b 0%Z)) as [E| |]; try discriminate. destruct (lcmp (skipn 2 a) (skipn 2 b)) eqn:C; try discriminate. apply lcmp_eq in C. 2: rewrite !skipn_length; lia. apply Z.compare_eq in H.
  destruct a as [|a0 [|a1 a]], b as [|b0 [|b1 b]]; simpl in *; try discriminate; congruence.
Qed.
Lemma merge_in : forall n a b, Forall (lenS n) a -> Forall (lenS n) b -> forall q, In q (matrix_merge a b) <-> In q a \/ In q b.
Proof.
  intros n. induction a as [|x a IH]; intros b FA. { destruct b; simpl; tauto. }
  induction b as [|y b IHb]; intros FB q. simpl; tauto. assert (FA' := FA). assert (FB' := FB). inversion FA'; subst. inversion FB'; subst. change (matrix_merge (x :: a) (y :: b)) with (match vector_compare x y with Lt => x :: matrix_merge a (y :: b) | Eq => x :: matrix_merge a b | Gt => y :: matrix_merge (x :: a) b end).
  destruct (vector_compare x y) eqn:C.
  - apply vcmp_eq in C. 2: unfold lenS in *; congruence. subst y. simpl. rewrite IH by auto. tauto.
  - simpl. rewrite IH by auto. simpl. tauto.
  - simpl. rewrite IHb by auto. simpl. tauto.
Qed.
Lemma merge_len : forall n a b, Forall (lenS n) a -> Forall (lenS n) b -> Forall (lenS n) (matrix_merge a b).
Proof. intros n a b FA FB. apply Forall_forall. intros q I. rewrite Forall_forall in *. apply (merge_in n) in I. destruct I; auto. apply Forall_forall; auto. apply Forall_forall; auto. Qed.
(** sorting puts the equalities first *)
Lemma insert_st : forall A (key : A -> pvec) x l, Forall (fun y => zn 0 (key y) = 1%Z \/ zn 0 (key y) = 0%Z) (x :: l) ->
  (exists E I, l = E ++ I /\ Forall (fun y => zn 0 (key y) = 0%Z) E /\ Forall (fun y => zn 0 (key y) = 1%Z) I) -> exists E I, insert key x l = E ++ I /\ Forall (fun y => zn 0 (key y) = 0%Z) E /\ Forall (fun y => zn 0 (key y) = 1%Z) I.
Proof.
  intros A key x l S (E & I & EQ & FE & FI). revert l S EQ. induction E as [|e E IH]; intros l S EQ.
  - cbn [app] in EQ. subst l. assert (SX := Forall_inv S). destruct SX as [SX|SX].
    + exists [], (insert key x I). split; auto. split; auto. apply (Permutation_Forall (Permutation_sym (insert_perm A key x I))). constructor; auto.
    + exists [x], I. split; auto. destruct I as [|i I]; auto. simpl. unfold vector_compare. rewrite SX, (Forall_inv FI). reflexivity.
  - subst l. cbn [app insert]. inversion FE; subst. assert (SX := Forall_inv S). destruct (IH H2 (E ++ I)) as (E' & I' & Q & F1 & F2); auto. { inversion S; subst. constructor; auto. inversion H4; auto. }
    destruct SX as [SX|SX].
    + assert (V : vector_compare (key x) (key e) = Gt) by (unfold vector_compare; rewrite SX, H1; reflexivity). rewrite V. exists (e :: E'), I'. rewrite Q. split; auto.
    + destruct (vector_compare (key x) (key e)). exists (x :: e :: E), I; split; auto. exists (x :: e :: E), I; split; auto. exists (e :: E'), I'. rewrite Q. split; auto.
Qed.
Lemma isort_st : forall A (key : A -> pvec) l, Forall (fun y => zn 0 (key y) = 1%Z \/ zn 0 (key y) = 0%Z) l -> exists E I, isort key l = E ++ I /\ Forall (fun y => zn 0 (key y) = 0%Z) E /\ Forall (fun y => zn 0 (key y) = 1%Z) I.
Proof. induction l as [|x l IH]; intros F. exists [], []. simpl. auto. simpl. apply insert_st. apply (Permutation_Forall (perm_skip x (Permutation_sym (isort_perm A key l)))); auto. apply IH. inversion F; auto. Qed.

(** * Duality *)
Lemma gen_split : forall n F x, gen n rv (eqs F) (ineqs F) x <-> generated n F x.
Proof.
  intros n. induction F as [|f F IH]; intros x.
  - split. intros G. exists []. split; auto. split. intros j J. simpl in J; lia. intros i Hi. induction G; auto. simpl; auto. destruct H. destruct H. intros (ks & L & _ & E). apply gen_0. intros i Hi. rewrite E by auto. destruct ks; auto.
  - split.
    + intros G. assert (D : exists k y, generated n F y /\ (zn 0 f = 0%Z \/ 0 <= k) /\ veq n x (lin2 1 y k (rv (tl f)))).
      { induction G as [x Z|x l k y G IHG I V|x r k y G IHG I K V].
        - exists 0, x. split. apply IH. apply gen_0; auto. split. right; lra. intros i Hi. unfold lin2. ring.
        - destruct IHG as (k0 & y0 & G0 & K0 & V0). unfold eqs in I. cbn [filter] in I. assert (CS : (zn 0 f = 0%Z /\ l = tl f) \/ In l (eqs F)). { destruct (Z.eqb_spec (zn 0 f) 0) as [Z|Z]; auto. destruct I as [<-|I]; auto. }
          destruct CS as [[Z ->]|IL]. exists (k0 + k), y0. split; auto. split; auto. intros i Hi. rewrite V by auto. unfold lin2. rewrite V0 by auto. unfold lin2. ring.
          exists k0, (lin2 1 y0 k (rv l)). split. apply IH. apply gen_l with y0 l k; auto. apply IH; auto. intros i _; auto. split; auto. intros i Hi. rewrite V by auto. unfold lin2. rewrite V0 by auto. unfold lin2. ring.
        - destruct IHG as (k0 & y0 & G0 & K0 & V0). unfold ineqs in I. cbn [filter] in I. assert (CS : (zn 0 f <> 0%Z /\ r = tl f) \/ In r (ineqs F)). { destruct (Z.eqb_spec (zn 0 f) 0) as [Z|Z]; auto. destruct I as [<-|I]; auto. }
          destruct CS as [[Z ->]|IL]. exists (k0 + k), y0. split; auto. split. destruct K0; [tauto|right; lra]. intros i Hi. rewrite V by auto. unfold lin2. rewrite V0 by auto. unfold lin2. ring.
          exists k0, (lin2 1 y0 k (rv r)). split. apply IH. apply gen_r with y0 r k; auto. apply IH; auto. intros i _; auto. split; auto. intros i Hi. rewrite V by auto. unfold lin2. rewrite V0 by auto. unfold lin2. ring. }
      destruct D as (k & y & (ks & L & P & E) & K & V). exists (k :: ks). split. simpl; lia. split. intros [|j] J NZ; simpl in *. destruct K; [unfold zn in *; tauto|auto]. apply P; auto. lia. intros i Hi. rewrite V by auto. unfold lin2. rewrite E by auto. simpl. unfold rv. rewrite <- zn_tl. unfold zn. ring.
    + intros ([|k ks] & L & P & E). discriminate. assert (G : gen n rv (eqs F) (ineqs F) (combin ks F)). { apply IH. exists ks. simpl in L. split. lia. split. intros j J NZ. apply (P (S j)); auto. simpl; lia. auto. }
      assert (G' : gen n rv (eqs (f :: F)) (ineqs (f :: F)) (combin ks F)). { apply gen_mono with (eqs F) (ineqs F); auto; unfold eqs, ineqs; cbn [filter]; destruct (zn 0 f =? 0)%Z; intros q Q; cbn [negb]; auto; right; auto. }
      assert (V : veq n x (lin2 1 (combin ks F) k (rv (tl f)))). { intros i Hi. rewrite E by auto. simpl. unfold lin2, rv. rewrite <- zn_tl. unfold zn. ring. }
      destruct (Z.eqb_spec (zn 0 f) 0) as [Z|Z]. apply gen_l with (combin ks F) (tl f) k; auto. unfold eqs. cbn [filter]. rewrite Z. simpl. auto.
      apply gen_r with (combin ks F) (tl f) k; auto. unfold ineqs. cbn [filter]. apply Z.eqb_neq in Z. rewrite Z. simpl. auto. apply (P 0%nat). simpl; lia. auto.
Qed.
Lemma in_gen : forall n F f, In f F -> generated n F (rv (tl f)).
Proof.
  intros n F f I. apply gen_split. destruct (Z.eqb_spec (zn 0 f) 0) as [Z|Z]. apply gen_ext with (lin2 1 (rv (tl f)) 0 (rv (tl f))). apply gen_line. unfold eqs. apply (in_map (fun c : pvec => tl c)). apply filter_In. split; auto. apply Z.eqb_eq; auto. intros i _. unfold lin2. ring.
  apply gen_ray. unfold ineqs. apply (in_map (fun c : pvec => tl c)). apply filter_In. split; auto. apply negb_true_iff, Z.eqb_neq; auto.
Qed.
Lemma in_gen_line : forall n F f k, In f F -> zn 0 f = 0%Z -> generated n F (lin2 k (rv (tl f)) 0 (rv (tl f))).
Proof. intros n F f k I Z. apply gen_split. apply gen_line. unfold eqs. apply (in_map (fun c : pvec => tl c)). apply filter_In. split; auto. apply Z.eqb_eq; auto. Qed.
Lemma generated_lin : forall n F a x b y, 0 <= a -> 0 <= b -> generated n F x -> generated n F y -> generated n F (lin2 a x b y).
Proof. intros n F a x b y Ha Hb Gx Gy. apply gen_split. apply gen_split in Gx, Gy. apply gen_lin; auto. Qed.
Lemma generated_ext : forall n F x y, veq n y x -> generated n F x -> generated n F y.
Proof. intros n F x y V G. apply gen_split. apply gen_split in G. eapply gen_ext; eauto. Qed.
Lemma cone_ext : forall n C x y, Forall (lenS n) C -> veq n x y -> cone C x -> cone C y.
Proof. intros n C x y F V H. apply (cone_inC n C y F). apply (cone_inC n C x F) in H. eapply inC_ext; eauto. Qed.
Lemma row_dt : forall n c x, lenS n c -> (row_holds c x <-> if (zn 0 c =? 0)%Z then dt n (rv (tl c)) x = 0 else 0 <= dt n (rv (tl c)) x).
Proof. intros n c x L. rewrite (row_holds_kc n c x L). unfold holds, kc. cbn [fst snd]. tauto. Qed.
Lemma cone_lin : forall n C a x b y, Forall (lenS n) C -> 0 <= a -> 0 <= b -> cone C x -> cone C y -> cone C (lin2 a x b y).
Proof.
  intros n C a x b y F Ha Hb Hx Hy. rewrite cone_in in *. rewrite Forall_forall in F. intros c I. assert (A := proj1 (row_dt n c x (F c I)) (Hx c I)). assert (B := proj1 (row_dt n c y (F c I)) (Hy c I)). apply (row_dt n c _ (F c I)). rewrite dt_lin. destruct (_ =? _)%Z. rewrite A, B. ring. assert (0 <= a * dt n (rv (tl c)) x) by (apply Rmult_le_pos; auto). assert (0 <= b * dt n (rv (tl c)) y) by (apply Rmult_le_pos; auto). lra.
Qed.
(** the generators of the constraints: the dual cone *)
Lemma bidual : forall n C y, Forall (lenS n) C -> (generated n C y <-> forall x, cone C x -> 0 <= dt n y x).
Proof.
  intros n C y F. rewrite <- gen_split. split.
  - intros G x H. rewrite cone_in in H. rewrite Forall_forall in F. assert (K : holds n (x, false) y). { apply (gen_holds n rv (x, false) (eqs C) (ineqs C)); auto.
      - intros l I. unfold eqs in I. apply in_map_iff in I. destruct I as (c & <- & I). apply filter_In in I. destruct I as [I Z]. cbn [fst]. rewrite dt_sym. assert (A := proj1 (row_dt n c x (F c I)) (H c I)). rewrite Z in A. auto.
      - intros l I. unfold ineqs in I. apply in_map_iff in I. destruct I as (c & <- & I). apply filter_In in I. destruct I as [I Z]. unfold holds. cbn [fst snd]. rewrite dt_sym. assert (A := proj1 (row_dt n c x (F c I)) (H c I)). apply negb_true_iff in Z. rewrite Z in A. auto. }
    unfold holds in K. cbn [fst snd] in K. rewrite dt_sym. auto.
  - intros H. apply farkas; auto. intros x I. apply H. apply (cone_inC n C x F); auto.
Qed.
Lemma cone_dual : forall n F y, Forall (lenS n) F -> (cone F y <-> forall x, generated n F x -> 0 <= dt n y x).
Proof.
  intros n F y L. split. intros H x G. rewrite dt_sym. apply (bidual n F x L); auto.
  intros H. apply cone_in. intros c I. rewrite Forall_forall in L. apply (row_dt n c y (L c I)). destruct (Z.eqb_spec (zn 0 c) 0) as [Z|Z].
  - assert (A := H _ (in_gen_line n F c 1 I Z)). assert (B := H _ (in_gen_line n F c (-1) I Z)). rewrite dt_lin in A, B. rewrite dt_sym. lra.
  - rewrite dt_sym. apply H, in_gen; auto.
Qed.

(** * The cone and the points of a polyhedron *)
Definition pn (po : poly) : nat := S (pdim po).
Definition cK (po : poly) (x : vec) : Prop := match pC po, pF po with Some C, _ => cone C x | None, Some F => generated (pn po) F x | None, None => False end.
Definition gamma (po : poly) (x : vec) : Prop := cK po (homog x).
Definition swf (po : poly) : Prop :=
  match pC po, pF po with
  | None, None => True
  | Some C, None => Forall (lenS (pn po)) C /\ psatC po = None /\ psatF po = None
  | None, Some F => Forall (lenS (pn po)) F /\ psatC po = None /\ psatF po = None
  | Some C, Some F => mini (pn po) C F (pnbeq po) (pnbline po) /\ (forall s, psatC po = Some s -> s = satmat F C) /\ (forall s, psatF po = Some s -> s = satmat C F) /\ (psatC po = None -> psatF po <> None)
  end.
Lemma dual_dual : forall po, poly_dual (poly_dual po) = po. Proof. intros []. reflexivity. Qed.
Lemma pn_dual : forall po, pn (poly_dual po) = pn po. Proof. reflexivity. Qed.
Lemma isbot_dual : forall po, isbot (poly_dual po) = isbot po. Proof. intros po. unfold isbot. simpl. destruct (pC po), (pF po); auto. Qed.
Lemma min_dual : forall po, minimal2 (poly_dual po) = minimal2 po. Proof. intros po. unfold minimal2. simpl. destruct (pC po), (pF po); auto. Qed.
Lemma swf_dual : forall po, swf po -> swf (poly_dual po).
Proof.
  intros [i r C Cs F Fs sC sF e l g1 g2] H. unfold swf, pn, pdim in *. simpl in *. destruct C, F; auto. 2, 3: tauto. destruct H as (M & A & B & D). split. apply mini_dual; auto. split; auto. split; auto. intros -> Q. apply D; auto.
Qed.
Lemma mini_lens : forall n C F a b, mini n C F a b -> Forall (lenS n) C /\ Forall (lenS n) F.
Proof. intros n C F a b (E & I & L & R & -> & -> & _ & _ & FL & _). apply Forall_app in FL. auto. Qed.
(** lengths of the available matrices *)
Lemma swf_C : forall po C, swf po -> pC po = Some C -> Forall (lenS (pn po)) C.
Proof. intros po C H E. unfold swf in H. rewrite E in H. destruct (pF po). destruct H as [M _]. apply (mini_lens _ _ _ _ _ M). apply H. Qed.
Lemma swf_F : forall po F, swf po -> pF po = Some F -> Forall (lenS (pn po)) F.
Proof. intros po F H E. unfold swf in H. rewrite E in H. destruct (pC po). destruct H as [M _]. apply (mini_lens _ _ _ _ _ M). apply H. Qed.
Lemma cK_F : forall po F, swf po -> pF po = Some F -> forall x, cK po x <-> generated (pn po) F x.
Proof. intros po F H E x. unfold swf in H. unfold cK. rewrite E in *. destruct (pC po) as [C|]; [|tauto]. destruct H as [M _]. apply (mini_points _ _ _ _ _ M). Qed.
Lemma cK_C : forall po C, pC po = Some C -> forall x, cK po x <-> cone C x. Proof. intros po C E x. unfold cK. rewrite E. tauto. Qed.
Lemma cK_ext : forall po x y, swf po -> veq (pn po) x y -> cK po x -> cK po y.
Proof.
  intros po x y H V K. unfold cK in *. destruct (pC po) as [C|] eqn:E. apply (cone_ext (pn po) C x y); auto. apply (swf_C po C); auto. destruct (pF po); auto. apply generated_ext with x; auto. intros i Hi. symmetry. apply V; auto.
Qed.
Lemma cK_lin : forall po a x b y, swf po -> 0 <= a -> 0 <= b -> cK po x -> cK po y -> cK po (lin2 a x b y).
Proof.
  intros po a x b y H Ha Hb Hx Hy. unfold cK in *. destruct (pC po) as [C|] eqn:E. apply (cone_lin (pn po)); auto. apply (swf_C po C); auto. destruct (pF po); auto. apply generated_lin; auto.
Qed.
Lemma cK_dual : forall po y, swf po -> isbot po = false -> (cK (poly_dual po) y <-> forall x, cK po x -> 0 <= dt (pn po) y x).
Proof.
  intros po y H B. destruct (pC po) as [C|] eqn:EC.
  - assert (ED : pF (poly_dual po) = Some C) by exact EC. rewrite (cK_F _ C (swf_dual _ H) ED). rewrite pn_dual. rewrite (bidual (pn po) C y (swf_C po C H EC)). split; intros A x X; apply A; apply (cK_C po C EC); auto.
  - destruct (pF po) as [F|] eqn:EF. 2: { unfold isbot in B. rewrite EC, EF in B. discriminate. } assert (ED : pC (poly_dual po) = Some F) by exact EF. rewrite (cK_C _ F ED). rewrite (cone_dual (pn po) F y (swf_F po F H EF)). split; intros A x X; apply A; apply (cK_F po F H EF); auto.
Qed.

(** * Normalisation of the representations *)
Definition pos (po : poly) : Prop := isbot po = true \/ ((forall x, cK po x -> 0 <= x 0%nat) /\ (pF po <> None -> exists x, cK po x /\ 0 < x 0%nat)).
Definition wfp (po : poly) : Prop := swf po /\ pos po.
Lemma gamma_pos : forall po, swf po -> ((exists x, gamma po x) <-> exists x, cK po x /\ 0 < x 0%nat).
Proof.
  intros po H. split. intros (x & G). exists (homog x). split; auto. simpl. lra. intros (x & K & P). exists (fun i => x (S i) / x 0%nat). unfold gamma. apply cK_ext with (lin2 (/ x 0%nat) x 0 x); auto. 2: apply cK_lin; auto; [left; apply Rinv_0_lt_compat; auto|lra].
  intros [|i] _; unfold lin2; simpl; unfold Rdiv. field. lra. ring.
Qed.
Lemma bot_gamma : forall po x, isbot po = true -> ~ gamma po x.
Proof. intros po x B G. unfold gamma, cK in G. unfold isbot in B. destruct (pC po), (pF po); try discriminate. auto. Qed.
Lemma pcols_pn : forall po, pcols po = S (pn po). Proof. intros. unfold pcols, pn. lia. Qed.
Definition sorted_or (b : bool) (C : list pvec) : list pvec := if b then C else matrix_sort_rows C.
Lemma sorted_or_perm : forall b C, Permutation (sorted_or b C) C. Proof. intros [] C; simpl; auto. apply isort_perm. Qed.
Lemma cone_perm : forall A B x, Permutation A B -> (cone A x <-> cone B x).
Proof. intros A B x P. rewrite !cone_in. split; intros H c I; apply H. apply (Permutation_in c (Permutation_sym P)); auto. apply (Permutation_in c P); auto. Qed.
(** what poly_chernikova does *)
Theorem chern_spec : forall po, swf po -> let po' := poly_chernikova po in
  swf po' /\ pint po' = pint po /\ preal po' = preal po /\
  ((isbot po' = true /\ (isbot po = true \/ (pF po = None /\ ((forall x, cK po x -> 0 <= x 0%nat) -> ~ exists x, cK po x /\ 0 < x 0%nat)))) \/
   (isbot po' = false /\ minimal2 po' = true /\ (forall x, cK po' x <-> cK po x) /\ (pF po = None -> exists x, cK po x /\ 0 < x 0%nat))).
Proof.
  intros po H. unfold poly_chernikova. destruct (pC po) as [C|] eqn:EC, (pF po) as [F|] eqn:EF.
  - cbv zeta. split; auto. split; auto. split; auto. right. unfold isbot, minimal2. rewrite EC, EF. split; auto. split; auto. split. tauto. discriminate.
  - assert (FL := swf_C po C H EC). change (if pCs po then C else matrix_sort_rows C) with (sorted_or (pCs po) C). set (C1 := sorted_or (pCs po) C). assert (P := sorted_or_perm (pCs po) C). fold C1 in P. assert (FL1 : Forall (lenS (pn po)) C1) by (apply (Permutation_Forall (Permutation_sym P)); auto). rewrite pcols_pn.
    assert (M := minimize_spec true (pn po) C1 FL1). assert (KC : forall x, cK po x <-> cone C1 x) by (intros x; rewrite (cK_C po C EC), (cone_perm C1 C x P); tauto).
    destruct (cherni_minimize true (S (pn po)) C1) as [[[[[C' F'] satF] nbeq] nbline]|].
    + destruct M as (M & SF & Q & PR & RDC). cbv zeta. split. { unfold swf, pn, pdim. cbn [pC pF pnbeq pnbline psatC psatF pint preal]. split; auto. split. discriminate. split. intros s E. congruence. discriminate. } split; auto. split; auto. right. split; auto. split; auto.
      assert (KK : forall x, cone C' x <-> cK po x). { intros x. rewrite KC. rewrite (cone_inC _ C1 x FL1), (cone_inC _ C' x (proj1 (mini_lens _ _ _ _ _ M))). symmetry. apply Q. } split. intros x. rewrite <- KK. reflexivity.
      intros _. destruct (pos_ray_point (pn po) C' F' nbeq nbline ltac:(unfold pn; lia) M (PR eq_refl)) as (x & X). exists (homog x). split. apply KK. exact X. simpl. lra.
    + destruct M as (_ & L & R & G & N). cbv zeta. split. exact I. split; auto. split; auto. left. split; auto. right. split; auto. intros PO (x & X & X0). destruct (proj2 (gamma_pos po H)) as (y & Y). eauto.
      apply (no_pos_empty (pn po) C1 L R) with (x := y); auto. unfold pn; lia. intros z Z. apply PO. apply KC; auto. unfold poly_con. apply KC. exact Y.
  - assert (FL := swf_F po F H EF). change (if pFs po then F else matrix_sort_rows F) with (sorted_or (pFs po) F). set (F1 := sorted_or (pFs po) F). assert (P := sorted_or_perm (pFs po) F). fold F1 in P. assert (FL1 : Forall (lenS (pn po)) F1) by (apply (Permutation_Forall (Permutation_sym P)); auto). rewrite pcols_pn.
    assert (M := minimize_spec false (pn po) F1 FL1).
    destruct (cherni_minimize false (S (pn po)) F1) as [[[[[C' F'] satF] nbeq] nbline]|]; [|destruct M; discriminate].
    destruct M as (M & SF & Q & PR & RDC). cbv zeta. split. { unfold swf, pn, pdim. cbn [poly_dual pC pF pnbeq pnbline psatC psatF pint preal]. split. apply mini_dual; auto. split. intros s E. congruence. split. discriminate. discriminate. } split; auto. split; auto. right. split; auto. split; auto. split. 2: discriminate.
    intros x. assert (KF : forall x, cone C' x <-> cone F x). { intros y. rewrite (cone_inC _ C' y (proj1 (mini_lens _ _ _ _ _ M))). rewrite <- Q. rewrite <- (cone_inC _ F1 y FL1). apply cone_perm; auto. } unfold cK at 1. cbn [poly_dual pC pF]. rewrite (cK_F po F H EF). rewrite (mini_points _ _ _ _ _ (mini_dual _ _ _ _ _ M) x). rewrite (bidual _ C' x (proj1 (mini_lens _ _ _ _ _ M))), (bidual _ F x FL). split; intros A y Y; apply A, KF; auto.
  - cbv zeta. split; auto. split; auto. split; auto. left. unfold isbot. rewrite EC, EF. auto.
Qed.
(** a polyhedron with its set of points *)
Definition repr (po : poly) (i r : nat) (S : vec -> Prop) : Prop := wfp po /\ pint po = i /\ preal po = r /\ forall x, gamma po x <-> S x.
Definition ev (po po' : poly) : Prop := po' = po \/ minimal2 po' = true \/ isbot po' = true.
Lemma ev_refl : forall po, ev po po. Proof. left; auto. Qed.
Lemma ev_trans : forall a b c, ev a b -> ev b c -> ev a c. Proof. intros a b c [->|H] [->|K]; unfold ev; auto. Qed.
Lemma ev_has : forall a b C, ev a b -> isbot b = false -> pC a = Some C -> exists C', pC b = Some C'.
Proof. intros a b C [->|[H|H]] B E. eauto. unfold minimal2 in H. destruct (pC b); eauto; discriminate. congruence. Qed.
Theorem chern_repr : forall po i r S, repr po i r S -> repr (poly_chernikova po) i r S /\ ev po (poly_chernikova po) /\ (isbot (poly_chernikova po) = true \/ minimal2 (poly_chernikova po) = true).
Proof.
  intros po i r S ((W & P) & E1 & E2 & G). destruct (chern_spec po W) as (W' & D1 & D2 & CS). unfold repr, wfp. rewrite D1, D2. destruct CS as [(B & CS)|(B & M & Q & X)].
  - split; [|split; unfold ev; auto]. split. split; auto. left; auto. split; auto. split; auto. intros x. split. intros H. destruct (bot_gamma _ x B H). intros H. exfalso. apply G in H. destruct CS as [CS|[CF CS]]. apply (bot_gamma po x CS H). destruct P as [P|[P _]]. apply (bot_gamma po x P H). apply (CS P). apply (gamma_pos po W). eauto.
  - split; [|split; unfold ev; auto]. split. { split; auto. right. destruct P as [P|[P1 P2]]. { exfalso. unfold isbot in P. destruct (pC po) eqn:A1, (pF po) eqn:A2; try discriminate. unfold poly_chernikova in B. rewrite A1, A2 in B. unfold isbot in B. rewrite A1, A2 in B. discriminate. } split. intros x H. apply P1, Q; auto. intros _. assert (E : exists x, cK po x /\ 0 < x 0%nat). { destruct (pF po) eqn:A2. apply P2; discriminate. apply X; auto. } destruct E as (x & K & K0). exists x. split; auto. apply Q; auto. }
    split; auto. split; auto. intros x. rewrite <- G. apply Q.
Qed.

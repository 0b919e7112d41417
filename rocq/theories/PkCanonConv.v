(** Conversions of polyhedra to constraints and generators: the meaning of the rows. *)
From Coq Require Import ZArith QArith Qreals Bool List Lia Reals Lra.
Import ListNotations.
From Verif Require Import Bound Linexpr PkCone PkVec PkCherni PkSpec PkSimplifyThm PkSimplifyEnd PkMinimize PropPkMinimize PkPoly PkPolyFacts PkPolyLeq PkUser PkUserGen PkCanon PkCanonFacts.
Open Scope R_scope.

(** ** constraints *)
Lemma q2r_inj : forall z, Q2R (inject_Z z) = IZR z. Proof. intros z. unfold Q2R, inject_Z. simpl. lra. Qed.
Lemma zcoeff_in : forall l cs, Forall2 coeff_in cs (map zcoeff l) <-> cs = map IZR l.
Proof.
  induction l as [|z l IH]; intros cs; simpl; split; intros H. inversion H; auto. subst; constructor. inversion H as [|c0 z0 cs0 l0 H2 H4]; subst. simpl in H2. rewrite q2r_inj in H2. subst. f_equal. apply IH; auto. subst. constructor. simpl. rewrite q2r_inj; auto. apply IH; auto.
Qed.
Lemma sum_lform : forall l i x, sum_dense i (map IZR l) x = lform l (S i) (homog x).
Proof. induction l as [|z l IH]; intros i x; simpl; auto. rewrite IH. auto. Qed.
Lemma sat_of_vector : forall q x, (2 <= length q)%nat -> (sat_cons (lincons_of_vector q) x <-> row_holds q (homog x)).
Proof.
  intros [|s [|c l]] x L; simpl in L; try lia. unfold sat_cons, expr_val, lincons_of_vector. cbn [lc_expr lc_typ lc_mod le_cst le_terms skipn]. unfold zn. cbn [nth]. unfold row_holds. cbn [lform].
  assert (X : forall r, (exists c0 r1, coeff_in c0 (zcoeff c) /\ terms_val (Dense (map zcoeff l)) x r1 /\ r = c0 + r1) <-> r = IZR c * homog x 0%nat + lform l 1 (homog x)).
  { intros r. unfold terms_val. split. intros (c0 & r1 & H & (cs & F & ->) & ->). apply zcoeff_in in F. subst cs. simpl in H. rewrite q2r_inj in H. subst. rewrite sum_lform. simpl. lra. intros ->. exists (IZR c), (lform l 1 (homog x)). simpl. rewrite q2r_inj. split; auto. split; [|lra]. exists (map IZR l). split. apply zcoeff_in; auto. symmetry; apply sum_lform. }
  split. intros (r & H & T). apply X in H. subst r. destruct (s =? 0)%Z; exact T. intros H. eexists. split. apply X; reflexivity. destruct (s =? 0)%Z; exact H.
Qed.
Lemma dummy_form : forall l i x, forallb (fun c => (c =? 0)%Z) l = true -> lform l i x = 0.
Proof. induction l as [|z l IH]; intros i x H; simpl in *; auto. apply andb_prop in H. destruct H as [H K]. apply Z.eqb_eq in H. subst. rewrite IH; auto. ring. Qed.
Lemma dummy_holds : forall q x y, is_dummy q = true -> row_holds q (homog x) -> row_holds q (homog y).
Proof.
  intros [|s [|c l]] x y D; unfold is_dummy, zn in D; simpl in D; auto. apply andb_prop in D. destruct D as [D D2]. apply andb_prop in D. destruct D as [D0 D1]. unfold row_holds. destruct (Z.eqb_spec s 0). apply Z.ltb_lt in D0. lia. cbn [lform]. rewrite !(dummy_form l) by auto. auto.
Qed.
Theorem to_lincons_spec : forall po i r S, repr po i r S -> let (l, po') := pk_to_lincons_array po in repr po' i r S /\ forall x, S x <-> Forall (fun c => sat_cons c x) l.
Proof.
  intros po i r S H. unfold pk_to_lincons_array. destruct (chern3_repr po i r S H) as (R1 & _ & O). set (p := poly_chernikova3 po) in *. clearbody p. clear H po. destruct (pC p) as [C|] eqn:EC.
  - assert (M : minimal2 p = true). { destruct O as [O|O]; auto. unfold isbot in O. rewrite EC in O. discriminate. }
    destruct (sorted_C_spec p (proj1 (proj1 R1))) as (W & A & B & K & _ & _). assert (M' := sorted_C_min p (proj1 (proj1 R1))). rewrite M in M'. assert (R2 := min_repr p _ i r S R1 M W A B K M'). set (p2 := poly_obtain_sorted_C p) in *. clearbody p2. split; auto.
    assert (NB := minimal_bot _ M'). unfold minimal2 in M'. destruct (pC p2) as [C2|] eqn:EC2; try discriminate. destruct (pF p2) as [F2|] eqn:EF2; try discriminate.
    destruct (repr_F p2 i r S R2) as (x0 & X0). rewrite EF2; discriminate. destruct R2 as ((W2 & P2) & D1 & D2 & G). assert (LC : Forall (lenS (pn p2)) C2) by (apply (swf_C p2 C2); auto). rewrite Forall_forall in LC.
    assert (GC : forall x, S x <-> Forall (fun c => row_holds c (homog x)) C2). { intros x. rewrite <- G. unfold gamma. rewrite (cK_C p2 C2 EC2). reflexivity. }
    apply GC in X0. rewrite Forall_forall in X0. intros x. rewrite GC, !Forall_forall. split.
    + intros F c I. apply in_map_iff in I. destruct I as (q & <- & I). apply filter_In in I. destruct I as [I _]. apply sat_of_vector; auto. specialize (LC q I). unfold lenS, pn in LC. lia.
    + intros F q I. destruct (is_dummy q) eqn:D. apply dummy_holds with x0; auto. apply sat_of_vector. specialize (LC q I). unfold lenS, pn in LC. lia. apply F. apply in_map. apply filter_In. rewrite D. auto.
  - split; auto. intros x. assert (N : ~ S x). { apply (repr_bot p i r S R1). unfold isbot. rewrite EC. destruct (pF p) eqn:EF; auto. destruct O as [O|O]. unfold isbot in O; rewrite EC, EF in O; auto. unfold minimal2 in O; rewrite EC in O; discriminate. }
    split. tauto. intros F. apply Forall_inv in F. destruct F as (v & (c0 & r1 & C0 & (cs & F1 & ->) & ->) & T). simpl in *. unfold Q2R in C0. simpl in C0. inversion F1; subst. simpl in T. lra.
Qed.

(** ** generators *)
(** the points generated: sum of multiples of lines, non negative multiples of rays and vertices, where the coefficients of the vertices sum to one *)
Fixpoint vmass (gs : list (gentyp * linexpr)) (ks : list R) : R := match gs, ks with g :: gs, k :: ks => (match fst g with GVertex => k | _ => 0 end) + vmass gs ks | _, _ => 0 end.
Fixpoint gcomb (ks : list R) (ds : list (nat -> R)) (i : nat) : R := match ks, ds with k :: ks, d :: ds => k * d i + gcomb ks ds i | _, _ => 0 end.
Definition in_generators (n : nat) (gs : list (gentyp * linexpr)) (x : nat -> R) : Prop := exists ks ds,
  Forall2 (fun g d => direction n (snd g) d) gs ds /\ Forall2 (fun g k => fst g = GLine \/ 0 <= k) gs ks /\ vmass gs ks = 1 /\ forall i, (i < n)%nat -> x i = gcomb ks ds i.

Definition gval (s z : Z) : R := if (s =? 0)%Z then IZR z else IZR z / IZR s.
Lemma gen_coeff_in : forall s l cs, Forall2 coeff_in cs (map (gen_coeff s) l) <-> cs = map (gval s) l.
Proof.
  assert (V : forall s z, Q2R (if (s =? 0)%Z then inject_Z z else Qred (inject_Z z / inject_Z s)) = gval s z).
  { intros s z. unfold gval. destruct (Z.eqb_spec s 0). apply q2r_inj. rewrite (Qeq_eqR _ _ (Qred_correct _)). rewrite Q2R_div. rewrite !q2r_inj. auto. unfold Qeq, inject_Z. simpl. lia. }
  intros s. induction l as [|z l IH]; intros cs; simpl; split; intros H. inversion H; auto. subst; constructor. inversion H as [|c0 z0 cs0 l0 H2 H4]; subst. unfold gen_coeff in H2. cbn [coeff_in] in H2. rewrite V in H2. subst. f_equal. apply IH; auto. subst. constructor. unfold gen_coeff. cbn [coeff_in]. rewrite V; auto. apply IH; auto.
Qed.
Lemma sum_dense_dot : forall l i v, sum_dense i l v = dot (length l) (fun j => nth j l 0) (fun j => v (i + j)%nat).
Proof.
  intros l. induction l as [|c l IH] using rev_ind; intros i v; simpl; auto. rewrite app_length. simpl. rewrite Nat.add_1_r. cbn [dot].
  assert (SA : forall a b i, sum_dense i (a ++ b) v = sum_dense i a v + sum_dense (i + length a) b v). { induction a as [|z a IHa]; intros b j; simpl. rewrite Nat.add_0_r. lra. rewrite IHa. replace (S j + length a)%nat with (j + S (length a))%nat by lia. lra. }
  rewrite SA, IH. simpl. rewrite nth_middle. assert (DE : forall m (d d' : nat -> R) w, (forall j, (j < m)%nat -> d j = d' j) -> dot m d w = dot m d' w). { induction m; intros d d' w H; simpl; auto. rewrite (IHm d d'), (H m); auto. }
  rewrite (DE _ (fun j => nth j (l ++ [c]) 0) (fun j => nth j l 0)). lra. intros j J. apply app_nth1; auto.
Qed.
Definition gdir (q : pvec) : nat -> R := fun i => gval (zn 1 q) (zn (i + 2) q).
Lemma dot_ext : forall m (d d' : nat -> R) w, (forall j, (j < m)%nat -> d j = d' j) -> dot m d w = dot m d' w.
Proof. induction m; intros d d' w H; simpl; auto. rewrite (IHm d d'), (H m); auto. Qed.
Lemma generator_dir : forall n q d, length q = S (S n) -> (direction n (snd (generator_of_vector q)) d <-> forall i, (i < n)%nat -> d i = gdir q i).
Proof.
  intros n [|s [|c l]] d L; simpl in L; try lia. unfold direction, generator_of_vector. cbn [snd le_terms skipn terms_val]. change (zn 1 (s :: c :: l)) with c.
  assert (X : forall v, sum_dense 0 (map (gval c) l) v = dot n (gdir (s :: c :: l)) v). { intros v. rewrite sum_dense_dot, map_length. replace (length l) with n by lia. cbn [Nat.add]. apply dot_ext. intros j J. unfold gdir, zn. rewrite Nat.add_comm. cbn [Nat.add nth]. rewrite (nth_indep _ 0 (gval c 0%Z)) by (rewrite map_length; lia). rewrite map_nth. auto. }
  split.
  - intros H i Hi. destruct (H (unitv i)) as (cs & F & E). apply gen_coeff_in in F. subst cs. rewrite X in E. rewrite !dot_unit in E. destruct (Nat.ltb_spec i n); auto; lia.
  - intros H v. exists (map (gval c) l). split. apply gen_coeff_in; auto. rewrite X. apply dot_ext; auto.
Qed.
Definition gsc (q : pvec) : R := if (zn 1 q =? 0)%Z then 1 else IZR (zn 1 q).
Lemma gsc_pos : forall q, (0 <= zn 1 q)%Z -> 0 < gsc q. Proof. intros q H. unfold gsc. destruct (Z.eqb_spec (zn 1 q) 0). lra. apply IZR_lt. lia. Qed.
Lemma gsc_dir : forall q i, (0 <= zn 1 q)%Z -> gsc q * gdir q i = IZR (zn (i + 2) q).
Proof. intros q i H. unfold gsc, gdir, gval. destruct (Z.eqb_spec (zn 1 q) 0). lra. field. apply not_0_IZR; auto. Qed.
Lemma conv_comb : forall n F ks ks' ds, Forall (fun q : pvec => (zn 0 q = 0%Z -> zn 1 q = 0%Z) /\ (0 <= zn 1 q)%Z) F -> length ks = length F -> Forall2 (fun q d => forall i, (i < n)%nat -> d i = gdir q i) F ds -> ks' = map (fun p => snd p * gsc (fst p)) (combine F ks) ->
  vmass (map generator_of_vector F) ks' = combin ks F 0 /\ forall i, (i < n)%nat -> gcomb ks' ds i = combin ks F (S i).
Proof.
  induction F as [|q F IH]; intros ks ks' ds H L F2 E. destruct ks; try discriminate. inversion F2; subst. simpl. auto. destruct ks as [|k ks]; try discriminate. inversion F2 as [|? d ? ds' D F2']; subst. apply Forall_cons_iff in H. destruct H as [[H1 H2] H]. simpl in L. injection L as L. destruct (IH ks _ ds' H L F2' eq_refl) as [Q1 Q2].
  cbn [combine map fst snd vmass gcomb]. change (combin (k :: ks) (q :: F)) with (fun i => k * IZR (nth (S i) q 0%Z) + combin ks F i). cbv beta. split.
  - rewrite Q1. f_equal. unfold generator_of_vector, gsc. cbn [fst]. change (nth 1 q 0%Z) with (zn 1 q). destruct (Z.eqb_spec (zn 0 q) 0). rewrite H1 by auto. ring. destruct (Z.eqb_spec (zn 1 q) 0) as [->|]. ring. auto.
  - intros i Hi. rewrite Q2 by auto. f_equal. rewrite D by auto. rewrite Rmult_assoc, gsc_dir by auto. unfold zn. replace (i + 2)%nat with (S (S i)) by lia. auto.
Qed.
Lemma generators_points : forall n F x, Forall (fun q : pvec => length q = S (S n) /\ (zn 0 q = 0%Z -> zn 1 q = 0%Z) /\ (0 <= zn 1 q)%Z) F -> (generated (S n) F (homog x) <-> in_generators n (map generator_of_vector F) x).
Proof.
  intros n F x H. assert (HL : Forall (fun q : pvec => length q = S (S n)) F) by (eapply Forall_impl; [|exact H]; simpl; tauto). assert (HZ : Forall (fun q : pvec => (zn 0 q = 0%Z -> zn 1 q = 0%Z) /\ (0 <= zn 1 q)%Z) F) by (eapply Forall_impl; [|exact H]; simpl; tauto). split.
  - intros (ks & L & P & X). exists (map (fun p => snd p * gsc (fst p)) (combine F ks)), (map gdir F).
    destruct (conv_comb n F ks (map (fun p => snd p * gsc (fst p)) (combine F ks)) (map gdir F) HZ L) as [Q1 Q2]; auto. { clear. induction F; constructor; auto. }
    split. { clear - HL. induction HL; constructor; auto. apply generator_dir; auto. }
    split. { clear - HZ L P. revert ks L P. induction HZ as [|q F [Z1 Z2] HZ IH]; intros [|k ks] L P; simpl in L; try discriminate; constructor. unfold generator_of_vector. cbn [fst]. specialize (P 0%nat ltac:(simpl; lia)). simpl in P. destruct (Z.eqb_spec (zn 0 q) 0); auto. right. cbn [fst snd]. apply Rmult_le_pos. apply P. unfold zn in n. exact n. apply Rlt_le, gsc_pos; auto.
      apply IH. lia. intros j J. apply (P (S j)). simpl; lia. }
    split. rewrite Q1. rewrite <- (X 0%nat) by lia. auto. intros i Hi. rewrite Q2 by auto. rewrite <- X by lia. auto.
  - intros (ks' & ds & D & P & V & X). assert (L' := Forall2_len _ _ _ _ _ P). rewrite map_length in L'. set (ks := map (fun p => snd p / gsc (fst p)) (combine F ks')). assert (L : length ks = length F) by (unfold ks; rewrite map_length, combine_length; lia).
    assert (E : ks' = map (fun p => snd p * gsc (fst p)) (combine F ks)). { clear - HZ L'. unfold ks. clear ks. revert ks' L'. induction HZ as [|q F [Z1 Z2] HZ IH]; intros [|k ks'] L; simpl in L; try discriminate; auto. cbn [combine map fst snd]. f_equal. field. apply Rgt_not_eq, gsc_pos; auto. apply IH. lia. }
    destruct (conv_comb n F ks ks' ds HZ L) as [Q1 Q2]; auto. { clear - HL D. revert ds D. induction HL; intros ds D; simpl in D; inversion D; subst; constructor; auto. apply generator_dir; auto. }
    exists ks. split; auto. split.
    + intros j J Z. unfold ks. assert (LF : length F = length ks') by (exact L' || symmetry; exact L'). assert (JC : (j < length (combine F ks'))%nat) by (rewrite combine_length; apply Nat.min_glb_lt; [exact J|rewrite <- LF; exact J]). rewrite (nth_indep _ 0 ((fun p : pvec * R => snd p / gsc (fst p)) ([], 0))) by (rewrite map_length; auto). rewrite (map_nth (fun p : pvec * R => snd p / gsc (fst p))). rewrite combine_nth by exact LF. cbn [fst snd]. apply Rmult_le_pos. 2: { left. apply Rinv_0_lt_compat, gsc_pos. rewrite Forall_forall in HZ. apply HZ. apply nth_In; auto. }
      assert (PJ := F2_nth _ _ _ _ _ (generator_of_vector []) 0 P j). rewrite map_length in PJ. specialize (PJ J). rewrite map_nth in PJ. destruct PJ as [PJ|PJ]; auto. exfalso. unfold generator_of_vector in PJ. cbn [fst] in PJ. destruct (Z.eqb_spec (zn 0 (nth j F [])) 0) as [E0|E0]. apply Z. exact E0. destruct (zn 1 (nth j F []) =? 0)%Z; discriminate.
    + intros [|i] Hi. simpl. rewrite <- Q1. auto. simpl. rewrite <- Q2 by lia. apply X. lia.
Qed.
Lemma gen_pos : forall po F, swf po -> pF po = Some F -> (forall x, cK po x -> 0 <= x 0%nat) -> Forall (fun q : pvec => length q = S (pn po) /\ (zn 0 q = 0%Z -> zn 1 q = 0%Z) /\ (0 <= zn 1 q)%Z) F.
Proof.
  intros po F W E P. apply Forall_forall. intros q I. assert (LF : Forall (lenS (pn po)) F) by (apply (swf_C (poly_dual po) F (swf_dual po W)); auto). rewrite Forall_forall in LF. split. apply LF; auto.
  assert (P' : forall x, generated (pn po) F x -> 0 <= x 0%nat) by (intros x X; apply P; apply (cK_F po F W E); auto).
  assert (Z : forall k, 0 <= k -> 0 <= k * IZR (zn 1 q)). { intros k K. assert (X := P' _ (in_gen (pn po) F q I)). unfold rv in X. rewrite <- zn_tl in X. nra. }
  split.
  - intros Z0. assert (A := P' _ (in_gen_line (pn po) F q (-1) I Z0)). unfold lin2, rv in A. rewrite <- zn_tl in A. specialize (Z 1 ltac:(lra)). apply eq_IZR. lra.
  - apply le_IZR. specialize (Z 1 ltac:(lra)). lra.
Qed.
Theorem to_generators_spec : forall po i r S, repr po i r S -> let (l, po') := pk_to_generator_array po in repr po' i r S /\ forall x, S x <-> in_generators (i + r) l x.
Proof.
  intros po i r S H. unfold pk_to_generator_array. destruct (chern3_repr po i r S H) as (R1 & _ & O). set (p := poly_chernikova3 po) in *. clearbody p. clear H po. destruct (pF p) as [F|] eqn:EF.
  - assert (M : minimal2 p = true). { destruct O as [O|O]; auto. unfold isbot in O. rewrite EF in O. destruct (pC p); discriminate. }
    destruct (sorted_F_spec p (proj1 (proj1 R1)) M) as (W & A & B & K & M' & _). assert (R2 := min_repr p _ i r S R1 M W A B K M'). set (p2 := poly_obtain_sorted_F p) in *. clearbody p2. split; auto.
    assert (NB := minimal_bot _ M'). unfold minimal2 in M'. destruct (pC p2) as [C2|] eqn:EC2; try discriminate. destruct (pF p2) as [F2|] eqn:EF2; try discriminate.
    destruct R2 as ((W2 & P2) & D1 & D2 & G). destruct P2 as [P2|[P2 _]]. congruence.
    assert (GP := gen_pos p2 F2 W2 EF2 P2). assert (PN : pn p2 = Datatypes.S (i + r)) by (unfold pn, pdim; lia). intros x. rewrite <- G. unfold gamma. rewrite (cK_F p2 F2 W2 EF2). rewrite PN in *. apply generators_points. exact GP.
  - split; auto. intros x. assert (N : ~ S x). { apply (repr_bot p i r S R1). unfold isbot. rewrite EF. destruct (pC p) eqn:EC; auto. destruct O as [O|O]. unfold isbot in O; rewrite EC in O; discriminate. unfold minimal2 in O; rewrite EC, EF in O; discriminate. }
    split. tauto. intros (ks & ds & _ & _ & V & _). simpl in V. lra.
Qed.

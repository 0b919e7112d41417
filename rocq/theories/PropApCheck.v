(** Properties C46, C47 and C60: trivial constraints, argument checks, classification of
    linear expressions. *)
From Coq Require Import Arith ZArith QArith Qreals Reals Lra Lia Bool List Sorted.
From Verif Require Import Bound BoundFacts Util Itv Linexpr LinexprFacts ItvLin ItvLinFacts BoxOps ApCore ApCoreFacts ApCoreEq ApCheck.
Import ListNotations.
Open Scope nat_scope.
#[local] Arguments Nat.leb : simpl never.
#[local] Arguments Nat.ltb : simpl never.
#[local] Arguments Nat.eqb : simpl never.
#[local] Arguments Nat.sub : simpl never.
#[local] Arguments Qeq_bool : simpl never.

(** ** C46 *)
Lemma sg_lt : forall q, (Z.sgn (Qnum q) < 0)%Z <-> (Q2R q < 0)%R.
Proof. intros [n d]. unfold Q2R; simpl Qnum; simpl Qden. assert (SG : (Z.sgn n < 0 <-> n < 0)%Z) by (destruct n; simpl; lia). rewrite SG. assert (P : (0 < / IZR (Z.pos d))%R) by (apply Rinv_0_lt_compat, IZR_lt; lia).
  split; intros H. apply IZR_lt in H. nra. apply lt_IZR. nra. Qed.
Lemma sg_gt : forall q, (0 < Z.sgn (Qnum q))%Z <-> (0 < Q2R q)%R.
Proof. intros [n d]. unfold Q2R; simpl Qnum; simpl Qden. assert (SG : (0 < Z.sgn n <-> 0 < n)%Z) by (destruct n; simpl; lia). rewrite SG. assert (P : (0 < / IZR (Z.pos d))%R) by (apply Rinv_0_lt_compat, IZR_lt; lia).
  split; intros H. apply IZR_lt in H. nra. apply lt_IZR. nra. Qed.
Lemma sg_eq : forall q, (Z.sgn (Qnum q) = 0)%Z <-> (Q2R q = 0)%R.
Proof. intros q. pose proof (sg_lt q). pose proof (sg_gt q). split; intros. destruct (Rtotal_order (Q2R q) 0) as [?|[?|?]]; auto; exfalso; [assert (Z.sgn (Qnum q) < 0)%Z by tauto|assert (0 < Z.sgn (Qnum q))%Z by (apply H0; lra)]; lia.
  destruct (Z.lt_trichotomy (Z.sgn (Qnum q)) 0) as [?|[?|?]]; auto; exfalso; [assert (Q2R q < 0)%R by tauto|assert (0 < Q2R q)%R by tauto]; lra. Qed.
Lemma zero_coeff : forall x c, coeff_zero c = true -> (coeff_in x c <-> x = 0%R).
Proof.
  assert (Z0 : forall b, (bsgn b =? 0)%Z = true -> exists q, b = Fin q /\ Q2R q = 0%R).
  { intros [|q|] B; cbn in B; try discriminate. exists q. split; auto. apply Z.eqb_eq in B. apply sg_eq; auto. }
  intros x [b|l u] Z; simpl in *.
  - destruct (Z0 b Z) as (q & -> & E). split; lra.
  - apply andb_prop in Z as [Z1 Z2]. destruct (Z0 l Z1) as (p & -> & E1), (Z0 u Z2) as (q & -> & E2). cbn. split; lra.
Qed.
(** without a non-zero coefficient, the values of the expression are those of its constant *)
Lemma no_coeff_val : forall e v r, holes_last (le_terms e) -> no_coeff e = true -> (expr_val e v r <-> coeff_in r (le_cst e)).
Proof.
  intros e v r HL NC. assert (T : forall r1, terms_val (le_terms e) v r1 <-> r1 = 0%R).
  { intros r1. rewrite foreach_val by auto. unfold no_coeff in NC. revert r1. induction (foreach (le_terms e)) as [|[d c] l IH]; intros r1.
    - split; [inversion 1; auto|intros ->; constructor].
    - simpl in NC. apply andb_prop in NC as [N1 N2]. split.
      + intros X. inversion X as [|x ? ? ? r2 X1 X2]; subst. rewrite (proj1 (zero_coeff _ _ N1) X1), (proj1 (IH N2 _) X2). ring.
      + intros ->. replace 0%R with (0 * v d + 0)%R by ring. constructor. apply zero_coeff; auto. apply IH; auto. }
  split.
  - intros (c0 & r1 & C & T1 & ->). apply T in T1 as ->. rewrite Rplus_0_r. auto.
  - intros C. exists r, 0%R. split; auto. split. apply T; auto. ring.
Qed.
(** the comparisons decided by the two tests *)
Definition decided (c : lincons) : Prop :=
  match lc_typ c, le_cst (lc_expr c) with CEqMod, _ => False | CDisEq, Intv _ _ => False | _, _ => True end.
Theorem C46_is_unsat_partial : forall c, holes_last (le_terms (lc_expr c)) -> decided c -> lincons_is_unsat c = true -> forall v, ~ sat_cons c v.
Proof.
  intros c HL D U v (r & V & S). unfold lincons_is_unsat in U. destruct (no_coeff (lc_expr c)) eqn:NC; [|discriminate].
  apply no_coeff_val in V; auto. unfold decided in D. destruct (le_cst (lc_expr c)) as [b|l u]; simpl in V.
  - destruct b as [|q|]; try tauto. subst r. pose proof (sg_lt q). pose proof (sg_gt q). pose proof (sg_eq q).
    destruct (lc_typ c); cbn in *; try tauto; [apply negb_true_iff, Z.eqb_neq in U|apply Z.ltb_lt in U|apply Z.leb_le in U|apply Z.eqb_eq in U]; try tauto.
    + assert (Q2R q < 0)%R by tauto. lra.
    + assert (0 < Z.sgn (Qnum q))%Z by tauto. lia.
  - destruct V as [V1 V2]. destruct (lc_typ c); cbn in S; try tauto; unfold scalar_sgn in U.
    + subst r. apply orb_prop in U as [U|U]; apply Z.ltb_lt in U. pose proof (bsgn_lt0 u U 0 V2); lra. apply bsgn_le0_iff in V1. lia.
    + apply Z.ltb_lt in U. pose proof (bsgn_lt0 u U r V2); lra.
    + apply Z.leb_le in U. pose proof (bsgn_le0 u U r V2); lra.
Qed.
Print Assumptions C46_is_unsat_partial.
Theorem C46_is_sat_partial : forall c, holes_last (le_terms (lc_expr c)) ->
  (lc_typ c = CDisEq -> is_scal (le_cst (lc_expr c)) = true) -> lincons_is_sat c = true ->
  forall v r, expr_val (lc_expr c) v r -> sat_typ (lc_typ c) (lc_mod c) r.
Proof.
  intros c HL D U v r V. unfold lincons_is_sat in U. destruct (no_coeff (lc_expr c)) eqn:NC; [|discriminate].
  apply no_coeff_val in V; auto. assert (EM : r = 0%R -> sat_typ CEqMod (lc_mod c) r).
  { intros ->. simpl. destruct (lc_mod c) as [[|m|]|]; auto. destruct (Qeq_bool m 0) eqn:Q; auto. exists 0%Z. unfold Rdiv. ring. }
  destruct (le_cst (lc_expr c)) as [b|l u]; simpl in V.
  - destruct b as [|q|]; try tauto. subst r. pose proof (sg_lt q). pose proof (sg_gt q). pose proof (sg_eq q).
    destruct (lc_typ c); cbn in U; [apply Z.eqb_eq in U|apply Z.leb_le in U|apply Z.ltb_lt in U|apply Z.eqb_eq in U|apply negb_true_iff, Z.eqb_neq in U]; try (apply EM); try (simpl; tauto).
    simpl. destruct (Rle_or_lt 0 (Q2R q)); auto. assert (Z.sgn (Qnum q) < 0)%Z by tauto. lia.
  - destruct V as [V1 V2]. destruct (interval_is_bottom (l, u)) eqn:B.
    + exfalso. unfold interval_is_bottom in B. apply Z.ltb_lt in B. unfold scalar_cmp in B.
      destruct l as [|p|], u as [|q|]; cbn in *; try lra; try lia. destruct (Qcompare_spec p q) as [X|X|X]; unfold qcmp in B; cbn in *; try lia.
      * rewrite (proj1 (Qeq_alt _ _) X) in B; lia.
      * rewrite (proj1 (Qlt_alt _ _) X) in B; lia.
      * apply Qlt_Rlt in X. lra.
    + unfold scalar_sgn in U. destruct (lc_typ c); cbn in U.
      * apply andb_prop in U as [U1 U2]. apply Z.eqb_eq in U1, U2. simpl. apply Rle_antisym. apply (bsgn_le0 u); auto; lia.
        destruct l as [|p|]; cbn in *; try tauto; try lia. apply sg_eq in U1. lra.
      * apply Z.leb_le in U. destruct l as [|p|]; cbn in *; try tauto; try lia. pose proof (sg_lt p). destruct (Rle_or_lt 0 (Q2R p)); try lra. assert (Z.sgn (Qnum p) < 0)%Z by tauto. lia.
      * apply Z.ltb_lt in U. destruct l as [|p|]; cbn in *; try tauto; try lia. apply sg_gt in U. lra.
      * apply EM. apply andb_prop in U as [U1 U2]. apply Z.eqb_eq in U1, U2. apply Rle_antisym. apply (bsgn_le0 u); auto; lia.
        destruct l as [|p|]; cbn in *; try tauto; try lia. apply sg_eq in U1. lra.
      * specialize (D eq_refl). discriminate.
Qed.
Print Assumptions C46_is_sat_partial.
(** a constraint on a constant is decided exactly *)
Theorem C46_complete_partial : forall c, holes_last (le_terms (lc_expr c)) -> decided c ->
  (forall d k, In (d, k) (foreach (le_terms (lc_expr c))) -> coeff_zero k = true) ->
  (exists x, coeff_in x (le_cst (lc_expr c))) ->
  ((forall v, ~ sat_cons c v) -> lincons_is_unsat c = true) /\
  ((forall v r, expr_val (lc_expr c) v r -> sat_typ (lc_typ c) (lc_mod c) r) -> lincons_is_sat c = true).
Proof.
  intros c HL D Z (x & X). assert (NC : no_coeff (lc_expr c) = true).
  { unfold no_coeff. apply forallb_forall. intros [d k] I. apply (Z d k I). }
  assert (V : forall v r, expr_val (lc_expr c) v r <-> coeff_in r (le_cst (lc_expr c))) by (intros; apply no_coeff_val; auto).
  unfold lincons_is_unsat, lincons_is_sat. rewrite NC. unfold decided in D.
  assert (SC : (forall v, ~ sat_cons c v) -> forall r, coeff_in r (le_cst (lc_expr c)) -> ~ sat_typ (lc_typ c) (lc_mod c) r).
  { intros N r C S. apply (N (fun _ => 0%R)). exists r. split; auto. apply V; auto. }
  assert (SA : (forall v r, expr_val (lc_expr c) v r -> sat_typ (lc_typ c) (lc_mod c) r) -> forall r, coeff_in r (le_cst (lc_expr c)) -> sat_typ (lc_typ c) (lc_mod c) r).
  { intros N r C. apply (N (fun _ => 0%R)). apply V; auto. }
  split; [intros N; specialize (SC N); clear SA|intros N; specialize (SA N); clear SC]; clear N.
  - destruct (le_cst (lc_expr c)) as [b|l u]; simpl in X, SC.
    + destruct b as [|q|]; try tauto. specialize (SC _ eq_refl). pose proof (sg_lt q). pose proof (sg_gt q). pose proof (sg_eq q).
      destruct (lc_typ c); cbn in *; try tauto; [apply negb_true_iff, Z.eqb_neq|apply Z.ltb_lt|apply Z.leb_le|apply Z.eqb_eq]; try tauto.
      * apply H. lra.
      * destruct (Z_le_gt_dec (Z.sgn (Qnum q)) 0); auto. exfalso. apply SC, H0. lia.
    + destruct X as [X1 X2]. unfold scalar_sgn. destruct (lc_typ c); cbn in *; try tauto.
      * apply orb_true_iff. rewrite !Z.ltb_lt. pose proof (SC 0%R) as S0. pose proof (bsgn_ge0_iff u). pose proof (bsgn_le0_iff l).
        destruct (Z_lt_ge_dec (bsgn u) 0); auto. destruct (Z_lt_ge_dec 0 (bsgn l)); auto. exfalso. apply S0; auto. split; [apply H0|apply H]; lia.
      * apply Z.ltb_lt. destruct (Z_lt_ge_dec (bsgn u) 0); auto. exfalso. destruct (Rle_or_lt 0 x). apply (SC x); auto.
        apply (SC 0%R); [split|]; try lra. destruct l; cbn in *; auto; lra. apply bsgn_ge0_iff. lia.
      * apply Z.leb_le. destruct (Z_le_gt_dec (bsgn u) 0); auto. exfalso.
        assert (P : exists y, (0 < y)%R /\ (x <= y)%R /\ le_rb y u).
        { destruct u as [|q|]; cbn in *; try lia. assert (0 < Q2R q)%R by (apply sg_gt; lia). exists (Q2R q). repeat split; auto; lra. exists (Rmax 1 x). repeat split; auto. pose proof (Rmax_l 1 x); lra. apply Rmax_r. }
        destruct P as (y & Y1 & Y2 & Y3). apply (SC y); auto. split; auto. destruct l; cbn in *; auto; lra.
  - destruct (le_cst (lc_expr c)) as [b|l u]; simpl in X, SA.
    + destruct b as [|q|]; try tauto. specialize (SA _ eq_refl). pose proof (sg_lt q). pose proof (sg_gt q). pose proof (sg_eq q).
      destruct (lc_typ c); cbn in *; try tauto; [apply Z.eqb_eq|apply Z.leb_le|apply Z.ltb_lt|apply negb_true_iff, Z.eqb_neq]; try tauto.
      destruct (Z_le_gt_dec 0 (Z.sgn (Qnum q))); auto. exfalso. assert (Q2R q < 0)%R by (apply H; lia). lra.
    + destruct X as [X1 X2]. destruct (interval_is_bottom (l, u)); auto. unfold scalar_sgn. destruct (lc_typ c); cbn in *; try tauto.
      * assert (L0 : forall b, le_rb x b -> (forall y, (x <= y)%R -> le_rb y b -> y = 0%R) -> bsgn b = 0%Z).
        { intros b B Y. destruct b as [|q|]; cbn in *; try tauto. apply sg_eq. apply Y; auto; lra.
          pose proof (Y x (Rle_refl _) I). pose proof (Y (x + 1)%R ltac:(lra) I). lra. }
        assert (L1 : forall b, ge_rb x b -> (forall y, (y <= x)%R -> ge_rb y b -> y = 0%R) -> bsgn b = 0%Z).
        { intros b B Y. destruct b as [|q|]; cbn in *; try tauto. pose proof (Y x (Rle_refl _) I). pose proof (Y (x - 1)%R ltac:(lra) I). lra. apply sg_eq. apply Y; auto; lra. }
        rewrite (L0 u), (L1 l); auto.
        intros y Y1 Y2. apply SA. split; auto. destruct u; cbn in *; auto; lra.
        intros y Y1 Y2. apply SA. split; auto. destruct l; cbn in *; auto; lra.
      * apply Z.leb_le. destruct l as [|p|]; cbn in *; try tauto.
        -- specialize (SA (Rmin x (-1)) ). pose proof (Rmin_r x (-1)). pose proof (Rmin_l x (-1)). assert (0 <= Rmin x (-1))%R; [|lra]. apply SA. split; auto. destruct u; cbn in *; auto; lra.
        -- assert (0 <= Q2R p)%R. apply SA. split; [lra|]. destruct u; cbn in *; auto; lra. destruct (Z_le_gt_dec 0 (Z.sgn (Qnum p))); auto. assert (Q2R p < 0)%R by (apply sg_lt; lia). lra.
      * apply Z.ltb_lt. destruct l as [|p|]; cbn in *; try tauto.
        -- specialize (SA (Rmin x (-1)) ). pose proof (Rmin_r x (-1)). pose proof (Rmin_l x (-1)). assert (0 < Rmin x (-1))%R; [|lra]. apply SA. split; auto. destruct u; cbn in *; auto; lra.
        -- apply sg_gt. apply SA. split; [lra|]. destruct u; cbn in *; auto; lra.
Qed.
Print Assumptions C46_complete_partial.
Example C46_ex : let e k := mkLin (Intv (Fin (-1)) (Fin k)) (Sparse [(Some 0, Scal (Fin 0)); (Some 3, Intv (Fin 0) (Fin 0)); (None, Scal (Fin 7))]) in
  holes_last (le_terms (e 0%Q)) /\ decided (mkCons CSup (e 0%Q) None) /\ lincons_is_unsat (mkCons CSup (e 0%Q) None) = true /\
  lincons_is_unsat (mkCons CSup (e 1%Q) None) = false /\
  lincons_is_sat (mkCons CSupEq (mkLin (Intv (Fin 0) PInf) (le_terms (e 0%Q))) None) = true.
Proof.
  cbv zeta. split; [|vm_compute; auto]. exists [(Some 0, Scal (Fin 0)); (Some 3, Intv (Fin 0) (Fin 0))], [(None, Scal (Fin 7))].
  split; auto. split; repeat constructor; discriminate.
Qed.
(** 4 = 0 mod 2 holds and is reported unsatisfiable; [-1,1] <> 0 is reported both unsatisfiable and
    always satisfied, though its value may be 1 or 0 *)
Theorem C46_is_unsat_eqmod_refuted : exists c, holes_last (le_terms (lc_expr c)) /\ lincons_is_unsat c = true /\ forall v, sat_cons c v.
Proof.
  exists (mkCons CEqMod (mkLin (Scal (Fin 4)) (Sparse [])) (Some (Fin 2))). split; [exists [], []; auto|]. split; [reflexivity|].
  intros v. exists (Q2R 4). split. exists (Q2R 4), 0%R. split; [reflexivity|]. split; [exists []; split; [constructor|reflexivity]|ring].
  simpl. replace (Qeq_bool 2 0) with false by reflexivity. exists 2%Z. unfold Q2R; simpl. field.
Qed.
Print Assumptions C46_is_unsat_eqmod_refuted.
Theorem C46_diseq_refuted : exists c, holes_last (le_terms (lc_expr c)) /\ wf_linexpr 0 (lc_expr c) /\
  lincons_is_unsat c = true /\ (forall v, sat_cons c v) /\
  lincons_is_sat c = true /\ (forall v, exists r, expr_val (lc_expr c) v r /\ ~ sat_typ (lc_typ c) (lc_mod c) r).
Proof.
  exists (mkCons CDisEq (mkLin (Intv (Fin (-1)) (Fin 1)) (Sparse [])) None). split; [exists [], []; auto|].
  split; [split; [split; discriminate|split; [constructor|split; [constructor|simpl; tauto]]]|].
  assert (V : forall v r, (-1 <= r <= 1)%R -> expr_val (mkLin (Intv (Fin (-1)) (Fin 1)) (Sparse [])) v r).
  { intros v r R. exists r, 0%R. split; [simpl; unfold Q2R; simpl; lra|]. split; [exists []; split; [constructor|reflexivity]|ring]. }
  split; [reflexivity|]. split; [|split; [reflexivity|]].
  - intros v. exists 1%R. split; [apply V; lra|simpl; lra].
  - intros v. exists 0%R. split; [apply V; lra|simpl; tauto].
Qed.
Print Assumptions C46_diseq_refuted.
Theorem C46_make_unsat : forall v, ~ sat_cons lincons_make_unsat v.
Proof. apply C46_is_unsat_partial; [exists [], []; auto|exact I|reflexivity]. Qed.
Print Assumptions C46_make_unsat.

(** ** C47 *)
(** what the documentation asks of the arguments *)
Definition add_request (d : dimension) (ni : nat) (pos : list nat) : Prop :=
  StronglySorted le pos /\ (forall p, In p pos -> p <= fst d + snd d) /\
  (forall i, i < length pos -> (i < ni -> nth i pos 0 <= fst d) /\ (ni <= i -> fst d <= nth i pos 0)).
Definition remove_request (d : dimension) (ni : nat) (pos : list nat) : Prop :=
  StronglySorted lt pos /\ (forall p, In p pos -> p < fst d + snd d) /\
  (forall i, i < length pos -> (i < ni -> nth i pos 0 < fst d) /\ (ni <= i -> fst d <= nth i pos 0)).
Lemma sorted_loop_iff : forall (R : nat -> nat -> Prop) (lt : nat -> nat -> bool),
  (forall a b, lt a b = true <-> R a b) -> (forall a b c, R a b -> R b c -> R a c) ->
  forall l x, sorted_loop lt x l = true <-> StronglySorted R (x :: l).
Proof.
  intros R lt RS TR. induction l as [|y l IH]; intros x; simpl.
  - split; auto. repeat constructor.
  - destruct (lt x y) eqn:L; simpl.
    + rewrite IH. apply RS in L. split.
      * intros S. constructor; auto. constructor; auto. inversion S; subst. eapply Forall_impl; [|eassumption]. intros; eauto.
      * inversion 1; auto.
    + split; [discriminate|]. inversion 1 as [|? ? ? F]; subst. inversion F as [|? ? F1]; subst. apply RS in F1. congruence.
Qed.
Lemma firstn_nth_le : forall ni (f : nat -> bool) l, forallb f (firstn ni l) = true <-> forall i, i < ni -> i < length l -> f (nth i l 0) = true.
Proof.
  induction ni as [|ni IH]; intros f l; simpl. split; auto; intros; lia. destruct l as [|x l]; simpl. split; auto; intros; lia.
  rewrite andb_true_iff, IH. split.
  - intros [X Y] [|i] L1 L2; auto. apply Y; lia.
  - intros Y. split. apply (Y 0); lia. intros i L1 L2. apply (Y (S i)); lia.
Qed.
Lemma last_in : forall (a : nat) l, In (last (a :: l) 0) (a :: l).
Proof. intros a l. destruct (exists_last (l := a :: l)) as (l' & z & E); [discriminate|]. rewrite E, last_last. apply in_or_app; simpl; auto. Qed.
Lemma last_le : forall l x, StronglySorted le l -> In x l -> x <= last l 0.
Proof.
  induction l as [|a l IH]; intros x S I; [destruct I|]. inversion S as [|? ? S1 F]; subst. destruct l as [|b l]; [destruct I as [->|[]]; auto|].
  change (last (a :: b :: l) 0) with (last (b :: l) 0). destruct I as [->|I]; [|auto]. rewrite Forall_forall in F.
  assert (I2 : In (last (b :: l) 0) (b :: l)) by apply last_in. apply F; auto.
Qed.
Lemma lt_le_sorted : forall l, StronglySorted lt l -> StronglySorted le l.
Proof. induction 1; constructor; auto. eapply Forall_impl; [|eassumption]. intros; lia. Qed.
(** a well-formed addition is accepted; an accepted one is well formed provided its first two positions
    are in order and its real positions are not before an integer one *)
Theorem C47_add_partial : forall d ni pos, ni <= length pos ->
  (add_request d ni pos -> check_dimchange_add d ni pos = true) /\
  (check_dimchange_add d ni pos = true -> (2 <= length pos -> nth 0 pos 0 <= nth 1 pos 0) ->
   (forall i, ni <= i < length pos -> fst d <= nth i pos 0) -> add_request d ni pos).
Proof.
  intros d ni pos LN. unfold check_dimchange_add. split.
  - intros (S & L & K). assert (F : forallb (fun x => negb (Nat.ltb (fst d) x)) (firstn ni pos) = true).
    { apply firstn_nth_le. intros i I1 I2. apply negb_true_iff, Nat.ltb_ge. apply (K i); auto. }
    rewrite F. destruct pos as [|a pos]; auto. replace (Nat.ltb 0 (length (a :: pos))) with true by (symmetry; apply Nat.ltb_lt; simpl; lia).
    cbn [andb]. apply andb_true_iff. split.
    + destruct pos as [|b pos]; auto. simpl tl. rewrite (sorted_loop_iff le). inversion S; subst. constructor; auto. apply Forall_forall; intros; lia. intros; apply Nat.leb_le. intros; lia.
    + apply Nat.leb_le. apply L. apply last_in.
  - intros C H2 KR. destruct (forallb _ (firstn ni pos)) eqn:F; [|discriminate]. rewrite firstn_nth_le in F.
    assert (S : StronglySorted le pos /\ (forall p, In p pos -> p <= fst d + snd d)).
    { destruct pos as [|a pos]; [split; [constructor|simpl; tauto]|]. replace (Nat.ltb 0 (length (a :: pos))) with true in C by (symmetry; apply Nat.ltb_lt; simpl; lia).
      cbn [andb] in C. apply andb_prop in C as [C1 C2]. apply Nat.leb_le in C2. cbn [tl] in C1.
      rewrite (sorted_loop_iff le Nat.leb Nat.leb_le Nat.le_trans) in C1. inversion C1 as [|? ? S F0]; subst.
      assert (SS : StronglySorted le (a :: pos)).
      { destruct pos as [|b pos]; [repeat constructor|]. constructor; auto. simpl in H2. specialize (H2 ltac:(lia)). constructor; auto. inversion S; subst. eapply Forall_impl; [|eassumption]. simpl; intros; lia. }
      split; auto. intros p P. apply (last_le _ _ SS) in P. unfold total in C2. lia. }
    destruct S as [S1 S2]. split; auto. split; auto. intros i I. split; intros J. specialize (F i J I). apply negb_true_iff, Nat.ltb_ge in F; auto. apply KR; lia.
Qed.
Print Assumptions C47_add_partial.
Theorem C47_remove_partial : forall d ni pos, ni <= length pos ->
  (remove_request d ni pos -> check_dimchange_remove d ni pos = true) /\
  (check_dimchange_remove d ni pos = true -> (2 <= length pos -> nth 0 pos 0 < nth 1 pos 0) ->
   (forall i, ni <= i < length pos -> fst d <= nth i pos 0) -> remove_request d ni pos).
Proof.
  intros d ni pos LN. unfold check_dimchange_remove. split.
  - intros (S & L & K). assert (F : forallb (fun x => negb (Nat.leb (fst d) x)) (firstn ni pos) = true).
    { apply firstn_nth_le. intros i I1 I2. apply negb_true_iff, Nat.leb_gt. apply (K i); auto. }
    rewrite F. destruct pos as [|a pos]; auto. replace (Nat.ltb 0 (length (a :: pos))) with true by (symmetry; apply Nat.ltb_lt; simpl; lia).
    cbn [andb]. apply andb_true_iff. split.
    + destruct pos as [|b pos]; auto. simpl tl. rewrite (sorted_loop_iff lt). inversion S as [|? ? S1 F1]; subst. constructor; auto. eapply Forall_impl; [|exact F1]. simpl; intros; lia. intros; apply Nat.ltb_lt. intros; lia.
    + apply Nat.ltb_lt. apply L. apply last_in.
  - intros C H2 KR. destruct (forallb _ (firstn ni pos)) eqn:F; [|discriminate]. rewrite firstn_nth_le in F.
    assert (S : StronglySorted lt pos /\ (forall p, In p pos -> p < fst d + snd d)).
    { destruct pos as [|a pos]; [split; [constructor|simpl; tauto]|]. replace (Nat.ltb 0 (length (a :: pos))) with true in C by (symmetry; apply Nat.ltb_lt; simpl; lia).
      cbn [andb] in C. apply andb_prop in C as [C1 C2]. apply Nat.ltb_lt in C2. cbn [tl] in C1.
      rewrite (sorted_loop_iff lt Nat.ltb Nat.ltb_lt Nat.lt_trans) in C1. inversion C1 as [|? ? S F0]; subst.
      assert (SS : StronglySorted lt (a :: pos)).
      { destruct pos as [|b pos]; [repeat constructor|]. constructor; auto. simpl in H2. specialize (H2 ltac:(lia)). constructor; auto. inversion S; subst. eapply Forall_impl; [|eassumption]. simpl; intros; lia. }
      split; auto. intros p P. apply (last_le _ _ (lt_le_sorted _ SS)) in P. unfold total in C2. lia. }
    destruct S as [S1 S2]. split; auto. split; auto. intros i I. split; intros J. specialize (F i J I). apply negb_true_iff, Nat.leb_gt in F; auto. apply KR; lia.
Qed.
Print Assumptions C47_remove_partial.
Example C47_change_ex : add_request (2, 2) 2 [0; 2; 2; 4] /\ check_dimchange_add (2, 2) 2 [0; 2; 2; 5] = false /\
  remove_request (2, 2) 1 [1; 2; 3] /\ check_dimchange_remove (2, 2) 1 [1; 3; 2] = false.
Proof.
  split; [|split; [reflexivity|split; [|reflexivity]]].
  - split; [repeat constructor; lia|]. split; [simpl; intuition lia|]. intros [|[|[|[|i]]]] I; simpl in *; lia.
  - split; [repeat constructor; lia|]. split; [simpl; intuition lia|]. intros [|[|[|i]]] I; simpl in *; lia.
Qed.
(** the first position is never compared with the second one, nor, if there are several, with the dimensionality;
    a real dimension may be inserted among, or taken for, the integer ones *)
Theorem C47_add_refuted :
  (exists d pos, check_dimchange_add d 0 pos = true /\ ~ StronglySorted le pos /\ exists p, In p pos /\ fst d + snd d < p) /\
  (exists d pos, check_dimchange_add d 0 pos = true /\ exists p, In p pos /\ p < fst d).
Proof.
  split.
  - exists (0, 2), [9; 1]. split; [reflexivity|]. split. intros S; inversion S as [|? ? ? F]; inversion F; lia. exists 9. simpl; lia.
  - exists (1, 1), [0]. split; [reflexivity|]. exists 0. simpl; lia.
Qed.
Print Assumptions C47_add_refuted.
Theorem C47_remove_refuted :
  (exists d pos, check_dimchange_remove d 0 pos = true /\ ~ StronglySorted lt pos /\ exists p, In p pos /\ fst d + snd d <= p) /\
  (exists d pos, check_dimchange_remove d 0 pos = true /\ ~ NoDup pos /\ (forall p, In p pos -> fst d <= p < fst d + snd d)) /\
  (exists d pos, check_dimchange_remove d 0 pos = true /\ exists p, In p pos /\ p < fst d).
Proof.
  split; [|split].
  - exists (0, 2), [9; 1]. split; [reflexivity|]. split. intros S; inversion S as [|? ? ? F]; inversion F; lia. exists 9. simpl; lia.
  - exists (0, 2), [1; 1]. split; [reflexivity|]. split. intros N; inversion N; subst; simpl in *; tauto. simpl; intuition lia.
  - exists (1, 1), [0]. split; [reflexivity|]. exists 0. simpl; lia.
Qed.
Print Assumptions C47_remove_refuted.
(** an accepted permutation has the right size and its images are in range; it need not be injective *)
Theorem C47_perm_partial : forall d perm, check_dimperm d perm = true <-> length perm = fst d + snd d /\ forall p, In p perm -> p < length perm.
Proof.
  intros d perm. unfold check_dimperm, total. destruct (Nat.eqb_spec (fst d + snd d) (length perm)) as [E|E].
  - rewrite forallb_forall. split. intros F. split; auto. intros p P. specialize (F p P). apply negb_true_iff, Nat.leb_gt in F. lia.
    intros [_ F] p P. apply negb_true_iff, Nat.leb_gt. specialize (F p P). lia.
  - split; [discriminate|]. intros [? _]. congruence.
Qed.
Print Assumptions C47_perm_partial.
Theorem C47_perm_refuted : exists d perm, check_dimperm d perm = true /\ ~ NoDup perm.
Proof. exists (1, 1), [0; 0]. split; [reflexivity|]. intros N; inversion N; subst; simpl in *; tauto. Qed.
Print Assumptions C47_perm_refuted.
Theorem C47_dims : forall d tdim, check_dim_array d tdim = true <-> forall x, In x tdim -> x < fst d + snd d.
Proof.
  intros d tdim. unfold check_dim_array, total. rewrite forallb_forall. split; intros F x X; specialize (F x X).
  apply negb_true_iff, Nat.leb_gt in F; auto. apply negb_true_iff, Nat.leb_gt; auto.
Qed.
Print Assumptions C47_dims.
Theorem C47_abstracts : (forall d1 d2, check_abstract2 d1 d2 = true <-> d1 = d2) /\
  (forall l, check_abstract_array l = true <-> l <> [] /\ forall a b, In a l -> In b l -> a = b).
Proof.
  split.
  - intros [a b] [a' b']. unfold check_abstract2; simpl. destruct (Nat.eqb_spec a a'), (Nat.eqb_spec b b'); simpl; split; intros X; auto; try discriminate; congruence.
  - intros [|d0 l]; simpl. split; [discriminate|]. intros [X _]; tauto. rewrite forallb_forall. split.
    + intros F. assert (F' : forall a, In a l -> a = d0). { intros [x y] A. specialize (F _ A). destruct d0 as [x0 y0]. simpl in F. destruct (Nat.eqb_spec x x0), (Nat.eqb_spec y y0); simpl in F; congruence. }
      split; [discriminate|]. intros a b [A|A] [B|B]; try apply F' in A; try apply F' in B; congruence.
    + intros [_ F] x X. rewrite (F x d0); auto. rewrite !Nat.eqb_refl. reflexivity.
Qed.
Print Assumptions C47_abstracts.
(** fold: exactly the non-empty strictly increasing lists of dimensions of one kind *)
Theorem C47_fold : forall d tdim, check_fold d tdim = true <->
  tdim <> [] /\ StronglySorted lt tdim /\ (forall x, In x tdim -> x < fst d + snd d) /\
  ((forall x, In x tdim -> x < fst d) \/ (forall x, In x tdim -> fst d <= x)).
Proof.
  intros d tdim. unfold check_fold. rewrite andb_true_iff, C47_dims. destruct tdim as [|x l]; [split; [intros [_ X]; discriminate|intros [X _]; tauto]|].
  assert (SL : sorted_loop Nat.ltb x l = true <-> StronglySorted lt (x :: l)) by (apply sorted_loop_iff; intros; [apply Nat.ltb_lt|lia]).
  assert (IL : In (last (x :: l) 0) (x :: l)) by apply last_in.
  destruct (sorted_loop Nat.ltb x l) eqn:S.
  - pose proof (proj1 SL eq_refl) as SS. cbn [negb]. split.
    + intros [D T]. split; [discriminate|]. split; auto. split; auto.
      destruct (Nat.ltb_spec x (fst d)); destruct (Nat.leb_spec (fst d) (last (x :: l) 0)); simpl in T; try discriminate.
      * left. intros y Y. apply (last_le _ _ (lt_le_sorted _ SS)) in Y. lia.
      * right. intros y Y. inversion SS as [|? ? ? F]; subst. rewrite Forall_forall in F. destruct Y as [<-|Y]; auto. specialize (F y Y). lia.
      * right. intros y Y. inversion SS as [|? ? ? F]; subst. rewrite Forall_forall in F. destruct Y as [<-|Y]; auto. specialize (F y Y). lia.
    + intros (_ & _ & D & K). split; auto. destruct (Nat.ltb_spec x (fst d)); destruct (Nat.leb_spec (fst d) (last (x :: l) 0)); auto. exfalso.
      destruct K as [K|K]; [specialize (K _ IL); lia|specialize (K x (or_introl eq_refl)); lia].
  - split; [intros [_ X]; discriminate|]. intros (_ & SS & _). apply SL in SS. congruence.
Qed.
Print Assumptions C47_fold.
Example C47_fold_ex : check_fold (2, 3) [2; 4] = true /\ check_fold (2, 3) [1; 2] = false /\ check_fold (2, 3) [3; 2] = false.
Proof. vm_compute; auto. Qed.
(** the value returned after an exception on an empty array has one more real dimension than it should *)
Theorem C47_fold_exc_refuted : exists d, check_fold d [] = false /\ fold_exc_dims d [] <> (Z.of_nat (fst d), Z.of_nat (snd d)).
Proof. exists (1, 2). split; [reflexivity|]. vm_compute. discriminate. Qed.
Print Assumptions C47_fold_exc_refuted.
(** linear expressions: sorted ones, over at least one dimension, are accepted iff their dimensions are in range *)
Definition expr_in_range (n : nat) (e : linexpr) : Prop :=
  match le_terms e with Dense l => length l <= n | Sparse ts => forall x, In x (term_dims ts) -> x < n end.
Lemma check_enc : forall n l h, srt l -> check_loop n (rev (enc l h)) (Some 0) =
  match rev l with [] => match h with [] => Some 0 | _ => None end | (x, _) :: _ => if Nat.ltb x n then None else Some x end.
Proof.
  intros n l h S. unfold enc. rewrite rev_app_distr. assert (H : forall (hs : list coeff) rts o, check_loop n (rev (map (fun c => (None, c)) hs) ++ rts) o = check_loop n rts (match hs with [] => o | _ => None end)).
  { intros hs rts. rewrite <- map_rev. assert (Z : forall hs o, check_loop n (map (fun c : coeff => (None, c)) hs ++ rts) o = check_loop n rts (match hs with [] => o | _ => None end)).
    { induction hs0 as [|a hs0 IH]; intros o; simpl; auto. rewrite IH. destruct hs0; auto. }
    intros o. rewrite Z. destruct hs as [|a hs]; auto. simpl rev. destruct (rev hs ++ [a]) eqn:E; auto. apply app_eq_nil in E as [_ E]; discriminate. }
  rewrite H. clear S. rewrite <- map_rev. destruct (rev l) as [|[x c] r]; simpl; [destruct h|]; auto.
Qed.
Theorem C47_linexpr_partial : forall d e, lin_sorted (le_terms e) -> 0 < fst d + snd d -> (check_linexpr d e = true <-> expr_in_range (fst d + snd d) e).
Proof.
  intros d e S P. unfold check_linexpr, check_linexpr_check, expr_in_range, total. destruct (le_terms e) as [l|ts].
  - destruct (Nat.ltb_spec (fst d + snd d) (length l)); split; auto; try discriminate; lia.
  - destruct S as (l & h & -> & S). rewrite check_enc by auto. rewrite enc_dims. unfold srt in S. destruct (rev l) as [|[x c] r] eqn:E.
    + assert (l = []) as -> by (rewrite <- (rev_involutive l), E; auto). simpl. split; [tauto|]. intros _. destruct h; auto.
    + assert (l = rev r ++ [(x, c)]) as -> by (rewrite <- (rev_involutive l), E; auto). rewrite map_app in *. simpl in *.
      assert (M : forall y, In y (map fst (rev r) ++ [x]) -> y <= x).
      { intros y Y. apply lt_le_sorted in S. pose proof (last_le _ _ S Y) as K. rewrite last_last in K. auto. }
      destruct (Nat.ltb_spec x (fst d + snd d)).
      * split; auto. intros _ y Y. specialize (M y Y). lia.
      * destruct x as [|x]; [lia|]. split; [discriminate|]. intros F. assert (In (Datatypes.S x) (map fst (rev r) ++ [Datatypes.S x])) as X by (apply in_or_app; simpl; auto). specialize (F _ X). lia.
Qed.
Print Assumptions C47_linexpr_partial.
Example C47_linexpr_ex : let e := mkLin (Scal (Fin 0)) (Sparse [(Some 1, Scal (Fin 2)); (Some 3, Scal (Fin 1)); (None, Scal (Fin 0))]) in
  lin_sorted (le_terms e) /\ check_linexpr (2, 2) e = true /\ check_linexpr (2, 1) e = false.
Proof. cbv zeta. split; [|vm_compute; auto]. exists [(1, Scal (Fin 2)); (3, Scal (Fin 1))], [Scal (Fin 0)]. split; auto. repeat constructor. Qed.
(** an expression on dimension 0 is accepted for a value without dimension; the terms of an expression
    that is not sorted are not all checked *)
Theorem C47_linexpr_refuted : (exists e, lin_sorted (le_terms e) /\ check_linexpr (0, 0) e = true /\ ~ expr_in_range 0 e) /\
  (exists d e, NoDup (match le_terms e with Sparse ts => term_dims ts | _ => [] end) /\ 0 < fst d + snd d /\ check_linexpr d e = true /\ ~ expr_in_range (fst d + snd d) e).
Proof.
  split.
  - exists (mkLin (Scal (Fin 0)) (Sparse [(Some 0, Scal (Fin 1))])). split; [exists [(0, Scal (Fin 1))], []; split; auto; repeat constructor|].
    split; [reflexivity|]. intros R. specialize (R 0 (or_introl eq_refl)). lia.
  - exists (0, 2), (mkLin (Scal (Fin 0)) (Sparse [(Some 7, Scal (Fin 1)); (Some 0, Scal (Fin 1))])). split; [repeat constructor; simpl; intuition lia|].
    split; [simpl; lia|]. split; [reflexivity|]. intros R. specialize (R 7 (or_introl eq_refl)). simpl in R. lia.
Qed.
Print Assumptions C47_linexpr_refuted.
(** arrays: each element is checked and none is missing *)
Theorem C47_linexpr_array_partial : forall d l, 0 < fst d + snd d -> (forall e, In (Some e) l -> lin_sorted (le_terms e)) ->
  (check_linexpr_array d l = true <-> forall o, In o l -> exists e, o = Some e /\ expr_in_range (fst d + snd d) e).
Proof.
  intros d l P S. unfold check_linexpr_array. rewrite forallb_forall. split.
  - intros F o O. specialize (F o O). destruct o as [e|]; [|discriminate]. exists e. split; auto. apply C47_linexpr_partial; auto.
  - intros F o O. destruct (F o O) as (e & -> & E). apply C47_linexpr_partial; auto.
Qed.
Print Assumptions C47_linexpr_array_partial.

(** ** C60 *)
(** what the classification means: at most one value / values differing only by the choice of the constant *)
Definition one_value (c : coeff) : Prop := exists b, c = Scal b.
Theorem C60_type : forall e, holes_last (le_terms e) ->
  (linexpr_is_linear e = true <-> one_value (le_cst e) /\ forall d c, In (d, c) (foreach (le_terms e)) -> one_value c) /\
  (linexpr_is_quasilinear e = true <-> forall d c, In (d, c) (foreach (le_terms e)) -> one_value c) /\
  (linexpr_type e = TLinear <-> linexpr_is_linear e = true) /\
  (linexpr_type e = TIntlinear <-> linexpr_is_quasilinear e = false).
Proof.
  intros e HL. assert (OV : forall c, is_scal c = true <-> one_value c) by (intros [b|l u]; simpl; split; try discriminate; [exists b; auto|auto|intros (b & X); discriminate]).
  assert (Q : linexpr_is_quasilinear e = true <-> forall d c, In (d, c) (foreach (le_terms e)) -> one_value c).
  { unfold linexpr_is_quasilinear. rewrite forallb_forall. split. intros F d c I. apply OV. apply (F (d, c) I). intros F [d c] I. apply OV. eapply F; eauto. }
  assert (L : linexpr_is_linear e = is_scal (le_cst e) && linexpr_is_quasilinear e) by (unfold linexpr_is_linear; destruct (is_scal (le_cst e)); auto).
  split; [rewrite L, andb_true_iff, Q, OV; tauto|]. split; auto. rewrite L. unfold linexpr_type. change (forallb (fun p => is_scal (snd p)) (foreach (le_terms e))) with (linexpr_is_quasilinear e).
  destruct (linexpr_is_quasilinear e), (is_scal (le_cst e)); simpl; split; split; auto; discriminate.
Qed.
Print Assumptions C60_type.
(** a linear expression has exactly one value at each point *)
Theorem C60_linear_value : forall n e, wf_linexpr n e -> holes_last (le_terms e) -> linexpr_is_linear e = true -> forall v, exists r, forall r', expr_val e v r' <-> r' = r.
Proof.
  intros n e [W1 W2] HL LN v. apply C60_type in LN as [(b & B) T]; auto. rewrite B in W1. destruct b as [|q|]; simpl in W1; try tauto.
  pose proof (foreach_wf _ _ W2) as FW. assert (X : exists r1, forall r', terms_val (le_terms e) v r' <-> r' = r1).
  { setoid_rewrite foreach_val; auto. induction (foreach (le_terms e)) as [|[d c] l IH].
    - exists 0%R. intros r'. split. inversion 1; auto. intros ->; constructor.
    - inversion FW as [|? ? [F1 _] F2]; subst. destruct IH as (r1 & R1); auto. intros d' c' I. apply (T d' c'); simpl; auto.
      destruct (T d c (or_introl eq_refl)) as (b & ->). simpl in F1. destruct b as [|p|]; try tauto.
      exists (Q2R p * v d + r1)%R. intros r'. split.
      + intros K. inversion K as [|x ? ? ? r2 K1 K2]; subst. simpl in K1. subst x. apply R1 in K2. subst; auto.
      + intros ->. constructor. reflexivity. apply R1; auto. }
  destruct X as (r1 & R1). exists (Q2R q + r1)%R. intros r'. split.
  - intros (c0 & r2 & C & T2 & ->). rewrite B in C. simpl in C. subst c0. apply R1 in T2. subst; auto.
  - intros ->. exists (Q2R q), r1. rewrite B. split; [reflexivity|]. split; auto. apply R1; auto.
Qed.
Print Assumptions C60_linear_value.
(** involving only real (integer) dimensions: the other ones have no influence on the values *)
Theorem C60_is_real : forall e intdim, holes_last (le_terms e) -> lin_sorted (le_terms e) ->
  (linexpr_is_real e intdim = true <-> forall d c, In (d, c) (foreach (le_terms e)) -> d < intdim -> coeff_zero c = true) /\
  (linexpr_is_integer e intdim = true <-> forall d c, In (d, c) (foreach (le_terms e)) -> intdim <= d -> coeff_zero c = true).
Proof.
  intros e intdim HL LS. split.
  - unfold linexpr_is_real. assert (S : StronglySorted lt (map fst (foreach (le_terms e)))).
    { destruct (le_terms e) as [l|ts]; simpl.
      - clear. generalize 0. induction l as [|c l IH]; intros i; simpl; constructor; auto. apply Forall_forall. intros x X. apply in_map_iff in X as ([d k] & <- & X).
        assert (Z : forall l i d k, In (d, k) (dense_terms i l) -> i <= d). { clear. induction l as [|c l IH]; simpl; intros; [tauto|]. destruct H as [E|H]; [inversion E; auto|]. apply IH in H. lia. }
        apply Z in X. simpl. lia.
      - destruct LS as (l & h & -> & S). unfold srt in S. replace (sparse_terms (enc l h)) with l; auto.
        clear. unfold enc. induction l as [|[d c] l IH]; simpl; [destruct h; auto|]. f_equal; auto. }
    induction (foreach (le_terms e)) as [|[d c] l IH]; simpl. split; auto; intros; tauto.
    simpl in S. inversion S as [|? ? S1 F]; subst. destruct (Nat.leb_spec intdim d).
    + split; auto. intros _ d' c' [E|I] L. inversion E; subst; lia. rewrite Forall_forall in F. specialize (F d' (in_map fst _ _ I)). lia.
    + destruct (coeff_zero c) eqn:Z; simpl.
      * rewrite IH by auto. split; intros K d' c' I L; [destruct I as [E|I]; [inversion E; subst; auto|]|]; eapply K; eauto.
      * split; [discriminate|]. intros K. rewrite <- Z. symmetry. rewrite (K d c); auto.
  - unfold linexpr_is_integer. destruct (le_terms e) as [l|ts]; simpl.
    + rewrite forallb_forall. assert (Z : forall l i d k, In (d, k) (dense_terms i l) <-> i <= d /\ nth_error l (d - i) = Some k).
      { clear. induction l as [|c l IH]; simpl; intros i d k. split; [tauto|]. intros [_ X]. destruct (d - i); discriminate.
        rewrite IH. split.
        - intros [E|[E1 E2]]. inversion E; subst. rewrite Nat.sub_diag; auto. split; [lia|]. replace (d - i) with (S (d - S i)) by lia. auto.
        - intros [E1 E2]. destruct (Nat.eq_dec d i) as [->|N]. rewrite Nat.sub_diag in E2. inversion E2; auto. right. split; [lia|]. replace (d - i) with (S (d - S i)) in E2 by lia. auto. }
      split.
      * intros K d c I L. apply Z in I as [_ I]. rewrite Nat.sub_0_r in I. apply K. apply nth_error_In with (n := d - intdim). clear - I L. revert d I L. revert l. induction intdim as [|m IH]; intros l d I L. rewrite Nat.sub_0_r; auto.
        destruct l as [|a l]; [destruct d; discriminate|]. destruct d as [|d]; [lia|]. simpl. apply (IH l d); auto. lia.
      * intros K c I. apply In_nth_error in I as (j & J). apply (K (intdim + j) c); [|lia]. apply Z. split; [lia|]. rewrite Nat.sub_0_r. clear - J. revert l J. induction intdim as [|m IH]; intros l J; auto.
        destruct l as [|a l]; [destruct j; discriminate|]. simpl. apply IH; auto.
    + rewrite forallb_forall. split.
      * intros K d c I L. specialize (K _ I). simpl in K. destruct (Nat.leb_spec intdim d); [|lia]. destruct (coeff_zero c); auto.
      * intros K [d c] I. simpl. destruct (Nat.leb_spec intdim d); auto. rewrite (K d c); auto.
Qed.
Print Assumptions C60_is_real.
(** arrays: the least precise type of the elements, for expressions *)
Theorem C60_array_type : forall l, (forall e, In e l -> ltype_num (linexpr_array_type l) <= ltype_num (linexpr_type e)) /\
  (linexpr_array_type l = TLinear \/ exists e, In e l /\ linexpr_array_type l = linexpr_type e).
Proof.
  intros l. unfold linexpr_array_type. assert (G : forall l res, ltype_num (type_loop res l) <= ltype_num res /\ (forall e, In e l -> ltype_num (type_loop res l) <= ltype_num (linexpr_type e)) /\ (type_loop res l = res \/ exists e, In e l /\ type_loop res l = linexpr_type e)).
  { clear l. induction l as [|e l IH]; intros res; simpl. split; auto. split; auto; tauto.
    set (res' := if Nat.ltb (ltype_num (linexpr_type e)) (ltype_num res) then linexpr_type e else res).
    assert (R : ltype_num res' <= ltype_num res /\ ltype_num res' <= ltype_num (linexpr_type e) /\ (res' = res \/ res' = linexpr_type e)) by (unfold res'; destruct (Nat.ltb_spec (ltype_num (linexpr_type e)) (ltype_num res)); (split; [lia|split; [lia|auto]])).
    destruct R as (R1 & R2 & R3). destruct (IH res') as (I1 & I2 & I3).
    assert (RX : match res' with TIntlinear => res' | _ => type_loop res' l end = type_loop res' l \/ res' = TIntlinear /\ match res' with TIntlinear => res' | _ => type_loop res' l end = res') by (destruct res'; auto).
    destruct RX as [->|[E ->]].
    - split; [lia|]. split. intros e' [<-|I]; auto; lia. destruct I3 as [I3|(e' & I & I3)]; rewrite I3; [destruct R3 as [R3|R3]; rewrite R3; eauto|eauto].
    - split; auto. split. intros e' [<-|I]; auto. rewrite E. simpl; lia. destruct R3 as [R3|R3]; eauto. }
  destruct (G l TLinear) as (_ & G2 & G3). auto.
Qed.
Print Assumptions C60_array_type.
(** for constraints the answer is always "linear" *)
Theorem C60_lincons_array_type_refuted : exists l, lincons_array_type l = TLinear /\ exists c, In c l /\ linexpr_type (lc_expr c) = TIntlinear.
Proof.
  set (c := mkCons CSupEq (mkLin (Scal (Fin 0)) (Sparse [(Some 0, Intv (Fin 1) (Fin 2))])) None). exists [c]. split; [reflexivity|]. exists c. split; simpl; auto.
Qed.
Print Assumptions C60_lincons_array_type_refuted.
Theorem C60_arrays : forall l, (linexpr_array_is_linear l = true <-> forall e, In e l -> linexpr_is_linear e = true) /\
  (lincons_array_is_linear (map (fun e => mkCons CSupEq e None) l) = linexpr_array_is_linear l) /\
  (linexpr_array_is_quasilinear l = true <-> forall e, In e l -> linexpr_is_quasilinear e = true) /\
  (linexpr_array_type l = TLinear <-> linexpr_array_is_linear l = true).
Proof.
  intros l. unfold linexpr_array_is_linear, linexpr_array_is_quasilinear, lincons_array_is_linear. rewrite !forallb_forall. split; [tauto|]. split.
  - induction l as [|e l IH]; simpl; auto. rewrite IH; auto.
  - split; [tauto|]. destruct (C60_array_type l) as [A B].
    assert (TL : forall e, linexpr_type e = TLinear <-> linexpr_is_linear e = true).
    { intros e. unfold linexpr_type, linexpr_is_linear. destruct (forallb _ (foreach (le_terms e))), (is_scal (le_cst e)); split; auto; discriminate. }
    split.
    + intros T e I. apply TL. specialize (A e I). rewrite T in A. destruct (linexpr_type e); simpl in A; auto; lia.
    + intros F. destruct B as [B|(e & I & B)]; auto. rewrite B. apply TL. auto.
Qed.
Print Assumptions C60_arrays.
Example C60_ex : let e c := mkLin c (Sparse [(Some 0, Scal (Fin 0)); (Some 2, Scal (Fin 1))]) in
  lin_sorted (le_terms (e (Scal (Fin 0)))) /\ linexpr_array_type [e (Scal (Fin 1)); e (Intv MInf (Fin 2))] = TQuasilinear /\
  linexpr_is_real (e (Scal (Fin 1))) 2 = true /\ linexpr_is_integer (e (Scal (Fin 1))) 2 = false.
Proof. cbv zeta. split; [|vm_compute; auto]. exists [(0, Scal (Fin 0)); (2, Scal (Fin 1))], []. split; auto. repeat constructor. Qed.

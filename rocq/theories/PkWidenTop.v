(** Widening of polyhedra: soundness, stability and termination of the model of pk_widening. *)
From Coq Require Import ZArith Bool List Lia Reals Lra Permutation Classical.
Import ListNotations.
From Verif Require Import PkCone PkVec PkCherni PkCherniFacts PkSpec PkFarkas PkRank PkMinimize PkSimplifyEnd PkPoly PkPolyFacts PkPolyLeq PkPolyMeet PkPolyTop PkOps PkRepr PkProj PkUserGen PropPkMinimize PropPkPoly PkWiden.
Open Scope R_scope.

Definition satrow (F : list pvec) (c : pvec) : list bool := map (fun f => negb (vector_product f c =? 0)%Z) F.
Lemma bits_eqb_iff : forall a b, bits_eqb a b = true <-> a = b.
Proof. induction a as [|x a IH]; intros [|y b]; simpl; split; try discriminate; auto. rewrite andb_true_iff, eqb_true_iff, IH. intros (-> & ->); auto. intros E; inversion E; subst. rewrite andb_true_iff, eqb_true_iff, IH. auto. Qed.
Lemma satrow_satbits : forall F c, satrow F c = satbits (map (fun b : pvec => tl b) F) (tl c).
Proof. intros F c. unfold satrow, satbits, vector_product. rewrite map_map. apply map_ext. intros f. rewrite prod_sym. auto. Qed.
Lemma satrow_same : forall n F c c', Forall (lenS n) F -> lenS n c -> lenS n c' -> (satrow F c = satrow F c' <-> same n F (rv (tl c)) (rv (tl c'))).
Proof.
  intros n F c c' LF LC LC'. rewrite Forall_forall in LF. assert (P : forall f q, In f F -> lenS n q -> (vector_product f q = 0%Z <-> dt n (rv (tl f)) (rv (tl q)) = 0)). { intros f q IF LQ. rewrite dt_sym, <- (prod_dtn n q f LQ (LF f IF)). split. intros ->; auto. apply eq_IZR. }
  unfold satrow, same. split.
  - intros E f IF. rewrite <- (P f c IF LC), <- (P f c' IF LC'). assert (Q : negb (vector_product f c =? 0)%Z = negb (vector_product f c' =? 0)%Z). { revert E IF. clear. induction F as [|g F IH]; simpl; intros E []; inversion E; subst; auto. }
    destruct (Z.eqb_spec (vector_product f c) 0), (Z.eqb_spec (vector_product f c') 0); simpl in Q; try discriminate; tauto.
  - intros H. apply map_ext_in. intros f IF. specialize (H f IF). rewrite <- (P f c IF LC), <- (P f c' IF LC') in H. destruct (Z.eqb_spec (vector_product f c) 0), (Z.eqb_spec (vector_product f c') 0); simpl; tauto.
Qed.
Lemma find_sat_spec : forall F c C, match find_sat (satrow F c) C (satmat C F) with Some c' => In c' C /\ satrow F c = satrow F c' | None => forall c', In c' C -> satrow F c <> satrow F c' end.
Proof.
  intros F c C. induction C as [|d C IH]; simpl; auto. fold (satmat C F). rewrite <- satrow_satbits. destruct (bits_eqb (satrow F c) (satrow F d)) eqn:B. apply bits_eqb_iff in B. auto.
  destruct (find_sat (satrow F c) C (satmat C F)). tauto. intros c' [<-|IC]; auto. intros E. apply bits_eqb_iff in E. congruence.
Qed.

Definition keepf (affine : bool) (C F : list pvec) (c : pvec) : bool := match find_sat (satrow F c) C (satmat C F) with Some c' => negb affine || negb (is_positivity c') | None => false end.
Lemma keep_spec : forall affine C F c, keepf affine C F c = true -> exists c', In c' C /\ satrow F c = satrow F c'.
Proof. intros affine C F c K. unfold keepf in K. pose proof (find_sat_spec F c C) as S. destruct (find_sat (satrow F c) C (satmat C F)) as [c'|]; try discriminate. exists c'. tauto. Qed.

(** the result: constraints of pb (and positivity), those which [keepf] selects *)
Lemma widening_run : forall affine pa pb i r (P Q : vec -> Prop), repr pa i r P -> repr pb i r Q -> (forall x, P x -> Q x) ->
  exists po pa' pb', pk_widening affine pa pb = Some (po, pa', pb') /\ repr pa' i r P /\ repr pb' i r Q /\
    (((forall x, ~ P x) /\ po = pb' /\ isbot pa' = true) \/
     exists C F B FB, pC pa' = Some C /\ pF pa' = Some F /\ pC pb' = Some B /\ pF pb' = Some FB /\ isbot pa' = false /\ po = mkPoly i r (Some (positivity (i + r) :: filter (keepf affine C F) B)) false None false None None 0 0 false false).
Proof.
  intros affine pa pb i r P Q HA HB INC. unfold pk_widening. destruct (chern_repr _ _ _ _ HA) as (RA & _ & MA). destruct (chern_repr _ _ _ _ HB) as (RB & _ & MB). set (pa1 := poly_chernikova pa) in *. set (pb1 := poly_chernikova pb) in *. clearbody pa1 pb1.
  destruct (isbot pa1) eqn:BA.
  - exists pb1, pa1, pb1. split; auto. split; auto. split; auto. left. split; auto. eapply repr_none; eauto.
  - destruct MA as [MA|MA]; [discriminate|]. destruct (satF_rep pa1 i r P RA MA) as (pa2 & E & R2 & EC & EF & ES). rewrite E. assert (M2 := MA). unfold minimal2 in M2. destruct (pC pa1) as [C|] eqn:PC; [|discriminate]. destruct (pF pa1) as [F|] eqn:PF; [|discriminate]. rewrite EC, EF. destruct (psatF pa2) as [sat|] eqn:PS; [|congruence].
    destruct (repr_F_point _ _ _ _ _ RA PF) as (x0 & X0). assert (BB : isbot pb1 = false). { destruct (isbot pb1) eqn:BB; auto. exfalso. apply (repr_none _ _ _ _ RB BB x0). auto. }
    destruct MB as [MB|MB]; [congruence|]. unfold minimal2 in MB. destruct (pC pb1) as [B|] eqn:PB; [|discriminate]. destruct (pF pb1) as [FB|] eqn:PFB; [|discriminate].
    eexists _, pa2, pb1. split. reflexivity. split; auto. split; auto. right. exists C, F, B, FB. split; auto. split; auto. split; auto. split; auto. split. unfold isbot. rewrite EC. auto.
    destruct R2 as ((SW & PP) & I1 & I2 & G). unfold swf in SW. rewrite EC, EF in SW. destruct SW as (M & _ & S2 & _). rewrite (S2 sat PS) in *. unfold pdim. rewrite I1, I2. reflexivity.
Qed.

Lemma repr_mini : forall po i r (P : vec -> Prop) C F, repr po i r P -> pC po = Some C -> pF po = Some F -> mini (S (i + r)) C F (pnbeq po) (pnbline po) /\ (forall x, cone C x -> 0 <= x 0%nat) /\ (exists x, cone C x /\ 0 < x 0%nat) /\ forall x, P x <-> cone C (homog x).
Proof.
  intros po i r P C F ((SW & PP) & I1 & I2 & G) EC EF. assert (SW' := SW). unfold swf in SW'. rewrite EC, EF in SW'. unfold pn, pdim in SW'. rewrite I1, I2 in SW'. split. apply SW'. destruct PP as [PP|(P1 & P2)]. unfold isbot in PP. rewrite EC in PP. discriminate.
  split. intros x X. apply P1. apply (cK_C _ _ EC); auto. split. destruct (P2 ltac:(congruence)) as (x & X & X0). exists x. split; auto. apply (cK_C _ _ EC); auto. intros x. rewrite <- G. unfold gamma. apply (cK_C _ _ EC).
Qed.
(** inclusion of the points is inclusion of the cones *)
Lemma incl_cones : forall n C D x0, Forall (lenS n) C -> (forall x, cone C x -> 0 <= x 0%nat) -> (0 < n)%nat -> Forall (lenS n) D -> cone C x0 -> 0 < x0 0%nat -> (forall x, cone C (homog x) -> cone D (homog x)) -> forall x, cone C x -> cone D x.
Proof.
  intros n C D x0 LC PC Hn LD X0 Z0 H x X. apply cone_in. intros d ID. rewrite Forall_forall in LD. apply (row_valid_ext (cone C) n d x0); auto. intros u a v b U V A B. apply (cone_lin n); auto. 
  intros y Y Y0. assert (Y1 : cone C (lin2 (/ y 0%nat) y 0 y)). { apply (cone_lin n); auto. apply Rlt_le, Rinv_0_lt_compat; auto. lra. }
  set (z := lin2 (/ y 0%nat) y 0 y) in *. assert (ZE : z 0%nat = 1) by (unfold z, lin2; field; lra). assert (V := homog_eta n z ZE). assert (W : cone D (homog (fun j => z (S j)))) by (apply H; eapply (cone_ext n); [auto|apply veq_sym; exact V|auto]).
  pose proof (proj1 (cone_in _ _) W d ID) as Q. apply (row_dt n d _ (LD d ID)) in Q. apply (row_dt n d _ (LD d ID)). rewrite (dt_ext n _ _ _ V) in Q. unfold z in Q. rewrite dt_lin in Q. assert (IP := Rinv_0_lt_compat _ Y0). destruct (zn 0 d =? 0)%Z. apply (Rmult_eq_reg_l (/ y 0%nat)); lra. apply (Rmult_le_reg_l (/ y 0%nat)); lra.
Qed.
Lemma wres_wf : forall affine C F B i r, Forall (lenS (S (i + r))) B -> wfp (mkPoly i r (Some (positivity (i + r) :: filter (keepf affine C F) B)) false None false None None 0 0 false false).
Proof. intros. apply C69_constraints_wf. rewrite Forall_forall in *. intros c IC. apply filter_In in IC. destruct IC as (IC & _). specialize (H c IC). unfold lenS in H. lia. Qed.

Lemma gamma_mk : forall i r C x, gamma (mkPoly i r (Some C) false None false None None 0 0 false false) x <-> cone C (homog x). Proof. intros. unfold gamma, cK. simpl pC. tauto. Qed.

(** * Soundness *)
Theorem widening_sound : forall affine pa pb i r (P Q : vec -> Prop), repr pa i r P -> repr pb i r Q -> (forall x, P x -> Q x) ->
  exists po pa' pb' W, pk_widening affine pa pb = Some (po, pa', pb') /\ repr pa' i r P /\ repr pb' i r Q /\ repr po i r W /\ (forall x, Q x -> W x) /\ ((forall x, ~ P x) -> forall x, W x -> Q x).
Proof.
  intros affine pa pb i r P Q HA HB INC. destruct (widening_run affine pa pb i r P Q HA HB INC) as (po & pa' & pb' & E & RA & RB & [(EM & -> & _)|(C & F & B & FB & EC & EF & EB & EFB & NB & ->)]).
  - exists pb', pa', pb', Q. tauto.
  - eexists _, pa', pb', _. split. exact E. split; auto. split; auto. destruct (repr_mini _ _ _ _ _ _ RB EB EFB) as (MB & PB & _ & GB). destruct (mini_lens _ _ _ _ _ MB) as (LB & _). split. split. apply wres_wf; auto. split. reflexivity. split. reflexivity. intros x. apply gamma_mk.
    split. 2: { intros N. destruct (repr_F_point _ _ _ _ _ RA EF) as (x & X). destruct (N x X). }
    intros x X. apply GB in X. constructor. rewrite (row_dt (S (i + r))) by apply len_pos. simpl. change (1%Z :: repeat 0%Z (i + r)) with (tl (positivity (i + r))). rewrite dt_pos1. simpl. lra. apply cone_in. intros c IC. apply filter_In in IC. apply (proj1 (cone_in _ _) X). tauto.
Qed.

(** * Termination *)
Definition meas (po : poly) : nat * nat * nat :=
  let q := poly_chernikova po in
  match pC q, pF q with Some C, Some F => (0, pnbeq q, nf (pn q) C F (rv (tl (positivity (pdim q)))))%nat | _, _ => (1, 0, 0)%nat end.
Definition lexle (m m' : nat * nat * nat) : Prop := let '(e, a, k) := m in let '(e', a', k') := m' in (e <= e')%nat /\ (e = e' -> (a <= a')%nat /\ (a = a' -> (k <= k')%nat)).
Lemma pos_row : forall d x, row_holds (positivity d) x <-> 0 <= x 0%nat. Proof. intros d x. rewrite (row_dt (S d)) by apply len_pos. rewrite dt_pos1. simpl. tauto. Qed.
Theorem widening_measure : forall affine pa pb pc i r (P Q W : vec -> Prop), repr pa i r P -> repr pb i r Q -> (forall x, P x -> Q x) -> repr pc i r W ->
  (forall po pa' pb', pk_widening affine pa pb = Some (po, pa', pb') -> forall x, gamma po x <-> W x) -> lexle (meas pc) (meas pa) /\ (meas pc = meas pa -> forall x, W x -> P x).
Proof.
  intros affine pa pb pc i r P Q W HA HB INC HC HW. unfold meas. destruct (widening_run affine pa pb i r P Q HA HB INC) as (po & pa' & pb' & E & RA & RB & CS). specialize (HW _ _ _ E).
  destruct (chern_repr _ _ _ _ HA) as (RA1 & _ & MA). destruct (chern_repr _ _ _ _ HC) as (RC1 & _ & MC).
  destruct CS as [(EM & -> & BA)|(C & F & B & FB & EC & EF & EB & EFB & NB & ->)].
  - (* pa is empty *) assert (BA1 : pF (poly_chernikova pa) = None). { destruct (pF (poly_chernikova pa)) as [F|] eqn:EF; auto. destruct (repr_F_point _ _ _ _ _ RA1 EF) as (x & X). destruct (EM x X). }
    assert (MA1 : forall (X : nat * nat * nat) f, match pC (poly_chernikova pa), pF (poly_chernikova pa) with Some C, Some F => f C F | _, _ => X end = X). { intros X f. rewrite BA1. destruct (pC (poly_chernikova pa)); auto. } rewrite MA1.
    destruct (pC (poly_chernikova pc)) as [C|] eqn:EC. destruct (pF (poly_chernikova pc)) as [F|] eqn:EF. 
    + split. unfold lexle. split. lia. intros; lia. intros H; inversion H.
    + split. unfold lexle. split; auto. intros _ x X. destruct MC as [MC|MC]. destruct (repr_none _ _ _ _ RC1 MC x X). unfold minimal2 in MC. rewrite EC, EF in MC. discriminate.
    + split. unfold lexle. split; auto. intros _ x X. destruct MC as [MC|MC]. destruct (repr_none _ _ _ _ RC1 MC x X). unfold minimal2 in MC. rewrite EC in MC. discriminate.
  - destruct (repr_F_point _ _ _ _ _ RA EF) as (x0 & X0). assert (W0 : W x0). { apply HW. rewrite gamma_mk. destruct (repr_mini _ _ _ _ _ _ RB EB EFB) as (_ & _ & _ & GB). constructor. apply pos_row. simpl; lra. apply cone_in. intros c IC. apply filter_In in IC. apply (proj1 (cone_in _ _) (proj1 (GB x0) (INC x0 X0))). tauto. }
    destruct MA as [MA|MA]. destruct (repr_none _ _ _ _ RA1 MA x0 X0). destruct MC as [MC|MC]. destruct (repr_none _ _ _ _ RC1 MC x0 W0). unfold minimal2 in MA, MC.
    assert (DA : pn (poly_chernikova pa) = S (i + r) /\ pdim (poly_chernikova pa) = (i + r)%nat). { destruct RA1 as (_ & A & B' & _). unfold pn, pdim. rewrite A, B'. auto. }
    assert (DC : pn (poly_chernikova pc) = S (i + r) /\ pdim (poly_chernikova pc) = (i + r)%nat). { destruct RC1 as (_ & A & B' & _). unfold pn, pdim. rewrite A, B'. auto. }
    destruct DA as (DA1 & DA2). destruct DC as (DC1 & DC2). rewrite DA1, DA2, DC1, DC2.
    destruct (pC (poly_chernikova pa)) as [C1|] eqn:EC1; [|discriminate]. destruct (pF (poly_chernikova pa)) as [F1|] eqn:EF1; [|discriminate]. destruct (pC (poly_chernikova pc)) as [C2|] eqn:EC2; [|discriminate]. destruct (pF (poly_chernikova pc)) as [F2|] eqn:EF2; [|discriminate].
    (* the representation used by the widening is the one of the measure *)
    assert (SAME : C = C1 /\ F = F1). { clear - E EC1 EF1 NB EC EF. unfold pk_widening in E. destruct (isbot (poly_chernikova pa)) eqn:BT. unfold isbot in BT. rewrite EC1 in BT. discriminate. destruct (poly_obtain_satF (poly_chernikova pa)) as [pa2|] eqn:OS; [|discriminate].
      assert (Q : pC pa2 = Some C1 /\ pF pa2 = Some F1). { unfold poly_obtain_satF in OS. clear - OS EC1 EF1. set (q := poly_chernikova pa) in *. clearbody q. rewrite EC1 in OS. destruct (psatF q). inversion OS; subst; auto. destruct (psatC q); inversion OS; subst; simpl; auto. }
      destruct Q as (Q1 & Q2). rewrite Q1, Q2 in E. destruct (psatF pa2); [|discriminate]. destruct (pC (poly_chernikova pb)); [|discriminate]. inversion E; subst. rewrite EC in Q1. rewrite EF in Q2. inversion Q1. inversion Q2. auto. }
    destruct SAME as (<- & <-). destruct (repr_mini _ _ _ _ _ _ RA1 EC1 EF1) as (M1 & P1 & N1 & G1). destruct (repr_mini _ _ _ _ _ _ RC1 EC2 EF2) as (M2 & P2 & N2 & G2). destruct (repr_mini _ _ _ _ _ _ RB EB EFB) as (MB & PB & NB2 & GB).
    destruct (mini_lens _ _ _ _ _ M1) as (LC & LF). destruct (mini_lens _ _ _ _ _ M2) as (LC2 & LF2). destruct (mini_lens _ _ _ _ _ MB) as (LB & _).
    set (G := filter (keepf affine C F) B) in *. set (p := positivity (i + r)) in *. assert (LG : Forall (lenS (S (i + r))) G). { rewrite Forall_forall in *. intros c IC. apply LB. apply filter_In in IC. tauto. }
    assert (LPG : Forall (lenS (S (i + r))) (p :: G)) by (constructor; auto; apply len_pos).
    assert (HW' : forall x, cone (p :: G) (homog x) <-> W x). { intros x. rewrite <- HW. rewrite gamma_mk. tauto. }
    assert (CI : forall x, cone C x -> cone (p :: G) x). { destruct N1 as (y & Y & Y0). apply (incl_cones (S (i + r)) C (p :: G) y); auto; try lia. intros x X. constructor. apply pos_row. simpl; lra. apply cone_in. intros c IC. apply filter_In in IC. apply (proj1 (cone_in B (homog x))). apply GB, INC, G1; auto. tauto. }
    assert (PG0 : forall x, cone (p :: G) x -> 0 <= x 0%nat). { intros x X. apply (pos_row (i + r)). apply (Forall_inv X). }
    assert (CE : forall x, cone C2 x <-> cone (p :: G) x).
    { intros x. split. destruct N2 as (y & Y & Y0). apply (incl_cones (S (i + r)) C2 (p :: G) y); auto; try lia. intros z Z. apply HW', G2; auto.
      destruct N1 as (y & Y & Y0). apply (incl_cones (S (i + r)) (p :: G) C2 y); auto; try lia. intros z Z. apply G2, HW'; auto. }
    destruct (widen_step (S (i + r)) C F _ _ C2 F2 _ _ p G M1 M2 (len_pos _) eq_refl LG CE CI) as (A1 & A2). { intros g IG. apply filter_In in IG. destruct IG as (IG & K). apply keep_spec in K. destruct K as (c' & IC' & S'). exists c'. split; auto. rewrite Forall_forall in LB, LC. apply satrow_same; auto. }
    split. unfold lexle. split; auto. intros _. split; auto. intros AE. apply A2; auto. intros ME x X. injection ME as AE KE. apply G1. apply A2; auto. apply G2; auto.
Qed.

Lemma nat_stab : forall m (f : nat -> nat) N0, f N0 = m -> (forall k, (N0 <= k)%nat -> (f (S k) <= f k)%nat) -> exists N, (N0 <= N)%nat /\ forall k, (N <= k)%nat -> f (S k) = f k.
Proof.
  induction m as [m IH] using lt_wf_ind. intros f N0 E H. destruct (classic (exists k, (N0 <= k)%nat /\ (f (S k) < f k)%nat)) as [(k & K & L)|N].
  - assert (M : (f k <= m)%nat). { subst m. clear - K H. induction K; auto. specialize (H m ltac:(lia)). lia. } destruct (IH (f (S k)) ltac:(lia) f (S k) eq_refl) as (N & N1 & N2). intros k' K'. apply H. lia. exists N. split; auto. lia.
  - exists N0. split; auto. intros k K. specialize (H k K). destruct (Nat.eq_dec (f (S k)) (f k)); auto. exfalso. apply N. exists k. split; auto. lia.
Qed.
Lemma lex_stab : forall f : nat -> nat * nat * nat, (forall k, lexle (f (S k)) (f k)) -> exists N, forall k, (N <= k)%nat -> f (S k) = f k.
Proof.
  intros f H. destruct (nat_stab _ (fun k => fst (fst (f k))) 0%nat eq_refl) as (N1 & _ & S1). intros k _. specialize (H k). destruct (f (S k)) as [[e a] b], (f k) as [[e' a'] b']. simpl in *. lia.
  destruct (nat_stab _ (fun k => snd (fst (f k))) N1 eq_refl) as (N2 & L2 & S2). intros k K. specialize (H k). specialize (S1 k K). destruct (f (S k)) as [[e a] b], (f k) as [[e' a'] b']. simpl in *. lia.
  destruct (nat_stab _ (fun k => snd (f k)) N2 eq_refl) as (N3 & L3 & S3). intros k K. specialize (H k). specialize (S1 k ltac:(lia)). specialize (S2 k K). destruct (f (S k)) as [[e a] b], (f k) as [[e' a'] b']. simpl in *. lia.
  exists N3. intros k K. specialize (S1 k ltac:(lia)). specialize (S2 k ltac:(lia)). specialize (S3 k K). destruct (f (S k)) as [[e a] b], (f k) as [[e' a'] b']. simpl in *. congruence.
Qed.

(** * Stability *)
Lemma posit_dt : forall d c x, lenS (S d) c -> is_positivity c = true -> dt (S d) (rv (tl c)) x = IZR (zn 1 c) * x 0%nat.
Proof.
  intros d c x L H. unfold is_positivity in H. apply andb_true_iff in H. destruct H as (_ & H). rewrite forallb_forall in H. destruct c as [|s [|q t]]; unfold lenS in L; simpl in L; try lia. simpl in *. unfold dt. rewrite sm_shift. unfold rv at 1. simpl. unfold zn. simpl.
  rewrite (sm_0 d). lra. intros i Hi. unfold rv. simpl. destruct (nth_in_or_default i t 0%Z) as [I | ->]; [|lra]. specialize (H _ I). apply Z.eqb_eq in H. rewrite H. lra.
Qed.
Lemma widen_same : forall affine d C F a b B FB a' b', mini (S d) C F a b -> mini (S d) B FB a' b' -> (forall x, cone C x <-> cone B x) -> (forall x, cone C x -> 0 <= x 0%nat) -> (exists x, cone C x /\ 0 < x 0%nat) ->
  forall x, cone (positivity d :: filter (keepf affine C F) B) x -> cone B x.
Proof.
  intros affine d C F a b B FB a' b' M MB EQ POS (y0 & Y0 & YP) x X. set (n := S d) in *. destruct (mini_lens _ _ _ _ _ M) as (LC & LF). destruct (mini_lens _ _ _ _ _ MB) as (LB & LFB). assert (LC' := LC). assert (LB' := LB). rewrite Forall_forall in LC, LB.
  destruct (mini_ineqs _ _ _ _ _ M) as (E & EC & LE & SE & DD & IE). destruct (mini_ineqs _ _ _ _ _ MB) as (E2 & EC2 & LE2 & SE2 & DD2 & IE2). set (I := ineqs C) in *. set (I2 := ineqs B) in *.
  assert (DK := fun y => dual_K n C F a b y M). assert (DK2 := fun y => dual_K n B FB a' b' y MB). assert (DQ : forall y, inC n (map kc F) y <-> inC n (map kc FB) y). { intros y. rewrite DK, DK2. split; intros H z Z; apply H; apply EQ; auto. }
  assert (SPAN : forall e, In e (tls E2) -> gen n rv (tls E) [] (rv e)). { intros e HE. apply (lin_space n _ _ _ _ DD). apply DQ. apply (dd_gen _ _ _ _ _ DD2). eapply gen_ext. apply (gen_line n rv _ _ e 1); auto. intros j J; unfold lin2; lra. apply DQ. apply (dd_gen _ _ _ _ _ DD2). apply (gen_line n rv); auto. }
  assert (SPAN2 : forall e, In e (tls E) -> gen n rv (tls E2) [] (rv e)). { intros e HE. apply (lin_space n _ _ _ _ DD2). apply DQ. apply (dd_gen _ _ _ _ _ DD). eapply gen_ext. apply (gen_line n rv _ _ e 1); auto. intros j J; unfold lin2; lra. apply DQ. apply (dd_gen _ _ _ _ _ DD). apply (gen_line n rv); auto. }
  assert (IC1 : forall i, In i I -> In (1 :: i)%Z C) by (intros i H; rewrite EC; apply in_app_iff; right; apply (in_map (fun t => (1 :: t)%Z)); auto).
  assert (NOTALL : forall c', In c' C -> (forall f, In f F -> dt n (rv (tl f)) (rv (tl c')) = 0) -> zn 0 c' = 0%Z). { intros c' H Z. rewrite EC in H. apply in_app_iff in H. destruct H as [H|H]. rewrite Forall_forall in SE. apply SE; auto. exfalso. apply in_map_iff in H. destruct H as (i & <- & HI). destruct (dd_ray _ _ _ _ _ DD i HI) as (c & IC & NS). apply in_map_iff in IC. destruct IC as (f & <- & IF). apply NS. apply (Z f IF). }
  (* equalities are kept *)
  assert (KE : forall g, In g E2 -> In g B /\ keepf affine C F g = true).
  { intros g IG. assert (IB : In g B) by (rewrite EC2; apply in_app_iff; auto). split; auto. assert (Z : forall f, In f F -> dt n (rv (tl f)) (rv (tl g)) = 0). { intros f IF. apply (span_sat n F (tls E) I); auto. apply SPAN. apply (in_map (fun q : pvec => tl q)); auto. }
    unfold keepf. pose proof (find_sat_spec F g C) as FS. destruct (find_sat (satrow F g) C (satmat C F)) as [c'|].
    - destruct FS as (H & S1). apply (satrow_same n) in S1; auto. assert (Z0 : zn 0 c' = 0%Z). { apply NOTALL; auto. intros f IF. apply (S1 f IF); auto. } unfold is_positivity. rewrite Z0. simpl. destruct affine; auto.
    - exfalso. destruct E as [|e E'].
      + assert (G0 := SPAN (tl g) (in_map (fun q : pvec => tl q) _ _ IG)). apply gen_lc in G0. destruct G0 as (ks & L & H). destruct ks; [|simpl in L; discriminate]. simpl in H. apply in_split in IG. destruct IG as (l1 & l2 & ->).
        assert (N := IE2 (map (fun _ => 0) l1 ++ 1 :: map (fun _ => 0) l2)). assert (LL : length (map (fun _ => 0) l1 ++ 1 :: map (fun _ : pvec => 0) l2) = length (tls (l1 ++ g :: l2))). { unfold tls. rewrite map_length, !app_length. simpl. rewrite !map_length. auto. } specialize (N LL).
        assert (LCZ : forall (A : list pvec) i, lc (map (fun _ => 0) A) (tls A) i = 0). { induction A as [|q A IHA]; intros i; simpl; auto. rewrite IHA. lra. }
        assert (LCA : forall (A B : list pvec) ks i, lc (map (fun _ => 0) A ++ ks) (tls (A ++ B)) i = lc ks (tls B) i). { induction A as [|q A IHA]; intros B0 ks i; simpl; auto. rewrite IHA. lra. }
        assert (F1 : Forall (fun k => k = 0) (map (fun _ : pvec => 0) l1 ++ 1 :: map (fun _ : pvec => 0) l2)). { apply N. intros i Hi. rewrite LCA. simpl. rewrite LCZ. rewrite (H i Hi). lra. } rewrite Forall_app in F1. destruct F1 as (_ & F1). inversion F1. lra.
      + apply (FS e). rewrite EC. left; auto. apply (satrow_same n); auto. apply LC. rewrite EC; left; auto. intros f IF. rewrite (Z f IF). split; auto. intros _. apply (dd_line _ _ _ _ _ _ (kc f) DD). left; auto. apply in_map; auto. }
  assert (XB : forall g, In g B -> keepf affine C F g = true -> row_holds g x). { intros g IB K. apply (proj1 (cone_in _ _) X). right. apply filter_In; auto. }
  assert (X0 : 0 <= x 0%nat) by (apply (pos_row d); apply (Forall_inv X)).
  assert (XE : forall e, gen n rv (tls E2) [] e -> dt n e x = 0). { intros e GE. rewrite dt_sym. apply (gen_holds n rv (x, true) (tls E2) []); auto. 2: intros r []. intros l IL. simpl. rewrite dt_sym. unfold tls in IL. apply in_map_iff in IL. destruct IL as (q & <- & IQ). destruct (KE q IQ) as (K1 & K2). pose proof (XB q K1 K2) as H. apply (row_dt n q x (LB q K1)) in H. rewrite Forall_forall in SE2. rewrite (SE2 q IQ) in H. exact H. }
  apply cone_in. intros g IG. assert (IG' := IG). rewrite EC2 in IG. apply in_app_iff in IG. destruct IG as [IG|IG]. destruct (KE g IG); auto.
  destruct (keepf affine C F g) eqn:K; auto. apply in_map_iff in IG. destruct IG as (i2 & <- & HI2).
  destruct (facet_row n B FB a' b' E2 C i2 MB DD2 LC') as (c & f & ICc & NZ & EV & _); auto. intros z; symmetry; apply EQ.
  assert (SM : same n F (rv i2) (rv (tl c))). { apply (equiv_sat n F (tls E) I); auto. apply (equiv_span n (tls E2)); auto. }
  unfold keepf in K. pose proof (find_sat_spec F (1 :: i2)%Z C) as FS. destruct (find_sat (satrow F (1 :: i2)%Z) C (satmat C F)) as [c'|].
  2: { exfalso. apply (FS c ICc). apply (satrow_same n); auto. }
  destruct FS as (H & S1). apply (satrow_same n) in S1; auto. simpl in S1. apply orb_false_iff in K. destruct K as (_ & K). apply negb_false_iff in K.
  (* c' is the positivity constraint and i2 is equivalent to it *)
  assert (CI : exists i', c' = (1 :: i')%Z /\ In i' I). { rewrite EC in H. apply in_app_iff in H. destruct H as [H|H]. rewrite Forall_forall in SE. assert (Z := SE c' H). unfold is_positivity in K. rewrite Z in K. discriminate. apply in_map_iff in H. destruct H as (i' & <- & HI'). exists i'; auto. }
  destruct CI as (i' & -> & HI'). simpl in S1. destruct (extreme n F (tls E) I i' (rv i2) DD HI') as (k & e & K0 & GE & V). apply DQ. apply (dd_ray_in _ _ _ _ _ _ DD2 HI2). intros f' IF' Z. apply (S1 f' IF'); auto.
  apply (row_dt n _ x (LB _ IG')). simpl. rewrite dt_sym, (dt_ext n _ _ _ V), dt_lin, !(dt_sym n x). rewrite (XE e) by (apply (span_all n (tls E)); auto). pose proof (posit_dt d (1 :: i')%Z x (LC _ H) K) as PD. simpl in PD. fold n in PD. rewrite PD.
  assert (QP : 0 <= IZR (zn 1 (1 :: i')%Z)). { pose proof (proj1 (cone_in _ _) Y0 _ H) as HY. apply (row_ge n _ _ (LC _ H)) in HY. pose proof (posit_dt d (1 :: i')%Z y0 (LC _ H) K) as PD2. simpl in PD2, HY. fold n in PD2. unfold n in HY, PD2. rewrite PD2 in HY. apply (Rmult_le_reg_r (y0 0%nat)); lra. }
  assert (0 <= k * (IZR (zn 1 (1 :: i')%Z) * x 0%nat)). { apply Rmult_le_pos; auto. apply Rmult_le_pos; auto. } lra.
Qed.
Theorem widening_stable : forall affine pa pb i r (P Q : vec -> Prop) po pa' pb', repr pa i r P -> repr pb i r Q -> (forall x, P x <-> Q x) -> pk_widening affine pa pb = Some (po, pa', pb') -> forall x, gamma po x <-> P x.
Proof.
  intros affine pa pb i r P Q po pa' pb' HA HB EQ E x. destruct (widening_sound affine pa pb i r P Q HA HB) as (po0 & pa0 & pb0 & W & E0 & _ & _ & RW & QW & EMP). intros; apply EQ; auto. rewrite E in E0. inversion E0; subst po0 pa0 pb0; clear E0. destruct RW as (_ & _ & _ & GW).
  split. 2: { intros X. apply GW, QW, EQ; auto. } intros X. apply EQ.
  destruct (widening_run affine pa pb i r P Q HA HB) as (po2 & pa2 & pb2 & E2 & RA & RB & CS). intros; apply EQ; auto. rewrite E in E2. inversion E2; subst po2 pa2 pb2; clear E2. destruct CS as [(EM & -> & BA)|(C & F & B & FB & EC & EF & EB & EFB & NB & ->)].
  - apply RB; auto.
  - destruct (repr_mini _ _ _ _ _ _ RA EC EF) as (M1 & P1 & N1 & G1). destruct (repr_mini _ _ _ _ _ _ RB EB EFB) as (M2 & P2 & N2 & G2). apply G2. rewrite gamma_mk in X. apply (widen_same affine (i + r) C F _ _ B FB _ _ M1 M2); auto.
    destruct (mini_lens _ _ _ _ _ M1) as (LC & _). destruct (mini_lens _ _ _ _ _ M2) as (LC2 & _). intros y. split.
    destruct N1 as (z & Z & Z0). apply (incl_cones (S (i + r)) C B z); auto; try lia. intros v V. apply G2, EQ, G1; auto.
    destruct N2 as (z & Z & Z0). apply (incl_cones (S (i + r)) B C z); auto; try lia. intros v V. apply G1, EQ, G2; auto.
Qed.

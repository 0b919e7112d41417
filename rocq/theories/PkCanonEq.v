(** The equality test and the test that a dimension is unconstrained. *)
From Coq Require Import ZArith Bool List Lia Reals Lra Permutation Sorted.
Import ListNotations.
From Verif Require Import PkCone PkVec PkCherni PkCherniFacts PkRank PkSimplify PkSimplifyThm PkSimplifyEnd PkSpec PkMinimize PkPoly PkPolyFacts PkPolyLeq PropPkMinimize PkCanon PkCanonFacts PkCanonNrm PkCanonUniq PkCanonHon.
Open Scope nat_scope.

Lemma zlist_eqb_iff : forall a b, zlist_eqb a b = true <-> a = b.
Proof.
  induction a as [|x a IH]; intros [|y b]; simpl; split; intros H; try discriminate; auto. apply andb_prop in H. destruct H as [H1 H2]. apply Z.eqb_eq in H1. apply IH in H2. congruence. injection H as -> ->. rewrite Z.eqb_refl. simpl. apply IH; auto.
Qed.
Lemma matrix_equal_iff : forall a b, matrix_equal a b = true <-> a = b.
Proof.
  induction a as [|x a IH]; intros [|y b]; simpl; split; intros H; try discriminate; auto. apply andb_prop in H. destruct H as [H1 H2]. apply zlist_eqb_iff in H1. apply IH in H2. congruence. injection H as -> ->. rewrite (proj2 (zlist_eqb_iff y y) eq_refl). simpl. apply IH; auto.
Qed.
Lemma counts_eq : forall pa pb i r S, repr pa i r S -> repr pb i r S -> minimal2 pa = true -> minimal2 pb = true -> pnbeq pa = pnbeq pb /\ pnbline pa = pnbline pb.
Proof.
  intros pa pb i r S RA RB MA MB. unfold minimal2 in MA, MB. destruct (pC pa) as [A|] eqn:EA; try discriminate. destruct (pF pa) as [F|] eqn:EF; try discriminate. destruct (pC pb) as [B|] eqn:EB; try discriminate. destruct (pF pb) as [G|] eqn:EG; try discriminate.
  assert (CC := cones_of_points pa pb i r S A F B G RA RB EA EF EB EG). assert (PN : pn pa = pn pb) by (destruct RA as (_ & X1 & X2 & _), RB as (_ & X3 & X4 & _); unfold pn, pdim; congruence). destruct RA as ((WA & _) & _). destruct RB as ((WB & _) & _). unfold swf in WA, WB. rewrite EA, EF in WA. rewrite EB, EG in WB. destruct WA as (M1 & _). destruct WB as (M2 & _). rewrite PN in M1.
  assert (M1' := mini_dual _ _ _ _ _ M1). assert (M2' := mini_dual _ _ _ _ _ M2).
  assert (L1 : pnbline pa <= pnbline pb) by (eapply lines_le; [exact M1|exact M2|]; intros; apply CC; auto). assert (L2 : pnbline pb <= pnbline pa) by (eapply lines_le; [exact M2|exact M1|]; intros; apply CC; auto).
  assert (F1 : forall y, cone F y -> cone G y) by (intros y Y; eapply (mini_dual_incl (pn pb) B G _ _ A F); eauto; intros x X; apply CC; auto). assert (F2 : forall y, cone G y -> cone F y) by (intros y Y; eapply (mini_dual_incl (pn pb) A F _ _ B G); eauto; intros x X; apply CC; auto).
  assert (L3 : pnbeq pa <= pnbeq pb) by (eapply lines_le; [exact M1'|exact M2'|]; auto). assert (L4 : pnbeq pb <= pnbeq pa) by (eapply lines_le; [exact M2'|exact M1'|]; auto). lia.
Qed.
Lemma canonical_cases : forall p, pk_is_canonical p = true -> isbot p = true \/ minimal2 p = true.
Proof. intros p. unfold pk_is_canonical, isbot, minimal2. destruct (pC p), (pF p); auto; discriminate. Qed.
Definition same_set (S T : vec -> Prop) : Prop := forall x, S x <-> T x.
Theorem is_eq_spec : forall alg algleq pa pb i r S T b pa' pb', repr pa i r S -> repr pb i r T -> pk_is_eq alg algleq pa pb = (b, pa', pb') ->
  repr pa' i r S /\ repr pb' i r T /\ (b = true -> same_set S T) /\ (hon pa -> hon pb -> same_set S T -> b = true).
Proof.
  intros alg algleq pa pb i r S T b pa' pb' RA RB E. unfold pk_is_eq in E.
  assert (TR : forall p, repr p i r T -> same_set S T -> repr p i r S). { intros p (W & D1 & D2 & G) ST. split; auto. split; auto. split; auto. intros x. rewrite G. symmetry. apply ST. }
  destruct (minimal2 pa && minimal2 pb && negb (Nat.eqb (pnbeq pa) (pnbeq pb) && Nat.eqb (pnbline pa) (pnbline pb))) eqn:TST.
  - injection E as <- <- <-. split; auto. split; auto. split. discriminate. intros _ _ ST. exfalso. apply andb_prop in TST. destruct TST as [TST NE]. apply andb_prop in TST. destruct TST as [MA MB]. destruct (counts_eq pa pb i r S RA (TR pb RB ST) MA MB) as [Q1 Q2]. rewrite Q1, Q2, !Nat.eqb_refl in NE. discriminate.
  - clear TST. assert (RA1 : repr (if alg then poly_chernikova3 pa else pa) i r S) by (destruct alg; auto; apply chern3_repr; auto). assert (RB1 : repr (if alg then poly_chernikova3 pb else pb) i r T) by (destruct alg; auto; apply chern3_repr; auto).
    assert (HA1 : hon pa -> hon (if alg then poly_chernikova3 pa else pa)) by (intros H; destruct alg; auto; apply (chern3_hon pa i r S); auto). assert (HB1 : hon pb -> hon (if alg then poly_chernikova3 pb else pb)) by (intros H; destruct alg; auto; apply (chern3_hon pb i r T); auto).
    set (qa := if alg then poly_chernikova3 pa else pa) in *. set (qb := if alg then poly_chernikova3 pb else pb) in *. clearbody qa qb. destruct (pk_is_canonical qa && pk_is_canonical qb) eqn:CAN.
    + apply andb_prop in CAN. destruct CAN as [CA CB]. injection E as E <- <-. split; auto. split; auto. destruct (canonical_cases qa CA) as [BA|MA], (canonical_cases qb CB) as [BB|MB].
      * assert (NS := repr_bot qa i r S RA1 BA). assert (NT := repr_bot qb i r T RB1 BB). split. intros _ x. split; intros X. destruct (NS x X). destruct (NT x X). intros _ _ _. subst b. unfold isbot in BA, BB. destruct (pC qa); try discriminate. destruct (pC qb); try discriminate. auto.
      * assert (NS := repr_bot qa i r S RA1 BA). unfold isbot in BA. unfold minimal2 in MB. destruct (pC qa); try discriminate. destruct (pC qb); try discriminate. destruct (pF qb) eqn:EF; try discriminate. destruct (repr_F qb i r T RB1) as (x & X). congruence. split. intros Q. subst b. destruct (pF qa); discriminate. intros _ _ ST. destruct (NS x). apply ST; auto.
      * assert (NT := repr_bot qb i r T RB1 BB). unfold isbot in BB. unfold minimal2 in MA. destruct (pC qb); try discriminate. destruct (pC qa); try discriminate. destruct (pF qa) eqn:EF; try discriminate. destruct (repr_F qa i r S RA1) as (x & X). congruence. split. intros Q. subst b. discriminate. intros _ _ ST. destruct (NT x). apply ST; auto.
      * unfold minimal2 in MA, MB. destruct (pC qa) as [A|] eqn:EA; try discriminate. destruct (pF qa) as [F|] eqn:EF; try discriminate. destruct (pC qb) as [B|] eqn:EB; try discriminate. destruct (pF qb) as [G|] eqn:EG; try discriminate. split.
        -- intros ->. apply andb_prop in E. destruct E as [_ E]. destruct RA1 as ((WA & _) & D1 & D2 & GA). destruct RB1 as ((WB & _) & D3 & D4 & GB). intros x. rewrite <- GA, <- GB. unfold gamma. destruct (Nat.leb (length A) (length F)); apply matrix_equal_iff in E.
           rewrite (cK_C qa A EA), (cK_C qb B EB), E. tauto. rewrite (cK_F qa F WA EF), (cK_F qb G WB EG), E. unfold pn, pdim. rewrite D1, D2, D3, D4. tauto.
        -- intros HA HB ST. subst b. destruct (canon_eq qa qb i r S A F B G RA1 (TR qb RB1 ST) (conj (HA1 HA) CA) (conj (HB1 HB) CB) EA EF EB EG) as [-> ->]. rewrite !Nat.eqb_refl. simpl. destruct (Nat.leb (length B) (length G)); apply matrix_equal_iff; auto.
    + destruct (pk_is_leq algleq qa qb) as [[b1 qa1] qb1] eqn:E1. assert (Q1 := is_leq_spec algleq qa qb i r S T RA1 RB1). rewrite E1 in Q1. destruct Q1 as (RA2 & _ & RB2 & _ & L1). destruct b1.
      * destruct (pk_is_leq algleq qb1 qa1) as [[b2 qb2] qa2] eqn:E2. assert (Q2 := is_leq_spec algleq qb1 qa1 i r T S RB2 RA2). rewrite E2 in Q2. destruct Q2 as (RB3 & _ & RA3 & _ & L2). injection E as <- <- <-. split; auto. split; auto. split. intros Q x. split; intros X. apply (proj1 L1 eq_refl); auto. apply (proj1 L2 Q); auto. intros _ _ ST. apply L2. intros x X. apply ST; auto.
      * injection E as <- <- <-. split; auto. split; auto. split. discriminate. intros _ _ ST. assert (X : false = true) by (apply L1; intros x X; apply ST; auto). discriminate.
Qed.

(** ** unconstrained dimension *)
Definition upd (x : vec) (d : nat) (v : R) : vec := fun j => if Nat.eqb j d then v else x j.
Definition unconstrained (S : vec -> Prop) (d : nat) : Prop := forall x v, S x -> S (upd x d v).
Lemma first_line_true : forall d L, first_line d L = true -> exists l, In l L /\ zn (d + 2) l <> 0%Z /\ forall j, 2 <= j -> j < length l -> j <> d + 2 -> zn j l = 0%Z.
Proof.
  intros d L. induction L as [|l L IH]; simpl; intros H. discriminate. destruct (Z.eqb_spec (zn (d + 2) l) 0) as [E|E].
  - destruct (IH H) as (l' & I & Q). exists l'. auto.
  - exists l. split; auto. split; auto. intros j J1 J2 J3. rewrite forallb_forall in H. specialize (H j). rewrite in_seq in H. specialize (H ltac:(lia)). apply orb_prop in H. destruct H as [H|H]. apply Nat.eqb_eq in H. contradiction. apply Z.eqb_eq in H. auto.
Qed.
Lemma first_line_intro : forall d L l, In l L -> zn (d + 2) l <> 0%Z -> (forall j, 2 <= j -> j <> d + 2 -> zn j l = 0%Z) -> (forall r, In r L -> r = l \/ zn (d + 2) r = 0%Z) -> first_line d L = true.
Proof.
  intros d L l I NZ Z O. induction L as [|a L IH]. destruct I. simpl. destruct (Z.eqb_spec (zn (d + 2) a) 0) as [E|E].
  - apply IH. destruct I as [->|I]; auto. contradiction. intros; apply O; right; auto.
  - destruct (O a (or_introl eq_refl)) as [->|X]; try contradiction. apply forallb_forall. intros j J. apply in_seq in J. destruct (Nat.eqb_spec j (d + 2)); auto. simpl. apply Z.eqb_eq. apply Z; lia.
Qed.
Lemma span_scal : forall n L k x, gen n rv (tls L) [] x -> gen n rv (tls L) [] (lin2 k x 0 x).
Proof.
  intros n L k x H. remember ([] : list (list Z)) as N eqn:EN. induction H as [x Z|x l m y H IH I E|x q m y H IH I P E].
  - apply gen_0. intros c Hc. unfold lin2. rewrite Z by auto. ring.
  - apply gen_l with (lin2 k x 0 x) l (k * m)%R; auto. intros c Hc. unfold lin2 in *. rewrite E by auto. ring.
  - subst N. destruct I.
Qed.
Theorem unconstrained_spec : forall po d i r St b po', repr po i r St -> d < i + r -> pk_is_dimension_unconstrained po d = (b, po') ->
  repr po' i r St /\ (b = true -> unconstrained St d) /\ (hon po -> (exists x, St x) -> unconstrained St d -> b = true).
Proof.
  intros po d i r St b po' H D E. unfold pk_is_dimension_unconstrained in E. destruct (chern3_repr po i r St H) as (R1 & _ & O). assert (HO := chern3_hon po i r St H). set (p := poly_chernikova3 po) in *. clearbody p. injection E as E <-. split; auto.
  destruct O as [BO|MO]. { assert (N := repr_bot p i r St R1 BO). unfold isbot in BO. destruct (pC p), (pF p); try discriminate. subst b. split. discriminate. intros _ (x & X). destruct (N x X). }
  unfold minimal2 in MO. destruct (pC p) as [C|] eqn:EC; try discriminate. destruct (pF p) as [F|] eqn:EF; try discriminate. destruct R1 as ((W & P) & D1 & D2 & G). destruct P as [P|[P _]]. { unfold isbot in P. rewrite EC in P. discriminate. }
  assert (W' := W). unfold swf in W'. rewrite EC, EF in W'. destruct W' as (M & _). assert (PN : pn p = S (i + r)) by (unfold pn, pdim; lia). assert (MM := M). destruct MM as (E0 & I0 & L & R & XC & XF & K3 & K4 & K5 & K6 & K7 & K8 & K9 & K10 & K11). apply Forall_app in K6. destruct K6 as [_ K6]. rewrite Forall_forall in K6. assert (FL : firstn (pnbline p) F = L) by (rewrite XF, <- K4, firstn_app, firstn_all, Nat.sub_diag, firstn_O, app_nil_r; auto). rewrite FL in E. assert (LF := proj2 (mini_lens _ _ _ _ _ M)). rewrite Forall_forall in LF. assert (IL : incl L F) by (intros l I; rewrite XF, in_app_iff; auto).
  assert (Z1 : forall l, In l L -> zn 1 l = 0%Z). { intros l I. assert (P' : forall x, generated (pn p) F x -> (0 <= x 0%nat)%R) by (intros x X; apply P; apply (cK_F p F W EF); auto). assert (A := P' _ (in_gen_line (pn p) F l (-1)%R (IL l I) (K6 l I))). assert (B := P' _ (in_gen (pn p) F l (IL l I))). unfold lin2, rv in A, B. rewrite <- zn_tl in A, B. apply eq_IZR. lra. }
  split.
  - intros ->. destruct (first_line_true d L E) as (l & I & NZ & ZZ). intros x v X. apply G in X. apply G. unfold gamma in *. apply (cK_F p F W EF) in X. apply (cK_F p F W EF). set (k := ((v - x d) / IZR (zn (d + 2) l))%R).
    apply generated_ext with (lin2 1 (homog x) 1 (lin2 k (rv (tl l)) 0 (rv (tl l)))). 2: { apply generated_lin; auto; try lra. apply in_gen_line; auto. apply K6; auto. }
    intros c Hc. unfold lin2, rv. rewrite <- zn_tl. destruct c as [|c]. cbn [homog]. rewrite Z1 by auto. ring. cbn [homog]. unfold upd. destruct (Nat.eqb_spec c d) as [->|NE]. replace (S (S d)) with (d + 2) by lia. unfold k. field. apply not_0_IZR; auto.
    rewrite (ZZ (S (S c))). ring. lia. specialize (LF l (IL l I)). unfold lenS in LF. lia. lia.
  - intros HP (x0 & X0) U. specialize (HO HP). destruct (canon_matrices p C F HO EC EF) as (_ & _ & _ & _ & _ & RF).
    (* the unit vector is a direction of the cone *)
    set (u := fun c : nat => if Nat.eqb c (S d) then 1%R else 0%R).
    assert (CU : forall k, inC (pn p) (map kc C) (lin2 k u 0 u)).
    { intros k. assert (LC := proj1 (mini_lens _ _ _ _ _ M)). apply (cone_inC (pn p) C _ LC). rewrite Forall_forall in LC. apply Forall_forall. intros c I. apply (row_dt (pn p) c _ (LC c I)).
      assert (Q : forall t, (0 <= dt (pn p) (rv (tl c)) (homog x0) + t * dt (pn p) (rv (tl c)) u)%R). { intros t. assert (X := U x0 (x0 d + t)%R X0). apply G in X. unfold gamma in X. apply (cK_C p C EC) in X. unfold cone in X. rewrite Forall_forall in X. specialize (X c I). apply (row_dt (pn p) c _ (LC c I)) in X.
        assert (Y : dt (pn p) (rv (tl c)) (homog (upd x0 d (x0 d + t)%R)) = (dt (pn p) (rv (tl c)) (homog x0) + t * dt (pn p) (rv (tl c)) u)%R). { rewrite (dt_ext (pn p) _ (homog (upd x0 d (x0 d + t)%R)) (lin2 1 (homog x0) t u)). rewrite dt_lin. ring. intros [|e] _; unfold lin2, u, upd; simpl. ring. destruct (Nat.eqb_spec e d) as [->|]; ring. }
        rewrite Y in X. destruct (zn 0 c =? 0)%Z; lra. }
      assert (Z : dt (pn p) (rv (tl c)) u = 0%R). { destruct (Req_EM_T (dt (pn p) (rv (tl c)) u) 0) as [|NZ]; auto. exfalso. set (w := dt (pn p) (rv (tl c)) u) in *. set (h := dt (pn p) (rv (tl c)) (homog x0)) in *. specialize (Q (- (h + 1) / w)%R). replace (- (h + 1) / w * w)%R with (- (h + 1))%R in Q by (field; auto). lra. }
      rewrite dt_lin, Z. destruct (zn 0 c =? 0)%Z; lra. }
    assert (GU : gen (pn p) rv (tls L) [] u). { apply lin_space with (map kc C) (tls R); auto. apply inC_ext with (lin2 1 u 0 u); auto. intros c _. unfold lin2. ring. }
    assert (ND := indep_nodup (pn p) L K11). assert (RL : forall q, In q L -> exists j, j <= pn p /\ pvat F q j). { intros q I. apply (rdc_pv (pn p) F); auto. apply Forall_forall. exact LF. apply K6; auto. }
    destruct (span_pivot (pn p) L F u (S d) ND IL RL GU) as (l & I & PV). lia. unfold u. rewrite Nat.eqb_refl. lra. intros c C1 C2. unfold u. destruct (Nat.eqb_spec c (S d)); auto; lia.
    replace (S (S d)) with (d + 2) in PV by lia. assert (PV' := PV). destruct PV' as (P1 & P2 & P3 & P4).
    assert (W0 : forall c, c < pn p -> lin2 1 (rv (tl l)) (- IZR (zn (d + 2) l)) u c = 0%R). { apply (span_null (pn p) L F); auto.
      - eapply gen_ext. apply gen_add. apply gen_line with (k := 1%R) (l := tl l). unfold tls. apply (in_map (fun q : pvec => tl q)); exact I. apply (span_scal (pn p) L (- IZR (zn (d + 2) l))%R u GU). intros c _. unfold lin2. ring.
      - intros q j Iq Pq. assert (J1 := proj1 Pq). unfold lin2, rv. rewrite <- zn_tl. replace (S (j - 1)) with j by lia. unfold u. destruct (Nat.eqb_spec (j - 1) (S d)) as [Q|Q]. replace j with (d + 2) by lia. ring. destruct Pq as (A1 & A2 & A3 & A4). destruct (A4 l (IL l I)) as [->|X]. exfalso. apply Q. assert (j = d + 2). { eapply pvat_uniq. split; [exact A1|]; split; [exact A2|]; split; [exact A3|exact A4]. exact PV. } lia. rewrite X. ring. }
    subst b. apply (first_line_intro d L l I). lia. 2: { intros q Iq. apply P4. apply IL; auto. }
    intros j J1 J2. destruct (Nat.le_gt_cases j (pn p)) as [JN|JN]. specialize (W0 (j - 1) ltac:(lia)). unfold lin2, rv, u in W0. rewrite <- zn_tl in W0. replace (S (j - 1)) with j in W0 by lia. destruct (Nat.eqb_spec (j - 1) (S d)); try lia. apply eq_IZR. lra.
    unfold zn. apply nth_overflow. specialize (LF l (IL l I)). unfold lenS in LF. lia.
Qed.

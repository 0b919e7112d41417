(** Transformations of polyhedra: from row transformations to sets of points. *)
From Coq Require Import ZArith Bool List Lia Reals Lra.
Import ListNotations.
From Verif Require Import PkCone PkVec PkCherni PkCherniFacts PkSpec PkFarkas PkRank PkSimplifyEnd PkMinimize PkPoly PkPolyFacts PkPolyLeq PkPolyMeet PkLin.
Open Scope R_scope.

Lemma homog_eta : forall n (x : vec), x 0%nat = 1 -> veq n (homog (fun j => x (S j))) x. Proof. intros n x E [|j] _; simpl; auto. Qed.
Lemma veq_sym : forall n x y, veq n x y -> veq n y x. Proof. intros n x y H i Hi. symmetry. apply H; auto. Qed.
Lemma veq_trans : forall n x y z, veq n x y -> veq n y z -> veq n x z. Proof. intros n x y z H K i Hi. rewrite H by auto. apply K; auto. Qed.
(** the generators are replaced by their images *)
Lemma image_F : forall pa po i r i' r' (P : vec -> Prop) A F g, repr pa i r P -> pF pa = Some F -> linear (d1 i r) (d1 i' r') A -> (forall x, A x 0%nat = x 0%nat) -> (forall f, In f F -> rimg (d1 i' r') A f (g f) /\ lenS (d1 i' r') (g f)) ->
  pint po = i' -> preal po = r' -> pC po = None -> pF po = Some (map g F) -> psatC po = None -> psatF po = None ->
  repr po i' r' (fun y => exists x, P x /\ forall j, (j < i' + r')%nat -> y j = A (homog x) (S j)).
Proof.
  intros pa po i r i' r' P A F g HR EF LA A0 H I' R' EC' EF' s1 s2. assert (PN := repr_pn _ _ _ _ HR). destruct HR as ((SW & PO) & HI & HR & G). assert (PN' : pn po = d1 i' r') by (unfold pn, pdim, d1; congruence).
  assert (K : forall y, cK po y <-> exists x, cK pa x /\ veq (d1 i' r') y (A x)). { intros y. unfold cK at 1. rewrite EC', EF', PN'. rewrite (gen_map (d1 i r) (d1 i' r') A F g y LA). 2: intros; apply H; auto. split; intros (x & X & V); exists x; split; auto. rewrite (cK_F pa F); auto. rewrite PN. auto. rewrite (cK_F pa F) in X; auto. rewrite PN in X. auto. }
  assert (Z : (0 < d1 i' r')%nat) by (unfold d1; lia). destruct PO as [PO|(P1 & P2)]. unfold isbot in PO. destruct (pC pa); try discriminate. rewrite EF in PO. discriminate.
  split; [split|split; [auto|split; [auto|]]].
  - unfold swf. rewrite EC', EF', PN'. split; auto. apply Forall_forall. intros q Q. apply in_map_iff in Q. destruct Q as (f & <- & Q). apply H; auto.
  - right. split. intros y Y. apply K in Y. destruct Y as (x & X & V). rewrite V, A0 by auto. apply P1; auto. intros _. destruct P2 as (x & X & X0). congruence. exists (A x). split. apply K. exists x. split; auto. intros q _; auto. rewrite A0. auto.
  - intros y. unfold gamma. rewrite K. split; intros (x & X & V).
    + exists (fun j => x (S j)). assert (x 0%nat = 1) by (rewrite <- A0, <- V by auto; reflexivity). split. apply G. unfold gamma. apply cK_ext with x; auto. apply veq_sym. apply homog_eta; auto.
      intros j Hj. assert (E : homog y (S j) = y j) by reflexivity. rewrite <- E, V by (unfold d1; lia). apply (proj2 LA). apply veq_sym. apply homog_eta; auto. unfold d1; lia.
    + exists (homog x). split. apply G; auto. intros [|j] Hj. rewrite A0. reflexivity. simpl. apply V. unfold d1 in Hj. lia.
Qed.
(** the constraints are composed with a map *)
Lemma preimage_C : forall pa po i r i' r' (P : vec -> Prop) B C g, repr pa i r P -> pC pa = Some C -> (forall x, B x 0%nat = x 0%nat) -> (forall c, In c C -> rpre (d1 i r) (d1 i' r') B c (g c) /\ lenS (d1 i' r') (g c)) ->
  pint po = i' -> preal po = r' -> pC po = Some (map g C) -> pF po = None -> psatC po = None -> psatF po = None ->
  repr po i' r' (fun y => P (fun j => B (homog y) (S j))).
Proof.
  intros pa po i r i' r' P B C g HR EC B0 H I' R' EC' EF' s1 s2. assert (PN := repr_pn _ _ _ _ HR). destruct HR as ((SW & PO) & HI & HR & G). assert (PN' : pn po = d1 i' r') by (unfold pn, pdim, d1; congruence).
  assert (LC : Forall (lenS (d1 i r)) C) by (rewrite <- PN; apply (swf_C pa); auto). assert (LC' : Forall (lenS (d1 i' r')) (map g C)). { apply Forall_forall. intros q Q. apply in_map_iff in Q. destruct Q as (f & <- & Q). apply H; auto. }
  assert (K : forall y, cK po y <-> cK pa (B y)). { intros y. rewrite (cK_C po _ EC'), (cK_C pa _ EC). apply (cone_map (d1 i r) (d1 i' r')); auto. intros; apply H; auto. }
  split; [split|split; [auto|split; [auto|]]].
  - unfold swf. rewrite EC', EF', PN'. auto.
  - right. split. 2: congruence. intros y Y. apply K in Y. rewrite <- B0. destruct PO as [PO|(P1 & _)]. unfold isbot in PO. rewrite EC in PO. destruct (pF pa); discriminate. apply P1; auto.
  - intros y. unfold gamma. rewrite K, <- G. unfold gamma. split; intros X; eapply cK_ext; eauto; try (apply veq_sym; apply homog_eta); try apply homog_eta; rewrite B0; reflexivity.
Qed.
(** both: first the cones *)
Lemma both_swf : forall pa po n n' B C F X gc gf, swf pa -> pn pa = n -> pn po = n' -> pC pa = Some C -> pF pa = Some F ->
  (forall c, In c C -> rpre n n' B c (gc c) /\ lenS n' (gc c) /\ zn 0 (gc c) = zn 0 c) -> (forall f, In f F -> lenS n' (gf f) /\ zn 0 (gf f) = zn 0 f) -> Forall (lenS n') X -> Forall (st 0) X ->
  (forall y, generated n' (X ++ map gf F) y <-> generated n F (B y)) ->
  (forall c f, In c C -> In f F -> (dt n' (rv (tl (gc c))) (rv (tl (gf f))) = 0 <-> dt n (rv (tl c)) (rv (tl f)) = 0)) ->
  (forall E, incl E C -> indep n (tls E) -> indep n' (tls (map gc E))) -> (forall L, incl L F -> indep n (tls L) -> indep n' (tls (X ++ map gf L))) ->
  pC po = Some (map gc C) -> pF po = Some (X ++ map gf F) -> pnbeq po = pnbeq pa -> pnbline po = (length X + pnbline pa)%nat ->
  (forall s, psatC po = Some s -> exists s0, psatC pa = Some s0 /\ s = repeat (repeat false (length C)) (length X) ++ s0 \/ psatC pa = None /\ s = repeat (repeat false (length C)) (length X) ++ satmat F C) ->
  (forall s, psatF po = Some s -> X = [] /\ psatF pa = Some s) -> (psatC po = None -> psatF po <> None) ->
  swf po /\ forall y, cK po y <-> cK pa (B y).
Proof.
  intros pa po n n' B C F X gc gf SW PN PN' EC EF HC HF LX SX GX PZ IC IL EC' EF' NE NL S1 S2 S3.
  assert (LC : Forall (lenS n) C) by (rewrite <- PN; apply (swf_C pa); auto). assert (LF : Forall (lenS n) F) by (rewrite <- PN; apply (swf_F pa); auto).
  assert (LC' : Forall (lenS n') (map gc C)). { apply Forall_forall. intros q Q. apply in_map_iff in Q. destruct Q as (f & <- & Q). apply HC; auto. }
  assert (LF' : Forall (lenS n') (map gf F)). { apply Forall_forall. intros q Q. apply in_map_iff in Q. destruct Q as (f & <- & Q). apply HF; auto. }
  assert (CM : forall y, cone (map gc C) y <-> cone C (B y)) by (intros y; apply (cone_map n n'); auto; intros; apply HC; auto).
  assert (CF : forall y, cone C y <-> generated n F y). { intros y. rewrite <- (cK_C pa _ EC), <- PN. apply cK_F; auto. }
  assert (K : forall y, cK po y <-> cK pa (B y)). { intros y. rewrite (cK_C po _ EC'), (cK_C pa _ EC). auto. }
  assert (CGX : forall y, cone (map gc C) y <-> generated n' (X ++ map gf F) y) by (intros y; rewrite CM, CF, GX; tauto).
  unfold swf in SW. rewrite EC, EF, PN in SW. destruct SW as (M & T1 & T2 & T3).
  assert (XC : forall x c, In x X -> In c C -> dt n' (rv (tl x)) (rv (tl (gc c))) = 0).
  { intros x c Ix Ic. assert (Q : forall k, cone (map gc C) (lin2 k (rv (tl x)) 0 (rv (tl x)))). { intros k. apply CGX. rewrite Forall_forall in SX. apply in_gen_line. apply in_app_iff; auto. apply SX; auto. }
    assert (Q2 : forall k, row_holds (gc c) (lin2 k (rv (tl x)) 0 (rv (tl x)))) by (intros k; specialize (Q k); rewrite cone_in in Q; apply Q; apply in_map; auto). assert (Q1 := Q2 1). assert (Qm := Q2 (-1)). rewrite (row_dt n') in Q1, Qm by (apply HC; auto). rewrite dt_lin in Q1, Qm. rewrite dt_sym. destruct (zn 0 (gc c) =? 0)%Z; lra. }
  assert (BO : forall x c, lenS n' x -> lenS n' c -> (prod_t (tl x) (tl c) = 0%Z <-> dt n' (rv (tl x)) (rv (tl c)) = 0)). { intros x c Lx Lc. rewrite <- (prod_dt' n') by auto. split. intros ->; auto. intros Q. apply eq_IZR_R0 in Q; auto. }
  assert (BO2 : forall x c, lenS n x -> lenS n c -> (prod_t (tl x) (tl c) = 0%Z <-> dt n (rv (tl x)) (rv (tl c)) = 0)). { intros x c Lx Lc. rewrite <- (prod_dt' n) by auto. split. intros ->; auto. intros Q. apply eq_IZR_R0 in Q; auto. }
  rewrite Forall_forall in LC, LF, LC', LF', LX.
  assert (EB : forall a b : Z, (a = 0 <-> b = 0)%Z -> negb (a =? 0)%Z = negb (b =? 0)%Z). { intros a b Q. destruct (Z.eqb_spec a 0), (Z.eqb_spec b 0); tauto. }
  assert (SC : satmat (X ++ map gf F) (map gc C) = repeat (repeat false (length C)) (length X) ++ satmat F C).
  { unfold satmat. rewrite map_app. f_equal.
    - assert (Q : forall x, In x X -> satbits (map (fun b : pvec => tl b) (map gc C)) (tl x) = repeat false (length C)). { intros x Ix. unfold satbits. rewrite !map_map. assert (IC' : forall c, In c C -> In c C) by auto. revert IC'. generalize C at 1 3 4. induction C0 as [|c C0 IH]; intros Q; simpl; auto. rewrite IH by (intros; apply Q; right; auto). f_equal. replace (prod_t (tl x) (tl (gc c)))%Z with 0%Z. reflexivity. symmetry. apply BO; auto. apply LC'. apply in_map. apply Q; left; auto. apply XC; auto. apply Q; left; auto. }
      clear - Q. induction X as [|x X IH]; simpl; auto. rewrite Q by (left; auto). f_equal. apply IH. intros; apply Q; right; auto.
    - rewrite map_map. apply map_ext_in. intros f If. unfold satbits. rewrite !map_map. apply map_ext_in. intros c Ic. apply EB. rewrite BO, BO2; auto. rewrite dt_sym, PZ, dt_sym; auto. tauto. apply LF'. apply in_map; auto. apply LC'. apply in_map; auto. }
  assert (SF : X = [] -> satmat (map gc C) (X ++ map gf F) = satmat C F).
  { intros ->. simpl. unfold satmat. rewrite map_map. apply map_ext_in. intros c Ic. unfold satbits. rewrite !map_map. apply map_ext_in. intros f If. apply EB. rewrite BO, BO2; auto. apply LC'. apply in_map; auto. apply LF'. apply in_map; auto. }
  assert (M' : mini n' (map gc C) (X ++ map gf F) (pnbeq pa) (length X + pnbline pa)).
  { apply mini_transfer with n; auto. apply Forall_forall; auto. apply Forall_app. split; apply Forall_forall; auto. intros; apply HC; auto. intros; apply HF; auto. }
  split; [|exact K].
  unfold swf. rewrite EC', EF', PN', NE, NL. split; auto. split; [|split; [|auto]].
    + intros s E. rewrite SC. destruct (S1 s E) as (s0 & [(E0 & ->)|(E0 & ->)]); auto. rewrite <- (T1 s0); auto.
    + intros s E. destruct (S2 s E) as (EX & E0). rewrite (SF EX). apply T2; auto.
Qed.
Lemma both_CF : forall pa po i r i' r' (P : vec -> Prop) B C F X gc gf, repr pa i r P -> pC pa = Some C -> pF pa = Some F -> (forall x, B x 0%nat = x 0%nat) ->
  (forall c, In c C -> rpre (d1 i r) (d1 i' r') B c (gc c) /\ lenS (d1 i' r') (gc c) /\ zn 0 (gc c) = zn 0 c) -> (forall f, In f F -> lenS (d1 i' r') (gf f) /\ zn 0 (gf f) = zn 0 f) -> Forall (lenS (d1 i' r')) X -> Forall (st 0) X ->
  (forall y, generated (d1 i' r') (X ++ map gf F) y <-> generated (d1 i r) F (B y)) ->
  (forall c f, In c C -> In f F -> (dt (d1 i' r') (rv (tl (gc c))) (rv (tl (gf f))) = 0 <-> dt (d1 i r) (rv (tl c)) (rv (tl f)) = 0)) ->
  (forall E, incl E C -> indep (d1 i r) (tls E) -> indep (d1 i' r') (tls (map gc E))) -> (forall L, incl L F -> indep (d1 i r) (tls L) -> indep (d1 i' r') (tls (X ++ map gf L))) -> (exists y0, 0 < B y0 0%nat /\ cK pa (B y0)) ->
  pint po = i' -> preal po = r' -> pC po = Some (map gc C) -> pF po = Some (X ++ map gf F) -> pnbeq po = pnbeq pa -> pnbline po = (length X + pnbline pa)%nat ->
  (forall s, psatC po = Some s -> exists s0, psatC pa = Some s0 /\ s = repeat (repeat false (length C)) (length X) ++ s0 \/ psatC pa = None /\ s = repeat (repeat false (length C)) (length X) ++ satmat F C) ->
  (forall s, psatF po = Some s -> X = [] /\ psatF pa = Some s) -> (psatC po = None -> psatF po <> None) ->
  repr po i' r' (fun y => P (fun j => B (homog y) (S j))).
Proof.
  intros pa po i r i' r' P B C F X gc gf HR EC EF B0 HC HF LX SX GX PZ IC IL (y0 & Y0 & KY0) I' R' EC' EF' NE NL S1 S2 S3. assert (PN := repr_pn _ _ _ _ HR). destruct HR as ((SW & PO) & HI & HR & G). assert (PN' : pn po = d1 i' r') by (unfold pn, pdim, d1; congruence).
  destruct (both_swf pa po (d1 i r) (d1 i' r') B C F X gc gf) as (SW' & K); auto.
  split; [split|split; [auto|split; [auto|]]]; auto.
  - right. split. intros y Y. apply K in Y. rewrite <- B0. destruct PO as [PO|(P1 & _)]. unfold isbot in PO. rewrite EC in PO. destruct (pF pa); discriminate. apply P1; auto.
    intros _. exists y0. split. apply K; auto. rewrite B0 in Y0. auto.
  - intros y. unfold gamma. rewrite K, <- G. unfold gamma. split; intros Q; eapply cK_ext; eauto; try (apply veq_sym; apply homog_eta); try apply homog_eta; rewrite B0; reflexivity.
Qed.
Lemma repr_P_ext : forall pa i r (P : vec -> Prop) x y, repr pa i r P -> (forall j, (j < i + r)%nat -> x j = y j) -> P x -> P y.
Proof. intros pa i r P x y H E X. assert (PN := repr_pn _ _ _ _ H). destruct H as ((SW & _) & _ & _ & G). apply G. apply G in X. unfold gamma in *. apply cK_ext with (homog x); auto. rewrite PN. intros [|j] J; simpl; auto. apply E. unfold d1 in J. lia. Qed.
Lemma repr_bot : forall po i r (P : vec -> Prop), isbot po = true -> pint po = i -> preal po = r -> (forall x, ~ P x) -> repr po i r P.
Proof. intros po i r P B I R N. split; [split|split; [auto|split; [auto|]]]. unfold swf. unfold isbot in B. destruct (pC po), (pF po); auto; discriminate. left; auto. intros x. split; intros H. exfalso. revert H. apply bot_gamma; auto. exfalso. apply (N x); auto. Qed.
Lemma repr_none : forall pa i r (P : vec -> Prop), repr pa i r P -> isbot pa = true -> forall x, ~ P x.
Proof. intros pa i r P (_ & _ & _ & G) B x X. apply G in X. revert X. apply bot_gamma; auto. Qed.
Lemma repr_F_point : forall pa i r (P : vec -> Prop) F, repr pa i r P -> pF pa = Some F -> exists x, P x.
Proof.
  intros pa i r P F ((SW & PO) & _ & _ & G) E. destruct PO as [B|(_ & K)]. unfold isbot in B. rewrite E in B. destruct (pC pa); discriminate. destruct (proj2 (gamma_pos pa SW)) as (x & X). apply K. congruence. exists x. apply G; auto.
Qed.
Lemma isbot_CF : forall po, isbot po = true <-> pC po = None /\ pF po = None. Proof. intros po. unfold isbot. destruct (pC po), (pF po); split; try tauto; try discriminate; intros []; discriminate. Qed.
Lemma inj_indep : forall n n' A B L g, linear n n' A -> (forall x y, veq n' x y -> veq n (B x) (B y)) -> (forall x, veq n (B (A x)) x) -> (forall x, (forall i, (i < n')%nat -> x i = 0) -> forall i, (i < n)%nat -> B x i = 0) -> (forall l, In l L -> rimg n' A l (g l)) -> indep n (tls L) -> indep n' (tls (map g L)).
Proof. intros n n' A B L g LA EB BA B0 H I. apply (indep_img n n' A); auto. intros x Z i Hi. rewrite <- (BA x i Hi). apply B0; auto. Qed.
Lemma indep_pre : forall n n' B L g, (forall y, exists x, veq n (B x) y) -> (forall l, In l L -> rpre n n' B l (g l)) -> indep n (tls L) -> indep n' (tls (map g L)).
Proof.
  intros n n' B L g SB H I ks E Z. unfold tls in E. rewrite !map_length in E.
  assert (Q : exists k2, length k2 = length L /\ (forall x, dt n' (lc ks (tls (map g L))) x = dt n (lc k2 (tls L)) (B x)) /\ (Forall (fun k => k = 0) k2 -> Forall (fun k => k = 0) ks)).
  { clear I Z. revert ks E. induction L as [|l L IH]; intros [|k ks] E; simpl in E; try lia.
    - exists []. split; auto. split; auto. intros x. rewrite !(dt_sym _ (lc _ _)), !dt_zero; auto.
    - destruct IH with (ks := ks) as (k2 & L2 & C & FZ). intros; apply H; right; auto. lia. destruct (H l ltac:(left; auto)) as (S & q & Q & V). exists (k * q :: k2). split. simpl; lia. split.
      + intros x. cbn [tls map]. fold (tls L). fold (tls (map g L)). assert (D : forall n0 (a : R) t ks0 L0 y, dt n0 (lc (a :: ks0) (t :: L0)) y = a * dt n0 (rv t) y + dt n0 (lc ks0 L0) y). { intros n0 a t ks0 L0 y. rewrite (dt_sym n0 (lc _ _)). rewrite (dt_ext n0 y _ (lin2 a (rv t) 1 (lc ks0 L0))). rewrite dt_lin, !(dt_sym n0 y). ring. intros i _. unfold lin2. simpl. ring. }
        rewrite !D, C, V. ring.
      + intros FF. inversion FF as [|? ? F1 F2]; subst. constructor; auto. apply Rmult_integral in F1. destruct F1; lra. }
  destruct Q as (k2 & L2 & C & FZ). apply FZ. apply I. unfold tls. rewrite map_length; auto. intros i Hi. destruct (SB (lc k2 (tls L))) as (x & X). assert (D : dt n (lc k2 (tls L)) (lc k2 (tls L)) = 0). { rewrite (dt_ext n _ _ (B x)) by (apply veq_sym; auto). rewrite <- C. rewrite dt_sym. apply dt_zero. auto. }
  apply (proj2 (sm_sq n (lc k2 (tls L)))); auto.
Qed.

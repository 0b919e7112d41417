(** Linear maps on the cones of the polyhedra library, for the proofs about transformations of polyhedra. *)
From Coq Require Import ZArith Bool List Lia Reals Lra.
Import ListNotations.
From Verif Require Import PkCone PkVec PkCherni PkCherniFacts PkSpec PkFarkas PkRank PkSimplifyEnd PkMinimize PkPoly PkPolyFacts PkPolyLeq PkPolyMeet.
Open Scope R_scope.

Lemma gen_zero : forall n F x, (forall i, (i < n)%nat -> x i = 0) -> generated n F x. Proof. intros. apply gen_split. apply gen_0; auto. Qed.
Lemma gen_step : forall n F f x k y, generated n F x -> In f F -> (zn 0 f = 0%Z \/ 0 <= k) -> veq n y (lin2 1 x k (rv (tl f))) -> generated n F y.
Proof.
  intros n F f x k y G I K V. destruct K as [K|K]. apply generated_ext with (lin2 1 x 1 (lin2 k (rv (tl f)) 0 (rv (tl f)))). intros i Hi. rewrite V by auto. unfold lin2. ring. apply generated_lin; auto; try lra. apply in_gen_line; auto.
  apply generated_ext with (lin2 1 x k (rv (tl f))); auto. apply generated_lin; auto; try lra. apply in_gen; auto.
Qed.
Lemma gen_ind' : forall n F (P : vec -> Prop), (forall x, (forall i, (i < n)%nat -> x i = 0) -> P x) ->
  (forall f x k y, In f F -> (zn 0 f = 0%Z \/ 0 <= k) -> generated n F x -> P x -> veq n y (lin2 1 x k (rv (tl f))) -> P y) -> forall x, generated n F x -> P x.
Proof.
  intros n F P H0 H1 x G. apply gen_split in G. induction G as [x Z|x l k y G IH I V|x r k y G IH I K V]; auto.
  - unfold eqs in I. apply in_map_iff in I. destruct I as (f & <- & I). apply filter_In in I. destruct I as (I & Z). apply Z.eqb_eq in Z. apply (H1 f x k y); auto. apply gen_split; auto.
  - unfold ineqs in I. apply in_map_iff in I. destruct I as (f & <- & I). apply filter_In in I. destruct I as (I & Z). apply (H1 f x k y); auto. apply gen_split; auto.
Qed.

(** a linear map from dimension n to dimension n' *)
Definition linear (n n' : nat) (A : vec -> vec) : Prop := (forall a x b y, veq n' (A (lin2 a x b y)) (lin2 a (A x) b (A y))) /\ (forall x y, veq n x y -> veq n' (A x) (A y)).
Lemma linear_0 : forall n n' A x, linear n n' A -> (forall i, (i < n)%nat -> x i = 0) -> forall i, (i < n')%nat -> A x i = 0.
Proof. intros n n' A x (L & E) Z i Hi. rewrite (E x (lin2 0 x 0 x)); auto. rewrite L by auto. unfold lin2. ring. intros j Hj. unfold lin2. rewrite Z by auto. ring. Qed.
(** the row f' is the image of the row f, up to a positive factor *)
Definition rimg (n' : nat) (A : vec -> vec) (f f' : pvec) : Prop := (zn 0 f' = 0%Z <-> zn 0 f = 0%Z) /\ exists k, 0 < k /\ forall i, (i < n')%nat -> rv (tl f') i = k * A (rv (tl f)) i.
Lemma gen_map : forall n n' A F g y, linear n n' A -> (forall f, In f F -> rimg n' A f (g f)) -> (generated n' (map g F) y <-> exists x, generated n F x /\ veq n' y (A x)).
Proof.
  intros n n' A F g y LA H. split.
  - intros G. revert y G. apply (gen_ind' n' (map g F) (fun y => exists x, generated n F x /\ veq n' y (A x))).
    + intros y Z. exists (fun _ => 0). split. apply gen_zero; auto. intros i Hi. rewrite Z by auto. symmetry. eapply linear_0; eauto.
    + intros f' y k y' I K G (x & Gx & V) V'. apply in_map_iff in I. destruct I as (f & <- & I). destruct (H f I) as (S & q & Q & E). exists (lin2 1 x (k * q) (rv (tl f))). split.
      apply gen_step with f x (k * q); auto. destruct K as [K|K]. left. apply S; auto. right. apply Rmult_le_pos; lra. intros i _; auto. intros i Hi. rewrite V' by auto. rewrite (proj1 LA) by auto. unfold lin2. rewrite V, E by auto. ring.
  - intros (x & G & V). apply generated_ext with (A x); auto. clear y V. revert x G. apply (gen_ind' n F (fun x => generated n' (map g F) (A x))).
    + intros x Z. apply gen_zero. eapply linear_0; eauto.
    + intros f x k y I K G GA V. destruct (H f I) as (S & q & Q & E). apply gen_step with (g f) (A x) (k / q); auto. apply in_map; auto. destruct K as [K|K]. left. apply S; auto. right. unfold Rdiv. apply Rmult_le_pos; auto. left. apply Rinv_0_lt_compat; auto.
      intros i Hi. rewrite (proj2 LA y _ V) by auto. rewrite (proj1 LA) by auto. unfold lin2. rewrite E by auto. field. lra.
Qed.
(** constraints: c' is c composed with A, up to a positive factor *)
Definition rpre (n n' : nat) (A : vec -> vec) (c c' : pvec) : Prop := (zn 0 c' = 0%Z <-> zn 0 c = 0%Z) /\ exists k, 0 < k /\ forall x, dt n' (rv (tl c')) x = k * dt n (rv (tl c)) (A x).
Lemma row_pre : forall n n' A c c' x, lenS n c -> lenS n' c' -> rpre n n' A c c' -> (row_holds c' x <-> row_holds c (A x)).
Proof.
  intros n n' A c c' x L L' (S & k & K & E). rewrite (row_dt n' c'), (row_dt n c), E; auto. destruct (Z.eqb_spec (zn 0 c') 0) as [Z|Z], (Z.eqb_spec (zn 0 c) 0) as [Z2|Z2]; try tauto. split; intro H. apply Rmult_integral in H. destruct H; lra. rewrite H; ring. split; intro H. nra. nra.
Qed.
Lemma cone_map : forall n n' A C g x, Forall (lenS n) C -> Forall (lenS n') (map g C) -> (forall c, In c C -> rpre n n' A c (g c)) -> (cone (map g C) x <-> cone C (A x)).
Proof.
  intros n n' A C g x L L' H. rewrite !cone_in. rewrite Forall_forall in L, L'. split; intros K c I.
  apply (row_pre n n' A c (g c)); auto. apply L'. apply in_map; auto. apply K. apply in_map; auto.
  apply in_map_iff in I. destruct I as (d & <- & I). apply (row_pre n n' A d (g d)); auto. apply L'. apply in_map; auto.
Qed.
(** the cones of two related matrices are the bijective images of each other *)
Definition inverse (n : nat) (A B : vec -> vec) : Prop := (forall x, veq n (A (B x)) x) /\ (forall x, veq n (B (A x)) x).

(** * Independence *)
Lemma lc_img : forall n n' A L g, linear n n' A -> (forall l, In l L -> rimg n' A l (g l)) -> forall ks, length ks = length L -> exists k2, length k2 = length L /\ (forall i, (i < n')%nat -> lc ks (tls (map g L)) i = A (lc k2 (tls L)) i) /\ (Forall (fun k => k = 0) k2 -> Forall (fun k => k = 0) ks).
Proof.
  intros n n' A L g LA H. induction L as [|l L IH]; intros [|k ks] E; simpl in E; try lia.
  - exists []. split; auto. split; auto. intros i Hi. symmetry. eapply linear_0; eauto.
  - destruct IH with (ks := ks) as (k2 & L2 & C & FZ). intros; apply H; right; auto. lia. destruct (H l ltac:(left; auto)) as (S & q & Q & V). exists (k * q :: k2). split. simpl; lia. split.
    + intros i Hi. cbn [tls map lc]. fold (tls L). fold (tls (map g L)). rewrite C, V by auto. transitivity (lin2 (k * q) (A (rv (tl l))) 1 (A (lc k2 (tls L))) i). unfold lin2. ring. rewrite <- (proj1 LA) by auto. apply (proj2 LA). intros j _. unfold lin2. ring. auto.
    + intros F. inversion F; subst. constructor; auto. apply Rmult_integral in H2. destruct H2; auto. lra.
Qed.
Lemma indep_img : forall n n' A L g, linear n n' A -> (forall x, (forall i, (i < n')%nat -> A x i = 0) -> forall i, (i < n)%nat -> x i = 0) -> (forall l, In l L -> rimg n' A l (g l)) -> indep n (tls L) -> indep n' (tls (map g L)).
Proof.
  intros n n' A L g LA INJ H I ks E Z. unfold tls in E. rewrite !map_length in E. destruct (lc_img n n' A L g LA H ks E) as (k2 & L2 & C & FZ). apply FZ. apply I. unfold tls; rewrite map_length; auto. apply INJ. intros i Hi. rewrite <- C; auto.
Qed.

(** * Transfer of minimal double descriptions *)
Lemma prod_dt' : forall n (c f : pvec), lenS n c -> lenS n f -> IZR (prod_t (tl c) (tl f)) = dt n (rv (tl c)) (rv (tl f)).
Proof. intros n c f Lc Lf. rewrite <- (prod_dtn n c f Lc Lf). unfold vector_product. rewrite (prod_sym (tl c)). auto. Qed.
Lemma tls_in : forall L t, In t (tls L) <-> exists q, In q L /\ t = tl q.
Proof. intros. unfold tls. rewrite in_map_iff. split; intros (q & A & B); exists q; auto. Qed.
Lemma nodup_tls_map : forall (rs : list pvec) (g : pvec -> pvec), NoDup (tls rs) -> (forall r r', In r rs -> In r' rs -> tl (g r) = tl (g r') -> tl r = tl r') -> NoDup (tls (map g rs)).
Proof.
  induction rs as [|r rs IH]; intros g N H. constructor. cbn [tls map] in *. inversion N; subst. constructor.
  - intros I. apply H2. apply in_map_iff in I. destruct I as (q & E & I). apply in_map_iff in I. destruct I as (r' & <- & I). apply in_map_iff. exists r'. split; auto. apply H; auto. right; auto. left; auto.
  - apply IH; auto. intros; apply H; auto; right; auto.
Qed.
Lemma mini_transfer : forall n n' C F a b (gc gf : pvec -> pvec) (X : list pvec), mini n C F a b ->
  Forall (lenS n') (map gc C) -> Forall (lenS n') (X ++ map gf F) -> Forall (st 0) X -> (forall c, In c C -> zn 0 (gc c) = zn 0 c) -> (forall f, In f F -> zn 0 (gf f) = zn 0 f) ->
  (forall c f, In c C -> In f F -> (dt n' (rv (tl (gc c))) (rv (tl (gf f))) = 0 <-> dt n (rv (tl c)) (rv (tl f)) = 0)) ->
  (forall x, cone (map gc C) x <-> generated n' (X ++ map gf F) x) ->
  (forall E, incl E C -> indep n (tls E) -> indep n' (tls (map gc E))) -> (forall L, incl L F -> indep n (tls L) -> indep n' (tls (X ++ map gf L))) ->
  mini n' (map gc C) (X ++ map gf F) a (length X + b).
Proof.
  intros n n' C F a b gc gf X M LC' LF' SX SC SF PR CG IE IL. destruct (mini_lens _ _ _ _ _ M) as (LC & LF). destruct M as (E & I & L & R & EC & EF & NE & NL & LL & S0 & S1 & D1 & D2 & I1 & I2).
  rewrite Forall_app in S0, S1. destruct S0 as (S0 & S0'), S1 as (S1 & S1'). assert (XF := LF'). rewrite Forall_app in XF. destruct XF as (LX & LF2).
  exists (map gc E), (map gc I), (X ++ map gf L), (map gf R). subst C F. split. apply map_app. split. rewrite map_app, app_assoc; auto. split. rewrite map_length; auto. split. rewrite app_length, map_length; lia.
  assert (STE : forall g Y s, (forall y, In y Y -> zn 0 (g y) = zn 0 y) -> Forall (st s) Y -> Forall (st s) (map g Y)). { intros g Y s Hg F. rewrite Forall_forall in *. intros q Q. apply in_map_iff in Q. destruct Q as (y & <- & Q). unfold st in *. rewrite Hg; auto. }
  assert (CE : forall c, In c E -> In c (E ++ I)) by (intros; apply in_app_iff; auto). assert (CI : forall c, In c I -> In c (E ++ I)) by (intros; apply in_app_iff; auto). assert (FL : forall c, In c L -> In c (L ++ R)) by (intros; apply in_app_iff; auto). assert (FR : forall c, In c R -> In c (L ++ R)) by (intros; apply in_app_iff; auto).
  assert (SE' : Forall (st 0) (map gc E)) by (apply STE; auto). assert (SI' : Forall (st 1) (map gc I)) by (apply STE; auto). assert (SL' : Forall (st 0) (map gf L)) by (apply STE; auto). assert (SR' : Forall (st 1) (map gf R)) by (apply STE; auto).
  split. apply Forall_app; auto. split. rewrite !Forall_app; auto. split. rewrite Forall_app; auto.
  assert (SATX : forall c x, In c (E ++ I) -> In x X -> dt n' (rv (tl (gc c))) (rv (tl x)) = 0).
  { intros c x Hc Hx. rewrite Forall_forall in SX. assert (Q : forall k, cone (map gc (E ++ I)) (lin2 k (rv (tl x)) 0 (rv (tl x)))). { intros k. apply CG. apply in_gen_line. apply in_app_iff; auto. apply SX; auto. }
    assert (Lc' : lenS n' (gc c)). { rewrite Forall_forall in LC'. apply LC'. apply in_map; auto. } assert (Q1 := Q 1). assert (Q2 := Q (-1)). rewrite cone_in in Q1, Q2. specialize (Q1 (gc c) (in_map gc _ _ Hc)). specialize (Q2 (gc c) (in_map gc _ _ Hc)). apply (row_dt n') in Q1; auto. apply (row_dt n') in Q2; auto. rewrite dt_lin in Q1, Q2. destruct (zn 0 (gc c) =? 0)%Z; lra. }
  assert (EQF : gen n' rv (tls (X ++ map gf L)) (tls (map gf R)) = gen n' rv (eqs (X ++ map gf (L ++ R))) (ineqs (X ++ map gf (L ++ R)))).
  { unfold eqs, ineqs. rewrite map_app, app_assoc. destruct (st_split (X ++ map gf L) (map gf R)) as (P1 & P2); auto. rewrite Forall_app; auto. rewrite P1, P2. reflexivity. }
  assert (EQC : gen n' rv (tls (map gc E)) (tls (map gc I)) = gen n' rv (eqs (map gc (E ++ I))) (ineqs (map gc (E ++ I)))).
  { unfold eqs, ineqs. rewrite map_app. destruct (st_split (map gc E) (map gc I)) as (P1 & P2); auto. rewrite P1, P2. reflexivity. }
  split; [|split; [|split]].
  - constructor.
    + intros x. rewrite <- cone_inC by (exact LC'). rewrite EQF, gen_split. apply CG.
    + intros t t' T T' NE'. apply tls_in in T, T'. destruct T as (q & Q & ->), T' as (q' & Q' & ->). apply in_map_iff in Q, Q'. destruct Q as (r & <- & Q), Q' as (r' & <- & Q').
      destruct (dd_irr _ _ _ _ _ D1 (tl r) (tl r')) as (c & Hc & S & NS). apply tls_in; eauto. apply tls_in; eauto. intro EQ. apply NE'.
      { assert (forall c, In c (E ++ I) -> dt n (rv (tl c)) (rv (tl r)) = dt n (rv (tl c)) (rv (tl r'))) by (intros; rewrite EQ; auto). exfalso.
        (* two rows of R with the same tail: NoDup *)
        destruct (in_split _ _ Q) as (l1 & l2 & ER). assert (ND := dd_nodup _ _ _ _ _ D1). assert (r = r'). { assert (Z : zn 0 r = zn 0 r'). { rewrite Forall_forall in S1'. rewrite (S1' r Q), (S1' r' Q'). auto. } assert (lenS n r) by (rewrite Forall_forall in LF; apply LF; auto). assert (lenS n r') by (rewrite Forall_forall in LF; apply LF; auto). destruct r as [|z r], r' as [|z' r']; try discriminate. unfold zn in Z. simpl in Z, EQ. congruence. }
        subst r'. apply NE'; auto. }
      apply in_map_iff in Hc. destruct Hc as (c0 & <- & Hc). exists (kc (gc c0)). split. apply in_map_iff. exists (gc c0). split; auto. apply in_map; auto. unfold sat, kc in *. cbn [fst] in *. rewrite !PR; auto.
    + intros t T. apply tls_in in T. destruct T as (q & Q & ->). apply in_map_iff in Q. destruct Q as (r & <- & Q). destruct (dd_ray _ _ _ _ _ D1 (tl r)) as (c & Hc & NS). apply tls_in; eauto. apply in_map_iff in Hc. destruct Hc as (c0 & <- & Hc). exists (kc (gc c0)). split. apply in_map_iff. exists (gc c0). split; auto. apply in_map; auto. unfold sat, kc in *. cbn [fst] in *. rewrite PR; auto.
    + apply nodup_tls_map. apply (dd_nodup _ _ _ _ _ D1). intros r r' Q Q' EQ. destruct (list_eq_dec Z.eq_dec (tl r) (tl r')) as [|NE']; auto. exfalso. destruct (dd_irr _ _ _ _ _ D1 (tl r) (tl r')) as (c & Hc & S & NS); auto. apply tls_in; eauto. apply tls_in; eauto. apply in_map_iff in Hc. destruct Hc as (c0 & <- & Hc). unfold sat, kc in S, NS. cbn [fst] in S, NS. rewrite <- PR in S, NS; auto. rewrite EQ in S. auto.
  - constructor.
    + intros y. rewrite <- cone_inC by (exact LF'). rewrite EQC, gen_split. rewrite bidual by (exact LC'). rewrite cone_dual by (exact LF'). split; intros H x Hx; apply H; apply CG; auto.
    + intros t t' T T' NE'. apply tls_in in T, T'. destruct T as (q & Q & ->), T' as (q' & Q' & ->). apply in_map_iff in Q, Q'. destruct Q as (r & <- & Q), Q' as (r' & <- & Q').
      destruct (dd_irr _ _ _ _ _ D2 (tl r) (tl r')) as (c & Hc & S & NS). apply tls_in; eauto. apply tls_in; eauto. intro EQ.
      { assert (r = r'). { assert (Z : zn 0 r = zn 0 r'). { rewrite Forall_forall in S1. rewrite (S1 r Q), (S1 r' Q'). auto. } assert (lenS n r) by (rewrite Forall_forall in LC; apply LC; auto). assert (lenS n r') by (rewrite Forall_forall in LC; apply LC; auto). destruct r as [|z r], r' as [|z' r']; try discriminate. unfold zn in Z. simpl in Z, EQ. congruence. }
        subst r'. apply NE'; auto. }
      apply in_map_iff in Hc. destruct Hc as (c0 & <- & Hc). exists (kc (gf c0)). split. apply in_map_iff. exists (gf c0). split; auto. apply in_app_iff; right. apply in_map; auto. unfold sat, kc in *. cbn [fst] in *. rewrite (dt_sym n' (rv (tl (gf c0)))), (dt_sym n' (rv (tl (gf c0))) (rv (tl (gc r')))). rewrite !PR; auto. rewrite (dt_sym n _ (rv (tl c0))), (dt_sym n (rv (tl r'))). auto.
    + intros t T. apply tls_in in T. destruct T as (q & Q & ->). apply in_map_iff in Q. destruct Q as (r & <- & Q). destruct (dd_ray _ _ _ _ _ D2 (tl r)) as (c & Hc & NS). apply tls_in; eauto. apply in_map_iff in Hc. destruct Hc as (c0 & <- & Hc). exists (kc (gf c0)). split. apply in_map_iff. exists (gf c0). split; auto. apply in_app_iff; right. apply in_map; auto. unfold sat, kc in *. cbn [fst] in *. rewrite (dt_sym n'), PR, dt_sym; auto.
    + apply nodup_tls_map. apply (dd_nodup _ _ _ _ _ D2). intros r r' Q Q' EQ. destruct (list_eq_dec Z.eq_dec (tl r) (tl r')) as [|NE']; auto. exfalso. destruct (dd_irr _ _ _ _ _ D2 (tl r) (tl r')) as (c & Hc & S & NS); auto. apply tls_in; eauto. apply tls_in; eauto. apply in_map_iff in Hc. destruct Hc as (c0 & <- & Hc). unfold sat, kc in S, NS. cbn [fst] in S, NS. rewrite dt_sym in S, NS. rewrite <- PR in S, NS; auto. rewrite EQ in S. auto.
  - apply IE; auto.
  - apply IL; auto.
Qed.

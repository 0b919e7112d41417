(** Meaning and invariants of octagons; closure cache, predicates, meet, join. *)
From Coq Require Import Arith Lia List ZArith QArith Qreals Reals Lra Bool.
From Verif Require Import Bound BoundFacts Itv Linexpr OctMat OctIdx OctClose OctWalk OctInc OctStrong OctGeom OctGeom2 Oct.
Import ListNotations.
Open Scope nat_scope.

(** The points of an octagon: those of its matrices; no matrix: no point. *)
Definition gamo (a : oct) (v : nat -> R) : Prop :=
  (om a <> None \/ ocl a <> None) /\
  (forall m, om a = Some m -> gam (odim a) m v) /\
  (forall c, ocl a = Some c -> gam (odim a) c v).

(** Invariant of octagons, any number type: entries are never -oo, diagonal
    entries never negative, and the cached closure has the points of the
    original matrix. *)
Record wfo (a : oct) : Prop := {
  wfo_m : forall m, om a = Some m -> wfm (odim a) m /\ nndiag (odim a) m;
  wfo_c : forall c, ocl a = Some c -> wfm (odim a) c /\ nndiag (odim a) c;
  wfo_eq : forall m c v, om a = Some m -> ocl a = Some c -> (gam (odim a) m v <-> gam (odim a) c v);
  wfo_int : oint a <= odim a
}.
(** Additional invariant with exact numbers: the cached closure is strongly closed. *)
Record exo (a : oct) : Prop := {
  exo_wf : wfo a;
  exo_c : forall c, ocl a = Some c -> sclosed (odim a) c
}.

Lemma gamo_best : forall a v, wfo a ->
  (gamo a v <-> match best a with Some m => gam (odim a) m v | None => False end).
Proof.
  intros [m c n k] v W. unfold gamo, best; simpl. pose proof (wfo_eq _ W) as EQ. simpl in EQ.
  destruct c as [c|], m as [m|]; simpl.
  - rewrite <- (EQ m c v eq_refl eq_refl). split; [intros (_&A&_); auto|].
    intros G. repeat split; [left; discriminate| |]; intros x E; inversion E; subst; auto.
    apply (EQ m x v); auto.
  - split; [intros (_&_&A); auto|]. intros G. repeat split; [right; discriminate| |]; intros x E; inversion E; subst; auto.
  - split; [intros (_&A&_); auto|]. intros G. repeat split; [left; discriminate| |]; intros x E; inversion E; subst; auto.
  - split; [intros ([H|H]&_); congruence|tauto].
Qed.
Lemma gamo_orig : forall a v, wfo a ->
  (gamo a v <-> match orig a with Some m => gam (odim a) m v | None => False end).
Proof.
  intros a v W. rewrite gamo_best by auto. pose proof (wfo_eq _ W) as EQ.
  unfold best, orig. destruct (ocl a) eqn:C, (om a) eqn:M; try tauto.
  symmetry. apply EQ; auto.
Qed.
Lemma best_wf : forall a m, wfo a -> best a = Some m -> wfm (odim a) m /\ nndiag (odim a) m.
Proof.
  intros a m W. unfold best. destruct (ocl a) eqn:C; intros E.
  - inversion E; subst. apply (wfo_c _ W); auto.
  - apply (wfo_m _ W); auto.
Qed.
Lemma orig_wf : forall a m, wfo a -> orig a = Some m -> wfm (odim a) m /\ nndiag (odim a) m.
Proof.
  intros a m W. unfold orig. destruct (om a) eqn:C; intros E.
  - inversion E; subst. apply (wfo_m _ W); auto.
  - apply (wfo_c _ W); auto.
Qed.
Lemma best_none_orig : forall a, best a = None <-> orig a = None.
Proof. intros a. unfold best, orig. destruct (ocl a), (om a); split; intros; congruence. Qed.

(** octagons with a single matrix *)
Lemma wfo_single_m : forall m n k, wfm n m -> nndiag n m -> k <= n -> wfo (mkOct (Some m) None n k).
Proof. intros. constructor; simpl; intros; try congruence; auto. inversion H2; subst. auto. Qed.
Lemma wfo_single_c : forall m n k, wfm n m -> nndiag n m -> k <= n -> wfo (mkOct None (Some m) n k).
Proof. intros. constructor; simpl; intros; try congruence; auto. inversion H2; subst. auto. Qed.
Lemma wfo_none : forall n k, k <= n -> wfo (mkOct None None n k).
Proof. intros. constructor; simpl; intros; try congruence; auto. Qed.
Lemma exo_single_m : forall m n k, wfm n m -> nndiag n m -> k <= n -> exo (mkOct (Some m) None n k).
Proof. intros. constructor; [apply wfo_single_m; auto|]. simpl. congruence. Qed.
Lemma sclosed_nndiag : forall n m, sclosed n m -> nndiag n m.
Proof. intros n m S x Hx. rewrite (sc_diag n m S) by auto. simpl. lia. Qed.
Lemma exo_single_c : forall m n k, sclosed n m -> k <= n -> exo (mkOct None (Some m) n k).
Proof.
  intros. constructor; [apply wfo_single_c; auto; [apply sc_wf; auto|apply sclosed_nndiag; auto]|].
  simpl. intros c E. inversion E; subst. auto.
Qed.
Lemma exo_none : forall n k, k <= n -> exo (mkOct None None n k).
Proof. intros. constructor; [apply wfo_none; auto|]. simpl. congruence. Qed.

Lemma gamo_single_m : forall m n k v, gamo (mkOct (Some m) None n k) v <-> gam n m v.
Proof.
  intros. unfold gamo; simpl. split; [intros (_&A&_); auto|].
  intros. repeat split; [left; discriminate| |]; intros x E; inversion E; subst; auto.
Qed.
Lemma gamo_single_c : forall m n k v, gamo (mkOct None (Some m) n k) v <-> gam n m v.
Proof.
  intros. unfold gamo; simpl. split; [intros (_&_&A); auto|].
  intros. repeat split; [right; discriminate| |]; intros x E; inversion E; subst; auto.
Qed.
Lemma gamo_none : forall n k v, ~ gamo (mkOct None None n k) v.
Proof. intros n k v ([H|H]&_); simpl in H; congruence. Qed.

(** ** Closed matrices reported by closure *)
Lemma s_step_diag : forall N n m m', hmat_s_step (N:=N) m n = (m', false) -> nndiag n m'.
Proof.
  intros N n m m' H x Hx. destruct (hmat_s_step_false n m m' H) as (_&D&_). rewrite D by auto. simpl. lia.
Qed.
Lemma close_nndiag : forall N n m m', hmat_close (N:=N) m n = (m', false) -> nndiag n m'.
Proof. intros. eapply s_step_diag; eauto. Qed.
Lemma close_inc_nndiag : forall N n m x m', hmat_close_incremental (N:=N) m n x = (m', false) -> nndiag n m'.
Proof. intros. eapply s_step_diag; eauto. Qed.

(** ** The closure cache *)
Section Cache.
Context {N U : numtype}.

Lemma cache_dim : forall a, odim (oct_cache_closure (N:=N) a) = odim a /\ oint (oct_cache_closure (N:=N) a) = oint a.
Proof.
  intros a. unfold oct_cache_closure. destruct (ocl a), (om a); auto.
  destruct (hmat_close h (odim a)) as [c b]. destruct b; auto.
Qed.
Lemma cached_dim : forall z a, odim (cached (N:=N) z a) = odim a /\ oint (cached (N:=N) z a) = oint a.
Proof. intros. unfold cached. destruct (0 <=? z)%Z; auto using cache_dim. Qed.

Lemma cache_wfo : forall a, wfo a -> wfo (oct_cache_closure (N:=N) a).
Proof.
  intros a W. unfold oct_cache_closure. destruct (ocl a) eqn:C; auto. destruct (om a) eqn:M; auto.
  destruct (hmat_close h (odim a)) as [c b] eqn:H.
  destruct (wfo_m _ W h M) as [W1 D1]. pose proof (wfo_int _ W). destruct b.
  - apply wfo_none; auto.
  - constructor; simpl; auto.
    + intros m Em. inversion Em; subst. auto.
    + intros m Em. inversion Em; subst. split; [eapply close_wf; eauto|eapply close_nndiag; eauto].
    + intros m c' v Em Ec. inversion Em; inversion Ec; subst.
      apply (close_sound (odim a) m v c' false H); auto.
Qed.
Lemma cached_wfo : forall z a, wfo a -> wfo (cached (N:=N) z a).
Proof. intros. unfold cached. destruct (0 <=? z)%Z; auto using cache_wfo. Qed.

Lemma cache_gamo : forall a v, wfo a -> (gamo (oct_cache_closure (N:=N) a) v <-> gamo a v).
Proof.
  intros a v W. unfold oct_cache_closure. destruct (ocl a) eqn:C; [tauto|]. destruct (om a) eqn:M; [|tauto].
  destruct (hmat_close h (odim a)) as [c b] eqn:H.
  destruct (close_sound (odim a) h v c b H) as [H1 H2].
  rewrite (gamo_best a) by auto. unfold best. rewrite C, M. destruct b.
  - split; intros G; [exfalso; eapply gamo_none; eauto|]. specialize (H1 G). discriminate.
  - specialize (H2 eq_refl). unfold gamo; simpl. split.
    + intros (_&A&_). auto.
    + intros G. repeat split; [left; discriminate| |]; intros x E; inversion E; subst; auto. apply H2; auto.
Qed.
Lemma cached_gamo : forall z a v, wfo a -> (gamo (cached (N:=N) z a) v <-> gamo a v).
Proof. intros. unfold cached. destruct (0 <=? z)%Z; [apply cache_gamo; auto|tauto]. Qed.

(** lazily closing never forgets the original matrix of a non-empty octagon *)
Lemma cache_orig : forall a v, gamo a v -> wfo a -> orig (oct_cache_closure (N:=N) a) = orig a.
Proof.
  intros a v G W. unfold oct_cache_closure. destruct (ocl a) eqn:C; auto. destruct (om a) eqn:M; auto.
  destruct (hmat_close h (odim a)) as [c b] eqn:H.
  destruct (close_sound (odim a) h v c b H) as [H1 _].
  rewrite gamo_best in G by auto. unfold best in G. rewrite C, M in G. rewrite (H1 G).
  unfold orig. simpl. rewrite M. auto.
Qed.
Lemma cached_orig : forall z a v, gamo a v -> wfo a -> orig (cached (N:=N) z a) = orig a.
Proof. intros. unfold cached. destruct (0 <=? z)%Z; auto. eapply cache_orig; eauto. Qed.
Lemma cached_om : forall z a m, om (cached (N:=N) z a) = Some m -> om a = Some m.
Proof.
  intros z a m. unfold cached. destruct (0 <=? z)%Z; auto. unfold oct_cache_closure.
  destruct (ocl a) eqn:C; auto. destruct (om a) eqn:M; auto; try congruence.
  destruct (hmat_close h (odim a)) as [c b]. destruct b; simpl; congruence.
Qed.
Lemma cached_closed : forall z a, (0 <= z)%Z -> best (cached (N:=N) z a) = ocl (cached (N:=N) z a).
Proof.
  intros z a Hz. unfold cached. rewrite (proj2 (Z.leb_le 0 z) Hz). unfold oct_cache_closure, best.
  destruct (ocl a) eqn:C; [rewrite C; auto|]. destruct (om a) eqn:M; [|rewrite C, M; auto].
  destruct (hmat_close h (odim a)) as [c b]. destruct b; auto.
Qed.
End Cache.

Lemma cache_exo : forall a, exo a -> exo (oct_cache_closure (N:=E) a).
Proof.
  intros a [W S]. constructor; [apply cache_wfo; auto|].
  unfold oct_cache_closure. destruct (ocl a) eqn:C; [rewrite C; auto|].
  destruct (om a) eqn:M; [|rewrite C; auto].
  destruct (hmat_close h (odim a)) as [c b] eqn:H. destruct b; simpl; try discriminate.
  intros c' Ec. inversion Ec; subst. eapply close_exact; eauto. apply (wfo_m _ W h M).
Qed.
Lemma cached_exo : forall z a, exo a -> exo (cached (N:=E) z a).
Proof. intros. unfold cached. destruct (0 <=? z)%Z; auto using cache_exo. Qed.

(** ** Predicates *)
Lemma forall_cells_spec : forall n f, forall_cells n f = true <->
  (forall i j, i < 2 * n -> j <= or1 i -> f i j = true).
Proof.
  intros. unfold forall_cells. rewrite forallb_forall. split.
  - intros H i j Hi Hj. assert (I : In i (seq 0 (2 * n))) by (apply in_seq; lia).
    specialize (H i I). rewrite forallb_forall in H. apply H. apply in_seq. lia.
  - intros H i Hi. apply in_seq in Hi. apply forallb_forall. intros j Hj. apply in_seq in Hj.
    apply H; lia.
Qed.

Section Pred.
Context {N : numtype}.
Lemma is_bottom_sound : forall z a v, wfo a -> oct_is_bottom (N:=N) z a = true -> ~ gamo a v.
Proof.
  intros z a v W H G. unfold oct_is_bottom in H. rewrite <- (cached_gamo (N:=N) z) in G by auto.
  destruct G as ([A|A]&_); destruct (ocl (cached z a)), (om (cached z a)); simpl in H; congruence.
Qed.
Lemma is_top_spec : forall a, wfo a -> (oct_is_top a = true <-> forall v, gamo a v).
Proof.
  intros a W. unfold oct_is_top. destruct (orig a) as [m|] eqn:O.
  - destruct (orig_wf a m W O) as [W1 D]. rewrite forall_cells_spec. split.
    + intros H v. rewrite gamo_orig by auto. rewrite O. intros i j Hi Hj.
      specialize (H i j Hi Hj). specialize (W1 i j Hi Hj). apply orb_true_iff in H. destruct H as [H|H].
      * destruct (m (matpos i j)); simpl in *; try congruence; auto.
      * apply Nat.eqb_eq in H. subst j. replace (lit v i - lit v i)%R with 0%R by ring.
        apply bsgn_ge0. apply D; auto.
    + intros H i j Hi Hj. apply orb_true_iff. destruct (Nat.eq_dec i j) as [->|d].
      { right. apply Nat.eqb_refl. }
      left. destruct (m (matpos i j)) as [|q|] eqn:Em; auto. exfalso.
      (* a point violating the constraint *)
      assert (L : forall r, exists v, (lit v j - lit v i)%R = r).
      { intros r. destruct (Nat.eq_dec (i / 2) (j / 2)) as [e|d'].
        - destruct (same_var i j e) as [|Ei]; [congruence|]. subst i.
          exists (fun _ => if Nat.eqb (j mod 2) 0 then (r / 2)%R else (- (r / 2))%R).
          rewrite lit_xor1. unfold lit. destruct (Nat.eqb (j mod 2) 0); field.
        - exists (vset (fun _ => 0%R) (j / 2) (if Nat.eqb (j mod 2) 0 then r else (- r)%R)).
          rewrite (lit_vset_other _ _ _ i) by auto. unfold lit. rewrite vset_same.
          destruct (Nat.eqb (j mod 2) 0), (Nat.eqb (i mod 2) 0); ring. }
      destruct (L (Q2R q + 1)%R) as [v Lv]. specialize (H v). rewrite gamo_orig in H by auto. rewrite O in H.
      specialize (H i j Hi Hj). rewrite Lv, Em in H. simpl in H. lra.
  - split; [discriminate|]. intros H. specialize (H (fun _ => 0%R)). rewrite gamo_orig in H by auto.
    rewrite O in H. tauto.
Qed.
Lemma is_leq_sound : forall z a b v, wfo a -> wfo b -> odim a = odim b ->
  oct_is_leq (N:=N) z a b = true -> gamo a v -> gamo b v.
Proof.
  intros z a b v Wa Wb Hd H G. unfold oct_is_leq in H.
  rewrite <- (cached_gamo (N:=N) z) in G by auto. rewrite gamo_best in G by (apply cached_wfo; auto).
  rewrite gamo_best by auto. rewrite (proj1 (cached_dim z a)) in *.
  destruct (best (cached z a)) as [x|]; [|tauto].
  destruct (best b) as [y|]; [|discriminate].
  rewrite forall_cells_spec in H. rewrite <- Hd. intros i j Hi Hj.
  eapply le_rb_mono; [apply G; auto|]. apply bcmp_le. specialize (H i j Hi Hj).
  apply negb_true_iff in H. apply Z.ltb_ge in H. auto.
Qed.
Lemma is_eq_sound : forall z a b v, wfo a -> wfo b -> odim a = odim b ->
  oct_is_eq (N:=N) z a b = true -> (gamo a v <-> gamo b v).
Proof.
  intros z a b v Wa Wb Hd H. unfold oct_is_eq in H.
  rewrite <- (cached_gamo (N:=N) z a), <- (cached_gamo (N:=N) z b) by auto.
  rewrite !gamo_best by (apply cached_wfo; auto).
  rewrite (proj1 (cached_dim z a)), (proj1 (cached_dim z b)) in *.
  destruct (best (cached z a)) as [x|], (best (cached z b)) as [y|]; try discriminate; try tauto.
  rewrite forall_cells_spec in H. rewrite <- Hd.
  assert (EQ : forall i j, i < 2 * odim a -> j <= or1 i ->
     le_bb (x (matpos i j)) (y (matpos i j)) /\ le_bb (y (matpos i j)) (x (matpos i j))).
  { intros i j Hi Hj. apply bequal_le. apply bcmp_eq. apply Z.eqb_eq. auto. }
  split; apply gam_mono2; intros; apply EQ; auto.
Qed.
End Pred.

Section PredExact.
Lemma closed_ex : forall z a c, (0 <= z)%Z -> exo a -> best (cached (N:=E) z a) = Some c -> sclosed (odim a) c.
Proof.
  intros z a c Hz X B. rewrite cached_closed in B by auto.
  rewrite <- (proj1 (cached_dim (N:=E) z a)). apply (exo_c _ (cached_exo z a X)). auto.
Qed.
Lemma is_bottom_exact : forall z a, (0 <= z)%Z -> exo a ->
  (oct_is_bottom (N:=E) z a = true <-> forall v, ~ gamo a v).
Proof.
  intros z a Hz X. split; [intros H v; apply (is_bottom_sound (N:=E) z); auto; apply X|].
  intros H. unfold oct_is_bottom. pose proof (cached_closed (N:=E) z a Hz) as B.
  destruct (ocl (cached z a)) as [c|] eqn:C; simpl.
  - exfalso. assert (S := closed_ex z a c Hz X B).
    destruct (sc_nonempty _ _ S) as [v G]. apply (H v).
    rewrite <- (cached_gamo (N:=E) z) by apply X. rewrite gamo_best by (apply cached_wfo; apply X).
    rewrite B. rewrite (proj1 (cached_dim z a)). auto.
  - unfold best in B. rewrite C in B. rewrite B. reflexivity.
Qed.
Lemma is_leq_exact : forall z a b, (0 <= z)%Z -> exo a -> wfo b -> odim a = odim b ->
  (oct_is_leq (N:=E) z a b = true <-> forall v, gamo a v -> gamo b v).
Proof.
  intros z a b Hz X Wb Hd. split.
  { intros H v. apply (is_leq_sound (N:=E) z); auto. apply X. }
  intros H. unfold oct_is_leq. destruct (best (cached z a)) as [x|] eqn:B; auto.
  assert (S := closed_ex z a x Hz X B).
  assert (H' : forall v, gam (odim a) x v -> gamo b v).
  { intros v G. apply H. rewrite <- (cached_gamo (N:=E) z) by apply X.
    rewrite gamo_best by (apply cached_wfo; apply X). rewrite B. rewrite (proj1 (cached_dim z a)). auto. }
  destruct (best b) as [y|] eqn:B2.
  - apply forall_cells_spec. rewrite (proj1 (cached_dim z a)). intros i j Hi Hj.
    apply negb_true_iff. apply Z.ltb_ge. apply bcmp_le.
    assert (Hj' : j < 2 * odim a) by (pose proof (or1_lt _ _ Hi); lia).
    rewrite <- !(matpos2_half i j) by auto. apply sclosed_le with (odim a); auto.
    intros v G. specialize (H' v G). rewrite gamo_best in H' by auto. rewrite B2 in H'. rewrite Hd. auto.
  - exfalso. destruct (sc_nonempty _ _ S) as [v G]. specialize (H' v G). rewrite gamo_best in H' by auto.
    rewrite B2 in H'. auto.
Qed.
Lemma is_eq_exact : forall z a b, (0 <= z)%Z -> exo a -> exo b -> odim a = odim b ->
  (oct_is_eq (N:=E) z a b = true <-> forall v, gamo a v <-> gamo b v).
Proof.
  intros z a b Hz Xa Xb Hd. split.
  { intros H v. apply (is_eq_sound (N:=E) z); auto; [apply Xa|apply Xb]. }
  intros H. unfold oct_is_eq.
  assert (H' : forall v, gamo (cached (N:=E) z a) v <-> gamo (cached (N:=E) z b) v).
  { intros v. rewrite !cached_gamo; [apply H|apply Xb|apply Xa]. }
  assert (Ga : forall v, gamo (cached (N:=E) z a) v <-> match best (cached (N:=E) z a) with Some m => gam (odim a) m v | None => False end).
  { intros v. rewrite gamo_best by (apply cached_wfo; apply Xa). rewrite (proj1 (cached_dim z a)). tauto. }
  assert (Gb : forall v, gamo (cached (N:=E) z b) v <-> match best (cached (N:=E) z b) with Some m => gam (odim a) m v | None => False end).
  { intros v. rewrite gamo_best by (apply cached_wfo; apply Xb). rewrite (proj1 (cached_dim z b)). rewrite Hd. tauto. }
  pose proof (fun c => closed_ex z a c Hz Xa) as Sa. pose proof (fun c => closed_ex z b c Hz Xb) as Sb.
  rewrite <- Hd in Sb.
  destruct (best (cached z a)) as [x|], (best (cached z b)) as [y|]; auto.
  - apply forall_cells_spec. rewrite (proj1 (cached_dim z a)). intros i j Hi Hj.
    apply Z.eqb_eq. apply bcmp_eq.
    assert (Hj' : j < 2 * odim a) by (pose proof (or1_lt _ _ Hi); lia).
    rewrite <- !(matpos2_half i j) by auto. apply sclosed_uniq with (odim a); auto.
    intros v. rewrite <- Ga, <- Gb. auto.
  - exfalso. destruct (sc_nonempty _ _ (Sa x eq_refl)) as [v G]. apply Ga in G. apply H' in G. apply Gb in G. auto.
  - exfalso. destruct (sc_nonempty _ _ (Sb y eq_refl)) as [v G]. apply Gb in G. apply H' in G. apply Ga in G. auto.
Qed.
End PredExact.

(** ** Meet and join *)
Lemma gam_min : forall n m1 m2 v, gam n (cellwise bmin m1 m2) v <-> gam n m1 v /\ gam n m2 v.
Proof.
  intros. unfold gam, cellwise. split.
  - intros H. split; intros i j Hi Hj; specialize (H i j Hi Hj); apply bmin_spec in H; tauto.
  - intros [H1 H2] i j Hi Hj. apply bmin_spec. auto.
Qed.
Lemma gam_max : forall n m1 m2 v, gam n m1 v \/ gam n m2 v -> gam n (cellwise bmax m1 m2) v.
Proof.
  intros n m1 m2 v H i j Hi Hj. apply bmax_spec. destruct H as [H|H]; [left|right]; auto.
Qed.
Lemma bsgn_min : forall a b, (0 <= bsgn a)%Z -> (0 <= bsgn b)%Z -> (0 <= bsgn (bmin a b))%Z.
Proof. intros. apply bsgn_ge0_iff. apply bmin_spec. split; apply bsgn_ge0_iff; auto. Qed.
Lemma bsgn_max : forall a b, (0 <= bsgn a)%Z -> (0 <= bsgn (bmax a b))%Z.
Proof. intros. apply bsgn_ge0_iff. apply bmax_spec. left. apply bsgn_ge0_iff; auto. Qed.

Lemma meet_dim : forall a b, odim (oct_meet a b) = odim a /\ oint (oct_meet a b) = oint a.
Proof. intros. unfold oct_meet. destruct (best a), (best b); auto. Qed.
Lemma meet_wfo : forall a b, wfo a -> wfo b -> odim a = odim b -> exo (oct_meet a b).
Proof.
  intros a b Wa Wb Hd. pose proof (wfo_int _ Wa). unfold oct_meet.
  destruct (best a) eqn:Ba; [|apply exo_none; auto]. destruct (best b) eqn:Bb; [|apply exo_none; auto].
  destruct (best_wf a _ Wa Ba) as [W1 D1]. destruct (best_wf b _ Wb Bb) as [W2 D2]. rewrite <- Hd in *.
  apply exo_single_m; auto.
  - intros i j Hi Hj. apply bmin_not_MInf; auto.
  - intros x Hx. apply bsgn_min; auto.
Qed.
Lemma meet_exact : forall a b v, wfo a -> wfo b -> odim a = odim b ->
  (gamo (oct_meet a b) v <-> gamo a v /\ gamo b v).
Proof.
  intros a b v Wa Wb Hd. rewrite (gamo_best a), (gamo_best b) by auto. rewrite <- Hd. unfold oct_meet.
  destruct (best a) eqn:Ba, (best b) eqn:Bb; unfold set_mat;
    try (split; [intros G; exfalso; eapply gamo_none; eauto|tauto]).
  rewrite gamo_single_m. apply gam_min.
Qed.

(** the maximum of two strongly closed matrices is strongly closed *)
Lemma sclosed_max : forall n m1 m2, sclosed n m1 -> sclosed n m2 -> sclosed n (cellwise bmax m1 m2).
Proof.
  intros n m1 m2 S1 S2. constructor.
  - intros i j Hi Hj. apply bmax_not_MInf; [apply (sc_wf n m1 S1)|apply (sc_wf n m2 S2)]; auto.
  - intros x Hx. unfold cellwise. rewrite (sc_diag n m1 S1), (sc_diag n m2 S2) by auto. reflexivity.
  - intros i k j r1 r2 Hi Hk Hj G1 G2. unfold cellwise in *. apply bmax_ge in G1. apply bmax_ge in G2.
    apply bmax_ge. split; [apply (sc_tri n m1 S1 i k j)|apply (sc_tri n m2 S2 i k j)]; tauto.
  - intros i j r1 r2 Hi Hj G1 G2. unfold cellwise in *. apply bmax_ge in G1. apply bmax_ge in G2.
    apply bmax_ge. split; [apply (sc_str n m1 S1 i j)|apply (sc_str n m2 S2 i j)]; tauto.
Qed.

Section Join.
Context {N : numtype}.
Lemma join_dim : forall z a b, odim (oct_join (N:=N) z a b) = odim a /\ oint (oct_join (N:=N) z a b) = oint a.
Proof.
  intros. unfold oct_join. rewrite <- (proj1 (cached_dim (N:=N) z a)), <- (proj2 (cached_dim (N:=N) z a)).
  destruct (best (cached z a)), (best (cached z b)); auto. destruct (is_some _ && is_some _); auto.
Qed.
Lemma wfo_set_mat : forall a b, wfo a -> wfo b -> odim a = odim b -> wfo (set_mat a (om b) (ocl b)).
Proof.
  intros a b Wa Wb Hd. destruct Wb. constructor; simpl; rewrite ?Hd; auto.
  rewrite <- Hd. apply (wfo_int _ Wa).
Qed.
Lemma join_wfo : forall z a b, wfo a -> wfo b -> odim a = odim b -> wfo (oct_join (N:=N) z a b).
Proof.
  intros z a b Wa Wb Hd. unfold oct_join.
  pose proof (cached_wfo (N:=N) z a Wa) as W1. pose proof (cached_wfo (N:=N) z b Wb) as W2.
  assert (Hd' : odim (cached (N:=N) z a) = odim (cached (N:=N) z b)).
  { rewrite (proj1 (cached_dim z a)), (proj1 (cached_dim z b)). auto. }
  set (a' := cached z a) in *. set (b' := cached z b) in *. clearbody a' b'.
  pose proof (wfo_int _ W1).
  destruct (best a') as [m1|] eqn:B1, (best b') as [m2|] eqn:B2.
  - destruct (best_wf _ _ W1 B1) as [F1 D1]. destruct (best_wf _ _ W2 B2) as [F2 D2]. rewrite <- Hd' in *.
    assert (wfm (odim a') (cellwise bmax m1 m2)).
    { intros i j Hi Hj. apply bmax_not_MInf; auto. }
    assert (nndiag (odim a') (cellwise bmax m1 m2)).
    { intros x Hx. apply bsgn_max; auto. }
    destruct (is_some _ && is_some _); [apply wfo_single_c|apply wfo_single_m]; auto.
  - apply wfo_set_mat; auto.
  - apply wfo_set_mat; auto.
  - apply wfo_none; auto.
Qed.
Lemma gamo_set_mat : forall a b v, odim a = odim b -> (gamo (set_mat a (om b) (ocl b)) v <-> gamo b v).
Proof. intros. unfold gamo; simpl. rewrite H. tauto. Qed.
Lemma join_sound : forall z a b v, wfo a -> wfo b -> odim a = odim b ->
  gamo a v \/ gamo b v -> gamo (oct_join (N:=N) z a b) v.
Proof.
  intros z a b v Wa Wb Hd G. unfold oct_join.
  rewrite <- (cached_gamo (N:=N) z a), <- (cached_gamo (N:=N) z b) in G by auto.
  pose proof (cached_wfo (N:=N) z a Wa) as W1. pose proof (cached_wfo (N:=N) z b Wb) as W2.
  assert (Hd' : odim (cached (N:=N) z a) = odim (cached (N:=N) z b)).
  { rewrite (proj1 (cached_dim z a)), (proj1 (cached_dim z b)). auto. }
  set (a' := cached z a) in *. set (b' := cached z b) in *. clearbody a' b'.
  rewrite (gamo_best a'), (gamo_best b') in G by auto.
  destruct (best a') as [m1|] eqn:B1, (best b') as [m2|] eqn:B2; try tauto.
  - destruct (is_some _ && is_some _); unfold set_mat; [rewrite gamo_single_c|rewrite gamo_single_m];
    apply gam_max; rewrite Hd' at 2; auto.
  - rewrite gamo_set_mat by auto. rewrite gamo_best by auto. rewrite B1. tauto.
  - rewrite gamo_set_mat by auto. rewrite gamo_best by auto. rewrite B2. tauto.
Qed.
End Join.

Lemma join_exo : forall z a b, exo a -> exo b -> odim a = odim b -> exo (oct_join (N:=E) z a b).
Proof.
  intros z a b Xa Xb Hd. constructor; [apply join_wfo; auto; [apply Xa|apply Xb]|].
  rewrite (proj1 (join_dim z a b)). unfold oct_join.
  pose proof (cached_exo z a Xa) as X1. pose proof (cached_exo z b Xb) as X2.
  pose proof (proj1 (cached_dim (N:=E) z a)) as Da. pose proof (proj1 (cached_dim (N:=E) z b)) as Db.
  set (a' := cached z a) in *. set (b' := cached z b) in *. clearbody a' b'.
  pose proof (exo_c _ X1) as C1. pose proof (exo_c _ X2) as C2. rewrite Da in C1. rewrite Db, <- Hd in C2.
  destruct (best a') as [m1|] eqn:B1, (best b') as [m2|] eqn:B2; simpl; auto; try discriminate.
  unfold best in B1, B2. intros c.
  destruct (ocl a') as [c1|] eqn:O1, (ocl b') as [c2|] eqn:O2; simpl; try discriminate.
  intros Ec. inversion Ec; inversion B1; inversion B2; subst. apply sclosed_max; auto.
Qed.

Lemma join_best : forall z a b c, (0 <= z)%Z -> exo a -> exo b -> wfo c ->
  odim a = odim b -> odim a = odim c ->
  (forall v, gamo a v -> gamo c v) -> (forall v, gamo b v -> gamo c v) ->
  forall v, gamo (oct_join (N:=E) z a b) v -> gamo c v.
Proof.
  intros z a b c Hz Xa Xb Wc Hd Hc HA HB v G.
  assert (HA' : forall v, gamo (cached (N:=E) z a) v -> gamo c v).
  { intros w Gw. apply HA. rewrite <- (cached_gamo (N:=E) z) by apply Xa. auto. }
  assert (HB' : forall v, gamo (cached (N:=E) z b) v -> gamo c v).
  { intros w Gw. apply HB. rewrite <- (cached_gamo (N:=E) z) by apply Xb. auto. }
  unfold oct_join in G.
  pose proof (fun c => closed_ex z a c Hz Xa) as Sa. pose proof (fun c => closed_ex z b c Hz Xb) as Sb.
  pose proof (exo_wf _ (cached_exo z a Xa)) as W1. pose proof (exo_wf _ (cached_exo z b Xb)) as W2.
  pose proof (proj1 (cached_dim (N:=E) z a)) as Da. pose proof (proj1 (cached_dim (N:=E) z b)) as Db.
  set (a' := cached z a) in *. set (b' := cached z b) in *. clearbody a' b'. clear HA HB.
  rewrite <- Hd in *.
  destruct (best a') as [m1|] eqn:B1, (best b') as [m2|] eqn:B2.
  - specialize (Sa m1 eq_refl). specialize (Sb m2 eq_refl).
    assert (GM : gam (odim a) (cellwise bmax m1 m2) v).
    { unfold set_mat in G. destruct (is_some _ && is_some _); [rewrite gamo_single_c in G|rewrite gamo_single_m in G];
      rewrite <- Da; auto. }
    rewrite gamo_best by auto. destruct (best c) as [y|] eqn:Bc.
    + rewrite <- Hc. apply gam_mono2 with (cellwise bmax m1 m2); auto.
      intros i j Hi Hj. unfold cellwise.
      assert (Hj' : j < 2 * odim a) by (pose proof (or1_lt _ _ Hi); lia).
      rewrite <- !(matpos2_half i j) by auto.
      apply bmax_lub; apply sclosed_le with (odim a); auto; intros w Gw.
      * assert (F : gamo c w). { apply HA'. rewrite gamo_best by auto. rewrite B1, Da. auto. }
        rewrite gamo_best in F by auto. rewrite Bc in F. rewrite Hc. auto.
      * assert (F : gamo c w). { apply HB'. rewrite gamo_best by auto. rewrite B2, Db. auto. }
        rewrite gamo_best in F by auto. rewrite Bc in F. rewrite Hc. auto.
    + destruct (sc_nonempty _ _ Sa) as [w Gw].
      assert (F : gamo c w). { apply HA'. rewrite gamo_best by auto. rewrite B1, Da. auto. }
      rewrite gamo_best in F by auto. rewrite Bc in F. tauto.
  - rewrite gamo_set_mat in G by auto. auto.
  - rewrite gamo_set_mat in G by congruence. auto.
  - exfalso. eapply gamo_none; eauto.
Qed.

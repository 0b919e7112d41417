(** The S-step, strong closure, and the correctness of hmat_close and
    hmat_close_incremental.                                                *)
From Coq Require Import Arith Lia List ZArith QArith Qreals Reals Lra Bool.
From Verif Require Import Bound BoundFacts OctMat OctIdx OctClose OctWalk OctInc.
Import ListNotations.
Open Scope nat_scope.

Lemma okm_upd' : forall n (P : nat -> nat -> bound -> Prop) m i j b,
  okm P n m -> i < 2 * n -> j <= or1 i -> P i j b ->
  (i <> j -> P (xor1 j) (xor1 i) b) -> okm P n (upd m (matpos i j) b).
Proof.
  intros n P m i j b H Hi Hj HP HP' i' j' Hi' Hj'.
  destruct (Nat.eq_dec (matpos2 i' j') (matpos i j)) as [E|D].
  - rewrite E, upd_same. destruct (Nat.eq_dec i j) as [->|Dij].
    + assert (E2 := E). apply matpos2_inv in E; auto. destruct E as [[-> ->]|[-> ->]]; auto.
      exfalso. rewrite matpos2_diag in E2. apply matpos_inj in E2; try apply or1_ge.
      destruct E2 as [C _]. eapply xor1_neq; eauto.
    + apply matpos2_inv in E; auto. destruct E as [[-> ->]|[-> ->]]; auto.
  - rewrite upd_other by auto. auto.
Qed.

(** ** Soundness of the S-step *)
Section Sound.
Context {N : numtype}.
Variable n : nat.

Lemma pathlike_valid : forall v, pathlike (N:=N) n (fun i j b => le_rb (lit v j - lit v i) b).
Proof.
  intros v. constructor.
  - intros i j b _ _ H. rewrite !lit_xor1.
    replace (- lit v i - - lit v j)%R with (lit v j - lit v i)%R by ring. auto.
  - intros i j a b H1 H2. apply bmin_spec. auto.
  - intros i k j a b _ _ _ H1 H2.
    replace (lit v j - lit v i)%R with ((lit v k - lit v i) + (lit v j - lit v k))%R by ring.
    apply badd_sound; auto.
Qed.

Lemma gam_okm : forall m v, gam n m v <-> okm (fun i j b => le_rb (lit v j - lit v i) b) n m.
Proof.
  intros m v; split; intros H i j Hi Hj.
  - destruct (matpos2_cases i j) as [[H1 E]|[H1 E]]; rewrite E.
    + apply H; auto.
    + specialize (H (xor1 j) (xor1 i) (xor1_lt _ _ Hj) H1). rewrite !lit_xor1 in H.
      replace (lit v j - lit v i)%R with (- lit v i - - lit v j)%R by ring. auto.
  - rewrite <- matpos2_half by auto. apply H; auto. eapply half_lt; eauto.
Qed.

Lemma gam_full : forall m v i j, gam n m v -> i < 2 * n -> j < 2 * n ->
  le_rb (lit v j - lit v i) (m (matpos2 i j)).
Proof. intros m v i j H. apply gam_okm in H. apply H. Qed.

Lemma s_prop_valid : forall m v, gam n m v -> gam n (hmat_s_prop (N:=N) m n) v.
Proof.
  intros m v H. apply gam_okm in H. apply gam_okm. unfold hmat_s_prop.
  set (P := fun i j b => le_rb (lit v j - lit v i) b) in *.
  apply (for_inv (okm P n)); auto. intros i x Hi Hx.
  assert (Pi : P i (xor1 i) (x (matpos i (xor1 i)))).
  { apply (okm_half n P x i (xor1 i)); auto; [lia|apply xor1_le_or1]. }
  set (a := x (matpos i (xor1 i))) in *.
  apply (for_inv (okm P n)); auto. intros j y Hj Hy.
  assert (Hj2 : j < 2 * n) by (apply half_lt with i; lia).
  apply (okm_mmin (N:=N)); auto; [apply pathlike_valid|lia|lia|].
  assert (Pj : P (xor1 j) j (y (matpos (xor1 j) j))).
  { apply (okm_half n P y (xor1 j) j); auto; [apply xor1_lt; auto|]. rewrite or1_xor1. apply or1_ge. }
  unfold P in *. rewrite lit_xor1 in *.
  apply (bdiv_2_sound (N:=N)) in Pi. apply (bdiv_2_sound (N:=N)) in Pj.
  replace (lit v j - lit v i)%R with ((lit v j - - lit v j) / 2 + (- lit v i - lit v i) / 2)%R by field.
  apply badd_sound; auto.
Qed.

(** ** The diagonal loop *)
Lemma hmat_diag_spec : forall c i m m' b, hmat_diag c i m = (m', b) ->
  (b = false <-> forall x, i <= x < i + c -> (0 <= bsgn (m (matpos x x)))%Z) /\
  (b = false -> forall p, m' p = Fin 0 /\ (exists x, i <= x < i + c /\ p = matpos x x) \/
                          m' p = m p /\ (forall x, i <= x < i + c -> p <> matpos x x)).
Proof.
  induction c; intros i m m' b H; simpl in H.
  - inversion H; subst. split.
    + split; auto. intros _ x Hx. lia.
    + intros _ p. right. split; auto. intros; lia.
  - destruct (Z.ltb_spec (bsgn (m (matpos i i))) 0) as [L|L].
    + inversion H; subst. split; [|discriminate]. split; [discriminate|].
      intros F. specialize (F i). lia.
    + apply IHc in H. destruct H as [H1 H2]. 
      assert (Dx : forall x, S i <= x -> matpos x x <> matpos i i).
      { intros x Hx C. apply matpos_inj in C; try apply or1_ge. lia. }
      split.
      * rewrite H1. split; intros F x Hx.
        -- destruct (Nat.eq_dec x i) as [->|D]; auto.
           specialize (F x). rewrite upd_other in F by (apply Dx; lia). apply F. lia.
        -- rewrite upd_other by (apply Dx; lia). apply F. lia.
      * intros Hb p. destruct (H2 Hb p) as [[E [x [Hx Ex]]]|[E F]].
        -- left. split; auto. exists x. split; auto. lia.
        -- destruct (Nat.eq_dec p (matpos i i)) as [->|D].
           ++ left. rewrite upd_same in E. split; auto. exists i. split; auto. lia.
           ++ right. rewrite upd_other in E by auto. split; auto.
              intros x Hx. destruct (Nat.eq_dec x i) as [->|D2]; auto. apply F. lia.
Qed.

Lemma hmat_s_step_false : forall m m', hmat_s_step (N:=N) m n = (m', false) ->
  nndiag n (hmat_s_prop (N:=N) m n) /\
  (forall x, x < 2 * n -> m' (matpos x x) = Fin 0) /\
  (forall i j, i <> j -> j <= or1 i -> m' (matpos i j) = hmat_s_prop (N:=N) m n (matpos i j)).
Proof.
  intros m m' H. unfold hmat_s_step in H. apply hmat_diag_spec in H. destruct H as [H1 H2].
  specialize (H2 eq_refl). split; [|split].
  - intros x Hx. apply (proj1 H1 eq_refl). lia.
  - intros x Hx. destruct (H2 (matpos x x)) as [[E _]|[E F]]; auto.
    exfalso. apply (F x); auto. lia.
  - intros i j D Hj. destruct (H2 (matpos i j)) as [[E [x [Hx Ex]]]|[E F]]; auto.
    apply matpos_inj in Ex; auto; [|apply or1_ge]. lia.
Qed.

Lemma s_step_sound : forall m v m' b, gam n m v -> hmat_s_step (N:=N) m n = (m', b) ->
  b = false /\ gam n m' v.
Proof.
  intros m v m' b G H. assert (G2 := s_prop_valid m v G).
  assert (b = false).
  { unfold hmat_s_step in H. apply hmat_diag_spec in H. apply (proj1 H). intros x Hx.
    apply bsgn_ge0_iff. specialize (G2 x x ltac:(lia) (or1_ge x)).
    replace (lit v x - lit v x)%R with 0%R in G2 by ring. auto. }
  subst b. split; auto. apply hmat_s_step_false in H. destruct H as [_ [H1 H2]].
  intros i j Hi Hj. destruct (Nat.eq_dec i j) as [->|D].
  - rewrite H1 by auto. simpl. rewrite Q2R_0'. lra.
  - rewrite H2 by auto. apply G2; auto.
Qed.

Lemma s_step_back : forall m v m', hmat_s_step (N:=N) m n = (m', false) ->
  gam n m' v -> gam n m v.
Proof.
  intros m v m' H G. apply hmat_s_step_false in H. destruct H as [D [H1 H2]].
  intros i j Hi Hj. eapply le_rb_mono; [|apply (hmat_s_prop_mle (N:=N) m n)].
  destruct (Nat.eq_dec i j) as [->|Dij].
  - replace (lit v j - lit v j)%R with 0%R by ring. apply bsgn_ge0_iff. apply D; auto.
  - rewrite <- H2 by auto. apply G; auto.
Qed.

Lemma fw_valid : forall m v, gam n m v <-> gam n (hmat_fw (N:=N) m n) v.
Proof.
  intros m v; split; intros H.
  - apply gam_okm. apply hmat_fw_ok; [apply pathlike_valid|]. apply gam_okm. auto.
  - intros i j Hi Hj. eapply le_rb_mono; [apply H; auto|]. apply hmat_fw_mle.
Qed.
Lemma inc_valid : forall m x v, x < n -> gam n m v <->
  gam n (hmat_inc2 (N:=N) (hmat_inc1 (N:=N) m n x) n x) v.
Proof.
  intros m x v Hx; split; intros H.
  - apply gam_okm. apply hmat_inc_ok; auto; [apply pathlike_valid|]. apply gam_okm. auto.
  - intros i j Hi Hj. eapply le_rb_mono; [apply H; auto|].
    eapply le_bb_trans; [apply hmat_inc2_mle|apply hmat_inc1_mle].
Qed.

(** Soundness of both closures for every number type. *)
Lemma close_sound : forall m v m' b, hmat_close (N:=N) m n = (m', b) ->
  (gam n m v -> b = false) /\ (b = false -> (gam n m v <-> gam n m' v)).
Proof.
  intros m v m' b H. unfold hmat_close in H. split.
  - intros G. apply fw_valid in G. eapply s_step_sound; eauto.
  - intros ->. split; intros G.
    + apply fw_valid in G. eapply s_step_sound; eauto.
    + apply fw_valid. eapply s_step_back; eauto.
Qed.
Lemma close_inc_sound : forall m x v m' b, x < n -> hmat_close_incremental (N:=N) m n x = (m', b) ->
  (gam n m v -> b = false) /\ (b = false -> (gam n m v <-> gam n m' v)).
Proof.
  intros m x v m' b Hx H. unfold hmat_close_incremental in H. split.
  - intros G. apply (inc_valid m x v Hx) in G. eapply s_step_sound; eauto.
  - intros ->. split; intros G.
    + apply (inc_valid m x v Hx) in G. eapply s_step_sound; eauto.
    + apply (inc_valid m x v Hx). eapply s_step_back; eauto.
Qed.

(** no -oo appears *)
Lemma s_prop_wf : forall m, wfm n m -> wfm n (hmat_s_prop (N:=N) m n).
Proof.
  intros m H. apply wfm_okm in H. apply wfm_okm. unfold hmat_s_prop.
  set (P := fun (_ _ : nat) b => b <> MInf) in *.
  assert (DV : forall b, b <> MInf -> bdiv_2 (N:=N) b <> MInf).
  { intros [|q|]; simpl; auto. intros _. apply rnd_not_MInf. }
  apply (for_inv (okm P n)); auto. intros i x Hi Hx.
  assert (Pi : x (matpos i (xor1 i)) <> MInf).
  { apply (okm_half n P x i (xor1 i)); auto; [lia|apply xor1_le_or1]. }
  apply (for_inv (okm P n)); auto. intros j y Hj Hy.
  assert (Hj2 : j < 2 * n) by (apply half_lt with i; lia).
  apply (okm_mmin (N:=N)); auto; [apply pathlike_wf|lia|lia|].
  apply badd_not_MInf; apply DV; auto.
  apply (okm_half n P y (xor1 j) j); auto; [apply xor1_lt; auto|].
  rewrite or1_xor1. apply or1_ge.
Qed.
Lemma s_step_wf : forall m m', wfm n m -> hmat_s_step (N:=N) m n = (m', false) -> wfm n m'.
Proof.
  intros m m' W H. apply hmat_s_step_false in H. destruct H as [_ [H1 H2]].
  intros i j Hi Hj. destruct (Nat.eq_dec i j) as [->|D].
  - rewrite H1 by auto. discriminate.
  - rewrite H2 by auto. apply s_prop_wf; auto.
Qed.
Lemma close_wf : forall m m', wfm n m -> hmat_close (N:=N) m n = (m', false) -> wfm n m'.
Proof.
  intros m m' W H. eapply s_step_wf; [|exact H]. apply wfm_okm. apply hmat_fw_ok; [apply pathlike_wf|].
  apply wfm_okm; auto.
Qed.
Lemma close_inc_wf : forall m x m', x < n -> wfm n m ->
  hmat_close_incremental (N:=N) m n x = (m', false) -> wfm n m'.
Proof.
  intros m x m' Hx W H. eapply s_step_wf; [|exact H]. apply wfm_okm.
  apply hmat_inc_ok; [apply pathlike_wf|auto|]. apply wfm_okm; auto.
Qed.

End Sound.

(** ** Strongly closed matrices *)
Record sclosed (n : nat) (m : hmat) : Prop := {
  sc_wf : wfm n m;
  sc_diag : forall x, x < 2 * n -> m (matpos x x) = Fin 0;
  sc_tri : tri n m;
  sc_str : forall i j r1 r2, i < 2 * n -> j < 2 * n ->
    ge_rb r1 (m (matpos2 i (xor1 i))) -> ge_rb r2 (m (matpos2 (xor1 j) j)) ->
    ge_rb ((r1 + r2) / 2) (m (matpos2 i j))
}.

Section Exact.
Variable n : nat.
Local Notation E := exact_num.

(** what the S-step computes *)
Definition sval (m : hmat) (i j : nat) (b : bound) : Prop :=
  forall r, ge_rb r b -> ge_rb r (m (matpos2 i j)) \/
    exists r1 r2, ge_rb r1 (m (matpos2 i (xor1 i))) /\ ge_rb r2 (m (matpos2 (xor1 j) j)) /\
                  r = ((r1 + r2) / 2)%R.

Lemma sval_unary : forall m i b r, sval m i (xor1 i) b -> ge_rb r b -> ge_rb r (m (matpos2 i (xor1 i))).
Proof.
  intros m i b r S G. destruct (S r G) as [A|[r1 [r2 [A1 [A2 ->]]]]]; auto.
  rewrite xor1_invol in A2.
  destruct (Rle_dec r1 r2); [apply ge_rb_le with r1|apply ge_rb_le with r2]; auto; lra.
Qed.

Lemma s_prop_sval : forall m, wfm n m -> okm (fun i j b => sval m i j b) n (hmat_s_prop (N:=E) m n).
Proof.
  intros m W.
  set (P := fun i j b => b <> MInf /\ sval m i j b).
  assert (G : okm P n (hmat_s_prop (N:=E) m n)).
  { assert (ST : okm P n m).
    { intros i j Hi Hj. split; [eapply wfm2; eauto|]. intros r G. auto. }
    unfold hmat_s_prop. apply (for_inv (okm P n)); auto. intros i x Hi Hx.
    assert (Pi : P i (xor1 i) (x (matpos i (xor1 i)))).
    { apply (okm_half n P x i (xor1 i)); auto; [lia|apply xor1_le_or1]. }
    set (a := x (matpos i (xor1 i))) in *.
    apply (for_inv (okm P n)); auto. intros j y Hj Hy.
    assert (Hj2 : j < 2 * n) by (apply half_lt with i; lia).
    assert (Pj : P (xor1 j) j (y (matpos (xor1 j) j))).
    { apply (okm_half n P y (xor1 j) j); auto; [apply xor1_lt; auto|]. rewrite or1_xor1. apply or1_ge. }
    assert (Pc : P i j (y (matpos i j))) by (apply (okm_half n P y i j); auto; lia).
    assert (Q : P i j (bmin (y (matpos i j)) (badd (N:=E) (bdiv_2 (N:=E) (y (matpos (xor1 j) j))) (bdiv_2 (N:=E) a)))).
    { destruct Pi as [Pi1 Pi2], Pj as [Pj1 Pj2], Pc as [Pc1 Pc2].
      assert (DV : forall b, b <> MInf -> bdiv_2 (N:=E) b <> MInf).
      { intros [|q|]; simpl; auto. congruence. }
      split.
      - apply bmin_not_MInf; auto. apply badd_not_MInf; auto.
      - intros r G. apply bmin_ge in G. destruct G as [G|G]; auto.
        right. apply badd_ge_inv in G; auto.
        destruct G as [r1 [r2 [G1 [G2 ->]]]].
        apply bdiv2_ge_inv in G1. apply bdiv2_ge_inv in G2.
        exists (2 * r2)%R, (2 * r1)%R. split; [|split].
        + eapply sval_unary; eauto.
        + rewrite <- (xor1_invol j) at 2. eapply sval_unary; [|exact G1].
          rewrite xor1_invol. auto.
        + field. }
    apply okm_upd'; auto; [lia|lia|].
    intros Dij. destruct Q as [Q1 Q2]. split; auto. intros r Gr.
    destruct (Q2 r Gr) as [A|[r1 [r2 [A1 [A2 A3]]]]].
    - left. rewrite matpos2_coh; auto.
    - right. exists r2, r1. rewrite !xor1_invol. split; auto. split; auto. lra. }
  intros i j Hi Hj. apply (G i j Hi Hj).
Qed.

Lemma s_prop_target_half : forall m i j r1 r2, i < 2 * n -> j <= or1 i ->
  ge_rb r1 (m (matpos2 i (xor1 i))) -> ge_rb r2 (m (matpos2 (xor1 j) j)) ->
  ge_rb ((r1 + r2) / 2) (hmat_s_prop (N:=E) m n (matpos i j)).
Proof.
  intros m i j r1 r2 Hi Hj G1 G2. unfold hmat_s_prop.
  match goal with |- context [for_ 0 (2 * n) ?f m] => set (f1 := f) end.
  assert (M1 : forall i m, 0 <= i < 2 * n -> mle (f1 i m) m).
  { intros. unfold f1. apply for_mle. intros; apply mmin_mle. }
  destruct (for_at 0 (2*n) f1 m i) as [m1 [L1 L2]]; auto; [lia|].
  eapply ge_rb_bb; [apply L2|]. unfold f1.
  match goal with |- context [for_ 0 (or1 i + 1) ?f m1] => set (f2 := f) end.
  assert (M2 : forall i m, mle (f2 i m) m).
  { intros. unfold f2. apply mmin_mle. }
  destruct (for_at 0 (or1 i+1) f2 m1 j) as [m2 [L3 L4]]; auto; [lia|].
  eapply ge_rb_bb; [apply L4|]. unfold f2. eapply ge_rb_bb; [apply mmin_at|].
  replace ((r1 + r2) / 2)%R with (r2 / 2 + r1 / 2)%R by field.
  apply badd_ge; apply bdiv2_ge.
  - eapply ge_rb_bb; [apply L3|]. eapply ge_rb_bb; [apply L1|].
    rewrite matpos2_half in G2; auto. rewrite or1_xor1. apply or1_ge.
  - eapply ge_rb_bb; [apply L1|]. rewrite matpos2_half in G1; auto. apply xor1_le_or1.
Qed.

Lemma s_prop_target : forall m i j r1 r2, i < 2 * n -> j < 2 * n ->
  ge_rb r1 (m (matpos2 i (xor1 i))) -> ge_rb r2 (m (matpos2 (xor1 j) j)) ->
  ge_rb ((r1 + r2) / 2) (hmat_s_prop (N:=E) m n (matpos2 i j)).
Proof.
  intros m i j r1 r2 Hi Hj G1 G2. destruct (matpos2_cases i j) as [[H Eq]|[H Eq]]; rewrite Eq.
  - apply s_prop_target_half; auto.
  - rewrite Rplus_comm. apply s_prop_target_half; auto using xor1_lt; rewrite !xor1_invol; auto.
Qed.

Lemma s_prop_tri : forall m, wfm n m -> nndiag n m -> tri n m -> tri n (hmat_s_prop (N:=E) m n).
Proof.
  intros m W D T i k j r1 r2 Hi Hk Hj G1 G2.
  assert (SV := s_prop_sval m W).
  assert (ML : mle (hmat_s_prop (N:=E) m n) m) by apply hmat_s_prop_mle.
  assert (Hi' := xor1_lt _ _ Hi). assert (Hj' := xor1_lt _ _ Hj). assert (Hk' := xor1_lt _ _ Hk).
  destruct (SV i k Hi Hk r1 G1) as [A|[a1 [a2 [A1 [A2 A3]]]]];
  destruct (SV k j Hk Hj r2 G2) as [B|[b1 [b2 [B1 [B2 B3]]]]].
  - eapply ge_rb_bb; [apply ML|]. apply T with k; auto.
  - destruct (Nat.eq_dec i k) as [->|Dik].
    + pose proof (nndiag_ge n m k r1 D Hk A). apply ge_rb_le with r2; [lra|]. subst r2.
      apply s_prop_target; auto.
    + replace (r1 + r2)%R with (((r1 + (b1 + r1)) + b2) / 2)%R by lra.
      apply s_prop_target; auto. apply T with k; auto. apply T with (xor1 k); auto.
      rewrite matpos2_coh; auto.
  - destruct (Nat.eq_dec k j) as [->|Dkj].
    + pose proof (nndiag_ge n m j r2 D Hj B). apply ge_rb_le with r1; [lra|]. subst r1.
      apply s_prop_target; auto.
    + replace (r1 + r2)%R with ((a1 + ((r2 + a2) + r2)) / 2)%R by lra.
      apply s_prop_target; auto. apply T with k; auto. apply T with (xor1 k); auto.
      rewrite matpos2_coh; auto.
  - assert (0 <= a2 + b1)%R.
    { apply (nndiag_ge n m (xor1 k) _ D Hk'). apply T with k; auto. }
    apply ge_rb_le with ((a1 + b2) / 2)%R; [lra|]. apply s_prop_target; auto.
Qed.

Lemma s_step_exact : forall m m', wfm n m -> (nndiag n m -> tri n m) ->
  hmat_s_step (N:=E) m n = (m', false) -> sclosed n m'.
Proof.
  intros m m' W T H. assert (W' := s_step_wf n m m' W H).
  apply hmat_s_step_false in H. destruct H as [DS [H1 H2]].
  assert (D : nndiag n m) by (eapply nndiag_mle; [|exact DS]; apply hmat_s_prop_mle).
  specialize (T D). assert (TS := s_prop_tri m W D T). assert (SV := s_prop_sval m W).
  set (s := hmat_s_prop (N:=E) m n) in *.
  assert (C : forall i j, i < 2 * n -> j < 2 * n -> i <> j -> m' (matpos2 i j) = s (matpos2 i j)).
  { intros i j Hi Hj Dij. destruct (matpos2_cases i j) as [[H Eq]|[H Eq]]; rewrite Eq; apply H2; auto.
    intro F. apply xor1_inj in F. auto. }
  assert (C0 : forall x, x < 2 * n -> m' (matpos2 x x) = Fin 0).
  { intros. rewrite matpos2_diag. auto. }
  constructor; auto.
  - intros i k j r1 r2 Hi Hk Hj G1 G2.
    destruct (Nat.eq_dec i k) as [->|Dik].
    { rewrite C0 in G1 by auto. simpl in G1. rewrite Q2R_0' in G1.
      apply ge_rb_le with r2; auto. lra. }
    destruct (Nat.eq_dec k j) as [->|Dkj].
    { rewrite C0 in G2 by auto. simpl in G2. rewrite Q2R_0' in G2.
      apply ge_rb_le with r1; auto. lra. }
    rewrite C in G1, G2 by auto.
    assert (G : ge_rb (r1 + r2) (s (matpos2 i j))) by (apply TS with k; auto).
    destruct (Nat.eq_dec i j) as [->|Dij].
    + rewrite C0 by auto. simpl. rewrite Q2R_0'. exact (nndiag_ge n s j _ DS Hj G).
    + rewrite C; auto.
  - intros i j r1 r2 Hi Hj G1 G2. assert (Hi' := xor1_lt _ _ Hi). assert (Hj' := xor1_lt _ _ Hj).
    assert (Ni := xor1_neq i). assert (Nj := xor1_neq j).
    rewrite C in G1, G2 by auto.
    assert (A1 : ge_rb r1 (m (matpos2 i (xor1 i)))) by (eapply sval_unary; [apply SV; auto|auto]).
    assert (A2 : ge_rb r2 (m (matpos2 (xor1 j) j))).
    { rewrite <- (xor1_invol j) at 2. eapply sval_unary; [apply SV; auto; rewrite xor1_invol; auto|].
      rewrite xor1_invol. auto. }
    assert (G : ge_rb ((r1 + r2) / 2) (s (matpos2 i j))) by (apply s_prop_target; auto).
    destruct (Nat.eq_dec i j) as [->|Dij].
    + rewrite C0 by auto. simpl. rewrite Q2R_0'. exact (nndiag_ge n s j _ DS Hj G).
    + rewrite C; auto.
Qed.

Lemma close_exact : forall m m', wfm n m -> hmat_close (N:=E) m n = (m', false) -> sclosed n m'.
Proof.
  intros m m' W H. unfold hmat_close in H. apply s_step_exact in H; auto.
  - apply wfm_okm. apply hmat_fw_ok; [apply pathlike_wf|]. apply wfm_okm; auto.
  - intros D. apply hmat_fw_tri; auto.
Qed.

Lemma close_inc_exact : forall m x m', x < n -> wfm n m -> tri_except n x m ->
  hmat_close_incremental (N:=E) m n x = (m', false) -> sclosed n m'.
Proof.
  intros m x m' Hx W T H. unfold hmat_close_incremental in H. apply s_step_exact in H; auto.
  - apply wfm_okm. apply hmat_inc_ok; [apply pathlike_wf|auto|]. apply wfm_okm; auto.
  - intros D. apply inc_tri; auto.
Qed.

End Exact.

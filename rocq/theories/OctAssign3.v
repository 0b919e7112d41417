(** hmat_assign on constants and unary expressions: soundness, exactness, closure. *)
From Coq Require Import Arith Lia List ZArith QArith Qreals Reals Lra Bool.
From Verif Require Import Bound BoundFacts Linexpr LinexprFacts OctMat OctIdx OctClose OctWalk OctInc OctStrong OctGeom OctGeom2 Oct OctFacts OctFacts2 OctFacts3 OctForget OctTransfer OctUexpr OctGuard OctGuard2 OctGuard3 OctAssign OctAssign2.
Import ListNotations.
Open Scope nat_scope.
#[local] Arguments Nat.div : simpl never.
#[local] Arguments Nat.modulo : simpl never.
#[local] Arguments Nat.mul : simpl never.
#[local] Arguments Nat.leb : simpl never.
#[local] Arguments Nat.ltb : simpl never.
#[local] Arguments xor1 : simpl never.
#[local] Arguments or1 : simpl never.
#[local] Arguments matpos : simpl never.
#[local] Arguments matpos2 : simpl never.
Local Notation E := exact_num.

Section A.
Variables (n d : nat) (m m' : hmat) (Lo Hi : nat -> bound) (A B : bound).
Hypothesis Hd : d < n.
Hypothesis AC : acells n d m m' Lo Hi A B.
Lemma ac_nndiag : nndiag n m -> nndiag n m'.
Proof.
  intros ND i Hi0. destruct (Nat.eq_dec (i / 2) d) as [D|D].
  - destruct (lit_of_var i d D) as [-> | ->]; rewrite ?xor1_even; [rewrite (ac_d0 _ _ _ _ _ _ _ _ AC)|rewrite (ac_d1 _ _ _ _ _ _ _ _ AC)]; apply ND; lia.
  - rewrite (ac_off _ _ _ _ _ _ _ _ AC i i) by (auto; apply or1_ge). apply ND; auto.
Qed.
Lemma ac_diag0 : (forall i, i < 2 * n -> m (matpos i i) = Fin 0) -> forall i, i < 2 * n -> m' (matpos i i) = Fin 0.
Proof.
  intros ND i Hi0. destruct (Nat.eq_dec (i / 2) d) as [D|D].
  - destruct (lit_of_var i d D) as [-> | ->]; rewrite ?xor1_even; [rewrite (ac_d0 _ _ _ _ _ _ _ _ AC)|rewrite (ac_d1 _ _ _ _ _ _ _ _ AC)]; apply ND; lia.
  - rewrite (ac_off _ _ _ _ _ _ _ _ AC i i) by (auto; apply or1_ge). apply ND; auto.
Qed.
(** a property of all the cells *)
Lemma ac_all : forall (P : nat -> nat -> bound -> Prop),
  (forall i j b, i <> j -> P i j b -> P (xor1 j) (xor1 i) b) ->
  (forall i, i < 2 * n -> P i i (m' (matpos2 i i))) ->
  (forall i j, i < 2 * n -> j < 2 * n -> i / 2 <> d -> j / 2 <> d -> P i j (m (matpos2 i j))) ->
  (forall j, j < 2 * n -> j / 2 <> d -> P (2 * d) j (Lo j)) -> (forall j, j < 2 * n -> j / 2 <> d -> P j (2 * d) (Hi j)) ->
  P (2 * d) (2 * d + 1) A -> P (2 * d + 1) (2 * d) B ->
  forall i j, i < 2 * n -> j < 2 * n -> P i j (m' (matpos2 i j)).
Proof.
  intros P SY DG OF PL PH PA PB i j Hi0 Hj. destruct (Nat.eq_dec i j) as [->|NE]; auto.
  destruct (Nat.eq_dec (i / 2) d) as [Di|Di], (Nat.eq_dec (j / 2) d) as [Dj|Dj].
  - destruct (lit_of_var i d Di) as [-> | ->], (lit_of_var j d Dj) as [-> | ->]; try congruence; rewrite xor1_even in *.
    + rewrite matpos2_half by (rewrite or1_even; lia). rewrite (ac_a _ _ _ _ _ _ _ _ AC). auto.
    + rewrite matpos2_half by (rewrite or1_odd; lia). rewrite (ac_b _ _ _ _ _ _ _ _ AC). auto.
  - destruct (lit_of_var i d Di) as [-> | ->].
    + rewrite (ac_lo _ _ _ _ _ _ _ _ AC) by auto. auto.
    + rewrite <- matpos2_coh by auto. rewrite xor1_invol.
      rewrite (ac_hi _ _ _ _ _ _ _ _ AC) by (rewrite ?div2_xor1; auto using xor1_lt).
      replace (P (xor1 (2 * d)) j) with (P (xor1 (2 * d)) (xor1 (xor1 j))) by (rewrite xor1_invol; auto).
      apply SY; [intros X; rewrite <- X, xor1_invol in NE; auto|]. apply PH; rewrite ?div2_xor1; auto using xor1_lt.
  - destruct (lit_of_var j d Dj) as [-> | ->].
    + rewrite (ac_hi _ _ _ _ _ _ _ _ AC) by auto. auto.
    + rewrite <- matpos2_coh by auto. rewrite xor1_invol.
      rewrite (ac_lo _ _ _ _ _ _ _ _ AC) by (rewrite ?div2_xor1; auto using xor1_lt).
      replace (P i (xor1 (2 * d))) with (P (xor1 (xor1 i)) (xor1 (2 * d))) by (rewrite xor1_invol; auto).
      apply SY; [intros X; rewrite X, xor1_invol in NE; auto|]. apply PL; rewrite ?div2_xor1; auto using xor1_lt.
  - rewrite (agree_except2 n d m m' i j) by (auto; apply (ac_off _ _ _ _ _ _ _ _ AC)). auto.
Qed.
Lemma ac_wfm : wfm n m -> (forall j, j < 2 * n -> j / 2 <> d -> Lo j <> MInf /\ Hi j <> MInf) -> A <> MInf -> B <> MInf -> wfm n m'.
Proof.
  intros W LH HA HB. assert (X : forall i j, i < 2 * n -> j < 2 * n -> m' (matpos2 i j) <> MInf).
  { apply (ac_all (fun _ _ b => b <> MInf)); auto.
    - intros i Hi0. rewrite matpos2_diag. destruct (Nat.eq_dec (i / 2) d) as [D|D].
      + destruct (lit_of_var i d D) as [-> | ->]; rewrite ?xor1_even; [rewrite (ac_d0 _ _ _ _ _ _ _ _ AC)|rewrite (ac_d1 _ _ _ _ _ _ _ _ AC)]; apply W; rewrite ?or1_even, ?or1_odd; lia.
      + rewrite (ac_off _ _ _ _ _ _ _ _ AC i i) by (auto; apply or1_ge). apply W; auto. apply or1_ge.
    - intros. eapply wfm2; eauto.
    - intros; apply LH; auto.
    - intros; apply LH; auto. }
  intros i j Hi0 Hj. rewrite <- matpos2_half by auto. apply X; auto. eapply or1_lt2; eauto.
Qed.
(** the points *)
Lemma ac_gam : forall w x, nndiag n m -> (gam n m' (vset w d x) <->
  offd n d m w /\ (forall j, j < 2 * n -> j / 2 <> d -> le_rb (x - lit w j) (Hi j) /\ le_rb (lit w j - x) (Lo j)) /\ le_rb (- (2 * x)) A /\ le_rb (2 * x) B).
Proof.
  intros w x ND. rewrite gam_split; [|auto|apply ac_nndiag; auto]. rewrite (offd_agree n d m m') by apply (ac_off _ _ _ _ _ _ _ _ AC).
  unfold uok, lok. rewrite (ac_a _ _ _ _ _ _ _ _ AC), (ac_b _ _ _ _ _ _ _ _ AC). split.
  - intros (O & (U1 & U2) & L1 & L2). split; auto. split; auto. intros j Hj Nj. specialize (U1 j Hj Nj). specialize (L1 j Hj Nj).
    rewrite (ac_hi _ _ _ _ _ _ _ _ AC) in U1 by auto. rewrite (ac_lo _ _ _ _ _ _ _ _ AC) in L1 by auto. auto.
  - intros (O & H & HA & HB). split; auto. split; split; auto; intros j Hj Nj; destruct (H j Hj Nj).
    + rewrite (ac_hi _ _ _ _ _ _ _ _ AC) by auto. auto.
    + rewrite (ac_lo _ _ _ _ _ _ _ _ AC) by auto. auto.
Qed.
Lemma ac_sclosed : forall S : (nat -> R) -> Prop, sclosed n m -> (forall v, S v -> gam n m' v) -> (exists v, S v) ->
  (forall i j, i < 2 * n -> j < 2 * n -> i / 2 <> d -> j / 2 <> d -> reach S (fun v => lit v j - lit v i)%R (m (matpos2 i j))) ->
  (forall j, j < 2 * n -> j / 2 <> d -> reach S (fun v => lit v j - v d)%R (Lo j)) ->
  (forall j, j < 2 * n -> j / 2 <> d -> reach S (fun v => v d - lit v j)%R (Hi j)) ->
  reach S (fun v => - (2 * v d))%R A -> reach S (fun v => 2 * v d)%R B -> sclosed n m'.
Proof.
  intros S SC SG (v0 & S0) RO RL RH RA RB.
  assert (RE : forall f g b, reach S f b -> (forall v, f v = g v) -> reach S g b).
  { intros f g [|q|] H X; simpl in *; auto.
    - destruct H as (v & H1 & H2). exists v. rewrite <- X. auto.
    - intros b. destruct (H b) as (v & H1 & H2). exists v. rewrite <- X. auto. }
  assert (NM : forall f b, reach S f b -> b <> MInf) by (intros f [|q|] H; try discriminate; destruct H).
  assert (ALL : forall i j, i < 2 * n -> j < 2 * n -> reach S (fun v => lit v j - lit v i)%R (m' (matpos2 i j))).
  { apply (ac_all (fun i j b => reach S (fun v => lit v j - lit v i)%R b)).
    - intros i j b NE H. eapply RE; [exact H|]. intros v. simpl. rewrite !lit_xor1. ring.
    - intros i Hi0. rewrite matpos2_diag, ac_diag0 by (auto; apply SC). exists v0. split; auto. rewrite Q2R_0'. lra.
    - exact RO.
    - intros j Hj Nj. eapply RE; [apply (RL j Hj Nj)|]. intros v. simpl. rewrite lit_even. auto.
    - intros j Hj Nj. eapply RE; [apply (RH j Hj Nj)|]. intros v. simpl. rewrite lit_even. auto.
    - eapply RE; [exact RA|]. intros v. simpl. rewrite lit_even, lit_odd. ring.
    - eapply RE; [exact RB|]. intros v. simpl. rewrite lit_even, lit_odd. ring. }
  apply tight_sclosed.
  - intros i j Hi0 Hj. rewrite <- matpos2_half by auto. eapply NM. apply ALL; auto. eapply or1_lt2; eauto.
  - apply ac_diag0. apply SC.
  - intros i j Hi0 Hj. specialize (ALL i j Hi0 Hj). destruct (m' (matpos2 i j)); simpl in *; auto.
    + destruct ALL as (v & H1 & H2). eauto.
    + intros b. destruct (ALL b) as (v & H1 & H2). eauto.
Qed.
End A.

(** ** Soundness *)
Section Sound.
Context {N : numtype}.
Variables (n d : nat) (tmp m : hmat).
Hypothesis Hd : d < n.
Hypothesis ND : nndiag n m.
Lemma half_le : forall x b, le_rb (2 * x) b -> le_rb x (bdiv_2 (N:=N) b).
Proof. intros x b H. replace x with (2 * x / 2)%R by field. apply bdiv_2_sound. auto. Qed.
Lemma zero_sound : forall v r, gam n m v -> in2 r (tmp 0) (tmp 1) -> gam n (assign_zero (N:=N) tmp m n d true) (vset v d r).
Proof.
  intros v r G [R1 R2]. apply (ac_gam _ _ _ _ _ _ _ _ Hd (zero_cells n d tmp m Hd)); auto. split; [|split; [|split]].
  - intros i j Hi Hj _ _. apply gam_full with n; auto.
  - intros j Hj Nj. pose proof (gam_full n m v (xor1 j) j G (xor1_lt _ _ Hj) Hj) as G1. pose proof (gam_full n m v j (xor1 j) G Hj (xor1_lt _ _ Hj)) as G2.
    rewrite unary_cell' in G1. rewrite unary_cell in G2. rewrite lit_xor1 in *. split.
    + replace (r - lit v j)%R with (- lit v j + r)%R by ring. apply badd_sound; auto. apply half_le. eapply le_rb_le; [|exact G2]. lra.
    + replace (lit v j - r)%R with (lit v j + - r)%R by ring. apply badd_sound; auto. apply half_le. eapply le_rb_le; [|exact G1]. lra.
  - replace (- (2 * r))%R with (2 * - r)%R by ring. apply bmul_2_sound; auto.
  - apply bmul_2_sound; auto.
Qed.
Lemma shift_sound : forall v r, gam n m v -> in2 r (tmp 0) (tmp 1) -> gam n (assign_shift (N:=N) tmp m n d) (vset v d (v d + r)).
Proof.
  intros v r G [R1 R2]. apply (ac_gam _ _ _ _ _ _ _ _ Hd (shift_cells n d tmp m Hd)); auto.
  rewrite (gam_vset_id n m v d), gam_split in G by auto. destruct G as (O & (U1 & U2) & L1 & L2). split; [auto|split; [|split]].
  - intros j Hj Nj. split.
    + replace (v d + r - lit v j)%R with ((v d - lit v j) + r)%R by ring. apply badd_sound; auto.
    + replace (lit v j - (v d + r))%R with ((lit v j - v d) + - r)%R by ring. apply badd_sound; auto.
  - replace (- (2 * (v d + r)))%R with (- (2 * v d) + 2 * - r)%R by ring. apply badd_sound; auto. apply bmul_2_sound; auto.
  - replace (2 * (v d + r))%R with (2 * v d + 2 * r)%R by ring. apply badd_sound; auto. apply bmul_2_sound; auto.
Qed.
Lemma opp_sound : forall v r, gam n m v -> in2 r (tmp 0) (tmp 1) -> gam n (assign_opp (N:=N) tmp m n d) (vset v d (- v d + r)).
Proof.
  intros v r G [R1 R2]. apply (ac_gam _ _ _ _ _ _ _ _ Hd (opp_cells n d tmp m Hd)); auto.
  assert (O : offd n d m v) by (intros i j Hi Hj _ _; apply gam_full with n; auto).
  assert (G1 : forall j, j < 2 * n -> le_rb (lit v j + v d) (m (matpos2 (2 * d + 1) j)) /\ le_rb (- v d - lit v j) (m (matpos2 j (2 * d + 1)))).
  { intros j Hj. pose proof (gam_full n m v (2 * d + 1) j G ltac:(lia) Hj) as X1. pose proof (gam_full n m v j (2 * d + 1) G Hj ltac:(lia)) as X2.
    rewrite lit_odd in *. split; [eapply le_rb_le; [|exact X1]|exact X2]. lra. }
  pose proof (gam_unary n m v d G Hd) as [X1 X2]. split; [auto|split; [|split]].
  - intros j Hj Nj. destruct (G1 j Hj). split.
    + replace (- v d + r - lit v j)%R with ((- v d - lit v j) + r)%R by ring. apply badd_sound; auto.
    + replace (lit v j - (- v d + r))%R with ((lit v j + v d) + - r)%R by ring. apply badd_sound; auto.
  - replace (- (2 * (- v d + r)))%R with (2 * v d + 2 * - r)%R by ring. apply badd_sound; auto. apply bmul_2_sound; auto.
  - replace (2 * (- v d + r))%R with (- (2 * v d) + 2 * r)%R by ring. apply badd_sound; auto. apply bmul_2_sound; auto.
Qed.
End Sound.

(** ** Exactness *)
Section Exact.
Variables (n d : nat) (tmp m : hmat).
Hypothesis Hd : d < n.
Hypothesis ND : nndiag n m.
Lemma zero_exact : forall w, sclosed n m -> gam n (assign_zero (N:=E) tmp m n d true) w -> exists x, gam n m (vset w d x) /\ in2 (w d) (tmp 0) (tmp 1).
Proof.
  intros w SC G. rewrite (gam_vset_id n _ w d) in G. rewrite (ac_gam _ _ _ _ _ _ _ _ Hd (zero_cells n d tmp m Hd)) in G by auto.
  destruct G as (O & _ & G1 & G2). destruct (offd_extend n d m w Hd SC O) as [x X]. exists x. split; auto.
  split; [destruct (tmp 0)|destruct (tmp 1)]; simpl in *; auto; rewrite Q2R_two in *; lra.
Qed.
Lemma badd_fin : forall x y b, le_rb x (badd (N:=E) b (Fin y)) <-> le_rb (x - Q2R y) b.
Proof. intros x y [|q|]; simpl; try tauto. rewrite Q2R_plus. split; lra. Qed.
Lemma shift_exact : forall w, (exists y, in2 y (tmp 0) (tmp 1)) -> (sclosed n m \/ exists p q, tmp 0 = Fin p /\ tmp 1 = Fin q /\ (Q2R p = - Q2R q)%R) ->
  gam n (assign_shift (N:=E) tmp m n d) w -> exists x, gam n m (vset w d x) /\ in2 (w d - x) (tmp 0) (tmp 1).
Proof.
  intros w (y & Y1 & Y2) K G. rewrite (gam_vset_id n _ w d) in G. rewrite (ac_gam _ _ _ _ _ _ _ _ Hd (shift_cells n d tmp m Hd)) in G by auto.
  destruct G as (O & GJ & G1 & G2). destruct K as [SC|(p & q & T0 & T1 & PQ)].
  - destruct (offd_extend n d m w Hd SC O) as [x0 X].
    destruct (slide n d m w x0 (w d) (tmp 1) (tmp 0) Hd ND X) as (x & [I1 I2] & Gx).
    + exists (- y)%R. split; [rewrite Ropp_involutive|]; auto.
    + intros q T1. rewrite T1 in GJ, G2. split.
      * intros j Hj Nj. destruct (GJ j Hj Nj) as [GJ1 _]. apply badd_fin in GJ1. eapply le_rb_le; [|exact GJ1]. lra.
      * simpl in G2. apply badd_fin in G2. rewrite Q2R_two in G2. eapply le_rb_le; [|exact G2]. lra.
    + intros q T0. rewrite T0 in GJ, G1. split.
      * intros j Hj Nj. destruct (GJ j Hj Nj) as [_ GJ1]. apply badd_fin in GJ1. eapply le_rb_le; [|exact GJ1]. lra.
      * simpl in G1. apply badd_fin in G1. rewrite Q2R_two in G1. eapply le_rb_le; [|exact G1]. lra.
    + exists x. split; auto. split; [eapply le_rb_le; [|exact I2]|eapply le_rb_le; [|exact I1]]; lra.
  - exists (w d - Q2R q)%R. split.
    + rewrite T0, T1 in *. simpl in G1, G2. apply badd_fin in G1, G2. rewrite Q2R_two in G1, G2. apply gam_split; auto. split; auto. split; split.
      * intros j Hj Nj. destruct (GJ j Hj Nj) as [GJ1 _]. apply badd_fin in GJ1. eapply le_rb_le; [|exact GJ1]. lra.
      * eapply le_rb_le; [|exact G2]. lra.
      * intros j Hj Nj. destruct (GJ j Hj Nj) as [_ GJ1]. apply badd_fin in GJ1. eapply le_rb_le; [|exact GJ1]. lra.
      * eapply le_rb_le; [|exact G1]. lra.
    + rewrite T0, T1. split; simpl; lra.
Qed.
Lemma opp_exact : forall w, (exists y, in2 y (tmp 0) (tmp 1)) -> (sclosed n m \/ exists p q, tmp 0 = Fin p /\ tmp 1 = Fin q /\ (Q2R p = - Q2R q)%R) ->
  gam n (assign_opp (N:=E) tmp m n d) w -> exists x, gam n m (vset w d x) /\ in2 (w d + x) (tmp 0) (tmp 1).
Proof.
  intros w (y & Y1 & Y2) K G. rewrite (gam_vset_id n _ w d) in G. rewrite (ac_gam _ _ _ _ _ _ _ _ Hd (opp_cells n d tmp m Hd)) in G by auto.
  destruct G as (O & GJ0 & G1 & G2).
  assert (GJ : forall j, j < 2 * n -> j / 2 <> d -> le_rb (w d + lit w j) (badd (N:=E) (m (matpos2 (2 * d) j)) (tmp 1)) /\ le_rb (- lit w j - w d) (badd (N:=E) (m (matpos2 j (2 * d))) (tmp 0))).
  { intros j Hj Nj. destruct (GJ0 (xor1 j) (xor1_lt _ _ Hj)) as [X1 X2]; [rewrite div2_xor1; auto|]. rewrite lit_xor1 in *.
    assert (J1 : 2 * d <> j) by (intros <-; rewrite div2_even in Nj; auto).
    rewrite <- (matpos2_coh (2 * d) j) by auto. rewrite <- (matpos2_coh j (2 * d)) by auto. rewrite xor1_even. split; [eapply le_rb_le; [|exact X1]|eapply le_rb_le; [|exact X2]]; lra. }
  clear GJ0. destruct K as [SC|(p & q & T0 & T1 & PQ)].
  - destruct (offd_extend n d m w Hd SC O) as [x0 X].
    destruct (slide n d m w x0 (- w d) (tmp 0) (tmp 1) Hd ND X) as (x & [I1 I2] & Gx).
    + exists y. split; auto.
    + intros q T0. rewrite T0 in GJ, G1. split.
      * intros j Hj Nj. destruct (GJ j Hj Nj) as [_ GJ1]. apply badd_fin in GJ1. eapply le_rb_le; [|exact GJ1]. lra.
      * simpl in G1. apply badd_fin in G1. rewrite Q2R_two in G1. eapply le_rb_le; [|exact G1]. lra.
    + intros q T1. rewrite T1 in GJ, G2. split.
      * intros j Hj Nj. destruct (GJ j Hj Nj) as [GJ1 _]. apply badd_fin in GJ1. eapply le_rb_le; [|exact GJ1]. lra.
      * simpl in G2. apply badd_fin in G2. rewrite Q2R_two in G2. eapply le_rb_le; [|exact G2]. lra.
    + exists x. split; auto. split; [eapply le_rb_le; [|exact I1]|eapply le_rb_le; [|exact I2]]; lra.
  - exists (- w d + Q2R q)%R. split.
    + rewrite T0, T1 in *. simpl in G1, G2. apply badd_fin in G1, G2. rewrite Q2R_two in G1, G2. apply gam_split; auto. split; auto. split; split.
      * intros j Hj Nj. destruct (GJ j Hj Nj) as [_ GJ1]. apply badd_fin in GJ1. eapply le_rb_le; [|exact GJ1]. lra.
      * eapply le_rb_le; [|exact G1]. lra.
      * intros j Hj Nj. destruct (GJ j Hj Nj) as [GJ1 _]. apply badd_fin in GJ1. eapply le_rb_le; [|exact GJ1]. lra.
      * eapply le_rb_le; [|exact G2]. lra.
    + rewrite T0, T1. split; simpl; lra.
Qed.
End Exact.

(** ** Closure *)
Definition reachI (g : R -> R) (t0 t1 b : bound) : Prop :=
  match b with Fin q => exists r, in2 r t0 t1 /\ g r = Q2R q | PInf => forall B, exists r, in2 r t0 t1 /\ (B <= g r)%R | MInf => False end.
Lemma reach_prod : forall (P S : (nat -> R) -> Prop) t0 t1 f g h a b phi,
  reach P f a -> reachI g t0 t1 b -> (exists r, in2 r t0 t1) -> (exists v, P v) ->
  (forall v r, P v -> in2 r t0 t1 -> S (phi v r)) -> (forall v r, h (phi v r) = (f v + g r)%R) ->
  reach S h (badd (N:=E) a b).
Proof.
  intros P S t0 t1 f g h a b phi RA RB (r0 & R0) (v0 & V0) HS HH.
  destruct a as [|p|]; [destruct RA| |]; (destruct b as [|q|]; [destruct RB| |]); simpl in *.
  - destruct RA as (v & H1 & H2). destruct RB as (r & H3 & H4). exists (phi v r). split; auto. rewrite HH, Q2R_plus. lra.
  - intros B. destruct RA as (v & H1 & H2). destruct (RB (B - f v)%R) as (r & H3 & H4). exists (phi v r). split; auto. rewrite HH. lra.
  - intros B. destruct (RA (B - g r0)%R) as (v & H1 & H2). exists (phi v r0). split; auto. rewrite HH. lra.
  - intros B. destruct (RA (B - g r0)%R) as (v & H1 & H2). exists (phi v r0). split; auto. rewrite HH. lra.
Qed.
Lemma reachI_lo : forall t0 t1, (exists r, in2 r t0 t1) -> reachI (fun r => - r)%R t0 t1 t0 /\ reachI (fun r => - (2 * r))%R t0 t1 (bmul_2 (N:=E) t0).
Proof.
  intros t0 t1 (r & R1 & R2). destruct t0 as [|q|]; [destruct R1| |]; simpl in *.
  - assert (I : in2 (- Q2R q) (Fin q) t1) by (split; simpl; [lra|eapply le_rb_le; [|exact R2]; lra]).
    split; exists (- Q2R q)%R; split; auto; rewrite ?Q2R_two; lra.
  - assert (I : forall B, in2 (Rmin r B) PInf t1) by (intros B; split; [exact I|eapply le_rb_le; [|exact R2]; apply Rmin_l]).
    split; intros B; exists (Rmin r (- Rabs B)); split; auto; pose proof (Rmin_r r (- Rabs B)); pose proof (Rle_abs B); pose proof (Rabs_pos B); lra.
Qed.
Lemma reachI_hi : forall t0 t1, (exists r, in2 r t0 t1) -> reachI (fun r => r)%R t0 t1 t1 /\ reachI (fun r => 2 * r)%R t0 t1 (bmul_2 (N:=E) t1).
Proof.
  intros t0 t1 (r & R1 & R2). destruct t1 as [|q|]; [destruct R2| |]; simpl in *.
  - assert (I : in2 (Q2R q) t0 (Fin q)) by (split; simpl; [eapply le_rb_le; [|exact R1]; lra|lra]).
    split; exists (Q2R q)%R; split; auto; rewrite ?Q2R_two; lra.
  - assert (I : forall B, in2 (Rmax r B) t0 PInf) by (intros B; split; [eapply le_rb_le; [|exact R1]; pose proof (Rmax_l r B); lra|exact I]).
    split; intros B; exists (Rmax r (Rabs B)); split; auto; pose proof (Rmax_r r (Rabs B)); pose proof (Rle_abs B); pose proof (Rabs_pos B); lra.
Qed.
Lemma sc_reach : forall n m i j, sclosed n m -> i < 2 * n -> j < 2 * n -> reach (gam n m) (fun v => lit v j - lit v i)%R (m (matpos2 i j)).
Proof.
  intros n m i j SC Hi Hj. pose proof (sc_wf2 n m SC i j Hi Hj) as NM. destruct (m (matpos2 i j)) as [|q|] eqn:C; simpl; try congruence.
  - apply (tight_fin n m SC i j q Hi Hj C).
  - intros B. apply (tight_inf n m SC i j B Hi Hj C).
Qed.
Lemma reach_ext : forall P f g b, reach P f b -> (forall v, f v = g v) -> reach P g b.
Proof.
  intros P f g [|q|] H X; simpl in *; auto.
  - destruct H as (v & H1 & H2). exists v. rewrite <- X. auto.
  - intros b. destruct (H b) as (v & H1 & H2). exists v. rewrite <- X. auto.
Qed.
Lemma reach_half : forall P f b, reach P (fun v => 2 * f v)%R b -> reach P f (bdiv_2 (N:=E) b).
Proof.
  intros P f [|q|] H; simpl in *; auto.
  - destruct H as (v & H1 & H2). exists v. split; auto. rewrite Q2R_half. lra.
  - intros b. destruct (H (2 * b)%R) as (v & H1 & H2). exists v. split; auto. lra.
Qed.
Section Closed.
Variables (n d : nat) (tmp m : hmat).
Hypothesis Hd : d < n.
Hypothesis SC : sclosed n m.
Hypothesis NE : exists r, in2 r (tmp 0) (tmp 1).
Lemma reach_one : forall (S : (nat -> R) -> Prop) f h a phi, reach (gam n m) f a -> (forall v r, gam n m v -> in2 r (tmp 0) (tmp 1) -> S (phi v r)) -> (forall v r, h (phi v r) = f v) -> reach S h a.
Proof.
  clear Hd. intros S f h a phi RA HS HH. destruct NE as (r0 & R0). destruct a as [|p|]; [destruct RA| |]; simpl in *.
  - destruct RA as (v & H1 & H2). exists (phi v r0). split; auto. rewrite HH. lra.
  - intros B. destruct (RA B) as (v & H1 & H2). exists (phi v r0). split; auto. rewrite HH. auto.
Qed.
Lemma reach_onlyI : forall (S : (nat -> R) -> Prop) g h b phi, reachI g (tmp 0) (tmp 1) b -> (forall v r, gam n m v -> in2 r (tmp 0) (tmp 1) -> S (phi v r)) -> (forall v r, h (phi v r) = g r) -> reach S h b.
Proof.
  clear Hd NE. intros S g h b phi RB HS HH. destruct (sc_nonempty n m SC) as (v0 & V0). destruct b as [|p|]; [destruct RB| |]; simpl in *.
  - destruct RB as (r & H1 & H2). exists (phi v0 r). split; auto. rewrite HH. lra.
  - intros B. destruct (RB B) as (r & H1 & H2). exists (phi v0 r). split; auto. rewrite HH. auto.
Qed.
Section Phi.
Variables (s : R) (m' : hmat) (Lo Hi : nat -> bound) (A B : bound).
Let phi v r := vset v d (s * v d + r)%R.
Let S w := exists v r, gam n m v /\ in2 r (tmp 0) (tmp 1) /\ w = phi v r.
Hypothesis AC : acells n d m m' Lo Hi A B.
Hypothesis SO : forall v r, gam n m v -> in2 r (tmp 0) (tmp 1) -> gam n m' (phi v r).
Lemma phi_S : forall v r, gam n m v -> in2 r (tmp 0) (tmp 1) -> S (phi v r).
Proof. intros. exists v, r. auto. Qed.
Lemma phi_d : forall v r, phi v r d = (s * v d + r)%R.
Proof. intros. unfold phi. apply vset_same. Qed.
Lemma phi_o : forall v r j, j / 2 <> d -> lit (phi v r) j = lit v j.
Proof. intros. unfold phi. apply lit_vset_other. auto. Qed.
Lemma phi_closed :
  (forall j, j < 2 * n -> j / 2 <> d -> exists a, Lo j = badd (N:=E) a (tmp 0) /\ reach (gam n m) (fun v => lit v j - s * v d)%R a) ->
  (forall j, j < 2 * n -> j / 2 <> d -> exists a, Hi j = badd (N:=E) a (tmp 1) /\ reach (gam n m) (fun v => s * v d - lit v j)%R a) ->
  ((A = bmul_2 (N:=E) (tmp 0) /\ B = bmul_2 (N:=E) (tmp 1) /\ s = 0%R) \/
   exists a b, A = badd (N:=E) a (bmul_2 (N:=E) (tmp 0)) /\ B = badd (N:=E) b (bmul_2 (N:=E) (tmp 1)) /\
     reach (gam n m) (fun v => - (2 * (s * v d)))%R a /\ reach (gam n m) (fun v => 2 * (s * v d))%R b) ->
  sclosed n m'.
Proof.
  intros HL HH HAB. destruct (reachI_lo _ _ NE) as [IL1 IL2]. destruct (reachI_hi _ _ NE) as [IH1 IH2].
  pose proof (sc_nonempty n m SC) as NV.
  apply (ac_sclosed n d m m' Lo Hi A B Hd AC S SC).
  - intros w (v & r & G & R & ->). apply SO; auto.
  - destruct NV as (v & G). destruct NE as (r & R). exists (phi v r). apply phi_S; auto.
  - intros i j Hi0 Hj Ni Nj. apply (reach_one _ (fun v => lit v j - lit v i)%R _ _ phi); auto using phi_S; [apply sc_reach; auto|].
    intros. rewrite !phi_o by auto. auto.
  - intros j Hj Nj. destruct (HL j Hj Nj) as (a & -> & RA). apply (reach_prod (gam n m) S _ _ _ _ _ _ _ phi RA IL1); auto using phi_S.
    intros. rewrite phi_o, phi_d by auto. ring.
  - intros j Hj Nj. destruct (HH j Hj Nj) as (a & -> & RA). apply (reach_prod (gam n m) S _ _ _ _ _ _ _ phi RA IH1); auto using phi_S.
    intros. rewrite phi_o, phi_d by auto. ring.
  - destruct HAB as [(-> & _ & Z0)|(a & b & -> & _ & RA & _)].
    + apply (reach_onlyI _ _ _ _ phi IL2); auto using phi_S. intros. rewrite phi_d, Z0. ring.
    + apply (reach_prod (gam n m) S _ _ _ _ _ _ _ phi RA IL2); auto using phi_S. intros. rewrite phi_d. ring.
  - destruct HAB as [(_ & -> & Z0)|(a & b & _ & -> & _ & RA)].
    + apply (reach_onlyI _ _ _ _ phi IH2); auto using phi_S. intros. rewrite phi_d, Z0. ring.
    + apply (reach_prod (gam n m) S _ _ _ _ _ _ _ phi RA IH2); auto using phi_S. intros. rewrite phi_d. ring.
Qed.
End Phi.
Lemma reach_cell : forall i j f, i < 2 * n -> j < 2 * n -> (forall v, f v = lit v j - lit v i)%R -> reach (gam n m) f (m (matpos2 i j)).
Proof. clear Hd NE. intros i j f Hi Hj H. eapply reach_ext; [apply sc_reach; eauto|]. intros. rewrite H. auto. Qed.
Lemma zero_closed : sclosed n (assign_zero (N:=E) tmp m n d true).
Proof.
  apply (phi_closed 0 _ _ _ _ _ (zero_cells n d tmp m Hd)).
  - intros v r G R. rewrite Rmult_0_l, Rplus_0_l. apply zero_sound; auto. apply sclosed_nndiag; auto.
  - intros j Hj Nj. eexists; split; [reflexivity|]. rewrite <- unary_cell'. apply reach_half. apply reach_cell; auto using xor1_lt. intros. rewrite lit_xor1. ring.
  - intros j Hj Nj. eexists; split; [reflexivity|]. rewrite <- unary_cell. apply reach_half. apply reach_cell; auto using xor1_lt. intros. rewrite lit_xor1. ring.
  - left. auto.
Qed.
Lemma shift_closed : sclosed n (assign_shift (N:=E) tmp m n d).
Proof.
  apply (phi_closed 1 _ _ _ _ _ (shift_cells n d tmp m Hd)).
  - intros v r G R. rewrite Rmult_1_l. apply shift_sound; auto. apply sclosed_nndiag; auto.
  - intros j Hj Nj. eexists; split; [reflexivity|]. apply reach_cell; auto; [lia|]. intros. rewrite lit_even. ring.
  - intros j Hj Nj. eexists; split; [reflexivity|]. apply reach_cell; auto; [lia|]. intros. rewrite lit_even. ring.
  - right. do 2 eexists. split; [reflexivity|]. split; [reflexivity|].
    rewrite <- (matpos2_half (2 * d) (2 * d + 1)) by (rewrite or1_even; lia). rewrite <- (matpos2_half (2 * d + 1) (2 * d)) by (rewrite or1_odd; lia).
    split; apply reach_cell; try lia; intros; rewrite lit_even, lit_odd; ring.
Qed.
Lemma opp_closed : sclosed n (assign_opp (N:=E) tmp m n d).
Proof.
  apply (phi_closed (-1) _ _ _ _ _ (opp_cells n d tmp m Hd)).
  - intros v r G R. replace (-1 * v d + r)%R with (- v d + r)%R by ring. apply opp_sound; auto. apply sclosed_nndiag; auto.
  - intros j Hj Nj. eexists; split; [reflexivity|]. apply reach_cell; auto; [lia|]. intros. rewrite lit_odd. ring.
  - intros j Hj Nj. eexists; split; [reflexivity|]. apply reach_cell; auto; [lia|]. intros. rewrite lit_odd. ring.
  - right. do 2 eexists. split; [reflexivity|]. split; [reflexivity|].
    rewrite <- (matpos2_half (2 * d) (2 * d + 1)) by (rewrite or1_even; lia). rewrite <- (matpos2_half (2 * d + 1) (2 * d)) by (rewrite or1_odd; lia).
    split; apply reach_cell; try lia; intros; rewrite lit_even, lit_odd; ring.
Qed.
End Closed.

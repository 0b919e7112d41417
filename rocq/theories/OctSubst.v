(** hmat_subst and oct_substitute_linexpr. *)
From Coq Require Import Arith Lia List ZArith QArith Qreals Reals Lra Bool.
From Verif Require Import Bound BoundFacts Linexpr LinexprFacts OctMat OctIdx OctClose OctWalk OctInc OctStrong OctGeom OctGeom2 Oct OctFacts OctFacts2 OctFacts3 OctForget OctTransfer OctUexpr OctGuard OctGuard2 OctGuard3 OctGuard4 OctGuard5 OctQuery OctAssign OctAssign2 OctAssign3 OctAssign4 OctAssign5 OctAssign6.
Import ListNotations.
Open Scope nat_scope.
#[local] Arguments Nat.div : simpl never.
#[local] Arguments Nat.modulo : simpl never.
#[local] Arguments Nat.mul : simpl never.
#[local] Arguments Nat.leb : simpl never.
#[local] Arguments Nat.ltb : simpl never.
#[local] Arguments xor1 : simpl never.
#[local] Arguments or1 : simpl never.
#[local] Arguments matpos : simpl never.
#[local] Arguments matpos2 : simpl never.
Local Notation E := exact_num.

(** ** The loops *)
Section Loops.
Variables (n d : nat) (m : hmat) (Pa Pb Qa Qb : nat -> nat) (F1 F2 : hmat -> nat -> bound) (f1 f2 : nat -> hmat -> hmat).
Hypothesis Hd : d < n.
Let P1 i := matpos2 (Pa i) (Qa i).
Let P2 i := matpos2 (Pb i) (Qb i).
Let step i x := mmin (mmin x (P1 i) (F1 x i)) (P2 i) (F2 x i).
Definition off (i : nat) : Prop := i < 2 * n /\ i / 2 <> d.
Definition dsame (x y : hmat) : Prop := forall a b, a < 2 * n -> b < 2 * n -> (a / 2 = d \/ b / 2 = d) -> x (matpos2 a b) = y (matpos2 a b).
Hypothesis HP : forall i, off i -> off (Pa i) /\ off (Qa i) /\ off (Pb i) /\ off (Qb i).
Hypothesis HF : forall x y i, off i -> dsame x y -> F1 x i = F1 y i /\ F2 x i = F2 y i.
Hypothesis H1 : forall i x, i < 2 * d -> f1 i x = step i x.
Hypothesis H2 : forall i x, 2 * d + 2 <= i < 2 * n -> f2 i x = step i x.
Let m2 := for_ (2 * d + 2) (2 * n) f2 (for_ 0 (2 * d) f1 m).
Lemma off_lt : forall i, i < 2 * d -> off i.
Proof. clear -Hd. intros i H. split; [lia|]. intros E. apply lit_of_var in E. rewrite xor1_even in E. lia. Qed.
Lemma off_ge : forall i, 2 * d + 2 <= i < 2 * n -> off i.
Proof. clear. intros i H. split; [lia|]. intros E. apply lit_of_var in E. rewrite xor1_even in E. lia. Qed.
Lemma off_cases : forall i, off i -> i < 2 * d \/ 2 * d + 2 <= i < 2 * n.
Proof.
  clear. intros i [H D]. destruct (lt_dec i (2 * d)); auto. right. split; auto. destruct (Nat.eq_dec i (2 * d)) as [->|]; [rewrite div2_even in D; lia|].
  destruct (Nat.eq_dec i (2 * d + 1)) as [->|]; [rewrite div2_odd in D; lia|]. lia.
Qed.
Lemma dsame_mmin : forall x a b t, off a -> off b -> dsame (mmin x (matpos2 a b) t) x.
Proof.
  clear. intros x a b t [_ Ha] [_ Hb] p q Hp Hq D. unfold mmin. apply upd_other. intros Ep. apply matpos2_inj in Ep.
  destruct Ep as [[-> ->]|[-> ->]]; rewrite ?div2_xor1 in D; tauto.
Qed.
Lemma dsame_trans : forall x y z, dsame x y -> dsame y z -> dsame x z.
Proof. clear. intros x y z A B a b Ha Hb D. rewrite A, B; auto. Qed.
Lemma step_same : forall i x, off i -> dsame (step i x) x.
Proof. intros i x O. destruct (HP i O) as (A1 & A2 & A3 & A4). eapply dsame_trans; apply dsame_mmin; auto. Qed.
Lemma step_mle : forall i x, mle (step i x) x.
Proof. intros. unfold step. eapply mle_trans; apply mmin_mle. Qed.
Lemma step_at : forall i x, le_bb (step i x (P1 i)) (F1 x i) /\ le_bb (step i x (P2 i)) (F2 x i).
Proof.
  intros. unfold step. split; [|apply mmin_at]. eapply le_bb_trans; [apply mmin_mle|]. apply mmin_at.
Qed.
Lemma loops_spec : mle m2 m /\ dsame m2 m /\ forall i, off i -> le_bb (m2 (P1 i)) (F1 m i) /\ le_bb (m2 (P2 i)) (F2 m i).
Proof.
  assert (A : let x := for_ 0 (2 * d) f1 m in mle x m /\ dsame x m /\ forall i, i < 2 * d -> le_bb (x (P1 i)) (F1 m i) /\ le_bb (x (P2 i)) (F2 m i)).
  { cbv zeta. apply (for_ind (fun k x => mle x m /\ dsame x m /\ forall i, i < k -> le_bb (x (P1 i)) (F1 m i) /\ le_bb (x (P2 i)) (F2 m i))); [lia| |].
    - split; [apply mle_refl|]. split; [intros ? ? ? ? ?; auto|]. intros; lia.
    - intros i x Hi (M & S & L). rewrite H1 by lia. pose proof (off_lt i ltac:(lia)) as O. split; [eapply mle_trans; [apply step_mle|auto]|].
      split; [eapply dsame_trans; [apply step_same; auto|auto]|]. intros j Hj. destruct (Nat.eq_dec j i) as [->|].
      + destruct (HF x m i O S) as [<- <-]. apply step_at.
      + destruct (L j ltac:(lia)). split; (eapply le_bb_trans; [apply step_mle|auto]). }
  cbv zeta in A. unfold m2. set (x1 := for_ 0 (2 * d) f1 m) in *. destruct A as (M & S & L).
  assert (B : let x := for_ (2 * d + 2) (2 * n) f2 x1 in mle x x1 /\ dsame x m /\ forall i, 2 * d + 2 <= i < 2 * n -> le_bb (x (P1 i)) (F1 m i) /\ le_bb (x (P2 i)) (F2 m i)).
  { cbv zeta. apply (for_ind (fun k x => mle x x1 /\ dsame x m /\ forall i, 2 * d + 2 <= i < k -> le_bb (x (P1 i)) (F1 m i) /\ le_bb (x (P2 i)) (F2 m i))); [lia| |].
    - split; [apply mle_refl|]. split; auto. intros; lia.
    - intros i x Hi (M' & S' & L'). rewrite H2 by lia. pose proof (off_ge i ltac:(lia)) as O. split; [eapply mle_trans; [apply step_mle|auto]|].
      split; [eapply dsame_trans; [apply step_same; auto|auto]|]. intros j Hj. destruct (Nat.eq_dec j i) as [->|].
      + destruct (HF x m i O S') as [<- <-]. apply step_at.
      + destruct (L' j ltac:(lia)). split; (eapply le_bb_trans; [apply step_mle|auto]). }
  cbv zeta in B. destruct B as (M' & S' & L'). split; [eapply mle_trans; eauto|]. split; auto. intros i O. destruct (off_cases i O) as [C|C].
  - destruct (L i C). split; (eapply le_bb_trans; [apply M'|auto]).
  - apply L'; auto.
Qed.
Lemma loops_inv : forall P : hmat -> Prop, P m -> (forall x i, off i -> dsame x m -> P x -> P (step i x)) -> P m2.
Proof.
  intros P Pm PS. assert (A : dsame (for_ 0 (2 * d) f1 m) m /\ P (for_ 0 (2 * d) f1 m)).
  { apply (for_inv (fun x => dsame x m /\ P x)); [split; auto; intros ? ? ? ? ?; auto|]. intros i x Hi [S Px]. rewrite H1 by lia.
    pose proof (off_lt i ltac:(lia)) as O. split; [eapply dsame_trans; [apply step_same; auto|auto]|]. apply PS; auto. }
  assert (B : dsame m2 m /\ P m2); [|tauto]. unfold m2. apply (for_inv (fun x => dsame x m /\ P x)); [tauto|]. intros i x Hi [S Px]. rewrite H2 by lia.
  pose proof (off_ge i ltac:(lia)) as O. split; [eapply dsame_trans; [apply step_same; auto|auto]|]. apply PS; auto.
Qed.
End Loops.

Lemma gam_le : forall n m m' v, mle m m' -> gam n m v -> gam n m' v.
Proof. intros n m m' v L G i j Hi Hj. eapply le_rb_mono; [apply G; auto|apply L]. Qed.
Lemma offd_le : forall n d m m' w, mle m m' -> offd n d m w -> offd n d m' w.
Proof. intros n d m m' w L O i j Hi Hj Ni Nj. eapply le_rb_mono; [apply O; auto|apply L]. Qed.
Lemma not_sneg : forall b, sneg b = false <-> le_rb 0 b.
Proof. intros b. unfold sneg. rewrite Z.ltb_ge. apply bsgn_ge0_iff. Qed.
Lemma forget_offd : forall n d m w, d < n -> nndiag n m -> (gam n (hmat_forget_var n d m) w <-> offd n d m w).
Proof.
  intros n d m w Hd ND. rewrite (gam_vset_id n _ w d). rewrite (ac_gam _ _ _ _ _ _ _ _ Hd (fvar_acells n d m Hd) w (w d) ND). simpl. split; [tauto|].
  intros O. repeat split; auto.
Qed.
Lemma forget_wf1 : forall n d m, d < n -> wfm n m /\ nndiag n m -> wfm n (hmat_forget_var n d m) /\ nndiag n (hmat_forget_var n d m).
Proof. intros n d m Hd W. apply (forget_wf n false (Nat.eqb d) m); auto. intros; apply fvar_half; auto. Qed.

(** ** X -> [-a,b] *)
Section SubstZero.
Context {N : numtype}.
Variables (n d : nat) (tmp m : hmat).
Hypothesis Hd : d < n.
Definition sz2 : hmat :=
  for_ (2 * d + 2) (2 * n) (fun i m =>
      let t2 := bmul_2 (N:=N) (badd (N:=N) (tmp 0) (m (matpos i (2 * d)))) in
      let t3 := bmul_2 (N:=N) (badd (N:=N) (tmp 1) (m (matpos i (2 * d + 1)))) in
      mmin (mmin m (matpos i (xor1 i)) t2) (matpos i (xor1 i)) t3)
    (for_ 0 (2 * d) (fun i m =>
      let t2 := bmul_2 (N:=N) (badd (N:=N) (tmp 0) (m (matpos (2 * d + 1) (xor1 i)))) in
      let t3 := bmul_2 (N:=N) (badd (N:=N) (tmp 1) (m (matpos (2 * d) (xor1 i)))) in
      mmin (mmin m (matpos i (xor1 i)) t2) (matpos i (xor1 i)) t3) m).
Definition zF1 (x : hmat) (i : nat) : bound := bmul_2 (N:=N) (badd (N:=N) (tmp 0) (x (matpos2 (2 * d + 1) (xor1 i)))).
Definition zF2 (x : hmat) (i : nat) : bound := bmul_2 (N:=N) (badd (N:=N) (tmp 1) (x (matpos2 (2 * d) (xor1 i)))).
Lemma sz_P : forall i, off n d i -> off n d i /\ off n d (xor1 i) /\ off n d i /\ off n d (xor1 i).
Proof. intros i [H1 H2]. unfold off. rewrite div2_xor1. pose proof (xor1_lt n i H1). tauto. Qed.
Lemma sz_F : forall x y i, off n d i -> dsame n d x y -> zF1 x i = zF1 y i /\ zF2 x i = zF2 y i.
Proof.
  intros x y i [H1 H2] S. unfold zF1, zF2. rewrite (S (2 * d + 1) (xor1 i)), (S (2 * d) (xor1 i)); auto using xor1_lt; try lia; rewrite ?div2_even, ?div2_odd; auto.
Qed.
Lemma xor1_le2 : forall i, i < 2 * d -> xor1 i < 2 * d.
Proof. intros. apply xor1_lt; auto. Qed.
Lemma sz_1 : forall i x, i < 2 * d -> 
  (let t2 := bmul_2 (N:=N) (badd (N:=N) (tmp 0) (x (matpos (2 * d + 1) (xor1 i)))) in
      let t3 := bmul_2 (N:=N) (badd (N:=N) (tmp 1) (x (matpos (2 * d) (xor1 i)))) in
      mmin (mmin x (matpos i (xor1 i)) t2) (matpos i (xor1 i)) t3) =
  mmin (mmin x (matpos2 i (xor1 i)) (zF1 x i)) (matpos2 i (xor1 i)) (zF2 x i).
Proof.
  intros i x Hi. pose proof (xor1_le2 i Hi). unfold zF1, zF2. rewrite (matpos2_half i (xor1 i)) by apply xor1_le_or1.
  rewrite (matpos2_half (2 * d + 1) (xor1 i)) by (rewrite or1_odd; lia). rewrite (matpos2_half (2 * d) (xor1 i)) by (rewrite or1_even; lia). auto.
Qed.
Lemma sz_2 : forall i x, 2 * d + 2 <= i < 2 * n -> 
  (let t2 := bmul_2 (N:=N) (badd (N:=N) (tmp 0) (x (matpos i (2 * d)))) in
      let t3 := bmul_2 (N:=N) (badd (N:=N) (tmp 1) (x (matpos i (2 * d + 1)))) in
      mmin (mmin x (matpos i (xor1 i)) t2) (matpos i (xor1 i)) t3) =
  mmin (mmin x (matpos2 i (xor1 i)) (zF1 x i)) (matpos2 i (xor1 i)) (zF2 x i).
Proof.
  intros i x Hi. unfold zF1, zF2. rewrite (matpos2_half i (xor1 i)) by apply xor1_le_or1. pose proof (or1_ge i).
  replace (matpos2 (2 * d + 1) (xor1 i)) with (matpos i (2 * d)).
  2:{ rewrite <- (matpos2_half i (2 * d)) by lia. rewrite <- (matpos2_coh i (2 * d)) by lia. rewrite xor1_even. auto. }
  replace (matpos2 (2 * d) (xor1 i)) with (matpos i (2 * d + 1)); auto.
  rewrite <- (matpos2_half i (2 * d + 1)) by lia. rewrite <- (matpos2_coh i (2 * d + 1)) by lia. rewrite xor1_odd. auto.
Qed.
Lemma sz_spec : mle sz2 m /\ dsame n d sz2 m /\ forall i, off n d i -> le_bb (sz2 (matpos2 i (xor1 i))) (zF1 m i) /\ le_bb (sz2 (matpos2 i (xor1 i))) (zF2 m i).
Proof. unfold sz2. apply (loops_spec n d m (fun i => i) (fun i => i) xor1 xor1 zF1 zF2 _ _ Hd sz_P sz_F sz_1 sz_2). Qed.
Lemma sz_inv : forall P : hmat -> Prop, P m -> (forall x i, off n d i -> dsame n d x m -> P x -> P (mmin (mmin x (matpos2 i (xor1 i)) (zF1 x i)) (matpos2 i (xor1 i)) (zF2 x i))) -> P sz2.
Proof. unfold sz2. apply (loops_inv n d m (fun i => i) (fun i => i) xor1 xor1 zF1 zF2 _ _ Hd sz_P sz_1 sz_2). Qed.
Lemma subst_zero_unfold : subst_zero (N:=N) tmp m n d =
  if sneg (badd (N:=N) (bmul_2 (N:=N) (tmp 0)) (m (matpos (2 * d + 1) (2 * d)))) || sneg (badd (N:=N) (bmul_2 (N:=N) (tmp 1)) (m (matpos (2 * d) (2 * d + 1)))) then None
  else Some (hmat_forget_var n d sz2).
Proof. reflexivity. Qed.
Lemma sz_sound : forall w r, nndiag n m -> gam n m (vset w d r) -> in2 r (tmp 0) (tmp 1) -> exists m', subst_zero (N:=N) tmp m n d = Some m' /\ gam n m' w.
Proof.
  intros w r ND G [R1 R2]. destruct (gam_unary n m _ d G Hd) as [U1 U2]. rewrite vset_same in *. rewrite subst_zero_unfold.
  rewrite (proj2 (not_sneg (badd (N:=N) (bmul_2 (N:=N) (tmp 0)) _))).
  2:{ replace 0%R with (2 * - r + 2 * r)%R by ring. apply badd_sound; auto. apply bmul_2_sound; auto. }
  rewrite (proj2 (not_sneg (badd (N:=N) (bmul_2 (N:=N) (tmp 1)) _))).
  2:{ replace 0%R with (2 * r + - (2 * r))%R by ring. apply badd_sound; auto. apply bmul_2_sound; auto. }
  simpl. eexists. split; [reflexivity|].
  assert (GS : gam n sz2 (vset w d r)).
  { apply (sz_inv (fun x => gam n x (vset w d r))); auto. intros x i [Oi Od] _ Gx. pose proof (xor1_lt n i Oi) as Ox.
    pose proof (gam_full n x _ (2 * d + 1) (xor1 i) Gx ltac:(lia) Ox) as G1. pose proof (gam_full n x _ (2 * d) (xor1 i) Gx ltac:(lia) Ox) as G2.
    rewrite lit_odd in G1. rewrite lit_even in G2. rewrite vset_same in *. rewrite lit_xor1 in *.
    apply mmin_gam; auto. rewrite mmin_gam by auto. rewrite lit_xor1.
    replace (- lit (vset w d r) i - lit (vset w d r) i)%R with (2 * - lit (vset w d r) i)%R by ring. split; [split; auto|]; apply bmul_2_sound.
    - replace (- lit (vset w d r) i)%R with (- r + (- lit (vset w d r) i - - r))%R by ring. apply badd_sound; auto.
    - replace (- lit (vset w d r) i)%R with (r + (- lit (vset w d r) i - r))%R by ring. apply badd_sound; auto. }
  apply forget_offd; auto.
  - apply (sz_inv (nndiag n)); auto. intros x i [Oi Od] _ Dx. repeat apply mmin_nndiag; auto using xor1_neq.
  - apply (offd_vset n d sz2 w r). intros i j Hi Hj Ni Nj. apply gam_full with n; auto.
Qed.
Lemma sz_wf : forall m', wfm n m /\ nndiag n m -> tmp 0 <> MInf -> tmp 1 <> MInf -> subst_zero (N:=N) tmp m n d = Some m' -> wfm n m' /\ nndiag n m'.
Proof.
  intros m' [W D] T0 T1 H. rewrite subst_zero_unfold in H. destruct (_ || _); [discriminate|]. injection H as <-. apply forget_wf1; auto.
  apply (sz_inv (fun x => wfm n x /\ nndiag n x)); auto. intros x i [Oi Od] _ [Wx Dx]. split; [|repeat apply mmin_nndiag; auto using xor1_neq].
  pose proof (xor1_lt n i Oi). apply mmin_wfm; [apply mmin_wfm; auto|]; apply bmul_2_not_MInf, badd_not_MInf; auto; apply (wfm2 n); auto; lia.
Qed.
End SubstZero.
Lemma sz_exact : forall n d tmp m m' w, d < n -> sclosed n m -> (exists y, in2 y (tmp 0) (tmp 1)) -> subst_zero (N:=E) tmp m n d = Some m' -> gam n m' w ->
  exists r, in2 r (tmp 0) (tmp 1) /\ gam n m (vset w d r).
Proof.
  intros n d tmp m m' w Hd SC NE H G. pose proof (sclosed_nndiag n m SC) as ND.
  rewrite subst_zero_unfold in H. destruct (_ || _) eqn:EM; [discriminate|]. injection H as <-. apply orb_false_iff in EM as [E1 E2]. apply not_sneg in E1, E2.
  destruct (sz_spec (N:=E) n d tmp m Hd) as (LE & DS & SP).
  assert (D2 : nndiag n (sz2 (N:=E) n d tmp m)).
  { apply (sz_inv (N:=E) n d tmp m Hd (nndiag n)); auto. intros x i [Oi Od] _ Dx. repeat apply mmin_nndiag; auto using xor1_neq. }
  apply forget_offd in G; auto. pose proof (offd_le n d _ m w LE G) as O. destruct (offd_extend n d m w Hd SC O) as [x0 X].
  destruct (slide n d m w x0 0 (tmp 0) (tmp 1) Hd ND X NE) as (x & I & Gx).
  - intros q T0. split.
    + intros j Hj Nj. destruct (SP j (conj Hj Nj)) as [S1 _]. pose proof (G j (xor1 j) Hj (xor1_lt _ _ Hj) Nj ltac:(rewrite div2_xor1; auto)) as G1.
      pose proof (le_rb_mono _ _ _ G1 S1) as G2. unfold zF1 in G2. rewrite T0, lit_xor1 in G2.
      rewrite <- (matpos2_coh (2 * d + 1) (xor1 j)) in G2 by (intros XX; apply Nj; rewrite <- div2_xor1, <- XX; apply div2_odd). rewrite xor1_invol, xor1_odd in G2.
      destruct (m (matpos2 j (2 * d))) as [|p|]; simpl in *; auto. rewrite Q2R_two, Q2R_plus in G2. lra.
    + rewrite T0 in E1. destruct (m (matpos (2 * d + 1) (2 * d))) as [|p|]; simpl in *; auto. rewrite Q2R_plus, Q2R_two in E1. lra.
  - intros q T1. split.
    + intros j Hj Nj. assert (Oj : off n d (xor1 j)) by (split; [apply xor1_lt; auto|rewrite div2_xor1; auto]). destruct (SP (xor1 j) Oj) as [_ S1].
      pose proof (G (xor1 j) j (xor1_lt _ _ Hj) Hj ltac:(rewrite div2_xor1; auto) Nj) as G1. rewrite xor1_invol in S1.
      pose proof (le_rb_mono _ _ _ G1 S1) as G2. unfold zF2 in G2. rewrite T1, lit_xor1, xor1_invol in G2.
      destruct (m (matpos2 (2 * d) j)) as [|p|]; simpl in *; auto. rewrite Q2R_two, Q2R_plus in G2. lra.
    + rewrite T1 in E2. destruct (m (matpos (2 * d) (2 * d + 1))) as [|p|]; simpl in *; auto. rewrite Q2R_plus, Q2R_two in E2. lra.
  - exists x. split; auto. rewrite Rminus_0_r in I. auto.
Qed.

(** ** X -> c X_i + [-a,b] *)
Section SubstCopy.
Context {N : numtype}.
Variables (n d k : nat) (tmp m : hmat).
Hypothesis Hd : d < n.
Hypothesis Ok : off n d k.
Definition sc2 : hmat :=
  for_ (2 * d + 2) (2 * n) (fun i m =>
      let t2 := badd (N:=N) (tmp 0) (m (matpos (xor1 i) (2 * d))) in
      let t3 := badd (N:=N) (tmp 1) (m (matpos (xor1 i) (2 * d + 1))) in
      mmin (mmin m (matpos2 (xor1 k) i) t2) (matpos2 k i) t3)
   (for_ 0 (2 * d) (fun i m =>
      let t2 := badd (N:=N) (tmp 0) (m (matpos (2 * d + 1) i)) in
      let t3 := badd (N:=N) (tmp 1) (m (matpos (2 * d) i)) in
      mmin (mmin m (matpos2 (xor1 k) i) t2) (matpos2 k i) t3) m).
Definition sc3 : hmat := mmin (mmin sc2 (matpos (xor1 k) k) (badd (N:=N) (bmul_2 (N:=N) (tmp 0)) (sc2 (matpos (2 * d + 1) (2 * d)))))
  (matpos k (xor1 k)) (badd (N:=N) (bmul_2 (N:=N) (tmp 1)) (sc2 (matpos (2 * d) (2 * d + 1)))).
Definition cF1 (x : hmat) (i : nat) : bound := badd (N:=N) (tmp 0) (x (matpos2 (2 * d + 1) i)).
Definition cF2 (x : hmat) (i : nat) : bound := badd (N:=N) (tmp 1) (x (matpos2 (2 * d) i)).
Lemma off_xor1 : forall i, off n d i -> off n d (xor1 i).
Proof. intros i [H1 H2]. split; [apply xor1_lt; auto|rewrite div2_xor1; auto]. Qed.
Lemma scp_P : forall i, off n d i -> off n d ((fun _ => xor1 k) i) /\ off n d i /\ off n d ((fun _ => k) i) /\ off n d i.
Proof. intros i H. split; [apply off_xor1; auto|auto]. Qed.
Lemma scp_F : forall x y i, off n d i -> dsame n d x y -> cF1 x i = cF1 y i /\ cF2 x i = cF2 y i.
Proof.
  intros x y i [H1 H2] S. unfold cF1, cF2. rewrite (S (2 * d + 1) i), (S (2 * d) i); auto; try lia; rewrite ?div2_even, ?div2_odd; auto.
Qed.
Lemma scp_1 : forall i x, i < 2 * d -> 
  (let t2 := badd (N:=N) (tmp 0) (x (matpos (2 * d + 1) i)) in
      let t3 := badd (N:=N) (tmp 1) (x (matpos (2 * d) i)) in
      mmin (mmin x (matpos2 (xor1 k) i) t2) (matpos2 k i) t3) =
  mmin (mmin x (matpos2 ((fun _ => xor1 k) i) i) (cF1 x i)) (matpos2 ((fun _ => k) i) i) (cF2 x i).
Proof.
  intros i x Hi. unfold cF1, cF2. rewrite (matpos2_half (2 * d + 1) i) by (rewrite or1_odd; lia). rewrite (matpos2_half (2 * d) i) by (rewrite or1_even; lia). auto.
Qed.
Lemma scp_2 : forall i x, 2 * d + 2 <= i < 2 * n -> 
  (let t2 := badd (N:=N) (tmp 0) (x (matpos (xor1 i) (2 * d))) in
      let t3 := badd (N:=N) (tmp 1) (x (matpos (xor1 i) (2 * d + 1))) in
      mmin (mmin x (matpos2 (xor1 k) i) t2) (matpos2 k i) t3) =
  mmin (mmin x (matpos2 ((fun _ => xor1 k) i) i) (cF1 x i)) (matpos2 ((fun _ => k) i) i) (cF2 x i).
Proof.
  intros i x Hi. unfold cF1, cF2.
  assert (X : 2 * d + 2 <= xor1 i). { destruct (par_cases i) as [q [Hq|Hq]]; subst; rewrite ?xor1_even, ?xor1_odd; lia. }
  pose proof (or1_ge (xor1 i)).
  replace (matpos2 (2 * d + 1) i) with (matpos (xor1 i) (2 * d)).
  2:{ rewrite <- (matpos2_half (xor1 i) (2 * d)) by lia. rewrite <- (matpos2_coh (xor1 i) (2 * d)) by lia. rewrite xor1_even, xor1_invol. auto. }
  replace (matpos2 (2 * d) i) with (matpos (xor1 i) (2 * d + 1)); auto.
  rewrite <- (matpos2_half (xor1 i) (2 * d + 1)) by lia. rewrite <- (matpos2_coh (xor1 i) (2 * d + 1)) by lia. rewrite xor1_odd, xor1_invol. auto.
Qed.
Lemma scp_spec : mle sc2 m /\ dsame n d sc2 m /\ forall i, off n d i -> le_bb (sc2 (matpos2 (xor1 k) i)) (cF1 m i) /\ le_bb (sc2 (matpos2 k i)) (cF2 m i).
Proof. unfold sc2. apply (loops_spec n d m (fun _ => xor1 k) (fun _ => k) (fun i => i) (fun i => i) cF1 cF2 _ _ Hd scp_P scp_F scp_1 scp_2). Qed.
Lemma scp_inv : forall P : hmat -> Prop, P m -> (forall x i, off n d i -> dsame n d x m -> P x -> P (mmin (mmin x (matpos2 (xor1 k) i) (cF1 x i)) (matpos2 k i) (cF2 x i))) -> P sc2.
Proof. unfold sc2. apply (loops_inv n d m (fun _ => xor1 k) (fun _ => k) (fun i => i) (fun i => i) cF1 cF2 _ _ Hd scp_P scp_1 scp_2). Qed.
Lemma subst_copy_unfold : subst_copy (N:=N) tmp m n d k =
  if sneg (badd (N:=N) (tmp 0) (m (matpos2 k (2 * d)))) || sneg (badd (N:=N) (tmp 1) (m (matpos2 (2 * d) k))) then None
  else Some (hmat_forget_var n d sc3).
Proof. reflexivity. Qed.
Lemma scp_nndiag : nndiag n m -> sneg (badd (N:=N) (tmp 0) (m (matpos2 k (2 * d)))) || sneg (badd (N:=N) (tmp 1) (m (matpos2 (2 * d) k))) = false -> nndiag n sc3.
Proof.
  intros ND EM. apply orb_false_iff in EM as [E1 E2]. unfold sneg in E1, E2. apply Z.ltb_ge in E1, E2. destruct Ok as [Hk Nk].
  assert (K0 : k <> 2 * d) by (intros X; apply Nk; rewrite X; apply div2_even).
  assert (DG : forall x a b t, nndiag n x -> (a = b -> 0 <= bsgn t)%Z -> nndiag n (mmin x (matpos2 a b) t)).
  { intros x a b t Dx Ht p Hp. unfold mmin. destruct (Nat.eq_dec (matpos p p) (matpos2 a b)) as [Ep|Np]; [|rewrite upd_other; auto].
    rewrite <- Ep, upd_same. assert (AB : a = b).
    { rewrite <- (matpos2_diag p) in Ep. apply matpos2_inj in Ep. destruct Ep as [[? ?]|[A B]]; [congruence|]. apply xor1_inj. congruence. }
    destruct (bmin_or (x (matpos p p)) t) as [-> | ->]; auto. }
  unfold sc3. rewrite <- (matpos2_half (xor1 k) k), <- (matpos2_half k (xor1 k)) by (try apply xor1_le_or1; rewrite or1_xor1; apply or1_ge).
  apply DG; [apply DG|]; try (intros X; exfalso; eapply xor1_neq; eauto; fail).
  apply (scp_inv (nndiag n)); auto. intros x i Oi DS Dx. destruct Oi as [Hi Ni].
  apply DG; [apply DG|]; auto.
  - intros <-. unfold cF1. rewrite (DS (2 * d + 1) (xor1 k)); [|lia|apply xor1_lt; auto|left; apply div2_odd].
    rewrite <- (matpos2_coh (2 * d + 1) (xor1 k)), xor1_invol, xor1_odd; auto. intros X. apply Nk. rewrite <- div2_xor1, <- X. apply div2_odd.
  - intros <-. unfold cF2. rewrite (DS (2 * d) k); [auto|lia|auto|left; apply div2_even].
Qed.
Lemma scp_sound : forall w r, nndiag n m -> gam n m (vset w d (lit w k + r)) -> in2 r (tmp 0) (tmp 1) -> exists m', subst_copy (N:=N) tmp m n d k = Some m' /\ gam n m' w.
Proof.
  intros w r ND G [R1 R2]. pose proof Ok as [Hk Nk]. set (v := vset w d (lit w k + r)) in *.
  assert (LK : lit v k = lit w k) by (unfold v; apply lit_vset_other; auto).
  assert (LD : lit v (2 * d) = (lit v k + r)%R /\ lit v (2 * d + 1) = (- (lit v k + r))%R) by (rewrite LK, lit_even, lit_odd; unfold v; rewrite vset_same; auto).
  destruct LD as [LD1 LD2].
  rewrite subst_copy_unfold.
  destruct (sneg (badd (N:=N) (tmp 0) (m (matpos2 k (2 * d)))) || sneg (badd (N:=N) (tmp 1) (m (matpos2 (2 * d) k)))) eqn:EM.
  { exfalso. assert (S1 : sneg (badd (N:=N) (tmp 0) (m (matpos2 k (2 * d)))) = false).
    { apply not_sneg. replace 0%R with (- r + (lit v (2 * d) - lit v k))%R by lra. apply badd_sound; auto. apply gam_full with n; auto; lia. }
    assert (S2 : sneg (badd (N:=N) (tmp 1) (m (matpos2 (2 * d) k))) = false).
    { apply not_sneg. replace 0%R with (r + (lit v k - lit v (2 * d)))%R by lra. apply badd_sound; auto. apply gam_full with n; auto; lia. }
    rewrite S1, S2 in EM. discriminate. }
  eexists. split; [reflexivity|].
  assert (GS : gam n sc2 v).
  { apply (scp_inv (fun x => gam n x v)); auto. intros x i [Oi Od] _ Gx. pose proof (xor1_lt n k Hk) as Ox.
    pose proof (gam_full n x _ (2 * d + 1) i Gx ltac:(lia) Oi) as G1. pose proof (gam_full n x _ (2 * d) i Gx ltac:(lia) Oi) as G2.
    apply mmin_gam; auto. rewrite mmin_gam by auto. rewrite lit_xor1. unfold cF1, cF2. split; [split; auto|].
    - replace (lit v i - - lit v k)%R with (- r + (lit v i - lit v (2 * d + 1)))%R by lra. apply badd_sound; auto.
    - replace (lit v i - lit v k)%R with (r + (lit v i - lit v (2 * d)))%R by lra. apply badd_sound; auto. }
  assert (GS3 : gam n sc3 v).
  { destruct (gam_unary n sc2 v d GS Hd) as [U1 U2]. rewrite lit_even in LD1.
    unfold sc3. rewrite <- (matpos2_half (xor1 k) k), <- (matpos2_half k (xor1 k)) by (try apply xor1_le_or1; rewrite or1_xor1; apply or1_ge).
    apply mmin_gam; auto using xor1_lt. rewrite mmin_gam by auto using xor1_lt. rewrite lit_xor1. split; [split; auto|].
    - replace (lit v k - - lit v k)%R with (2 * - r + 2 * v d)%R by lra. apply badd_sound; auto. apply bmul_2_sound; auto.
    - replace (- lit v k - lit v k)%R with (2 * r + - (2 * v d))%R by lra. apply badd_sound; auto. apply bmul_2_sound; auto. }
  apply forget_offd; auto; [apply scp_nndiag; auto|].
  apply (offd_vset n d sc3 w (lit w k + r)). intros i j Hi Hj Ni Nj. apply gam_full with n; auto.
Qed.
Lemma scp_wf : forall m', wfm n m /\ nndiag n m -> tmp 0 <> MInf -> tmp 1 <> MInf -> subst_copy (N:=N) tmp m n d k = Some m' -> wfm n m' /\ nndiag n m'.
Proof.
  intros m' [W D] T0 T1 H. rewrite subst_copy_unfold in H. destruct (_ || _) eqn:EM; [discriminate|]. injection H as <-. apply forget_wf1; auto.
  split; [|apply scp_nndiag; auto].
  assert (W2 : wfm n sc2).
  { apply (scp_inv (wfm n)); auto. intros x i [Oi Od] _ Wx. apply mmin_wfm; [apply mmin_wfm; auto|]; apply badd_not_MInf; auto; apply (wfm2 n); auto; lia. }
  unfold sc3. apply mmin_wfm; [apply mmin_wfm; auto|]; apply badd_not_MInf; try (apply bmul_2_not_MInf; auto); apply W2; rewrite ?or1_even, ?or1_odd; lia.
Qed.
End SubstCopy.
Lemma scp_exact : forall n d k tmp m m' w, d < n -> off n d k -> sclosed n m -> (exists y, in2 y (tmp 0) (tmp 1)) -> subst_copy (N:=E) tmp m n d k = Some m' -> gam n m' w ->
  exists r, in2 r (tmp 0) (tmp 1) /\ gam n m (vset w d (lit w k + r)).
Proof.
  intros n d k tmp m m' w Hd Ok SC NE H G. pose proof (sclosed_nndiag n m SC) as ND. pose proof Ok as [Hk Nk].
  rewrite subst_copy_unfold in H. destruct (sneg (badd (N:=E) (tmp 0) (m (matpos2 k (2 * d)))) || sneg (badd (N:=E) (tmp 1) (m (matpos2 (2 * d) k)))) eqn:EM; [discriminate|]. injection H as <-.
  pose proof (scp_nndiag (N:=E) n d k tmp m Hd Ok ND EM) as D3.
  destruct (scp_spec (N:=E) n d k tmp m Hd Ok) as (LE & DS & SP).
  apply forget_offd in G; auto.
  assert (LE3 : mle (sc3 (N:=E) n d k tmp m) (sc2 (N:=E) n d k tmp m)) by (unfold sc3; eapply mle_trans; apply mmin_mle).
  pose proof (offd_le n d _ _ w LE3 G) as G2. pose proof (offd_le n d _ m w LE G2) as O. destruct (offd_extend n d m w Hd SC O) as [x0 X].
  assert (UC : le_rb (2 * lit w k) (badd (N:=E) (bmul_2 (N:=E) (tmp 0)) (m (matpos (2 * d + 1) (2 * d)))) /\
               le_rb (- (2 * lit w k)) (badd (N:=E) (bmul_2 (N:=E) (tmp 1)) (m (matpos (2 * d) (2 * d + 1))))).
  { assert (XK : xor1 k / 2 <> d) by (rewrite div2_xor1; auto). pose proof (G (xor1 k) k (xor1_lt _ _ Hk) Hk XK Nk) as A1. pose proof (G k (xor1 k) Hk (xor1_lt _ _ Hk) Nk XK) as A2.
    assert (DC : sc2 (N:=E) n d k tmp m (matpos (2 * d + 1) (2 * d)) = m (matpos (2 * d + 1) (2 * d)) /\ sc2 (N:=E) n d k tmp m (matpos (2 * d) (2 * d + 1)) = m (matpos (2 * d) (2 * d + 1))).
    { rewrite <- (matpos2_half (2 * d + 1) (2 * d)) by (rewrite or1_odd; lia). rewrite <- (matpos2_half (2 * d) (2 * d + 1)) by (rewrite or1_even; lia).
      split; apply DS; try lia; left; [apply div2_odd|apply div2_even]. }
    destruct DC as [<- <-]. rewrite (matpos2_half (xor1 k) k) in A1 by (rewrite or1_xor1; apply or1_ge). rewrite (matpos2_half k (xor1 k)) in A2 by apply xor1_le_or1.
    rewrite lit_xor1 in *. split.
    - eapply le_rb_le; [|eapply le_rb_mono; [exact A1|]]; [lra|]. unfold sc3. eapply le_bb_trans; [apply mmin_mle|apply mmin_at].
    - eapply le_rb_le; [|eapply le_rb_mono; [exact A2|]]; [lra|]. unfold sc3. apply mmin_at. }
  destruct UC as [UC1 UC2].
  destruct (slide n d m w x0 (lit w k) (tmp 0) (tmp 1) Hd ND X NE) as (x & I & Gx).
  - intros q T0. split.
    + intros j Hj Nj. assert (Oj : off n d (xor1 j)) by (split; [apply xor1_lt; auto|rewrite div2_xor1; auto]). destruct (SP (xor1 j) Oj) as [S1 _].
      pose proof (G2 (xor1 k) (xor1 j) (xor1_lt _ _ Hk) (xor1_lt _ _ Hj) ltac:(rewrite div2_xor1; auto) ltac:(rewrite div2_xor1; auto)) as G1.
      pose proof (le_rb_mono _ _ _ G1 S1) as G3. unfold cF1 in G3. rewrite T0, !lit_xor1 in G3.
      rewrite <- (matpos2_coh (2 * d + 1) (xor1 j)) in G3 by (intros XX; apply Nj; rewrite <- div2_xor1, <- XX; apply div2_odd). rewrite xor1_invol, xor1_odd in G3.
      destruct (m (matpos2 j (2 * d))) as [|p|]; simpl in *; auto. rewrite Q2R_plus in G3. lra.
    + rewrite T0 in UC1. destruct (m (matpos (2 * d + 1) (2 * d))) as [|p|]; simpl in *; auto. rewrite Q2R_plus, Q2R_two in UC1. lra.
  - intros q T1. split.
    + intros j Hj Nj. destruct (SP j (conj Hj Nj)) as [_ S1]. pose proof (G2 k j Hk Hj Nk Nj) as G1.
      pose proof (le_rb_mono _ _ _ G1 S1) as G3. unfold cF2 in G3. rewrite T1 in G3.
      destruct (m (matpos2 (2 * d) j)) as [|p|]; simpl in *; auto. rewrite Q2R_plus in G3. lra.
    + rewrite T1 in UC2. destruct (m (matpos (2 * d) (2 * d + 1))) as [|p|]; simpl in *; auto. rewrite Q2R_plus, Q2R_two in UC2. lra.
  - exists (x - lit w k)%R. split; auto. replace (lit w k + (x - lit w k))%R with x by ring. auto.
Qed.

(** The general case of guards: bounds on pairs of variables. *)
From Coq Require Import Arith Lia List ZArith QArith Qreals Reals Lra Bool.
From Verif Require Import Bound BoundFacts Linexpr LinexprFacts OctMat OctIdx OctClose OctWalk OctInc OctStrong OctGeom OctGeom2 Oct OctFacts OctFacts2 OctFacts3 OctTransfer OctUexpr OctGuard OctGuard2.
Import ListNotations.
Open Scope nat_scope.
#[local] Arguments Nat.div : simpl never.
#[local] Arguments Nat.modulo : simpl never.
#[local] Arguments Nat.mul : simpl never.
#[local] Arguments Nat.leb : simpl never.
#[local] Arguments Nat.ltb : simpl never.
#[local] Arguments xor1 : simpl never.
#[local] Arguments or1 : simpl never.
#[local] Arguments matpos : simpl never.
#[local] Arguments matpos2 : simpl never.

Lemma bsub_fin_sound : forall N x b q, le_rb (x + Q2R q) b -> le_rb x (bsub (N:=N) b (Fin q)).
Proof. intros N x [|p|] q H; simpl in *; auto. apply rnd_ge. rewrite Q2R_minus. lra. Qed.
Lemma bsub_fin_not_MInf : forall N b q, b <> MInf -> bsub (N:=N) b (Fin q) <> MInf.
Proof. intros N [|p|] q H; simpl in *; try congruence. apply rnd_not_MInf. Qed.
Lemma bdiv_2_not_MInf : forall N b, b <> MInf -> bdiv_2 (N:=N) b <> MInf.
Proof. intros N [|p|] H; simpl in *; try congruence. apply rnd_not_MInf. Qed.
Lemma bmul_2_not_MInf : forall N b, b <> MInf -> bmul_2 (N:=N) b <> MInf.
Proof. intros N [|p|] H; simpl in *; try congruence. apply rnd_not_MInf. Qed.
Lemma binfty_fin : forall b, binfty b = false -> exists q, b = Fin q.
Proof. intros [|q|]; simpl; try discriminate. eauto. Qed.

Lemma gam_unary : forall n m v j, gam n m v -> j < n -> in2 (2 * v j) (m (matpos (2 * j) (2 * j + 1))) (m (matpos (2 * j + 1) (2 * j))).
Proof.
  intros n m v j G Hj. split.
  - assert (O : 2 * j + 1 <= or1 (2 * j)) by (rewrite or1_even; lia).
    pose proof (G (2 * j) (2 * j + 1) ltac:(lia) O) as H. rewrite lit_even, lit_odd in H. eapply le_rb_le; [|exact H]. lra.
  - assert (O : 2 * j <= or1 (2 * j + 1)) by (rewrite or1_odd; lia).
    pose proof (G (2 * j + 1) (2 * j) ltac:(lia) O) as H. rewrite lit_even, lit_odd in H. eapply le_rb_le; [|exact H]. lra.
Qed.

Section Half.
Context {N : numtype}.
Variables (n : nat) (B0 : bound) (T : nat -> bound) (s : osum) (lo hi : nat -> bound).
Hypothesis HS : osum_ok n B0 T s.

Lemma half_sel_idx : forall b k m u, half_sel b lo hi k = Some (m, u) -> u / 2 = k /\ exists q, m = Fin q.
Proof.
  intros b k m u H. unfold half_sel in H.
  destruct (ile (lo k) (-1)); simpl in H; [destruct (binfty (b (matpos (2 * k + 1) (2 * k)))) eqn:B; simpl in H|].
  2:{ inversion H; subst. split; [apply div2_odd|]. apply binfty_fin; auto. }
  all: destruct (ile (hi k) (-1)); simpl in H; try discriminate; destruct (binfty (b (matpos (2 * k) (2 * k + 1)))) eqn:B'; simpl in H; try discriminate;
    inversion H; subst; (split; [apply div2_even|]); apply binfty_fin; auto.
Qed.
Lemma half_unit_idx : forall k u, half_unit lo hi k = Some u -> u / 2 = k.
Proof.
  intros k u H. unfold half_unit in H. destruct (ieq (hi k) (-1) && ieq (lo k) 1).
  - inversion H; subst. apply div2_even.
  - destruct (ieq (hi k) 1 && ieq (lo k) (-1)); inversion H; subst. apply div2_odd.
Qed.
Lemma div_lt2 : forall u k, u / 2 = k -> k < n -> u < 2 * n.
Proof. clear. intros u k H Hk. pose proof (Nat.div_mod u 2 ltac:(lia)). pose proof (Nat.mod_upper_bound u 2 ltac:(lia)). lia. Qed.

(** every change is the addition of a bound on two different variables *)
Lemma other_half_inv : forall (P : hmat -> Prop) b, P b ->
  (forall b j k mj uj mk uk, P b -> s_inf s = 0 -> j < k -> k < n -> (exists b', P b' /\ half_sel b' lo hi j = Some (mj, uj)) ->
     half_sel b lo hi k = Some (mk, uk) ->
     P (mmin b (matpos2 (xor1 uk) uj) (bdiv_2 (N:=N) (bsub (N:=N) (bsub (N:=N) (s_b s) mj) mk)))) ->
  (forall b k uj mk uk, P b -> s_inf s = 1 -> k < n -> k <> s_1 s -> half_unit lo hi (s_1 s) = Some uj -> half_sel b lo hi k = Some (mk, uk) ->
     P (mmin b (matpos2 (xor1 uk) uj) (bdiv_2 (N:=N) (bsub (N:=N) (s_b s) mk)))) ->
  (forall b ui uj, P b -> s_inf s = 2 -> half_unit lo hi (s_1 s) = Some ui -> half_unit lo hi (s_2 s) = Some uj ->
     P (mmin b (matpos2 (xor1 uj) ui) (bdiv_2 (N:=N) (s_b s)))) ->
  P (other_half (N:=N) n s lo hi b).
Proof.
  intros P b HP H0 H1 H2. unfold other_half. destruct (binfty (s_b s)); auto.
  destruct (s_inf s) as [|[|[|k]]]; auto.
  - apply for_inv; auto. intros j x Hj Px. destruct (half_sel x lo hi j) as [[mj uj]|] eqn:Sj; auto.
    apply for_inv; auto. intros k y Hk Py. destruct (half_sel y lo hi k) as [[mk uk]|] eqn:Sk; auto.
    rewrite <- matpos2_half; [apply (H0 y j k); eauto; lia|].
    destruct (half_sel_idx _ _ _ _ Sj) as [Dj _]. destruct (half_sel_idx _ _ _ _ Sk) as [Dk _].
    rewrite or1_xor1. pose proof (or1_ge uk). pose proof (Nat.div_mod uj 2 ltac:(lia)). pose proof (Nat.mod_upper_bound uj 2 ltac:(lia)).
    pose proof (Nat.div_mod uk 2 ltac:(lia)). lia.
  - destruct (half_unit lo hi (s_1 s)) as [uj|] eqn:Uj; auto. apply for_inv; auto. intros k x Hk Px.
    destruct (Nat.eqb_spec k (s_1 s)); auto. destruct (half_sel x lo hi k) as [[mk uk]|] eqn:Sk; auto.
    apply (H1 x k); auto; lia.
  - destruct (half_unit lo hi (s_1 s)) as [ui|] eqn:Ui; auto. destruct (half_unit lo hi (s_2 s)) as [uj|] eqn:Uj; auto.
Qed.
Lemma other_half_wf : forall b, B0 <> MInf -> (forall j, j < n -> T j <> MInf) -> wfm n b /\ nndiag n b ->
  wfm n (other_half (N:=N) n s lo hi b) /\ nndiag n (other_half (N:=N) n s lo hi b).
Proof.
  intros b HB HT W. pose proof (os_m _ _ _ _ HS HB HT) as SM. apply (other_half_inv (fun b => wfm n b /\ nndiag n b)); auto.
  - intros x j k mj uj mk uk [W1 W2] _ Hjk Hk (b' & _ & Sj) Sk.
    destruct (half_sel_idx _ _ _ _ Sj) as [Dj [qj ->]]. destruct (half_sel_idx _ _ _ _ Sk) as [Dk [qk ->]]. split.
    + apply mmin_wfm; auto. apply bdiv_2_not_MInf, bsub_fin_not_MInf, bsub_fin_not_MInf. auto.
    + apply mmin_nndiag; auto. intros E. apply (f_equal (fun x => x / 2)) in E. rewrite div2_xor1 in E. lia.
  - intros x k uj mk uk [W1 W2] _ Hk D Uj Sk. apply half_unit_idx in Uj. destruct (half_sel_idx _ _ _ _ Sk) as [Dk [qk ->]]. split.
    + apply mmin_wfm; auto. apply bdiv_2_not_MInf, bsub_fin_not_MInf. auto.
    + apply mmin_nndiag; auto. intros E. apply (f_equal (fun x => x / 2)) in E. rewrite div2_xor1 in E. lia.
  - intros x ui uj [W1 W2] I2 Ui Uj. apply half_unit_idx in Uj, Ui. destruct (os_2 _ _ _ _ HS) as [L _]; [lia|]. split.
    + apply mmin_wfm; auto. apply bdiv_2_not_MInf. auto.
    + apply mmin_nndiag; auto. intros E. apply (f_equal (fun x => x / 2)) in E. rewrite div2_xor1 in E. lia.
Qed.

Variables (b0 : hmat) (v c : nat -> R) (c0 : R).
Hypothesis G0 : gam n b0 v.
Hypothesis HB0 : le_rb (2 * c0) B0.
Hypothesis Hc : forall j, j < n -> in2 (c j) (lo j) (hi j).
Hypothesis HT : forall j x, j < n -> in2 x (b0 (matpos (2 * j) (2 * j + 1))) (b0 (matpos (2 * j + 1) (2 * j))) -> le_rb (x * c j) (T j).
Hypothesis Hr : (0 <= c0 + lsum n c v)%R.

Lemma half_sel_ok : forall b k m u, k < n -> gam n b v -> mle b b0 -> half_sel b lo hi k = Some (m, u) ->
  exists q, m = Fin q /\ le_rb (2 * (c k * v k) + (Q2R q + 2 * lit v u)) (T k).
Proof.
  intros b k m u Hk G L H. destruct (half_sel_idx _ _ _ _ H) as [_ [q ->]]. exists q. split; auto.
  destruct (Hc k Hk) as [C1 C2]. destruct (gam_unary n b v k G Hk) as [U1 U2]. destruct (gam_unary n b0 v k G0 Hk) as [V1 V2].
  assert (X : (ile (lo k) (-1) = true /\ b (matpos (2 * k + 1) (2 * k)) = Fin q /\ u = 2 * k + 1) \/
              (ile (hi k) (-1) = true /\ b (matpos (2 * k) (2 * k + 1)) = Fin q /\ u = 2 * k)).
  { unfold half_sel in H. destruct (ile (lo k) (-1)); simpl in H; [destruct (binfty (b (matpos (2 * k + 1) (2 * k)))) eqn:B; simpl in H|].
    2:{ inversion H; auto. }
    all: destruct (ile (hi k) (-1)); simpl in H; try discriminate; destruct (binfty (b (matpos (2 * k) (2 * k + 1)))) eqn:B'; simpl in H; try discriminate;
      inversion H; auto. }
  destruct X as [(I1 & E1 & ->)|(I1 & E1 & ->)].
  - pose proof (ile_spec _ _ _ I1 C1) as CC. simpl in CC. rewrite E1 in U2. simpl in U2.
    rewrite lit_odd. eapply le_rb_le; [|apply (HT k (Q2R q) Hk)].
    + nra.
    + split; [eapply le_rb_le; [|exact V1]; lra|].
      eapply le_rb_mono; [|apply L]. rewrite E1. simpl. lra.
  - pose proof (ile_spec _ _ _ I1 C2) as CC. simpl in CC. rewrite E1 in U1. simpl in U1.
    rewrite lit_even. eapply le_rb_le; [|apply (HT k (- Q2R q)%R Hk)].
    + nra.
    + split; [|eapply le_rb_le; [|exact V2]; lra].
      eapply le_rb_mono; [|apply L]. rewrite E1. simpl. lra.
Qed.
Lemma half_unit_ok : forall k u, k < n -> half_unit lo hi k = Some u -> (2 * lit v u = - (2 * (c k * v k)))%R.
Proof.
  intros k u Hk H. destruct (Hc k Hk) as [C1 C2]. unfold half_unit in H.
  destruct (ieq (hi k) (-1) && ieq (lo k) 1) eqn:T1.
  - apply andb_true_iff in T1 as [T1 T2]. apply ieq_spec in T1, T2. destruct T1 as (q1 & E1 & Q1), T2 as (q2 & E2 & Q2).
    rewrite E1 in C2. rewrite E2 in C1. simpl in *. inversion H; subst. rewrite lit_even. replace (c k) with (-1)%R by lra. lra.
  - destruct (ieq (hi k) 1 && ieq (lo k) (-1)) eqn:T3; [|discriminate].
    apply andb_true_iff in T3 as [T3 T2]. apply ieq_spec in T3, T2. destruct T3 as (q1 & E1 & Q1), T2 as (q2 & E2 & Q2).
    rewrite E1 in C2. rewrite E2 in C1. simpl in *. inversion H; subst. rewrite lit_odd. replace (c k) with 1%R by lra. lra.
Qed.
Lemma var_le_T : forall j, j < n -> le_rb (2 * (c j * v j)) (T j).
Proof. intros j Hj. eapply le_rb_le; [|apply (HT j (2 * v j)%R Hj)]; [lra|]. apply (gam_unary n); auto. Qed.
(** two terms are replaced by something larger *)
Lemma two_bound : forall i j di dj, i < n -> j < n -> i <> j ->
  (forall k, k < n -> k <> i -> k <> j -> binfty (T k) = false) ->
  (if binfty (T i) then di = (- (2 * (c i * v i)))%R else le_rb (2 * (c i * v i) + di) (T i)) ->
  (if binfty (T j) then dj = (- (2 * (c j * v j)))%R else le_rb (2 * (c j * v j) + dj) (T j)) ->
  le_rb (di + dj) (s_b s).
Proof.
  intros i j di dj Hi Hj D HF Pi Pj.
  set (g := fun k => if Nat.eqb k i then di else if Nat.eqb k j then dj else 0%R).
  pose proof (os_le _ _ _ _ HS (fun k => 2 * (c k * v k) + g k)%R (2 * c0)%R HB0) as H.
  assert (X : lsum n (fun k => 2 * (c k * v k) + g k)%R one = (2 * lsum n c v + (di + dj))%R).
  { rewrite lsum_add, lsum_scale. f_equal.
    - f_equal. apply lsum_ext. intros. unfold one. ring.
    - rewrite (lsum_two n g one i j); auto.
      + unfold g, one. rewrite !Nat.eqb_refl. destruct (Nat.eqb_spec j i); [congruence|]. ring.
      + intros k Hk D1 D2. unfold g. destruct (Nat.eqb_spec k i); [congruence|]. destruct (Nat.eqb_spec k j); [congruence|]. ring. }
  rewrite X in H. eapply le_rb_le; [|apply H].
  - lra.
  - intros k Hk Bk. unfold g. destruct (Nat.eqb_spec k i) as [->|]; [rewrite Bk in Pi; auto|]. destruct (Nat.eqb_spec k j) as [->|]; [rewrite Bk in Pj; auto|].
    rewrite Rplus_0_r. apply var_le_T; auto.
  - intros k Hk Bk. unfold g. destruct (Nat.eqb_spec k i) as [->|]; [rewrite Bk in Pi; rewrite Pi; lra|].
    destruct (Nat.eqb_spec k j) as [->|]; [rewrite Bk in Pj; rewrite Pj; lra|]. rewrite HF in Bk; auto. discriminate.
Qed.
Lemma other_half_sound : forall b, gam n b v -> mle b b0 ->
  gam n (other_half (N:=N) n s lo hi b) v /\ mle (other_half (N:=N) n s lo hi b) b0.
Proof.
  intros b G L. apply (other_half_inv (fun b => gam n b v /\ mle b b0)); auto; clear b G L.
  - intros x j k mj uj mk uk [G L] I0 Hjk Hk (b' & [G' L'] & Sj) Sk. split; [|eapply mle_trans; [apply mmin_mle|auto]].
    destruct (half_sel_idx _ _ _ _ Sj) as [Dj _]. destruct (half_sel_idx _ _ _ _ Sk) as [Dk _].
    assert (Hj : j < n) by lia.
    apply mmin_gam; [apply xor1_lt; apply (div_lt2 uk k); auto|apply (div_lt2 uj j); auto|]. split; auto.
    destruct (half_sel_ok b' j mj uj Hj G' L' Sj) as (qj & -> & Pj). destruct (half_sel_ok x k mk uk Hk G L Sk) as (qk & -> & Pk).
    pose proof (os_0 _ _ _ _ HS I0) as F.
    pose proof (two_bound j k (Q2R qj + 2 * lit v uj)%R (Q2R qk + 2 * lit v uk)%R Hj Hk ltac:(lia) (fun i Hi _ _ => F i Hi)) as TB. rewrite (F j Hj), (F k Hk) in TB. specialize (TB Pj Pk).
    rewrite lit_xor1. replace (lit v uj - - lit v uk)%R with ((2 * lit v uj + 2 * lit v uk) / 2)%R by lra.
    apply bdiv_2_sound, bsub_fin_sound, bsub_fin_sound. eapply le_rb_le; [|exact TB]. lra.
  - intros x k uj mk uk [G L] I1 Hk D Uj Sk. split; [|eapply mle_trans; [apply mmin_mle|auto]].
    destruct (half_sel_idx _ _ _ _ Sk) as [Dk _]. pose proof (half_unit_idx _ _ Uj) as Dj.
    destruct (os_1 _ _ _ _ HS) as [L1 F1]; [lia|]. pose proof (os_1' _ _ _ _ HS I1) as F.
    apply mmin_gam; [apply xor1_lt; apply (div_lt2 uk k); auto|apply (div_lt2 uj (s_1 s)); auto|]. split; auto.
    destruct (half_sel_ok x k mk uk Hk G L Sk) as (qk & -> & Pk). pose proof (half_unit_ok _ _ L1 Uj) as Pj.
    pose proof (two_bound (s_1 s) k (2 * lit v uj)%R (Q2R qk + 2 * lit v uk)%R L1 Hk ltac:(auto) (fun i Hi D1 _ => F i Hi D1)) as TB. rewrite F1, (F k Hk D) in TB.
    specialize (TB Pj Pk).
    rewrite lit_xor1. replace (lit v uj - - lit v uk)%R with ((2 * lit v uj + 2 * lit v uk) / 2)%R by lra.
    apply bdiv_2_sound, bsub_fin_sound. eapply le_rb_le; [|exact TB]. lra.
  - intros x ui uj [G L] I2 Ui Uj. split; [|eapply mle_trans; [apply mmin_mle|auto]].
    pose proof (half_unit_idx _ _ Ui) as Di. pose proof (half_unit_idx _ _ Uj) as Dj.
    destruct (os_1 _ _ _ _ HS) as [L1 F1]; [lia|]. destruct (os_2 _ _ _ _ HS) as [L2 F2]; [lia|]. pose proof (os_2' _ _ _ _ HS I2) as F.
    assert (L2' : s_2 s < n) by lia.
    apply mmin_gam; [apply xor1_lt; apply (div_lt2 uj (s_2 s)); auto|apply (div_lt2 ui (s_1 s)); auto|]. split; auto.
    pose proof (half_unit_ok _ _ L1 Ui) as Pi. pose proof (half_unit_ok _ _ L2' Uj) as Pj.
    pose proof (two_bound (s_1 s) (s_2 s) (2 * lit v ui)%R (2 * lit v uj)%R L1 L2' ltac:(lia) F) as TB. rewrite F1, F2 in TB. specialize (TB Pi Pj).
    rewrite lit_xor1. replace (lit v ui - - lit v uj)%R with ((2 * lit v ui + 2 * lit v uj) / 2)%R by lra.
    apply bdiv_2_sound. eapply le_rb_le; [|exact TB]. lra.
Qed.
End Half.

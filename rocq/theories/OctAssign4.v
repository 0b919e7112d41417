(** hmat_assign: copies, constants without closure, general expressions. *)
From Coq Require Import Arith Lia List ZArith QArith Qreals Reals Lra Bool.
From Verif Require Import Bound BoundFacts Linexpr LinexprFacts OctMat OctIdx OctClose OctWalk OctInc OctStrong OctGeom OctGeom2 Oct OctFacts OctFacts2 OctFacts3 OctForget OctTransfer OctUexpr OctGuard OctGuard2 OctGuard3 OctAssign OctAssign2 OctAssign3.
Import ListNotations.
Open Scope nat_scope.
#[local] Arguments Nat.div : simpl never.
#[local] Arguments Nat.modulo : simpl never.
#[local] Arguments Nat.mul : simpl never.
#[local] Arguments Nat.leb : simpl never.
#[local] Arguments Nat.ltb : simpl never.
#[local] Arguments xor1 : simpl never.
#[local] Arguments or1 : simpl never.
#[local] Arguments matpos : simpl never.
#[local] Arguments matpos2 : simpl never.
Local Notation E := exact_num.

Ltac pinj HH H1 H2 := pose proof (f_equal fst HH) as H1; pose proof (f_equal snd HH) as H2; cbn [fst snd] in H1, H2.
(** hmat_forget_var *)
Lemma fvar_half : forall n d m, d < n -> forall i j, i < 2 * n -> j <= or1 i -> hmat_forget_var n d m (matpos i j) = fcell false (Nat.eqb d) m i j.
Proof. intros n d m Hd i j Hi Hj. apply forget1_cells; auto. Qed.
Lemma fvar_cells : forall n d m, d < n -> forall i j, i < 2 * n -> j < 2 * n ->
  hmat_forget_var n d m (matpos2 i j) = fcell2 false (Nat.eqb d) m i j.
Proof.
  intros n d m Hd. apply (fcells2 n false). intros i j Hi Hj. apply forget1_cells; auto.
Qed.
Lemma fvar_acells : forall n d m, d < n -> acells n d m (hmat_forget_var n d m) (fun _ => PInf) (fun _ => PInf) PInf PInf.
Proof.
  intros n d m Hd. constructor.
  - intros i j Hi Hj Ni Nj. rewrite (fvar_half n d m Hd i j) by auto. unfold fcell.
    destruct (Nat.eqb_spec d (i / 2)); [congruence|]. destruct (Nat.eqb_spec d (j / 2)); [congruence|]. auto.
  - intros j Hj Nj. rewrite fvar_cells by (auto; lia). unfold fcell2. rewrite div2_even, Nat.eqb_refl. simpl.
    destruct (Nat.eqb_spec (2 * d) j) as [<-|]; [rewrite div2_even in Nj; congruence|]. simpl. destruct (Nat.eqb_spec d (j / 2)); congruence.
  - intros j Hj Nj. rewrite fvar_cells by (auto; lia). unfold fcell2. rewrite div2_even, Nat.eqb_refl, orb_true_r. simpl.
    destruct (Nat.eqb_spec j (2 * d)) as [->|]; [rewrite div2_even in Nj; congruence|]. simpl. destruct (Nat.eqb_spec (j / 2) d); congruence.
  - rewrite (fvar_half n d m Hd) by (rewrite ?or1_even; lia). unfold fcell. rewrite div2_even, div2_odd, !Nat.eqb_refl.
    destruct (Nat.eqb_spec (2 * d) (2 * d + 1)); [lia|]. auto.
  - rewrite (fvar_half n d m Hd) by (rewrite ?or1_odd; lia). unfold fcell. rewrite div2_even, div2_odd, !Nat.eqb_refl.
    destruct (Nat.eqb_spec (2 * d + 1) (2 * d)); [lia|]. auto.
  - rewrite (fvar_half n d m Hd) by (rewrite ?or1_even; lia). unfold fcell. rewrite Nat.eqb_refl, andb_false_r. auto.
  - rewrite (fvar_half n d m Hd) by (rewrite ?or1_odd; lia). unfold fcell. rewrite Nat.eqb_refl, andb_false_r. auto.
Qed.
(** writing the two binary cells of literal [i], or the two unary cells *)
Lemma acells_bin : forall n d m m' A B i lo hi Lo Hi, d < n -> i / 2 <> d -> acells n d m m' Lo Hi A B ->
  acells n d m (upd (upd m' (matpos2 (2 * d) i) lo) (matpos2 i (2 * d)) hi)
    (fun j => if Nat.eqb j i then lo else if Nat.eqb j (xor1 i) then Lo j else Lo j)
    (fun j => if Nat.eqb j i then hi else Hi j) A B.
Proof.
  intros n d m m' A B i lo hi Lo Hi Hd Ni AC.
  assert (I0 : i <> 2 * d) by (intros ->; rewrite div2_even in Ni; auto).
  assert (I1 : i <> xor1 (2 * d)) by (intros ->; rewrite div2_xor1, div2_even in Ni; auto).
  assert (X : forall p q, (p, q) <> (2 * d, i) -> (p, q) <> (xor1 i, xor1 (2 * d)) -> (p, q) <> (i, 2 * d) -> (p, q) <> (xor1 (2 * d), xor1 i) ->
     upd (upd m' (matpos2 (2 * d) i) lo) (matpos2 i (2 * d)) hi (matpos2 p q) = m' (matpos2 p q)).
  { intros p q H1 H2 H3 H4. rewrite upd_other, upd_other; auto; intros Y; apply matpos2_inj in Y; destruct Y as [[-> ->]|[-> ->]]; auto. }
  assert (Y : forall p q, p / 2 = q / 2 -> upd (upd m' (matpos2 (2 * d) i) lo) (matpos2 i (2 * d)) hi (matpos2 p q) = m' (matpos2 p q)).
  { intros p q H. apply X; intros HH; pinj HH HH1 HH2; subst; rewrite ?div2_xor1, ?div2_even in H; congruence. }
  constructor.
  - intros p q Hp Hq Np Nq. rewrite <- matpos2_half by auto. rewrite X; [rewrite matpos2_half by auto; apply (ac_off _ _ _ _ _ _ _ _ AC); auto| | | |];
      intros HH; pinj HH HH1 HH2; subst; rewrite ?div2_xor1, ?div2_even in *; congruence.
  - intros j Hj Nj. destruct (Nat.eqb_spec j i) as [->|D].
    + rewrite upd_other; [apply upd_same|]. intros Y0. apply matpos2_inj in Y0. destruct Y0 as [[? ?]|[? ?]]; auto.
      apply (xor1_neq (2 * d)). auto.
    + replace (if Nat.eqb j (xor1 i) then Lo j else Lo j) with (Lo j) by (destruct (Nat.eqb j (xor1 i)); auto).
      rewrite X; [apply (ac_lo _ _ _ _ _ _ _ _ AC); auto| | | |]; intros HH.
      * pinj HH HH1 HH2; auto.
      * pinj HH HH1 HH2. rewrite HH2, div2_xor1, div2_even in Nj. auto.
      * pinj HH HH1 HH2. auto.
      * pinj HH HH1 HH2. apply (xor1_neq (2 * d)). auto.
  - intros j Hj Nj. destruct (Nat.eqb_spec j i) as [->|D]; [apply upd_same|].
    rewrite X; [apply (ac_hi _ _ _ _ _ _ _ _ AC); auto| | | |]; intros HH; pinj HH HH1 HH2; auto.
    + apply (xor1_neq (2 * d)); auto.
    + rewrite HH1, div2_xor1, div2_even in Nj. auto.
  - rewrite <- (matpos2_half (2 * d) (2 * d + 1)) by (rewrite or1_even; lia). rewrite Y by (rewrite div2_even, div2_odd; auto).
    rewrite matpos2_half by (rewrite or1_even; lia). apply (ac_a _ _ _ _ _ _ _ _ AC).
  - rewrite <- (matpos2_half (2 * d + 1) (2 * d)) by (rewrite or1_odd; lia). rewrite Y by (rewrite div2_even, div2_odd; auto).
    rewrite matpos2_half by (rewrite or1_odd; lia). apply (ac_b _ _ _ _ _ _ _ _ AC).
  - rewrite <- (matpos2_diag (2 * d)). rewrite Y by auto. rewrite matpos2_diag. apply (ac_d0 _ _ _ _ _ _ _ _ AC).
  - rewrite <- (matpos2_diag (2 * d + 1)). rewrite Y by auto. rewrite matpos2_diag. apply (ac_d1 _ _ _ _ _ _ _ _ AC).
Qed.
Lemma acells_un : forall n d m m' A B a b Lo Hi, d < n -> acells n d m m' Lo Hi A B ->
  acells n d m (upd (upd m' (matpos (2 * d) (2 * d + 1)) a) (matpos (2 * d + 1) (2 * d)) b) Lo Hi a b.
Proof.
  intros n d m m' A B a b Lo Hi Hd AC.
  assert (X : forall p q, q <= or1 p -> (p, q) <> (2 * d, 2 * d + 1) -> (p, q) <> (2 * d + 1, 2 * d) ->
     upd (upd m' (matpos (2 * d) (2 * d + 1)) a) (matpos (2 * d + 1) (2 * d)) b (matpos p q) = m' (matpos p q)).
  { intros p q H H1 H2. rewrite upd_other, upd_other; auto; intros Y; apply matpos_inj in Y; auto; try (rewrite ?or1_even, ?or1_odd; lia); destruct Y as [-> ->]; auto. }
  assert (X2 : forall p q, (p / 2 <> d \/ q / 2 <> d) -> upd (upd m' (matpos (2 * d) (2 * d + 1)) a) (matpos (2 * d + 1) (2 * d)) b (matpos2 p q) = m' (matpos2 p q)).
  { intros p q H. destruct (matpos2_cases p q) as [[H1 ->]|[H1 ->]]; apply X; auto; intros HH; pinj HH H2 H3.
    - subst. rewrite ?div2_even, ?div2_odd in H. lia.
    - subst. rewrite ?div2_even, ?div2_odd in H. lia.
    - rewrite <- (div2_xor1 p), <- (div2_xor1 q), H2, H3, ?div2_even, ?div2_odd in H. lia.
    - rewrite <- (div2_xor1 p), <- (div2_xor1 q), H2, H3, ?div2_even, ?div2_odd in H. lia. }
  constructor.
  - intros p q Hp Hq Np Nq. rewrite X; auto; [apply (ac_off _ _ _ _ _ _ _ _ AC); auto| |]; intros HH; pinj HH HH1 HH2; subst; rewrite ?div2_even, ?div2_odd in *; auto.
  - intros j Hj Nj. rewrite X2 by auto. apply (ac_lo _ _ _ _ _ _ _ _ AC); auto.
  - intros j Hj Nj. rewrite X2 by auto. apply (ac_hi _ _ _ _ _ _ _ _ AC); auto.
  - rewrite upd_other; [apply upd_same|]. intros Y; apply matpos_inj in Y; rewrite ?or1_even, ?or1_odd; lia.
  - apply upd_same.
  - rewrite X; [apply (ac_d0 _ _ _ _ _ _ _ _ AC)|apply or1_ge| |]; intros HH; injection HH; lia.
  - rewrite X; [apply (ac_d1 _ _ _ _ _ _ _ _ AC)|apply or1_ge| |]; intros HH; injection HH; lia.
Qed.

Lemma gam_upd : forall n x w i j b, i < 2 * n -> j < 2 * n -> gam n x w -> le_rb (lit w j - lit w i) b -> gam n (upd x (matpos2 i j) b) w.
Proof.
  intros n x w i j b Hi Hj G H p q Hp Hq. unfold upd. destruct (Nat.eqb_spec (matpos p q) (matpos2 i j)) as [Ep|]; auto.
  symmetry in Ep. apply matpos2_inv in Ep; auto. destruct Ep as [[-> ->]|[-> ->]]; auto. eapply le_rb_le; [|exact H]. rewrite !lit_xor1. lra.
Qed.
Lemma upd_wf : forall n x p b, wfm n x -> b <> MInf -> wfm n (upd x p b).
Proof. intros n x p b W H i j Hi Hj. unfold upd. destruct (Nat.eqb _ _); auto. Qed.
Lemma upd_agree : forall n d m x i j b, (i / 2 = d \/ j / 2 = d) -> agree_except n d m x -> agree_except n d m (upd x (matpos2 i j) b).
Proof.
  intros n d m x i j b H A p q Hp Hq Np Nq. rewrite upd_other; [apply A; auto|]. intros Ep. symmetry in Ep. apply matpos2_inv in Ep; auto.
  destruct Ep as [[-> ->]|[-> ->]]; rewrite ?div2_xor1 in H; tauto.
Qed.

(** ** General expressions *)
Section Half2.
Context {N : numtype}.
Variables (n : nat) (B0 : bound) (T : nat -> bound) (s : osum) (lo hi : hmat).
Hypothesis HS : osum_ok n B0 T s.
Variables (m : hmat) (v c : nat -> R) (c0 : R).
Hypothesis G0 : gam n m v.
Hypothesis HB0 : le_rb (2 * c0) B0.
Hypothesis Hc : forall j, j < n -> in2 (c j) (lo j) (hi j).
Hypothesis HT : forall j x, j < n -> in2 x (m (matpos (2 * j) (2 * j + 1))) (m (matpos (2 * j + 1) (2 * j))) -> le_rb (x * c j) (T j).
Hypothesis I0 : s_inf s = 0.
Lemma one_bound : forall k di, k < n -> le_rb (2 * (c k * v k) + di) (T k) -> le_rb (2 * (c0 + lsum n c v) + di) (s_b s).
Proof.
  intros k di Hk Pk. set (g := fun j => if Nat.eqb j k then di else 0%R).
  pose proof (os_le _ _ _ _ HS (fun j => 2 * (c j * v j) + g j)%R (2 * c0)%R HB0) as H.
  assert (X : lsum n (fun j => 2 * (c j * v j) + g j)%R one = (2 * lsum n c v + di)%R).
  { rewrite lsum_add, lsum_scale. f_equal.
    - f_equal. apply lsum_ext. intros. unfold one. ring.
    - rewrite (lsum_one n g one k Hk).
      + unfold g, one. rewrite Nat.eqb_refl. ring.
      + intros j Hj D. unfold g. destruct (Nat.eqb_spec j k); [congruence|]. ring. }
  rewrite X in H. eapply le_rb_le; [|apply H].
  - lra.
  - intros j Hj Bj. unfold g. destruct (Nat.eqb_spec j k) as [->|]; auto. rewrite Rplus_0_r.
    eapply le_rb_le; [|apply (HT j (2 * v j)%R Hj)]; [lra|]. apply (gam_unary n); auto.
  - intros j Hj Bj. rewrite (os_0 _ _ _ _ HS I0 j Hj) in Bj. discriminate.
Qed.
Lemma zero_bound : le_rb (2 * (c0 + lsum n c v)) (s_b s).
Proof.
  pose proof (os_le _ _ _ _ HS (fun j => 2 * (c j * v j))%R (2 * c0)%R HB0) as H.
  assert (X : lsum n (fun j => 2 * (c j * v j))%R one = (2 * lsum n c v)%R).
  { rewrite lsum_scale. f_equal. apply lsum_ext. intros. unfold one. ring. }
  rewrite X in H. eapply le_rb_le; [|apply H]; [lra| |].
  - intros j Hj Bj. eapply le_rb_le; [|apply (HT j (2 * v j)%R Hj)]; [lra|]. apply (gam_unary n); auto.
  - intros j Hj Bj. rewrite (os_0 _ _ _ _ HS I0 j Hj) in Bj. discriminate.
Qed.
Lemma hb1 : forall k q, k < n -> ile (lo k) (-1) = true -> m (matpos (2 * k + 1) (2 * k)) = Fin q -> le_rb (2 * (c0 + lsum n c v) + (Q2R q - 2 * v k)) (s_b s).
Proof.
  intros k q Hk I1 E1. apply (one_bound k); auto. destruct (Hc k Hk) as [C1 C2]. destruct (gam_unary n m v k G0 Hk) as [V1 V2].
  pose proof (ile_spec _ _ _ I1 C1) as CC. simpl in CC. rewrite E1 in V2. simpl in V2.
  eapply le_rb_le; [|apply (HT k (Q2R q) Hk)]; [nra|]. split; [eapply le_rb_le; [|exact V1]; lra|]. rewrite E1. simpl. lra.
Qed.
Lemma hb2 : forall k q, k < n -> ile (hi k) (-1) = true -> m (matpos (2 * k) (2 * k + 1)) = Fin q -> le_rb (2 * (c0 + lsum n c v) + (Q2R q + 2 * v k)) (s_b s).
Proof.
  intros k q Hk I1 E1. apply (one_bound k); auto. destruct (Hc k Hk) as [C1 C2]. destruct (gam_unary n m v k G0 Hk) as [V1 V2].
  pose proof (ile_spec _ _ _ I1 C2) as CC. simpl in CC. rewrite E1 in V1. simpl in V1.
  eapply le_rb_le; [|apply (HT k (- Q2R q)%R Hk)]; [nra|]. split; [|eapply le_rb_le; [|exact V2]; lra]. rewrite E1. simpl. lra.
Qed.
End Half2.

Section Other.
Context {N : numtype}.
Variables (n d : nat) (tmp m : hmat).
Hypothesis Hd : d < n.
(** no sum contains exactly one unbounded term *)
(** the two cells after the coefficients, read by mistake when exactly one term is unbounded, hold an opposite pair 1, -1 *)
Definition stale (t : hmat) : Prop :=
  ieq (t (2 * n + 3)) 1 && ieq (t (2 * n + 2)) (-1) = true \/ ieq (t (2 * n + 3)) (-1) && ieq (t (2 * n + 2)) 1 = true.
Definition other_ok : Prop := let '(t, cs, Cs) := other_sums (N:=N) n m tmp in (s_inf cs <> 1 /\ s_inf Cs <> 1) \/ ~ stale t.
(** invariant principle for the matrix computed by the general assignment *)
Lemma assign_other_inv : forall (P : hmat -> Prop) tmp' cs Cs, other_sums (N:=N) n m tmp = (tmp', cs, Cs) ->
  P (hmat_forget_var n d m) ->
  (forall x, P x -> s_inf Cs = 0 -> P (upd x (matpos2 (2 * d + 1) (2 * d)) (s_b Cs))) ->
  (forall x, P x -> s_inf cs = 0 -> P (upd x (matpos2 (2 * d) (2 * d + 1)) (s_b cs))) ->
  (forall x i q, P x -> s_inf Cs = 0 -> i < n -> i <> d -> ile (tmp' (2 * i + 2)) (-1) = true -> x (matpos (2 * i + 1) (2 * i)) = Fin q ->
     P (upd x (matpos2 (2 * i) (2 * d)) (bdiv_2 (N:=N) (bsub (N:=N) (s_b Cs) (Fin q))))) ->
  (forall x i q, P x -> s_inf Cs = 0 -> i < n -> i <> d -> ile (tmp' (2 * i + 3)) (-1) = true -> x (matpos (2 * i) (2 * i + 1)) = Fin q ->
     P (upd x (matpos2 (2 * i + 1) (2 * d)) (bdiv_2 (N:=N) (bsub (N:=N) (s_b Cs) (Fin q))))) ->
  (forall x i q, P x -> s_inf cs = 0 -> i < n -> i <> d -> ile (tmp' (2 * i + 2)) (-1) = true -> x (matpos (2 * i) (2 * i + 1)) = Fin q ->
     P (upd x (matpos2 (2 * i + 1) (2 * d + 1)) (bdiv_2 (N:=N) (bsub (N:=N) (s_b cs) (Fin q))))) ->
  (forall x i q, P x -> s_inf cs = 0 -> i < n -> i <> d -> ile (tmp' (2 * i + 3)) (-1) = true -> x (matpos (2 * i + 1) (2 * i)) = Fin q ->
     P (upd x (matpos2 (2 * i) (2 * d + 1)) (bdiv_2 (N:=N) (bsub (N:=N) (s_b cs) (Fin q))))) ->
  (forall x u, P x -> stale tmp' -> s_inf Cs = 1 -> s_1 Cs <> d -> u / 2 = s_1 Cs -> P (upd x (matpos2 u (2 * d)) (bdiv_2 (N:=N) (s_b Cs)))) ->
  (forall x u, P x -> stale tmp' -> s_inf cs = 1 -> s_1 cs <> d -> u / 2 = s_1 cs -> P (upd x (matpos2 (2 * d) u) (bdiv_2 (N:=N) (s_b cs)))) ->
  P (assign_other (N:=N) tmp m n d).
Proof.
  intros P tmp' cs Cs OS HF HC Hc' L1 L2 L3 L4 S1 S2. unfold assign_other. rewrite OS.
  set (sp := _ && _). set (sn := _ && _).
  assert (SPe : sp = true -> stale tmp') by (intros; left; auto). assert (SNe : sn = true -> stale tmp') by (intros; right; auto). clearbody sp sn.
  match goal with |- context[for_ 0 n _ (upd ?X (matpos (2 * d) (2 * d + 1)) (s_b cs))] => set (m1 := X) end.
  assert (F1 : P m1).
  { subst m1. destruct (s_inf Cs) as [|[|k]] eqn:I; auto.
    - apply for_inv.
      + rewrite <- (matpos2_half (2 * d + 1) (2 * d)) by (rewrite or1_odd; lia). auto.
      + intros i x Hi Px. destruct (Nat.eqb_spec i d); auto.
        destruct (ile (tmp' (2 * i + 2)) (-1) && negb (binfty (x (matpos (2 * i + 1) (2 * i))))) eqn:T1.
        { apply andb_true_iff in T1 as [T1 T2]. apply negb_true_iff, binfty_fin in T2. destruct T2 as [q Eq]. rewrite Eq. apply L1; auto. lia. }
        destruct (ile (tmp' (2 * i + 3)) (-1) && negb (binfty (x (matpos (2 * i) (2 * i + 1))))) eqn:T2; auto.
        apply andb_true_iff in T2 as [T2 T3]. apply negb_true_iff, binfty_fin in T3. destruct T3 as [q Eq]. rewrite Eq. apply L2; auto. lia.
    - destruct (Nat.eqb_spec (s_1 Cs) d); auto. destruct sp; [apply S1; auto; apply div2_even|]. destruct sn; [apply S1; auto; apply div2_odd|auto]. }
  clearbody m1. destruct (s_inf cs) as [|[|k]] eqn:I; auto.
  - apply for_inv.
    + rewrite <- (matpos2_half (2 * d) (2 * d + 1)) by (rewrite or1_even; lia). auto.
    + intros i x Hi Px. destruct (Nat.eqb_spec i d); auto.
      destruct (ile (tmp' (2 * i + 2)) (-1) && negb (binfty (x (matpos (2 * i) (2 * i + 1))))) eqn:T1.
      { apply andb_true_iff in T1 as [T1 T2]. apply negb_true_iff, binfty_fin in T2. destruct T2 as [q Eq]. rewrite Eq. apply L3; auto. lia. }
      destruct (ile (tmp' (2 * i + 3)) (-1) && negb (binfty (x (matpos (2 * i + 1) (2 * i))))) eqn:T2; auto.
      apply andb_true_iff in T2 as [T2 T3]. apply negb_true_iff, binfty_fin in T3. destruct T3 as [q Eq]. rewrite Eq. apply L4; auto. lia.
  - destruct (Nat.eqb_spec (s_1 cs) d); auto. destruct sp; [apply S2; auto; apply div2_even|]. destruct sn; [apply S2; auto; apply div2_odd|auto].
Qed.
Lemma un_agree : forall x i, agree_except n d m x -> i < n -> i <> d ->
  x (matpos (2 * i + 1) (2 * i)) = m (matpos (2 * i + 1) (2 * i)) /\ x (matpos (2 * i) (2 * i + 1)) = m (matpos (2 * i) (2 * i + 1)).
Proof. intros x i A Hi D. split; apply A; rewrite ?or1_even, ?or1_odd, ?div2_even, ?div2_odd; auto; lia. Qed.
Lemma other_sound : forall v c c0, nndiag n m -> gam n m v -> in2 c0 (tmp 0) (tmp 1) -> (forall j, j < n -> in2 (c j) (tmp (2 * j + 2)) (tmp (2 * j + 3))) ->
  other_ok -> gam n (assign_other (N:=N) tmp m n d) (vset v d (c0 + lsum n c v)).
Proof.
  intros v c c0 ND G C0 CC OK. unfold other_ok in OK. destruct (other_sums n m tmp) as [[tmp' cs] Cs] eqn:OS. 
  destruct (other_sums_spec n m tmp tmp' cs Cs OS) as (FR & OL & OH).
  set (r := (c0 + lsum n c v)%R). set (w := vset v d r).
  assert (WD : lit w (2 * d) = r /\ lit w (2 * d + 1) = (- r)%R) by (rewrite lit_even, lit_odd; unfold w; rewrite vset_same; auto).
  assert (WO : forall i, i <> d -> lit w (2 * i) = v i /\ lit w (2 * i + 1) = (- v i)%R).
  { intros i Ni. rewrite lit_even, lit_odd. unfold w. rewrite vset_other by auto. auto. }
  destruct C0 as [C01 C02].
  assert (HTC : forall j x, j < n -> in2 x (m (matpos (2 * j) (2 * j + 1))) (m (matpos (2 * j + 1) (2 * j))) -> le_rb (x * c j) (Thi (N:=N) m tmp j)).
  { intros j x Hj Hx. unfold Thi. destruct (bounds_mul (N:=N) tmp 0 _ _ _ _) as [[t' ti] ts] eqn:BM. simpl.
    apply (bounds_mul_sound _ _ _ _ _ _ _ _ _ x (c j) BM Hx (CC j Hj)). }
  assert (HTc : forall j x, j < n -> in2 x (m (matpos (2 * j) (2 * j + 1))) (m (matpos (2 * j + 1) (2 * j))) -> le_rb (x * - c j) (Tlo (N:=N) m tmp j)).
  { intros j x Hj Hx. unfold Tlo. destruct (bounds_mul (N:=N) tmp 0 _ _ _ _) as [[t' ti] ts] eqn:BM. simpl.
    destruct (bounds_mul_sound _ _ _ _ _ _ _ _ _ x (c j) BM Hx (CC j Hj)) as [X1 _]. eapply le_rb_le; [|exact X1]. lra. }
  assert (B2 : le_rb (2 * c0) (bmul_2 (N:=N) (tmp 1))) by (apply bmul_2_sound; auto).
  assert (B1 : le_rb (2 * - c0) (bmul_2 (N:=N) (tmp 0))) by (apply bmul_2_sound; auto).
  assert (CL : forall j, j < n -> in2 (c j) (tmp' (2 * j + 2)) (tmp' (2 * j + 3))) by (intros; rewrite !FR by lia; auto).
  assert (CL' : forall j, j < n -> in2 (- c j) (tmp' (2 * j + 3)) (tmp' (2 * j + 2))).
  { intros j Hj. destruct (CL j Hj). split; auto. rewrite Ropp_involutive; auto. }
  assert (NR : (- r = - c0 + lsum n (fun j => - c j) v)%R) by (rewrite lsum_opp; unfold r; ring).
  apply (assign_other_inv (fun x => gam n x w /\ agree_except n d m x) tmp' cs Cs OS).
  - split; [|apply (ac_off _ _ _ _ _ _ _ _ (fvar_acells n d m Hd))]. apply (ac_gam _ _ _ _ _ _ _ _ Hd (fvar_acells n d m Hd)); auto.
    split; [intros i j Hi Hj _ _; apply gam_full with n; auto|]. split; [simpl; auto|]. simpl; auto.
  - intros x [Gx Ax] I. split; [|apply upd_agree; auto; right; apply div2_even]. apply gam_upd; auto; try lia. destruct WD as [-> ->].
    pose proof (zero_bound n _ _ Cs OH m v c c0 G B2 HTC I) as ZB. eapply le_rb_le; [|exact ZB]. unfold r. lra.
  - intros x [Gx Ax] I. split; [|apply upd_agree; auto; left; apply div2_even]. apply gam_upd; auto; try lia. destruct WD as [-> ->].
    pose proof (zero_bound n _ _ cs OL m v (fun j => - c j)%R (- c0)%R G B1 HTc I) as ZB. rewrite <- NR in ZB. eapply le_rb_le; [|exact ZB]. lra.
  - intros x i q [Gx Ax] I Hi Ni T1 Eq. split; [|apply upd_agree; auto; right; apply div2_even]. apply gam_upd; auto; try lia.
    destruct WD as [-> _]. destruct (WO i Ni) as [-> _]. rewrite (proj1 (un_agree x i Ax Hi Ni)) in Eq.
    replace (r - v i)%R with ((2 * r - 2 * v i) / 2)%R by field. apply bdiv_2_sound, bsub_fin_sound.
    pose proof (hb1 n _ _ Cs (fun j => tmp' (2 * j + 2)) (fun j => tmp' (2 * j + 3)) OH m v c c0 G B2 CL HTC I i q Hi T1 Eq) as ZB. eapply le_rb_le; [|exact ZB]. unfold r. lra.
  - intros x i q [Gx Ax] I Hi Ni T1 Eq. split; [|apply upd_agree; auto; right; apply div2_even]. apply gam_upd; auto; try lia.
    destruct WD as [-> _]. destruct (WO i Ni) as [_ ->]. rewrite (proj2 (un_agree x i Ax Hi Ni)) in Eq.
    replace (r - - v i)%R with ((2 * r + 2 * v i) / 2)%R by field. apply bdiv_2_sound, bsub_fin_sound.
    pose proof (hb2 n _ _ Cs (fun j => tmp' (2 * j + 2)) (fun j => tmp' (2 * j + 3)) OH m v c c0 G B2 CL HTC I i q Hi T1 Eq) as ZB. eapply le_rb_le; [|exact ZB]. unfold r. lra.
  - intros x i q [Gx Ax] I Hi Ni T1 Eq. split; [|apply upd_agree; auto; right; apply div2_odd]. apply gam_upd; auto; try lia.
    destruct WD as [_ ->]. destruct (WO i Ni) as [_ ->]. rewrite (proj2 (un_agree x i Ax Hi Ni)) in Eq.
    replace (- r - - v i)%R with ((2 * - r + 2 * v i) / 2)%R by field. apply bdiv_2_sound, bsub_fin_sound.
    pose proof (hb2 n _ _ cs (fun j => tmp' (2 * j + 3)) (fun j => tmp' (2 * j + 2)) OL m v (fun j => - c j)%R (- c0)%R G B1 CL' HTc I i q Hi T1 Eq) as ZB.
    rewrite <- NR in ZB. eapply le_rb_le; [|exact ZB]. lra.
  - intros x i q [Gx Ax] I Hi Ni T1 Eq. split; [|apply upd_agree; auto; right; apply div2_odd]. apply gam_upd; auto; try lia.
    destruct WD as [_ ->]. destruct (WO i Ni) as [-> _]. rewrite (proj1 (un_agree x i Ax Hi Ni)) in Eq.
    replace (- r - v i)%R with ((2 * - r - 2 * v i) / 2)%R by field. apply bdiv_2_sound, bsub_fin_sound.
    pose proof (hb1 n _ _ cs (fun j => tmp' (2 * j + 3)) (fun j => tmp' (2 * j + 2)) OL m v (fun j => - c j)%R (- c0)%R G B1 CL' HTc I i q Hi T1 Eq) as ZB.
    rewrite <- NR in ZB. eapply le_rb_le; [|exact ZB]. lra.
  - intros; destruct OK as [[OK1 OK2]|OK]; [congruence|tauto].
  - intros; destruct OK as [[OK1 OK2]|OK]; [congruence|tauto].
Qed.
Lemma upd_nndiag : forall x i j b, i <> j -> nndiag n x -> nndiag n (upd x (matpos2 i j) b).
Proof.
  clear Hd. intros x i j b D H p Hp. rewrite upd_other; auto. intros Ep. rewrite <- (matpos2_diag p) in Ep. apply matpos2_inj in Ep.
  destruct Ep as [[-> ->]|[Ep1 Ep2]]; auto. apply D. apply xor1_inj. congruence.
Qed.
Lemma other_wf : wfm n m -> nndiag n m -> tmp 0 <> MInf -> tmp 1 <> MInf -> (forall j, j < n -> Tlo (N:=N) m tmp j <> MInf /\ Thi (N:=N) m tmp j <> MInf) ->
  wfm n (assign_other (N:=N) tmp m n d) /\ nndiag n (assign_other (N:=N) tmp m n d).
Proof.
  intros W ND T0 T1 TT. destruct (other_sums (N:=N) n m tmp) as [[tmp' cs] Cs] eqn:OS. destruct (other_sums_spec n m tmp tmp' cs Cs OS) as (FR & OL & OH).
  assert (SL : s_b cs <> MInf) by (apply (os_m _ _ _ _ OL); [apply bmul_2_not_MInf; auto|intros; apply TT; auto]).
  assert (SH : s_b Cs <> MInf) by (apply (os_m _ _ _ _ OH); [apply bmul_2_not_MInf; auto|intros; apply TT; auto]).
  assert (NE : forall p q, p / 2 <> q / 2 -> p <> q) by (intros p q H ->; auto).
  apply (assign_other_inv (fun x => wfm n x /\ nndiag n x) tmp' cs Cs OS); intros;
    try match goal with H : wfm _ _ /\ nndiag _ _ |- _ => destruct H end.
  - split; [|apply (ac_nndiag _ _ _ _ _ _ _ _ Hd (fvar_acells n d m Hd)); auto].
    apply (ac_wfm _ _ _ _ _ _ _ _ Hd (fvar_acells n d m Hd)); auto; try discriminate. intros; split; discriminate.
  - split; [apply upd_wf; auto|apply upd_nndiag; auto; lia].
  - split; [apply upd_wf; auto|apply upd_nndiag; auto; lia].
  - split; [apply upd_wf; auto|apply upd_nndiag; auto; lia]. apply bdiv_2_not_MInf, bsub_fin_not_MInf; auto.
  - split; [apply upd_wf; auto|apply upd_nndiag; auto; lia]. apply bdiv_2_not_MInf, bsub_fin_not_MInf; auto.
  - split; [apply upd_wf; auto|apply upd_nndiag; auto; lia]. apply bdiv_2_not_MInf, bsub_fin_not_MInf; auto.
  - split; [apply upd_wf; auto|apply upd_nndiag; auto; lia]. apply bdiv_2_not_MInf, bsub_fin_not_MInf; auto.
  - split; [apply upd_wf; auto; apply bdiv_2_not_MInf; auto|apply upd_nndiag; auto]. apply NE. rewrite div2_even. congruence.
  - split; [apply upd_wf; auto; apply bdiv_2_not_MInf; auto|apply upd_nndiag; auto]. apply NE. rewrite div2_even. congruence.
Qed.
End Other.

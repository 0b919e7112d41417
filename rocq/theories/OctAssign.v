(** Assignment and substitution loops of octagons: cells of the results. *)
From Coq Require Import Arith Lia List ZArith QArith Qreals Reals Lra Bool.
From Verif Require Import Bound BoundFacts Linexpr LinexprFacts OctMat OctIdx OctClose OctWalk OctInc OctStrong OctGeom OctGeom2 Oct OctFacts OctFacts2 OctFacts3 OctForget OctTransfer OctUexpr OctGuard OctGuard2 OctGuard3.
Import ListNotations.
Open Scope nat_scope.
#[local] Arguments Nat.div : simpl never.
#[local] Arguments Nat.modulo : simpl never.
#[local] Arguments Nat.mul : simpl never.
#[local] Arguments Nat.leb : simpl never.
#[local] Arguments Nat.ltb : simpl never.
#[local] Arguments xor1 : simpl never.
#[local] Arguments or1 : simpl never.
#[local] Arguments matpos : simpl never.
#[local] Arguments matpos2 : simpl never.
Local Notation E := exact_num.

(** a loop that writes two cells at each turn *)
Lemma loop2 : forall (lo hi : nat) (f : nat -> hmat -> hmat) (P1 P2 : nat -> nat) (F G : nat -> bound) (m0 : hmat), lo <= hi ->
  (forall k k', lo <= k < hi -> lo <= k' < hi -> (P1 k = P1 k' -> k = k') /\ (P2 k = P2 k' -> k = k') /\ P1 k <> P2 k') ->
  (forall k m p, lo <= k < hi -> p <> P1 k -> p <> P2 k -> f k m p = m p) ->
  (forall k m, lo <= k < hi -> (forall p, (forall k', lo <= k' < k -> p <> P1 k' /\ p <> P2 k') -> m p = m0 p) -> f k m (P1 k) = F k /\ f k m (P2 k) = G k) ->
  (forall k, lo <= k < hi -> for_ lo hi f m0 (P1 k) = F k /\ for_ lo hi f m0 (P2 k) = G k) /\
  (forall p, (forall k, lo <= k < hi -> p <> P1 k /\ p <> P2 k) -> for_ lo hi f m0 p = m0 p).
Proof.
  intros lo hi f P1 P2 F G m0 L D FR V.
  apply (for_ind (fun i m => (forall k, lo <= k < i -> m (P1 k) = F k /\ m (P2 k) = G k) /\ (forall p, (forall k, lo <= k < i -> p <> P1 k /\ p <> P2 k) -> m p = m0 p))); auto.
  - split; intros; [lia|auto].
  - intros i m Hi [I1 I2]. destruct (V i m Hi I2) as [V1 V2]. split.
    + intros k Hk. destruct (Nat.eq_dec k i) as [->|NE]; auto.
      destruct (D k i) as (D1 & D2 & D3); try lia. destruct (D i k) as (_ & _ & D4); try lia. assert (NE' : P1 k <> P1 i) by (intros X; apply NE, D1, X). assert (NE'' : P2 k <> P2 i) by (intros X; apply NE, D2, X).
      rewrite !FR by (auto; lia). apply I1. lia.
    + intros p Hp. destruct (Hp i) as [H1 H2]; [lia|]. rewrite FR by auto. apply I2. intros k Hk. apply Hp. lia.
Qed.

(** the cells of a matrix that differs from [m] in the constraints on variable [d] only *)
Record acells (n d : nat) (m m' : hmat) (Lo Hi : nat -> bound) (A B : bound) : Prop := {
  ac_off : agree_except n d m m';
  ac_lo : forall j, j < 2 * n -> j / 2 <> d -> m' (matpos2 (2 * d) j) = Lo j;
  ac_hi : forall j, j < 2 * n -> j / 2 <> d -> m' (matpos2 j (2 * d)) = Hi j;
  ac_a : m' (matpos (2 * d) (2 * d + 1)) = A;
  ac_b : m' (matpos (2 * d + 1) (2 * d)) = B;
  ac_d0 : m' (matpos (2 * d) (2 * d)) = m (matpos (2 * d) (2 * d));
  ac_d1 : m' (matpos (2 * d + 1) (2 * d + 1)) = m (matpos (2 * d + 1) (2 * d + 1)) }.

Definition row1 (d k : nat) : nat := matpos (2 * d) k.
Definition row2 (d k : nat) : nat := matpos (2 * d + 1) k.
Definition col1 (d k : nat) : nat := matpos k (2 * d).
Definition col2 (d k : nat) : nat := matpos k (2 * d + 1).
Lemma off_var : forall i d, i / 2 <> d <-> i < 2 * d \/ 2 * d + 2 <= i.
Proof. intros. pose proof (Nat.div_mod i 2 ltac:(lia)). pose proof (Nat.mod_upper_bound i 2 ltac:(lia)). split; intros; try lia. Qed.
Lemma xor1_off : forall i d, i < 2 * d \/ 2 * d + 2 <= i -> (i < 2 * d -> xor1 i < 2 * d) /\ (2 * d + 2 <= i -> 2 * d + 2 <= xor1 i).
Proof.
  intros i d H. destruct (par_cases i) as [x [-> | ->]]; rewrite ?xor1_even, ?xor1_odd; lia.
Qed.
Lemma or1_lt_even : forall i d, i < 2 * d -> or1 i < 2 * d.
Proof. intros i d H. destruct (par_cases i) as [x [-> | ->]]; rewrite ?or1_even, ?or1_odd; lia. Qed.

Lemma dloops : forall n d m0 f1 f2 Lo Hi A B x y p q, d < n ->
  (forall k m r, k < 2 * d -> r <> row1 d k -> r <> row2 d k -> f1 k m r = m r) ->
  (forall k m, k < 2 * d -> (forall r, (forall k', k' < k -> r <> row1 d k' /\ r <> row2 d k') -> m r = m0 r) ->
     f1 k m (row1 d k) = Lo k /\ f1 k m (row2 d k) = Hi (xor1 k)) ->
  (forall k m r, 2 * d + 2 <= k < 2 * n -> r <> col1 d k -> r <> col2 d k -> f2 k m r = m r) ->
  (forall k m, 2 * d + 2 <= k < 2 * n -> (forall r, (forall k', k' < 2 * d -> r <> row1 d k' /\ r <> row2 d k') -> (forall k', 2 * d + 2 <= k' < k -> r <> col1 d k' /\ r <> col2 d k') -> m r = m0 r) ->
     f2 k m (col1 d k) = Hi k /\ f2 k m (col2 d k) = Lo (xor1 k)) ->
  (let mm := for_ (2 * d + 2) (2 * n) f2 (for_ 0 (2 * d) f1 m0) in
   mm (matpos (2 * d) (2 * d + 1)) = m0 (matpos (2 * d) (2 * d + 1)) -> mm (matpos (2 * d + 1) (2 * d)) = m0 (matpos (2 * d + 1) (2 * d)) ->
   matpos (2 * d) (2 * d + 1) <> matpos (2 * d + 1) (2 * d) ->
   (p = matpos (2 * d) (2 * d + 1) /\ q = matpos (2 * d + 1) (2 * d) /\ x = A /\ y = B) \/
   (q = matpos (2 * d) (2 * d + 1) /\ p = matpos (2 * d + 1) (2 * d) /\ y = A /\ x = B)) ->
  acells n d m0 (upd (upd (for_ (2 * d + 2) (2 * n) f2 (for_ 0 (2 * d) f1 m0)) p x) q y) Lo Hi A B.
Proof.
  intros n d m0 f1 f2 Lo Hi A B x y p q Hd FR1 V1 FR2 V2 PQ.
  assert (R1 : forall k, k < 2 * d -> k <= or1 (2 * d) /\ k <= or1 (2 * d + 1)) by (intros; rewrite or1_even, or1_odd; lia).
  assert (C1 : forall k, 2 * d + 2 <= k -> 2 * d <= or1 k /\ 2 * d + 1 <= or1 k) by (intros k H; pose proof (or1_ge k); lia).
  assert (A1 : 2 * d + 1 <= or1 (2 * d) /\ 2 * d <= or1 (2 * d + 1)) by (rewrite or1_even, or1_odd; lia).
  destruct (loop2 0 (2 * d) f1 (row1 d) (row2 d) Lo (fun k => Hi (xor1 k)) m0) as [W1 F1]; try lia.
  { intros k k' Hk Hk'. destruct (R1 k), (R1 k'); try lia. unfold row1, row2. repeat split; intros Z0; apply matpos_inj in Z0; auto; lia. }
  { intros k m r Hk. apply FR1. lia. }
  { intros k m Hk Hm. apply V1; [lia|]. intros r Hr. apply Hm. intros k' Hk'. apply Hr. lia. }
  set (m1 := for_ 0 (2 * d) f1 m0) in *.
  destruct (loop2 (2 * d + 2) (2 * n) f2 (col1 d) (col2 d) Hi (fun k => Lo (xor1 k)) m1) as [W2 F2]; try lia.
  { intros k k' Hk Hk'. destruct (C1 k), (C1 k'); try lia. unfold col1, col2. repeat split; intros Z0; apply matpos_inj in Z0; auto; lia. }
  { intros k m r Hk. apply FR2. lia. }
  { intros k m Hk Hm. apply V2; [lia|]. intros r Hr1 Hr2. rewrite Hm by auto. apply F1. intros k' Hk'. apply Hr1. lia. }
  set (m2 := for_ (2 * d + 2) (2 * n) f2 m1) in *.
  assert (OFF : forall i j, i < 2 * n -> j <= or1 i -> (i / 2 = d -> j / 2 = d) -> (j / 2 = d -> i / 2 = d) -> m2 (matpos i j) = m0 (matpos i j)).
  { intros i j Hi0 Hj N1 N2. rewrite F2, F1; auto.
    - intros k Hk. destruct (R1 k); [lia|]. unfold row1, row2. split; intros Z0; apply matpos_inj in Z0; auto; destruct Z0 as [-> ->].
      + rewrite div2_even in N1. specialize (N1 eq_refl). apply (proj2 (off_var k d)); auto. lia.
      + rewrite div2_odd in N1. specialize (N1 eq_refl). apply (proj2 (off_var k d)); auto. lia.
    - intros k Hk. destruct (C1 k); [lia|]. unfold col1, col2. split; intros Z0; apply matpos_inj in Z0; auto; destruct Z0 as [-> ->].
      + rewrite div2_even in N2. specialize (N2 eq_refl). apply (proj2 (off_var k d)); auto. lia.
      + rewrite div2_odd in N2. specialize (N2 eq_refl). apply (proj2 (off_var k d)); auto. lia. }
  assert (Z00 : matpos (2 * d) (2 * d + 1) <> matpos (2 * d + 1) (2 * d)) by (intros Z0; apply matpos_inj in Z0; lia).
  assert (PQ' := PQ (OFF (2 * d) (2 * d + 1) ltac:(lia) (proj1 A1) (fun _ => div2_odd d) (fun _ => div2_even d)) (OFF (2 * d + 1) (2 * d) ltac:(lia) (proj2 A1) (fun _ => div2_even d) (fun _ => div2_odd d)) Z00).
  clear PQ. rename PQ' into PQ.
  assert (U : forall i j, j <= or1 i -> ~ (i = 2 * d /\ j = 2 * d + 1) -> ~ (i = 2 * d + 1 /\ j = 2 * d) -> upd (upd m2 p x) q y (matpos i j) = m2 (matpos i j)).
  { intros i j Hj N1 N2. destruct PQ as [(-> & -> & _)|(-> & -> & _)]; rewrite !upd_other; auto; intros Z0; apply matpos_inj in Z0; tauto. }
  assert (ROW : forall k, k < 2 * d -> m2 (row1 d k) = Lo k /\ m2 (row2 d k) = Hi (xor1 k)).
  { intros k Hk. destruct (R1 k Hk). rewrite !F2; [apply W1; lia|..]; intros k' Hk'; destruct (C1 k'); try lia; unfold row1, row2, col1, col2; split; intros Z0; apply matpos_inj in Z0; auto; lia. }
  constructor.
  - intros i j Hi0 Hj N1 N2. rewrite U; auto; [apply OFF; tauto|..]; intros [-> ->]; rewrite ?div2_even, ?div2_odd in *; tauto.
  - intros j Hj Nj. apply off_var in Nj. destruct Nj as [Nj|Nj].
    + rewrite matpos2_half by (rewrite or1_even; lia). rewrite U by (rewrite ?or1_even; lia). apply ROW; auto.
    + destruct (xor1_off j d (or_intror Nj)) as [_ X]. specialize (X Nj). pose proof (xor1_lt _ _ Hj) as X2.
      rewrite <- matpos2_coh by lia. rewrite xor1_even. destruct (C1 _ X). rewrite matpos2_half by auto. rewrite U by lia.
      destruct (W2 (xor1 j)) as [_ W]; [lia|]. unfold col2 in W. change (m2 (matpos (xor1 j) (2 * d + 1)) = Lo (xor1 (xor1 j))) in W. rewrite xor1_invol in W. exact W.
  - intros j Hj Nj. apply off_var in Nj. destruct Nj as [Nj|Nj].
    + destruct (xor1_off j d (or_introl Nj)) as [X _]. specialize (X Nj).
      rewrite <- matpos2_coh by lia. rewrite xor1_even. destruct (R1 _ X). rewrite matpos2_half by auto. rewrite U by lia.
      destruct (ROW (xor1 j) X) as [_ W]. unfold row2 in W. rewrite W, xor1_invol. auto.
    + destruct (C1 _ Nj). rewrite matpos2_half by auto. rewrite U by lia. apply (proj1 (W2 j ltac:(lia))).
  - assert (Z0 : matpos (2 * d) (2 * d + 1) <> matpos (2 * d + 1) (2 * d)) by (intros Z0; apply matpos_inj in Z0; lia).
    destruct PQ as [(-> & -> & -> & ->)|(-> & -> & -> & ->)]; [rewrite upd_other by auto|]; apply upd_same.
  - assert (Z0 : matpos (2 * d) (2 * d + 1) <> matpos (2 * d + 1) (2 * d)) by (intros Z0; apply matpos_inj in Z0; lia).
    destruct PQ as [(-> & -> & -> & ->)|(-> & -> & -> & ->)]; [|rewrite upd_other by auto]; apply upd_same.
  - rewrite U by (rewrite ?or1_even; lia). apply OFF; rewrite ?or1_even; auto; lia.
  - rewrite U by (rewrite ?or1_odd; lia). apply OFF; rewrite ?or1_odd; auto; lia.
Qed.

(** ** Points of a matrix, seen from variable [d] *)
Definition uok (n d : nat) (m : hmat) (w : nat -> R) (x : R) : Prop :=
  (forall j, j < 2 * n -> j / 2 <> d -> le_rb (x - lit w j) (m (matpos2 j (2 * d)))) /\ le_rb (2 * x) (m (matpos (2 * d + 1) (2 * d))).
Definition lok (n d : nat) (m : hmat) (w : nat -> R) (x : R) : Prop :=
  (forall j, j < 2 * n -> j / 2 <> d -> le_rb (lit w j - x) (m (matpos2 (2 * d) j))) /\ le_rb (- (2 * x)) (m (matpos (2 * d) (2 * d + 1))).
Definition offd (n d : nat) (m : hmat) (w : nat -> R) : Prop :=
  forall i j, i < 2 * n -> j < 2 * n -> i / 2 <> d -> j / 2 <> d -> le_rb (lit w j - lit w i) (m (matpos2 i j)).
Lemma gam_split : forall n d m w x, d < n -> nndiag n m -> (gam n m (vset w d x) <-> offd n d m w /\ uok n d m w x /\ lok n d m w x).
Proof.
  intros n d m w x Hd ND.
  assert (L0 : lit (vset w d x) (2 * d) = x) by (rewrite lit_even, vset_same; auto).
  assert (L1 : lit (vset w d x) (2 * d + 1) = (- x)%R) by (rewrite lit_odd, vset_same; auto).
  split.
  - intros G. assert (F : forall i j, i < 2 * n -> j < 2 * n -> le_rb (lit (vset w d x) j - lit (vset w d x) i) (m (matpos2 i j))) by (intros; apply gam_full with n; auto).
    split; [|split; split].
    + intros i j Hi Hj Ni Nj. specialize (F i j Hi Hj). rewrite !lit_vset_other in F by auto. auto.
    + intros j Hj Nj. specialize (F j (2 * d) Hj ltac:(lia)). rewrite L0, lit_vset_other in F by auto. auto.
    + specialize (F (2 * d + 1) (2 * d) ltac:(lia) ltac:(lia)). rewrite matpos2_half in F by (rewrite or1_odd; lia). rewrite L0, L1 in F. eapply le_rb_le; [|exact F]. lra.
    + intros j Hj Nj. specialize (F (2 * d) j ltac:(lia) Hj). rewrite L0, lit_vset_other in F by auto. auto.
    + specialize (F (2 * d) (2 * d + 1) ltac:(lia) ltac:(lia)). rewrite matpos2_half in F by (rewrite or1_even; lia). rewrite L0, L1 in F. eapply le_rb_le; [|exact F]. lra.
  - intros (O & (U1 & U2) & (P1 & P2)). apply gam_okm. intros i j Hi Hj.
    destruct (Nat.eq_dec i j) as [->|NE].
    { rewrite matpos2_diag. rewrite Rminus_diag_eq by auto. apply bsgn_ge0_iff. apply (ND j Hj). }
    destruct (Nat.eq_dec (i / 2) d) as [Di|Di], (Nat.eq_dec (j / 2) d) as [Dj|Dj].
    + destruct (lit_of_var i d Di) as [-> | ->], (lit_of_var j d Dj) as [-> | ->]; try congruence; rewrite ?xor1_even, ?L0, ?L1.
      * rewrite matpos2_half by (rewrite or1_even; lia). eapply le_rb_le; [|exact P2]. lra.
      * rewrite matpos2_half by (rewrite or1_odd; lia). eapply le_rb_le; [|exact U2]. lra.
    + rewrite (lit_vset_other w d x j) by auto. destruct (lit_of_var i d Di) as [-> | ->]; rewrite ?xor1_even, ?L0, ?L1; auto.
      assert (NE' : 2 * d + 1 <> j) by (intros <-; rewrite div2_odd in Dj; auto).
      rewrite <- matpos2_coh by auto. rewrite xor1_odd. specialize (U1 (xor1 j) (xor1_lt _ _ Hj)). rewrite div2_xor1, lit_xor1 in U1. eapply le_rb_le; [|exact (U1 Dj)]. lra.
    + rewrite (lit_vset_other w d x i) by auto. destruct (lit_of_var j d Dj) as [-> | ->]; rewrite ?xor1_even, ?L0, ?L1; auto.
      assert (NE' : i <> 2 * d + 1) by (intros ->; rewrite div2_odd in Di; auto).
      rewrite <- matpos2_coh by auto. rewrite xor1_odd. specialize (P1 (xor1 i) (xor1_lt _ _ Hi)). rewrite div2_xor1, lit_xor1 in P1. eapply le_rb_le; [|exact (P1 Di)]. lra.
    + rewrite !lit_vset_other by auto. auto.
Qed.
Lemma vset_id : forall w d i, lit (vset w d (w d)) i = lit w i.
Proof. intros. apply lit_ext. unfold vset. destruct (Nat.eqb (i / 2) d) eqn:E0; auto. apply Nat.eqb_eq in E0. rewrite E0. auto. Qed.
Lemma gam_vset_id : forall n m w d, gam n m w <-> gam n m (vset w d (w d)).
Proof. intros. split; intros G i j Hi Hj; specialize (G i j Hi Hj); rewrite !vset_id in *; auto. Qed.
Lemma gam_ext : forall n m v w, (forall x, x < n -> v x = w x) -> gam n m v -> gam n m w.
Proof.
  intros n m v w H G i j Hi Hj. specialize (G i j Hi Hj). pose proof (or1_lt2 n i j Hi Hj) as Hj2.
  rewrite (lit_ext w v i), (lit_ext w v j); auto; symmetry; apply H; apply div2_lt; auto.
Qed.
Lemma offd_ext : forall n d m v w, (forall x, x <> d -> v x = w x) -> offd n d m v -> offd n d m w.
Proof. intros n d m v w H O i j Hi Hj Ni Nj. rewrite (lit_ext w v i), (lit_ext w v j); auto; symmetry; apply H; auto. Qed.
Lemma offd_agree : forall n d m m' w, agree_except n d m m' -> (offd n d m' w <-> offd n d m w).
Proof.
  intros n d m m' w A. split; intros O i j Hi Hj Ni Nj; specialize (O i j Hi Hj Ni Nj); rewrite (agree_except2 n d m m' i j) in *; auto.
Qed.
Lemma offd_vset : forall n d m w x, offd n d m (vset w d x) <-> offd n d m w.
Proof. intros. split; apply offd_ext; intros y Hy; rewrite vset_other; auto. Qed.
Lemma uok_mono : forall n d m w x y, (y <= x)%R -> uok n d m w x -> uok n d m w y.
Proof. intros n d m w x y H [A B]. split; [intros j Hj Nj; eapply le_rb_le; [|apply (A j Hj Nj)]; lra|eapply le_rb_le; [|exact B]; lra]. Qed.
Lemma lok_mono : forall n d m w x y, (x <= y)%R -> lok n d m w x -> lok n d m w y.
Proof. intros n d m w x y H [A B]. split; [intros j Hj Nj; eapply le_rb_le; [|apply (A j Hj Nj)]; lra|eapply le_rb_le; [|exact B]; lra]. Qed.
(** two intervals of values meet when each endpoint of the second satisfies the bounds it may violate *)
Lemma slide : forall n d m w x0 c A B, d < n -> nndiag n m -> gam n m (vset w d x0) -> (exists y, in2 y A B) ->
  (forall q, A = Fin q -> uok n d m w (c - Q2R q)) -> (forall q, B = Fin q -> lok n d m w (c + Q2R q)) ->
  exists x, in2 (x - c) A B /\ gam n m (vset w d x).
Proof.
  intros n d m w x0 c A B Hd ND G (y & Y1 & Y2) HA HB. apply gam_split in G; auto. destruct G as (O & U0 & L0).
  assert (NE : forall p q, A = Fin p -> B = Fin q -> (- Q2R p <= Q2R q)%R) by (intros p q -> ->; simpl in *; lra).
  assert (CA : A = PInf \/ exists p, A = Fin p) by (destruct A; simpl in *; eauto; tauto).
  assert (CB : B = PInf \/ exists p, B = Fin p) by (destruct B; simpl in *; eauto; tauto).
  assert (KA : (forall p, A = Fin p -> - Q2R p <= x0 - c)%R \/ exists p, A = Fin p /\ (x0 - c < - Q2R p)%R).
  { destruct CA as [->|[p ->]]; [left; intros; discriminate|]. destruct (Rle_dec (- Q2R p) (x0 - c)); [left; intros q H; inversion H; subst; auto|right; exists p; split; auto; lra]. }
  assert (KB : (forall p, B = Fin p -> x0 - c <= Q2R p)%R \/ exists p, B = Fin p /\ (Q2R p < x0 - c)%R).
  { destruct CB as [->|[p ->]]; [left; intros; discriminate|]. destruct (Rle_dec (x0 - c) (Q2R p)); [left; intros q H; inversion H; subst; auto|right; exists p; split; auto; lra]. }
  destruct KA as [KA|(p & EA & KA)].
  - destruct KB as [KB|(p & EB & KB)].
    + exists x0. split; [|apply gam_split; auto]. split; [destruct CA as [->|[p ->]]; [exact I|simpl; specialize (KA p eq_refl); lra]|destruct CB as [->|[p ->]]; [exact I|simpl; specialize (KB p eq_refl); lra]].
    + exists (c + Q2R p)%R. split; [|apply gam_split; auto; split; [auto|]; split; [apply (uok_mono n d m w x0); auto; lra|auto]].
      split; [destruct CA as [->|[q ->]]; [exact I|simpl; specialize (NE q p eq_refl EB); lra]|rewrite EB; simpl; lra].
  - exists (c - Q2R p)%R. split; [|apply gam_split; auto; split; [auto|]; split; [auto|apply (lok_mono n d m w x0); auto; lra]].
    split; [rewrite EA; simpl; lra|destruct CB as [->|[q ->]]; [exact I|simpl; specialize (NE p q EA eq_refl); lra]].
Qed.
(** in a closed matrix any point of the other variables extends to [d] *)
Lemma offd_extend : forall n d m w, d < n -> sclosed n m -> offd n d m w -> exists x, gam n m (vset w d x).
Proof.
  intros n d m w Hd S O. destruct (extend1 n m S (fun x => negb (Nat.eqb x d)) w d Hd) as [r PS].
  - intros i j Hi Hj Di Dj. apply O; auto; apply Nat.eqb_neq; apply negb_true_iff; auto.
  - rewrite Nat.eqb_refl. auto.
  - exists r. apply gam_okm. intros i j Hi Hj. apply PS; auto; [destruct (Nat.eqb (i / 2) d)|destruct (Nat.eqb (j / 2) d)]; auto.
Qed.

(** ** Strong closure from tightness *)
Definition reach (P : (nat -> R) -> Prop) (f : (nat -> R) -> R) (b : bound) : Prop :=
  match b with Fin q => exists v, P v /\ f v = Q2R q | PInf => forall B, exists v, P v /\ (B <= f v)%R | MInf => False end.
Lemma reach_ge : forall P f a r, reach P f a -> (forall v, P v -> (f v <= r)%R) -> ge_rb r a.
Proof.
  intros P f [|q|] r R H; simpl in *; auto.
  - destruct R as (v & Pv & Hv). apply H in Pv. lra.
  - destruct (R (r + 1)%R) as (v & Pv & Hv). apply H in Pv. lra.
Qed.
Lemma tight_sclosed : forall n m, wfm n m -> (forall i, i < 2 * n -> m (matpos i i) = Fin 0) ->
  (forall i j, i < 2 * n -> j < 2 * n -> reach (gam n m) (fun v => lit v j - lit v i)%R (m (matpos2 i j))) -> sclosed n m.
Proof.
  intros n m W D T. constructor; auto.
  - intros i k j r1 r2 Hi Hk Hj R1 R2. apply (reach_ge (gam n m) (fun v => lit v j - lit v i)%R); auto.
    intros v G. pose proof (le_ge_rb _ _ _ (gam_full n m v i k G Hi Hk) R1). pose proof (le_ge_rb _ _ _ (gam_full n m v k j G Hk Hj) R2). lra.
  - intros i j r1 r2 Hi Hj R1 R2. apply (reach_ge (gam n m) (fun v => lit v j - lit v i)%R); auto.
    intros v G. pose proof (le_ge_rb _ _ _ (gam_full n m v i (xor1 i) G Hi (xor1_lt _ _ Hi)) R1) as G1. pose proof (le_ge_rb _ _ _ (gam_full n m v (xor1 j) j G (xor1_lt _ _ Hj) Hj) R2) as G2.
    rewrite lit_xor1 in *. lra.
Qed.

(** Adding and removing dimensions: effect on points. *)
From Coq Require Import Arith Lia List ZArith QArith Qreals Reals Lra Bool Sorted.
From Verif Require Import Bound BoundFacts Util Itv ItvFacts Linexpr OctMat OctIdx OctClose OctWalk OctInc OctStrong OctGeom OctGeom2 Oct OctFacts OctFacts2 OctFacts3 OctForget OctResize.
Import ListNotations.
Open Scope nat_scope.
#[local] Arguments Nat.div : simpl never.
#[local] Arguments Nat.modulo : simpl never.
#[local] Arguments Nat.mul : simpl never.
#[local] Arguments Nat.leb : simpl never.
#[local] Arguments Nat.ltb : simpl never.
#[local] Arguments xor1 : simpl never.
#[local] Arguments or1 : simpl never.
#[local] Arguments matpos : simpl never.
#[local] Arguments matpos2 : simpl never.

(** number of positions <= x, < x *)
Definition cle (pos : list nat) (x : nat) : nat := length (filter (fun p => Nat.leb p x) pos).
Definition clt (pos : list nat) (x : nat) : nat := length (filter (fun p => Nat.ltb p x) pos).

Lemma cle_none : forall pos x, Forall (fun p => x < p) pos -> cle pos x = 0.
Proof.
  intros pos x H. unfold cle. induction H; simpl; auto. destruct (Nat.leb_spec x0 x); [lia|auto].
Qed.
Lemma clt_none : forall pos x, Forall (fun p => x <= p) pos -> clt pos x = 0.
Proof.
  intros pos x H. unfold clt. induction H; simpl; auto. destruct (Nat.ltb_spec x0 x); [lia|auto].
Qed.
Lemma vmap_add : forall pos mult o n x, StronglySorted le pos -> (forall p, In p pos -> o <= p) -> o <= x ->
  vmap pos true mult o n x = Some (n + (x - o) + mult * cle pos x).
Proof.
  induction pos; intros mult o n x S H L; simpl.
  - unfold vseg. destruct (Nat.leb_spec o x); [|lia]. f_equal. unfold cle. simpl. lia.
  - inversion S as [|? ? S' F]; subst. destruct (Nat.ltb_spec x a).
    + unfold vseg. destruct (Nat.leb_spec o x); [|lia]. f_equal. rewrite cle_none; [lia|].
      constructor; auto. eapply Forall_impl; [|exact F]. simpl. intros; lia.
    + rewrite IHpos; auto.
      * f_equal. unfold cle at 2. simpl. destruct (Nat.leb_spec a x); [|lia]. simpl. fold (cle pos x).
        assert (o <= a) by (apply H; simpl; auto). lia.
      * rewrite Forall_forall in F. auto.
Qed.
Lemma vmap_rem : forall pos o n x, StronglySorted lt pos -> (forall p, In p pos -> o <= p) -> o <= x -> ~ In x pos ->
  exists y, vmap pos false 1 o n x = Some y /\ y + clt pos x = n + (x - o).
Proof.
  induction pos; intros o n x S H L NI; simpl.
  - unfold vseg. destruct (Nat.leb_spec o x); [|lia]. eexists. split; [reflexivity|]. unfold clt. simpl. lia.
  - inversion S as [|? ? S' F]; subst. destruct (Nat.ltb_spec x a).
    + unfold vseg. destruct (Nat.leb_spec o x); [|lia]. eexists; split; [reflexivity|]. rewrite clt_none; [lia|].
      constructor; [lia|]. eapply Forall_impl; [|exact F]. simpl. intros; lia.
    + assert (o <= a) by (apply H; simpl; auto). assert (a <> x) by (intros ->; apply NI; simpl; auto).
      rewrite Forall_forall in F.
      destruct (IHpos (a + 1) (n + (a - o) + 0) x) as [y [Y1 Y2]]; auto.
      * intros p I. specialize (F p I). lia.
      * lia.
      * intros I. apply NI. simpl. auto.
      * exists y. split; auto. unfold clt. simpl. destruct (Nat.ltb_spec a x); [|lia]. simpl. fold (clt pos x). lia.
Qed.
Lemma vmap_rem_in : forall pos o n x, StronglySorted lt pos -> (forall p, In p pos -> o <= p) -> In x pos -> vmap pos false 1 o n x = None.
Proof.
  induction pos; intros o n x S H I; simpl; [destruct I|]. inversion S as [|? ? S' F]; subst. rewrite Forall_forall in F.
  destruct I as [->|I].
  - destruct (Nat.ltb_spec x x); [lia|].
    assert (K : okpos pos false 1 (x + 1)).
    { clear - S' F. revert x F. induction pos; simpl; auto. intros x F. inversion S'; subst. rewrite Forall_forall in H2. split.
      - specialize (F a). simpl in F. lia.
      - apply IHpos; auto. }
    destruct (vmap pos false 1 (x + 1) _ x) eqn:E0; auto. apply vmap_ge in E0; auto. lia.
  - specialize (F x I). destruct (Nat.ltb_spec x a); [lia|]. apply IHpos; auto. intros p J.
    inversion S as [|? ? S2 F2]; subst. rewrite Forall_forall in F2. specialize (F2 p J). lia.
Qed.
Lemma okpos_add : forall pos dim mult o, StronglySorted le pos -> (forall p, In p pos -> o <= p <= dim) -> o <= dim ->
  okpos (pos ++ [dim]) true mult o.
Proof.
  induction pos; intros dim mult o S H L; simpl; auto. inversion S as [|? ? S' F]; subst. rewrite Forall_forall in F. split.
  - apply H; simpl; auto.
  - apply IHpos; auto.
    + intros p I. specialize (F p I). specialize (H p). simpl in H. split; [lia|]. apply H; auto.
    + specialize (H a). simpl in H. apply H; auto.
Qed.
Lemma okpos_rem : forall pos dim o, StronglySorted lt pos -> (forall p, In p pos -> o <= p < dim) -> o <= dim ->
  okpos (pos ++ [dim]) false 1 o.
Proof.
  induction pos; intros dim o S H L; simpl; auto. inversion S as [|? ? S' F]; subst. rewrite Forall_forall in F. split.
  - apply H; simpl; auto.
  - apply IHpos; auto.
    + intros p I. specialize (F p I). specialize (H p). simpl in H. split; [lia|]. apply H; auto.
    + specialize (H a). simpl in H. assert (o <= a < dim) by (apply H; auto). lia.
Qed.
Lemma rem_len : forall pos dim o, okpos (pos ++ [dim]) false 1 o -> o + length pos <= dim.
Proof. induction pos; simpl; intros dim o K; [lia|]. destruct K as [K1 K2]. apply IHpos in K2. lia. Qed.
Lemma vmap_rem_surj : forall pos dim o n y, okpos (pos ++ [dim]) false 1 o -> n <= y -> y + length pos < n + (dim - o) ->
  exists x, o <= x < dim /\ vmap pos false 1 o n x = Some y.
Proof.
  induction pos; intros dim o n y K L1 L2; simpl in *.
  - exists (o + (y - n)). split; [lia|]. unfold vseg. destruct (Nat.leb_spec o (o + (y - n))); [f_equal; lia|lia].
  - destruct K as [K1 K2]. destruct (Nat.lt_ge_cases y (n + (a - o))).
    + exists (o + (y - n)). split; [split; [lia|]|].
      * pose proof (rem_len _ _ _ K2). lia.
      * destruct (Nat.ltb_spec (o + (y - n)) a); [|lia]. unfold vseg. destruct (Nat.leb_spec o (o + (y - n))); [f_equal; lia|lia].
    + destruct (IHpos dim (a + 1) (n + (a - o) + 0) y K2) as [x [X1 X2]]; [lia|lia|].
      exists x. split; [lia|]. destruct (Nat.ltb_spec x a); [lia|]. auto.
Qed.

Section Cells.
Variables (pos : list nat) (mult : nat) (add : bool) (dim : nat).
Hypothesis K : okpos (pos ++ [dim]) add mult 0.
Notation V := (V pos mult add).
Notation lmap := (lmap pos mult add).
Lemma K0 : okpos pos add mult 0.
Proof. eapply okpos_app; eauto. Qed.
Lemma lmap_xor : forall i i', lmap i i' -> lmap (xor1 i) (xor1 i').
Proof.
  intros i i' [y [Y ->]]. exists y. rewrite div2_xor1. split; auto.
  destruct (par_cases i) as [a [-> | ->]]; rewrite ?xor1_even, ?xor1_odd, ?mod2_even, ?mod2_odd, ?Nat.add_0_r, ?xor1_even, ?xor1_odd; lia.
Qed.
Lemma lmap_div : forall i i', lmap i i' -> V (i / 2) = Some (i' / 2) /\ i' mod 2 = i mod 2.
Proof.
  intros i i' [y [Y ->]]. destruct (lit_split i) as [_ B]. destruct (lit_mk y _ B) as [-> ->]. auto.
Qed.
Lemma lit_lmap : forall w v i i', lmap i i' -> v (i / 2) = w (i' / 2) -> lit v i = lit w i'.
Proof. intros w v i i' H E0. apply lmap_div in H. destruct H as [_ M]. unfold lit. rewrite M, E0. auto. Qed.
Variables (src dst mm : hmat).
Hypothesis C : copied pos mult add (fun r => r < 2 * dim) src dst mm.
Lemma copied2 : forall i i' j j', i < 2 * dim -> j < 2 * dim -> lmap i i' -> lmap j j' ->
  mm (matpos2 i' j') = src (matpos2 i j).
Proof.
  intros i i' j j' Hi Hj Li Lj. destruct (matpos2_cases i j) as [[H E0]|[H E0]]; rewrite E0.
  - assert (H' : j' <= or1 i') by exact (lmap_half _ _ _ K0 i i' j j' Li Lj H). rewrite matpos2_half by auto.
    apply (proj1 C); auto.
  - destruct (Nat.eq_dec i j) as [->|D].
    { exfalso. rewrite or1_xor1 in H. pose proof (xor1_le_or1 j). rewrite matpos2_diag in E0. apply matpos_inj in E0; auto using or1_ge.
      destruct E0 as [E0 _]. symmetry in E0. apply xor1_neq in E0. auto. }
    assert (D' : i' <> j') by (intros ->; apply D; exact (lmap_inj _ _ _ K0 _ _ _ Li Lj)).
    rewrite <- matpos2_coh by auto. assert (H' : xor1 i' <= or1 (xor1 j')) by exact (lmap_half _ _ _ K0 _ _ _ _ (lmap_xor _ _ Lj) (lmap_xor _ _ Li) H).
    rewrite matpos2_half by auto. apply (proj1 C); auto using xor1_lt, lmap_xor.
Qed.
Lemma copied2_other : forall i' j', (forall i j, i < 2 * dim -> j < 2 * dim -> lmap i i' -> lmap j j' -> False) ->
  mm (matpos2 i' j') = dst (matpos2 i' j').
Proof.
  intros i' j' H. apply (proj2 C). intros r r' c c' Hr Lr Lc Hc E0.
  pose proof (or1_lt2 _ _ _ Hr Hc) as Hc2.
  assert (Hc' : c' <= or1 r') by exact (lmap_half _ _ _ K0 _ _ _ _ Lr Lc Hc).
  rewrite <- (matpos2_half r' c') in E0 by auto. apply matpos2_inj in E0. destruct E0 as [[-> ->]|[-> ->]].
  - eapply (H r c); eauto.
  - eapply (H (xor1 c) (xor1 r)); auto using xor1_lt, lmap_xor.
Qed.
(** an injection of the old points is enough to bring back constraints *)
Lemma gam_back : forall n' w v, (forall i, i < 2 * dim -> exists i', i' < 2 * n' /\ lmap i i') ->
  (forall x y, x < dim -> V x = Some y -> v x = w y) -> gam n' mm w -> gam dim src v.
Proof.
  intros n' w v T Hv G. apply gam_okm. intros i j Hi Hj. destruct (T i Hi) as [i' [Hi' Li]]. destruct (T j Hj) as [j' [Hj' Lj]].
  rewrite <- (copied2 i i' j j') by auto. rewrite (lit_lmap w v i i'), (lit_lmap w v j j'); auto.
  - apply gam_full with n'; auto.
  - apply Hv; [apply div2_lt; auto|apply lmap_div; auto].
  - apply Hv; [apply div2_lt; auto|apply lmap_div; auto].
Qed.
Lemma lmap_dec : forall i', (exists i, i < 2 * dim /\ lmap i i') \/ (forall i, i < 2 * dim -> lmap i i' -> False).
Proof.
  intros i'. destruct (existsb (fun x => match V x with Some y => Nat.eqb y (i' / 2) | None => false end) (seq 0 dim)) eqn:E0.
  - left. apply existsb_exists in E0. destruct E0 as [x [I X]]. apply in_seq in I. destruct (V x) eqn:Vx; [|discriminate].
    apply Nat.eqb_eq in X. subst. destruct (lit_split i') as [Ei Li]. exists (2 * x + i' mod 2). split; [lia|].
    destruct (lit_mk x _ Li) as [X1 X2]. exists (i' / 2). rewrite X1, X2. auto.
  - right. intros i Hi L. apply lmap_div in L. destruct L as [L _].
    assert (X : existsb (fun x => match V x with Some y => Nat.eqb y (i' / 2) | None => false end) (seq 0 dim) = true); [|congruence].
    apply existsb_exists. exists (i / 2). split; [apply in_seq; pose proof (div2_lt _ _ Hi); lia|]. rewrite L. apply Nat.eqb_refl.
Qed.
(** the cells of the result either come from the argument or from [dst] *)
Lemma copied_case : forall i' j',
  (exists i j, i < 2 * dim /\ j < 2 * dim /\ lmap i i' /\ lmap j j' /\ mm (matpos2 i' j') = src (matpos2 i j)) \/
  ((forall i j, i < 2 * dim -> j < 2 * dim -> lmap i i' -> lmap j j' -> False) /\ mm (matpos2 i' j') = dst (matpos2 i' j')).
Proof.
  intros i' j'. destruct (lmap_dec i') as [[i [Hi Li]]|Ni], (lmap_dec j') as [[j [Hj Lj]]|Nj].
  - left. exists i, j. repeat (split; auto). apply copied2; auto.
  - right. assert (X : forall i j, i < 2 * dim -> j < 2 * dim -> lmap i i' -> lmap j j' -> False) by (intros; eauto).
    split; auto. apply copied2_other; auto.
  - right. assert (X : forall i j, i < 2 * dim -> j < 2 * dim -> lmap i i' -> lmap j j' -> False) by (intros; eauto).
    split; auto. apply copied2_other; auto.
  - right. assert (X : forall i j, i < 2 * dim -> j < 2 * dim -> lmap i i' -> lmap j j' -> False) by (intros; eauto).
    split; auto. apply copied2_other; auto.
Qed.
Lemma gam_forth : forall n' w v, (forall x y, x < dim -> V x = Some y -> v x = w y) -> 
  gam n' dst w -> gam dim src v -> gam n' mm w.
Proof.
  intros n' w v Hv Gd G. apply gam_okm. intros i' j' Hi' Hj'. destruct (copied_case i' j') as [(i & j & Hi & Hj & Li & Lj & ->)|[_ ->]].
  - rewrite <- (lit_lmap w v i i'), <- (lit_lmap w v j j'); auto.
    + apply gam_full with dim; auto.
    + apply Hv; [apply div2_lt; auto|apply lmap_div; auto].
    + apply Hv; [apply div2_lt; auto|apply lmap_div; auto].
  - apply gam_full with n'; auto.
Qed.
Lemma wf_forth : forall n', wfm dim src -> nndiag dim src -> 
  (forall i' j', i' < 2 * n' -> j' < 2 * n' -> (exists i j, i < 2 * dim /\ j < 2 * dim /\ lmap i i' /\ lmap j j') \/
      dst (matpos2 i' j') <> MInf /\ (i' = j' -> (0 <= bsgn (dst (matpos2 i' j')))%Z)) ->
  wfm n' mm /\ nndiag n' mm.
Proof.
  intros n' W D H. split.
  - intros i' j' Hi' Hj'. rewrite <- matpos2_half by auto. pose proof (or1_lt2 _ _ _ Hi' Hj').
    destruct (copied_case i' j') as [(i & j & Hi & Hj & Li & Lj & ->)|[X ->]].
    + eapply wfm2; eauto.
    + destruct (H i' j') as [(i & j & ? & ? & ? & ?)|[? ?]]; auto. exfalso. eauto.
  - intros x Hx. rewrite <- matpos2_diag. destruct (copied_case x x) as [(i & j & Hi & Hj & Li & Lj & ->)|[X ->]].
    + assert (i = j) by exact (lmap_inj _ _ _ K0 _ _ _ Li Lj). subst. rewrite matpos2_diag. auto.
    + destruct (H x x) as [(i & j & ? & ? & ? & ?)|[? ?]]; auto. exfalso. eauto.
Qed.
(** all cells of the result come from the argument *)
Lemma sclosed_sub : forall n', (forall i', i' < 2 * n' -> exists i, i < 2 * dim /\ lmap i i') -> sclosed dim src -> sclosed n' mm.
Proof.
  intros n' T S. constructor.
  - intros i' j' Hi' Hj'. rewrite <- matpos2_half by auto. pose proof (or1_lt2 _ _ _ Hi' Hj') as Hj2.
    destruct (T i' Hi') as [i [Hi Li]], (T j' Hj2) as [j [Hj Lj]]. rewrite (copied2 i i' j j') by auto. apply (sc_wf2 dim src S); auto.
  - intros i' Hi'. destruct (T i' Hi') as [i [Hi Li]]. rewrite <- matpos2_diag. rewrite (copied2 i i' i i') by auto.
    rewrite matpos2_diag. apply (sc_diag dim src S); auto.
  - intros i' k' j' r1 r2 Hi' Hk' Hj'. destruct (T i' Hi') as [i [Hi Li]], (T j' Hj') as [j [Hj Lj]], (T k' Hk') as [k [Hk Lk]].
    rewrite (copied2 i i' j j'), (copied2 i i' k k'), (copied2 k k' j j') by auto. apply (sc_tri dim src S); auto.
  - intros i' j' r1 r2 Hi' Hj'. destruct (T i' Hi') as [i [Hi Li]], (T j' Hj') as [j [Hj Lj]].
    rewrite (copied2 i i' j j'), (copied2 i i' (xor1 i) (xor1 i')), (copied2 (xor1 j) (xor1 j') j j') by auto using xor1_lt, lmap_xor.
    apply (sc_str dim src S); auto.
Qed.
(** the other cells are those of top *)
Lemma sclosed_sup : forall n', (forall i' j', i' < 2 * n' -> j' < 2 * n' -> dst (matpos2 i' j') = if Nat.eqb i' j' then Fin 0 else PInf) ->
  sclosed dim src -> sclosed n' mm.
Proof.
  intros n' T S.
  assert (CC : forall i' j', i' < 2 * n' -> j' < 2 * n' ->
    (exists i j, i < 2 * dim /\ j < 2 * dim /\ lmap i i' /\ lmap j j' /\ mm (matpos2 i' j') = src (matpos2 i j)) \/
    (i' = j' /\ mm (matpos2 i' j') = Fin 0) \/ mm (matpos2 i' j') = PInf).
  { intros i' j' Hi' Hj'. destruct (copied_case i' j') as [X|[_ X]]; auto. right. rewrite T in X by auto.
    destruct (Nat.eqb_spec i' j'); auto. }
  assert (DG : forall i', i' < 2 * n' -> mm (matpos2 i' i') = Fin 0).
  { intros i' Hi'. destruct (copied_case i' i') as [(i & j & Hi & Hj & Li & Lj & ->)|[_ ->]].
    - assert (i = j) by exact (lmap_inj _ _ _ K0 _ _ _ Li Lj). subst. apply (sc_diag2 dim src S); auto.
    - rewrite T by auto. rewrite Nat.eqb_refl. auto. }
  constructor.
  - intros i' j' Hi' Hj'. rewrite <- matpos2_half by auto. pose proof (or1_lt2 _ _ _ Hi' Hj') as Hj2.
    destruct (CC i' j' Hi' Hj2) as [(i & j & Hi & Hj & Li & Lj & ->)|[[_ ->]| ->]]; try discriminate. apply (sc_wf2 dim src S); auto.
  - intros i' Hi'. rewrite <- matpos2_diag. auto.
  - intros i' k' j' r1 r2 Hi' Hk' Hj' G1 G2.
    destruct (Nat.eq_dec i' k') as [->|D1].
    { rewrite DG in G1 by auto. simpl in G1. rewrite Q2R_0' in G1. apply ge_rb_le with r2; auto. lra. }
    destruct (Nat.eq_dec k' j') as [->|D2].
    { rewrite DG in G2 by auto. simpl in G2. rewrite Q2R_0' in G2. apply ge_rb_le with r1; auto. lra. }
    destruct (CC i' k' Hi' Hk') as [(i & k & Hi & Hk & Li & Lk & E1)|[[? _]|E1]]; [|congruence|rewrite E1 in G1; simpl in G1; tauto].
    destruct (CC k' j' Hk' Hj') as [(k2 & j & Hk2 & Hj & Lk2 & Lj & E2)|[[? _]|E2]]; [|congruence|rewrite E2 in G2; simpl in G2; tauto].
    assert (k2 = k) by exact (lmap_inj _ _ _ K0 _ _ _ Lk2 Lk). subst k2.
    rewrite (copied2 i i' j j') by auto. rewrite E1 in G1. rewrite E2 in G2. apply (sc_tri dim src S i k j); auto.
  - intros i' j' r1 r2 Hi' Hj' G1 G2. assert (Hxi := xor1_lt _ _ Hi'). assert (Hxj := xor1_lt _ _ Hj').
    destruct (CC i' (xor1 i') Hi' Hxi) as [(i & k & Hi & Hk & Li & Lk & E1)|[[e _]|E1]];
      [|symmetry in e; apply xor1_neq in e; tauto|rewrite E1 in G1; simpl in G1; tauto].
    destruct (CC (xor1 j') j' Hxj Hj') as [(k2 & j & Hk2 & Hj & Lk2 & Lj & E2)|[[e _]|E2]];
      [|apply xor1_neq in e; tauto|rewrite E2 in G2; simpl in G2; tauto].
    assert (k = xor1 i) by exact (lmap_inj _ _ _ K0 _ _ _ Lk (lmap_xor _ _ Li)). subst k.
    assert (k2 = xor1 j) by exact (lmap_inj _ _ _ K0 _ _ _ Lk2 (lmap_xor _ _ Lj)). subst k2.
    rewrite (copied2 i i' j j') by auto. rewrite E1 in G1. rewrite E2 in G2. apply (sc_str dim src S i j); auto.
Qed.
End Cells.

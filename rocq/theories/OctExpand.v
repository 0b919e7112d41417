(** Duplicating a dimension. *)
From Coq Require Import Arith Lia List ZArith QArith Qreals Reals Lra Bool Sorted.
From Verif Require Import Bound BoundFacts Util Itv ItvFacts Linexpr OctMat OctIdx OctClose OctWalk OctInc OctStrong OctGeom OctGeom2 Oct OctFacts OctFacts2 OctFacts3 OctForget OctResize OctResize2 OctResize3.
Import ListNotations.
Open Scope nat_scope.
#[local] Arguments Nat.div : simpl never.
#[local] Arguments Nat.modulo : simpl never.
#[local] Arguments Nat.mul : simpl never.
#[local] Arguments Nat.leb : simpl never.
#[local] Arguments Nat.ltb : simpl never.
#[local] Arguments xor1 : simpl never.
#[local] Arguments or1 : simpl never.
#[local] Arguments matpos : simpl never.
#[local] Arguments matpos2 : simpl never.

(** literal of variable [d] of the same sign as [r] *)
Definition ren (d r : nat) : nat := 2 * d + r mod 2.
Lemma ren_div : forall d r, ren d r / 2 = d /\ ren d r mod 2 = r mod 2.
Proof. intros. unfold ren. destruct (lit_split r) as [_ B]. apply lit_mk; auto. Qed.
Lemma ren_xor : forall d r, ren d (xor1 r) = xor1 (ren d r).
Proof.
  intros. unfold ren. destruct (par_cases r) as [a [-> | ->]];
  rewrite ?xor1_even, ?xor1_odd, ?mod2_even, ?mod2_odd, ?Nat.add_0_r, ?xor1_even, ?xor1_odd; lia.
Qed.
Lemma ren_even : forall d a, ren d (2 * a) = 2 * d.
Proof. intros. unfold ren. rewrite mod2_even. lia. Qed.
Lemma ren_odd : forall d a, ren d (2 * a + 1) = 2 * d + 1.
Proof. intros. unfold ren. rewrite mod2_odd. lia. Qed.
Lemma ren_lt : forall d r n, d < n -> ren d r < 2 * n.
Proof. intros. unfold ren. destruct (lit_split r). lia. Qed.
Lemma lits_of : forall r X, r / 2 = X -> r = 2 * X \/ r = 2 * X + 1.
Proof. intros r X <-. destruct (lit_split r). lia. Qed.

Section Step.
Variables (X d : nat).
Hypothesis XD : X <> d.
Definition st (done : nat -> Prop) (mm0 mm : hmat) : Prop :=
  (forall r c, r / 2 = X -> c / 2 <> d -> done c -> mm (matpos2 r c) = mm0 (matpos2 (ren d r) c)) /\
  (forall q, (forall r c, r / 2 = X -> c / 2 <> d -> done c -> q <> matpos2 r c) -> mm q = mm0 q).
Definition pass (j : nat) (mm : hmat) : hmat :=
  let mm := upd mm (matpos2 (2 * X) j) (mm (matpos2 (2 * d) j)) in
  upd mm (matpos2 (2 * X + 1) j) (mm (matpos2 (2 * d + 1) j)).
Lemma st_refl : forall mm, st (fun _ => False) mm mm.
Proof. intros. split; intros; tauto. Qed.
Lemma dcell : forall D j r c, D / 2 = d -> r / 2 = X -> c / 2 <> d -> matpos2 D j <> matpos2 r c.
Proof.
  intros D j r c H1 H2 H3 E0. apply matpos2_inj in E0. destruct E0 as [[-> ->]|[-> ->]].
  - congruence.
  - rewrite div2_xor1 in H1. congruence.
Qed.
Lemma st_d : forall P mm0 mm D j, st P mm0 mm -> D / 2 = d -> mm (matpos2 D j) = mm0 (matpos2 D j).
Proof. intros P mm0 mm D j [_ H] HD. apply H. intros. apply dcell; auto. Qed.
Lemma st_ext : forall (P Q : nat -> Prop) mm0 mm, (forall c, P c <-> Q c) -> st P mm0 mm -> st Q mm0 mm.
Proof.
  intros P Q mm0 mm H [S1 S2]. split; intros.
  - apply S1; auto. apply H; auto.
  - apply S2. intros. apply H0; auto. apply H; auto.
Qed.
Lemma xcell : forall r r' j c, r / 2 = X -> r' / 2 = X -> matpos2 r c = matpos2 r' j -> r = r' /\ c = j.
Proof.
  clear XD. intros r r' j c H1 H2 E0. destruct (matpos2_inj _ _ _ _ E0) as [[-> ->]|[E1 E2]]; auto.
  assert (Hc : c / 2 = X) by (rewrite E2, div2_xor1; auto). assert (Hj : j / 2 = X) by (rewrite <- (div2_xor1 j), <- E1; auto).
  rewrite !matpos2_half in E0 by (apply half_div; lia). apply matpos_inj in E0; auto; apply half_div; lia.
Qed.
Lemma st_pass : forall (P : nat -> Prop) mm0 mm j, st P mm0 mm -> j / 2 <> d -> st (fun c => P c \/ c = j) mm0 (pass j mm).
Proof.
  intros P mm0 mm j S Hj. unfold pass. assert (X0 : (2 * X) / 2 = X) by apply div2_even. assert (X1 : (2 * X + 1) / 2 = X) by apply div2_odd.
  assert (D0 : (2 * d) / 2 = d) by apply div2_even. assert (D1 : (2 * d + 1) / 2 = d) by apply div2_odd.
  set (m1 := upd mm (matpos2 (2 * X) j) (mm (matpos2 (2 * d) j))).
  assert (R : m1 (matpos2 (2 * d + 1) j) = mm0 (matpos2 (2 * d + 1) j)).
  { unfold m1. rewrite upd_other by (apply dcell; auto). eapply st_d; eauto. }
  assert (R0 : mm (matpos2 (2 * d) j) = mm0 (matpos2 (2 * d) j)) by (eapply st_d; eauto).
  split.
  - intros r c Hr Hc Pc.
    destruct (Nat.eq_dec c j) as [->|Nc].
    + destruct (lits_of _ _ Hr) as [-> | ->].
      * rewrite upd_other by (intros e; apply xcell in e; auto; lia). unfold m1. rewrite upd_same. rewrite ren_even. auto.
      * rewrite upd_same, ren_odd. auto.
    + rewrite upd_other by (intros e; apply xcell in e; auto; tauto).
      unfold m1. rewrite upd_other by (intros e; apply xcell in e; auto; tauto).
      destruct Pc; [|tauto]. apply S; auto.
  - intros q H. rewrite upd_other by (apply H; auto). unfold m1. rewrite upd_other by (apply H; auto).
    apply S. intros. apply H; auto.
Qed.
Lemma for_pass : forall lo hi f (P : nat -> Prop) mm0 mm, lo <= hi -> (forall j m, lo <= j < hi -> f j m = pass j m) ->
  (forall j, lo <= j < hi -> j / 2 <> d) -> st P mm0 mm -> st (fun c => P c \/ lo <= c < hi) mm0 (for_ lo hi f mm).
Proof.
  intros lo hi f P mm0 mm L F D S.
  assert (G : st (fun c => P c \/ lo <= c < hi) mm0 (for_ lo hi f mm)).
  { apply (for_ind (fun k m => st (fun c => P c \/ lo <= c < k) mm0 m)); auto.
    - eapply st_ext; [|exact S]. intros c. split; [tauto|]. intros [?|?]; auto. lia.
    - intros i x Hi IH. rewrite F by auto. eapply st_ext; [|apply st_pass; [exact IH|auto]].
      intros c. cbv beta. split.
      + intros [[?|?]| ->]; auto; right; lia.
      + intros [?|?]; auto. destruct (Nat.eq_dec c i); auto. left. right. lia. }
  exact G.
Qed.
(** one copy of dimension [d] *)
Definition copy1 (n' : nat) (mm : hmat) : hmat :=
  let x := 2 * X in
  let mm := for_ 0 (2 * d) (fun j mm =>
    let mm := upd mm (matpos2 x j) (mm (matpos (2 * d) j)) in
    upd mm (matpos2 (x + 1) j) (mm (matpos (2 * d + 1) j))) mm in
  let mm := for_ (2 * d + 2) (2 * n') (fun j mm =>
    let mm := upd mm (matpos2 x j) (mm (matpos (xor1 j) (2 * d + 1))) in
    upd mm (matpos2 (x + 1) j) (mm (matpos (xor1 j) (2 * d)))) mm in
  let mm := upd mm (matpos2 x (x + 1)) (mm (matpos2 (2 * d) (2 * d + 1))) in
  upd mm (matpos2 (x + 1) x) (mm (matpos2 (2 * d + 1) (2 * d))).
Lemma copy1_spec : forall n' mm, d < n' ->
  (forall r c, r / 2 = X -> c / 2 <> d -> c <> xor1 r -> c < 2 * n' -> copy1 n' mm (matpos2 r c) = mm (matpos2 (ren d r) c)) /\
  (forall r, r / 2 = X -> X < n' -> copy1 n' mm (matpos2 r (xor1 r)) = mm (matpos2 (ren d r) (xor1 (ren d r)))) /\
  (forall q, (forall r c, r / 2 = X -> c / 2 <> d -> q <> matpos2 r c) -> copy1 n' mm q = mm q).
Proof.
  intros n' mm Hd.
  set (m2 := for_ (2 * d + 2) (2 * n') (fun j mm =>
    let mm := upd mm (matpos2 (2 * X) j) (mm (matpos (xor1 j) (2 * d + 1))) in
    upd mm (matpos2 (2 * X + 1) j) (mm (matpos (xor1 j) (2 * d)))) (for_ 0 (2 * d) (fun j mm =>
    let mm := upd mm (matpos2 (2 * X) j) (mm (matpos (2 * d) j)) in
    upd mm (matpos2 (2 * X + 1) j) (mm (matpos (2 * d + 1) j))) mm)).
  assert (S : st (fun c => (False \/ 0 <= c < 2 * d) \/ 2 * d + 2 <= c < 2 * n') mm m2).
  { unfold m2. apply for_pass; [lia| |intros j Hj; destruct (lit_split j); lia|].
    { intros j m Hj. unfold pass.
      assert (Nj : j <> 2 * d /\ j <> 2 * d + 1) by lia.
      assert (Y : 2 * d + 1 <= or1 (xor1 j) /\ 2 * d <= or1 (xor1 j)).
      { rewrite or1_xor1. pose proof (or1_ge j). lia. }
      rewrite <- (matpos2_half (xor1 j) (2 * d + 1)), <- (matpos2_half (xor1 j) (2 * d)) by tauto.
      replace (matpos2 (xor1 j) (2 * d + 1)) with (matpos2 (2 * d) j) by (rewrite <- xor1_even; symmetry; apply matpos2_coh; lia).
      replace (matpos2 (xor1 j) (2 * d)) with (matpos2 (2 * d + 1) j).
      - auto.
      - symmetry. rewrite <- (matpos2_coh (2 * d + 1) j) by lia. rewrite xor1_odd. auto. }
    apply for_pass; [lia| |intros j Hj; destruct (lit_split j); lia|apply st_refl].
    intros j m Hj. unfold pass. rewrite (matpos2_half (2 * d)), (matpos2_half (2 * d + 1)); auto; rewrite ?or1_even, ?or1_odd; lia. }
  change (copy1 n' mm) with (upd (upd m2 (matpos2 (2 * X) (2 * X + 1)) (m2 (matpos2 (2 * d) (2 * d + 1)))) (matpos2 (2 * X + 1) (2 * X))
     (upd m2 (matpos2 (2 * X) (2 * X + 1)) (m2 (matpos2 (2 * d) (2 * d + 1))) (matpos2 (2 * d + 1) (2 * d)))).
  assert (X0 : (2 * X) / 2 = X) by apply div2_even. assert (X1 : (2 * X + 1) / 2 = X) by apply div2_odd.
  assert (D0 : (2 * d) / 2 = d) by apply div2_even. assert (D1 : (2 * d + 1) / 2 = d) by apply div2_odd.
  rewrite (upd_other m2 (matpos2 (2 * X) (2 * X + 1)) _ (matpos2 (2 * d + 1) (2 * d))) by (apply dcell; auto; congruence).
  rewrite (st_d _ _ _ (2 * d) (2 * d + 1) S D0), (st_d _ _ _ (2 * d + 1) (2 * d) S D1).
  split; [|split].
  - intros r c Hr Hc Nc Lc.
    rewrite upd_other. 2: { intros e. apply xcell in e; auto. destruct e as [-> ->]. rewrite xor1_odd in Nc. lia. }
    rewrite upd_other. 2: { intros e. apply xcell in e; auto. destruct e as [-> ->]. rewrite xor1_even in Nc. lia. }
    apply S; auto. destruct (lit_split c). lia.
  - intros r Hr Lr. destruct (lits_of _ _ Hr) as [-> | ->].
    + rewrite xor1_even, ren_even, xor1_even. rewrite upd_other by (intros e; apply xcell in e; auto; lia).
      rewrite upd_same. auto.
    + rewrite xor1_odd, ren_odd, xor1_odd. rewrite upd_same. auto.
  - intros q H. rewrite upd_other by (apply H; auto; congruence). rewrite upd_other by (apply H; auto; congruence).
    apply S. intros; apply H; auto.
Qed.
End Step.

(** all the copies *)
Section Copies.
Variables (d p n n' : nat) (M0 : hmat).
Hypothesis Dp : d < p.
Hypothesis Pn : p + n <= n'.
(** [M0] has no constraint on the new dimensions *)
Hypothesis NEW : forall r c, r < 2 * n' -> c < 2 * n' -> r <> c -> p <= r / 2 < p + n -> M0 (matpos2 r c) = PInf.
Definition isnew (x : nat) : Prop := p <= x < p + n.
Lemma coh : forall (m : hmat) i j, i <> j -> m (matpos2 i j) = m (matpos2 (xor1 j) (xor1 i)).
Proof. intros. rewrite matpos2_coh; auto. Qed.
Definition cinv (k : nat) (mm : hmat) : Prop :=
  (forall r c, r < 2 * n' -> c < 2 * n' -> ~ p <= r / 2 < p + k -> ~ p <= c / 2 < p + k -> mm (matpos2 r c) = M0 (matpos2 r c)) /\
  (forall r c, r < 2 * n' -> c < 2 * n' -> p <= r / 2 < p + k -> ~ isnew (c / 2) -> c / 2 <> d -> mm (matpos2 r c) = M0 (matpos2 (ren d r) c)) /\
  (forall r, r < 2 * n' -> p <= r / 2 < p + k -> mm (matpos2 r (xor1 r)) = M0 (matpos2 (ren d r) (xor1 (ren d r)))) /\
  (forall r c, r < 2 * n' -> c < 2 * n' -> p <= r / 2 < p + k -> c / 2 = d \/ c = r \/ isnew (c / 2) /\ c / 2 <> r / 2 -> mm (matpos2 r c) = PInf).
Lemma cinv_step : forall k mm, k < n -> cinv k mm -> cinv (S k) (copy1 (p + k) d n' mm).
Proof.
  intros k mm Hk (A & B & C & D). set (X := p + k). assert (XD : X <> d) by (unfold X; lia).
  destruct (copy1_spec X d XD n' mm ltac:(lia)) as (S1 & S2 & S3). set (mm' := copy1 X d n' mm) in *.
  assert (U : forall r c, r / 2 <> X -> c / 2 <> X -> mm' (matpos2 r c) = mm (matpos2 r c)).
  { intros r c H1 H2. apply S3. intros r0 c0 H3 H4 e. apply matpos2_inj in e. destruct e as [[-> ->]|[-> ->]]; auto.
    rewrite div2_xor1 in *. auto. }
  assert (UD : forall r c, r / 2 = X -> c / 2 = d -> mm' (matpos2 r c) = mm (matpos2 r c)).
  { intros r c H1 H2. apply S3. intros r0 c0 H3 H4 e. apply matpos2_inj in e. destruct e as [[-> ->]|[-> ->]]; auto.
    rewrite div2_xor1 in *. congruence. }
  (* cells (d, new) of mm *)
  assert (DN : forall r c, r < 2 * n' -> c < 2 * n' -> r / 2 = d -> isnew (c / 2) -> mm (matpos2 r c) = PInf).
  { intros r c Hr Hc H1 H2. assert (r <> c) by (intros ->; unfold isnew in H2; lia). rewrite coh by auto.
    destruct (le_lt_dec (p + k) (c / 2)).
    - rewrite A; rewrite ?div2_xor1; auto using xor1_lt; try lia.
      apply NEW; rewrite ?div2_xor1; auto using xor1_lt. intros e; apply xor1_inj in e; auto.
    - apply D; auto using xor1_lt; rewrite ?div2_xor1; unfold isnew in *; auto; lia. }
  assert (RL : forall r, ren d r < 2 * n') by (intros; apply ren_lt; lia).
  assert (RD : forall r, ren d r / 2 = d) by (intros; apply ren_div).
  (* row X, column new, not the opposite literal *)
  assert (XN : forall r c, r < 2 * n' -> c < 2 * n' -> r / 2 = X -> isnew (c / 2) -> c <> xor1 r -> mm' (matpos2 r c) = PInf).
  { intros r c Hr Hc H1 H2 H3. rewrite S1 by (auto; unfold isnew in H2; lia). apply DN; auto. }
  assert (XLT : X < n') by (unfold X; lia).
  split; [|split; [|split]].
  - intros r c Hr Hc H1 H2. rewrite U by (unfold X; lia). apply A; auto; lia.
  - intros r c Hr Hc H1 H2 H3. destruct (Nat.eq_dec (r / 2) X) as [e|Ne].
    + rewrite S1; auto. 
      * apply A; auto; rewrite ?RD; try lia. unfold isnew in H2; lia.
      * intros ->. rewrite div2_xor1 in H2. unfold isnew in H2. lia.
    + rewrite U; auto; [|unfold isnew, X in *; lia]. apply B; auto. unfold X in Ne. lia.
  - intros r Hr H1. destruct (Nat.eq_dec (r / 2) X) as [e|Ne].
    + rewrite S2; auto. apply A; auto using xor1_lt; rewrite ?div2_xor1, ?RD; lia.
    + rewrite U; auto; [|rewrite div2_xor1; auto]. apply C; auto. unfold X in Ne. lia.
  - intros r c Hr Hc H1 H2. destruct (Nat.eq_dec (r / 2) X) as [e|Ne].
    + destruct (Nat.eq_dec (c / 2) d) as [ed|Nd].
      * rewrite UD by auto. unfold X in e. assert (r <> c) by (intros ->; lia). rewrite A; auto; try lia. apply NEW; auto. lia.
      * apply XN; auto.
        { destruct H2 as [?|[->|[? _]]]; auto; [tauto|]. rewrite e. unfold isnew, X. lia. }
        { intros ->. destruct H2 as [H2|[H2|[_ H2]]]; rewrite ?div2_xor1 in *; auto. apply xor1_neq in H2; auto. }
    + assert (r / 2 < p + k) by (unfold X in Ne; lia). destruct (Nat.eq_dec (c / 2) X) as [e|Nc].
      * assert (r <> c) by (intros ->; auto). rewrite coh by auto. apply XN; auto using xor1_lt; rewrite ?div2_xor1; auto.
        -- unfold isnew; lia.
        -- rewrite xor1_invol. intros <-. rewrite div2_xor1 in e. auto.
      * rewrite U by auto. apply D; auto. lia.
Qed.
Lemma cinv_all : forall mm, mm = for_ 0 n (fun i => copy1 (p + i) d n') M0 -> cinv n mm.
Proof.
  intros mm ->. apply (for_ind cinv); [lia| |].
  - split; [|split; [|split]]; intros; auto; lia.
  - intros i x Hi H. apply cinv_step; auto. lia.
Qed.
End Copies.

Section Expand.
Variables (dim d p n : nat).
Hypothesis Dp : d < p.
Hypothesis Pd : p <= dim.
Definition fexp (x : nat) : nat := if Nat.ltb x p then x else x + n.
Lemma exp_ok : okpos ([p] ++ [dim]) true n 0.
Proof. apply okpos_add; try lia; [repeat constructor|]. intros q [<-|[]]; lia. Qed.
Lemma exp_V : forall x, V [p] n true x = Some (fexp x).
Proof.
  intros. unfold V. rewrite vmap_add; [|repeat constructor|intros; lia|lia]. f_equal. unfold fexp, cle. simpl.
  destruct (Nat.leb_spec p x), (Nat.ltb_spec x p); simpl; lia.
Qed.
Lemma exp_copied : forall dst m, copied [p] n true (fun r => r < 2 * dim) m dst (hmat_addrem_dimensions dst m [p] n dim true).
Proof. intros. apply addrem_spec; auto using exp_ok; [|discriminate]. apply (okpos_app n true _ dim). apply exp_ok. Qed.
Lemma fexp_lt : forall x, x < dim -> fexp x < dim + n.
Proof. intros. unfold fexp. destruct (Nat.ltb_spec x p); lia. Qed.
Lemma fexp_inj : forall x y, fexp x = fexp y -> x = y.
Proof. intros x y. unfold fexp. destruct (Nat.ltb_spec x p), (Nat.ltb_spec y p); lia. Qed.
Lemma fexp_not_new : forall x, ~ isnew p n (fexp x).
Proof. intros. unfold fexp, isnew. destruct (Nat.ltb_spec x p); lia. Qed.
Lemma fexp_d : fexp d = d.
Proof. unfold fexp. destruct (Nat.ltb_spec d p); lia. Qed.
Lemma fexp_old : forall y, y < dim + n -> ~ isnew p n y -> exists x, x < dim /\ fexp x = y.
Proof.
  intros y Hy H. unfold isnew in H. destruct (le_lt_dec p y).
  - exists (y - n). unfold fexp. destruct (Nat.ltb_spec (y - n) p); lia.
  - exists y. unfold fexp. destruct (Nat.ltb_spec y p); lia.
Qed.
Variable m : hmat.
Hypothesis ND : nndiag dim m.
Notation M0 := (hmat_addrem_dimensions (hmat_top (dim + n)) m [p] n dim true).
Definition lf (i : nat) : nat := ren (fexp (i / 2)) i.
Lemma lf_div : forall i, lf i / 2 = fexp (i / 2) /\ lf i mod 2 = i mod 2.
Proof. intros. apply ren_div. Qed.
Lemma lf_lt : forall i, i < 2 * dim -> lf i < 2 * (dim + n).
Proof. intros. apply ren_lt, fexp_lt. apply div2_lt; auto. Qed.
Lemma lf_lmap : forall i, lmap [p] n true i (lf i).
Proof. intros i. eexists. split; [apply exp_V|]. reflexivity. Qed.
Lemma lf_inj : forall i j, lf i = lf j -> i = j.
Proof.
  intros i j H. destruct (lf_div i) as [E1 E2], (lf_div j) as [E3 E4]. rewrite H in E1, E2. rewrite E3 in E1. rewrite E4 in E2.
  apply fexp_inj in E1. destruct (lit_split i), (lit_split j). lia.
Qed.
Lemma lf_xor : forall i, lf (xor1 i) = xor1 (lf i).
Proof. intros. unfold lf. rewrite div2_xor1. apply ren_xor. Qed.
Lemma lf_d : forall i, i / 2 = d -> lf i = i.
Proof. intros i H. unfold lf. rewrite H, fexp_d. unfold ren. destruct (lit_split i). lia. Qed.
Lemma M0_old : forall i j, i < 2 * dim -> j < 2 * dim -> M0 (matpos2 (lf i) (lf j)) = m (matpos2 i j).
Proof. intros. apply (copied2 [p] n true dim exp_ok m _ _ (exp_copied _ m)); auto using lf_lmap. Qed.
Lemma M0_new : forall r c, r < 2 * (dim + n) -> c < 2 * (dim + n) -> r <> c -> p <= r / 2 < p + n -> M0 (matpos2 r c) = PInf.
Proof.
  intros r c Hr Hc D H. rewrite (copied2_other [p] n true dim exp_ok m _ _ (exp_copied _ m)).
  - rewrite top_cells2 by auto. destruct (Nat.eqb_spec r c); tauto.
  - intros i j Hi _ L _. apply lmap_div in L. destruct L as [L _]. rewrite exp_V in L. inversion L as [E0].
    apply (fexp_not_new (i / 2)). unfold isnew. rewrite E0. auto.
Qed.
Lemma M0_diag : forall i, i < 2 * (dim + n) -> isnew p n (i / 2) -> M0 (matpos2 i i) = Fin 0.
Proof.
  intros r Hr H. rewrite (copied2_other [p] n true dim exp_ok m _ _ (exp_copied _ m)).
  - rewrite top_cells2 by auto. rewrite Nat.eqb_refl. auto.
  - intros i j Hi _ L _. apply lmap_div in L. destruct L as [L _]. rewrite exp_V in L. inversion L as [E0].
    apply (fexp_not_new (i / 2)). rewrite E0. auto.
Qed.
Notation mm := (for_ 0 n (fun i => copy1 (p + i) d (dim + n)) M0).
Lemma mm_inv : cinv d p n (dim + n) M0 n mm.
Proof. apply cinv_all; auto; [lia|]. intros. apply M0_new; auto. Qed.
Lemma olds : forall r, r < 2 * (dim + n) -> ~ isnew p n (r / 2) -> exists i, i < 2 * dim /\ lf i = r.
Proof.
  intros r Hr H. destruct (fexp_old (r / 2) (div2_lt _ _ Hr) H) as [x [Hx Ex]]. destruct (lit_split r) as [e1 e2].
  exists (2 * x + r mod 2). split; [lia|]. unfold lf, ren. destruct (lit_mk x _ e2) as [-> ->]. lia.
Qed.
Lemma newdec : forall x, isnew p n x \/ ~ isnew p n x.
Proof. intros. unfold isnew. lia. Qed.
(** effect on points *)
Lemma expand_gam : forall w, gam (dim + n) mm w <->
  gam dim m (fun x => w (fexp x)) /\ forall k, k < n -> gam dim m (fun x => if Nat.eqb x d then w (p + k) else w (fexp x)).
Proof.
  intros w. pose proof mm_inv as (A & B & C & D).
  assert (RL : forall r, ren d r < 2 * dim) by (intros; apply ren_lt; lia).
  assert (LF : forall i, lit (fun x => w (fexp x)) i = lit w (lf i)).
  { intros i. unfold lit. destruct (lf_div i) as [-> ->]. auto. }
  assert (LK : forall k i, i / 2 <> d -> lit (fun x => if Nat.eqb x d then w (p + k) else w (fexp x)) i = lit w (lf i)).
  { intros k i H. unfold lit. destruct (lf_div i) as [-> ->]. destruct (Nat.eqb_spec (i / 2) d); tauto. }
  assert (LD : forall k i, i / 2 = d -> lit (fun x => if Nat.eqb x d then w (p + k) else w (fexp x)) i = lit w (ren (p + k) i)).
  { intros k i H. unfold lit. destruct (ren_div (p + k) i) as [-> ->]. rewrite H, Nat.eqb_refl. auto. }
  assert (RN : forall k i, k < n -> ren (p + k) i < 2 * (dim + n)) by (intros; apply ren_lt; lia).
  assert (RR : forall k i, i / 2 = d -> ren d (ren (p + k) i) = i).
  { intros k i H. unfold ren at 1. rewrite (proj2 (ren_div _ _)). destruct (lit_split i). lia. }
  split.
  - intros G. assert (G1 : gam dim m (fun x => w (fexp x))).
    { apply gam_okm. intros i j Hi Hj. rewrite <- M0_old by auto. rewrite <- A; auto using lf_lt.
      - rewrite !LF. apply gam_full with (dim + n); auto using lf_lt.
      - rewrite (proj1 (lf_div i)). apply fexp_not_new.
      - rewrite (proj1 (lf_div j)). apply fexp_not_new. }
    split; auto. intros k Hk. apply gam_okm. intros i j Hi Hj.
    destruct (Nat.eq_dec (i / 2) d) as [Di|Di], (Nat.eq_dec (j / 2) d) as [Dj|Dj].
    + rewrite (LD k i Di), (LD k j Dj). destruct (Nat.eq_dec i j) as [->|Nij].
      * rewrite matpos2_diag. specialize (ND j Hj). destruct (m (matpos j j)); simpl in *; auto; try lia.
        replace (lit w (ren (p + k) j) - lit w (ren (p + k) j))%R with 0%R by ring. apply (bsgn_ge0 (Fin q)); auto.
      * assert (j = xor1 i). { destruct (lits_of _ _ Di) as [-> | ->], (lits_of _ _ Dj) as [-> | ->]; rewrite ?xor1_even, ?xor1_odd; lia. }
        subst j. rewrite ren_xor.
        replace (m (matpos2 i (xor1 i))) with (mm (matpos2 (ren (p + k) i) (xor1 (ren (p + k) i)))).
        { apply gam_full with (dim + n); auto using xor1_lt. }
        rewrite C; auto. 2: { rewrite (proj1 (ren_div _ _)). lia. }
        rewrite RR by auto. rewrite <- (lf_d i Di), <- lf_xor. rewrite M0_old; auto. rewrite !lf_d; auto.
    + rewrite (LD k i Di), (LK k j Dj).
      replace (m (matpos2 i j)) with (mm (matpos2 (ren (p + k) i) (lf j))).
      { apply gam_full with (dim + n); auto using lf_lt. }
      rewrite B; auto using lf_lt.
      * rewrite RR by auto. rewrite <- (lf_d i Di). rewrite M0_old; auto. rewrite lf_d; auto.
      * rewrite (proj1 (ren_div _ _)). lia.
      * rewrite (proj1 (lf_div j)). apply fexp_not_new.
      * rewrite (proj1 (lf_div j)). rewrite <- fexp_d. intros e. apply fexp_inj in e. auto.
    + rewrite (LK k i Di), (LD k j Dj).
      assert (Nij : i <> j) by congruence. rewrite coh by auto.
      replace (lit w (ren (p + k) j) - lit w (lf i))%R with (lit w (lf (xor1 i)) - lit w (ren (p + k) (xor1 j)))%R.
      2: { rewrite lf_xor, ren_xor, !lit_xor1. ring. }
      replace (m (matpos2 (xor1 j) (xor1 i))) with (mm (matpos2 (ren (p + k) (xor1 j)) (lf (xor1 i)))).
      { apply gam_full with (dim + n); auto using lf_lt, xor1_lt. }
      assert (Dj' : xor1 j / 2 = d) by (rewrite div2_xor1; auto). assert (Di' : xor1 i / 2 <> d) by (rewrite div2_xor1; auto).
      rewrite B; auto using lf_lt, xor1_lt.
      * rewrite RR by auto. rewrite <- (lf_d (xor1 j) Dj'). rewrite M0_old; auto using xor1_lt. rewrite lf_d; auto.
      * rewrite (proj1 (ren_div _ _)). lia.
      * rewrite (proj1 (lf_div _)). apply fexp_not_new.
      * rewrite (proj1 (lf_div _)). rewrite <- fexp_d. intros e. apply fexp_inj in e. auto.
    + rewrite (LK k i Di), (LK k j Dj), <- !LF. apply gam_full with dim; auto.
  - intros [G1 G2]. apply gam_okm.
    (* it is enough to look at cells whose row is a copy, or with no copy *)
    assert (K1 : forall r c, r < 2 * (dim + n) -> c < 2 * (dim + n) -> isnew p n (r / 2) -> le_rb (lit w c - lit w r) (mm (matpos2 r c))).
    { intros r c Hr Hc Nr. unfold isnew in Nr.
      destruct (Nat.eq_dec (c / 2) d) as [Dc|Dc]; [rewrite D by auto; exact I|].
      destruct (Nat.eq_dec c r) as [->|Dr]; [rewrite D by auto; exact I|].
      pose (k := r / 2 - p). assert (Hk : k < n) by (unfold k; lia). assert (Ek : p + k = r / 2) by (unfold k; lia).
      assert (Er : ren (p + k) (ren d r) = r).
      { unfold ren at 1. rewrite (proj2 (ren_div _ _)), Ek. destruct (lit_split r); lia. }
      assert (Dd : ren d r / 2 = d) by apply ren_div.
      destruct (Nat.eq_dec (c / 2) (r / 2)) as [Ec|Ec].
      - assert (c = xor1 r). { destruct (lits_of _ _ Ec) as [-> | ->]; destruct (lits_of r _ eq_refl) as [X | X]; rewrite X in *; rewrite ?div2_even, ?div2_odd, ?xor1_even, ?xor1_odd in *; lia. }
        subst c. rewrite C by auto. rewrite <- (lf_d (ren d r)) by auto. rewrite <- lf_xor.
        rewrite M0_old by auto using xor1_lt.
        specialize (G2 k Hk). apply (fun G => gam_full _ _ _ (ren d r) (xor1 (ren d r)) G (RL _) (xor1_lt _ _ (RL _))) in G2.
        rewrite (LD k (ren d r)), (LD k (xor1 (ren d r))) in G2 by (rewrite ?div2_xor1; auto).
        rewrite ren_xor, Er in G2. exact G2.
      - destruct (newdec (c / 2)) as [Nc|Nc]; [rewrite D by auto; exact I|].
        rewrite B by auto. destruct (olds c Hc Nc) as [j [Hj <-]]. rewrite <- (lf_d (ren d r)) by auto. rewrite M0_old by auto.
        specialize (G2 k Hk). apply (fun G => gam_full _ _ _ (ren d r) j G (RL _) Hj) in G2.
        rewrite (LD k (ren d r)), (LK k j) in G2; auto.
        + rewrite Er in G2. exact G2.
        + intros e. apply Dc. rewrite (proj1 (lf_div j)), e. apply fexp_d. }
    intros r c Hr Hc. destruct (newdec (r / 2)) as [Nr|Nr]; [auto|]. destruct (newdec (c / 2)) as [Nc|Nc].
    + assert (Drc : r <> c) by (intros ->; auto). rewrite coh by auto.
      replace (lit w c - lit w r)%R with (lit w (xor1 r) - lit w (xor1 c))%R by (rewrite !lit_xor1; ring).
      apply K1; auto using xor1_lt. rewrite div2_xor1. auto.
    + rewrite A by auto. destruct (olds r Hr Nr) as [i [Hi <-]], (olds c Hc Nc) as [j [Hj <-]].
      rewrite M0_old by auto. rewrite <- !LF. apply gam_full with dim; auto.
Qed.
Lemma expand_wf : wfm dim m -> wfm (dim + n) mm /\ nndiag (dim + n) mm.
Proof.
  intros W. pose proof mm_inv as (A & B & C & D). assert (RL : forall r, ren d r < 2 * dim) by (intros; apply ren_lt; lia).
  assert (RD : forall r, ren d r / 2 = d) by (intros; apply ren_div).
  assert (K1 : forall r c, r < 2 * (dim + n) -> c < 2 * (dim + n) -> isnew p n (r / 2) -> mm (matpos2 r c) <> MInf).
  { intros r c Hr Hc Nr. destruct (Nat.eq_dec (c / 2) d) as [Dc|Dc]; [rewrite D by auto; discriminate|].
    destruct (Nat.eq_dec c r) as [->|Dr]; [rewrite D by auto; discriminate|].
    destruct (Nat.eq_dec (c / 2) (r / 2)) as [Ec|Ec].
    - assert (c = xor1 r). { destruct (lits_of _ _ Ec) as [-> | ->]; destruct (lits_of r _ eq_refl) as [X | X]; rewrite X in *; rewrite ?div2_even, ?div2_odd, ?xor1_even, ?xor1_odd in *; lia. }
      subst c. rewrite C by auto. rewrite <- (lf_d (ren d r)) by auto. rewrite <- lf_xor. rewrite M0_old by auto using xor1_lt.
      eapply wfm2; eauto using xor1_lt.
    - destruct (newdec (c / 2)) as [Nc|Nc]; [rewrite D by auto; discriminate|].
      rewrite B by auto. destruct (olds c Hc Nc) as [j [Hj <-]]. rewrite <- (lf_d (ren d r)) by auto. rewrite M0_old by auto. eapply wfm2; eauto. }
  split.
  - intros r c Hr Hc'. rewrite <- matpos2_half by auto. pose proof (or1_lt2 _ _ _ Hr Hc') as Hc.
    destruct (newdec (r / 2)) as [Nr|Nr]; [auto|]. destruct (newdec (c / 2)) as [Nc|Nc].
    + assert (Drc : r <> c) by (intros ->; auto). rewrite coh by auto. apply K1; auto using xor1_lt. rewrite div2_xor1. auto.
    + rewrite A by auto. destruct (olds r Hr Nr) as [i [Hi <-]], (olds c Hc Nc) as [j [Hj <-]]. rewrite M0_old by auto. eapply wfm2; eauto.
  - intros r Hr. rewrite <- matpos2_diag. destruct (newdec (r / 2)) as [Nr|Nr].
    + rewrite D by auto. simpl. lia.
    + rewrite A by auto. destruct (olds r Hr Nr) as [i [Hi <-]]. rewrite M0_old by auto. rewrite matpos2_diag. auto.
Qed.
End Expand.

Definition exp_pos (a : oct) (d : nat) : nat := if Nat.ltb d (oint a) then oint a else odim a.
Lemma exp_pos_ok : forall a d, d < odim a -> oint a <= odim a -> d < exp_pos a d <= odim a.
Proof. intros. unfold exp_pos. destruct (Nat.ltb_spec d (oint a)); lia. Qed.
Lemma expand_exact : forall a d n w, wfo a -> d < odim a ->
  (gamo (oct_expand a d n) w <->
   gamo a (fun x => w (fexp (exp_pos a d) n x)) /\
   forall k, k < n -> gamo a (fun x => if Nat.eqb x d then w (exp_pos a d + k) else w (fexp (exp_pos a d) n x))).
Proof.
  intros a d n w W Hd. destruct (exp_pos_ok a d Hd (wfo_int _ W)) as [H1 H2]. unfold oct_expand. fold (exp_pos a d).
  destruct (best a) as [m|] eqn:Bm.
  - destruct (best_wf a m W Bm) as [W1 W2]. rewrite gamo_single_m. rewrite gamo_best, Bm by auto.
    assert (X : forall v, gamo a v <-> gam (odim a) m v) by (intros; rewrite gamo_best, Bm by auto; tauto).
    setoid_rewrite X. apply (expand_gam (odim a) d (exp_pos a d) n H1 H2 m W2 w).
  - split.
    + intros G. exfalso. eapply gamo_none; eauto.
    + intros [G _]. rewrite gamo_best, Bm in G by auto. tauto.
Qed.
Lemma expand_dim : forall a d n, odim (oct_expand a d n) = odim a + n /\
  oint (oct_expand a d n) = if Nat.ltb d (oint a) then oint a + n else oint a.
Proof. intros. unfold oct_expand. auto. Qed.
Lemma expand_wfo : forall a d n, wfo a -> d < odim a -> wfo (oct_expand a d n).
Proof.
  intros a d n W Hd. destruct (exp_pos_ok a d Hd (wfo_int _ W)) as [H1 H2]. pose proof (wfo_int _ W). unfold oct_expand. fold (exp_pos a d).
  assert (Hi : (if Nat.ltb d (oint a) then oint a + n else oint a) <= odim a + n) by (destruct (Nat.ltb _ _); lia).
  destruct (best a) as [m|] eqn:Bm.
  - destruct (best_wf a m W Bm) as [W1 W2]. destruct (expand_wf (odim a) d (exp_pos a d) n H1 H2 m W2 W1). apply wfo_single_m; auto.
  - apply wfo_none; auto.
Qed.
Lemma expand_exo : forall a d n, exo a -> d < odim a -> exo (oct_expand a d n).
Proof.
  intros a d n X Hd. constructor; [apply expand_wfo; auto; apply X|]. unfold oct_expand. simpl. discriminate.
Qed.

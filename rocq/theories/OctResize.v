(** hmat_addrem_dimensions: which cell goes where. *)
From Coq Require Import Arith Lia List ZArith QArith Qreals Reals Lra Bool.
From Verif Require Import Bound BoundFacts Util Itv ItvFacts Linexpr OctMat OctIdx OctClose OctWalk OctInc OctStrong OctGeom OctGeom2 Oct OctFacts OctFacts2 OctFacts3 OctForget.
Import ListNotations.
Open Scope nat_scope.
#[local] Arguments Nat.div : simpl never.
#[local] Arguments Nat.modulo : simpl never.
#[local] Arguments Nat.mul : simpl never.
#[local] Arguments Nat.leb : simpl never.
#[local] Arguments Nat.ltb : simpl never.
#[local] Arguments xor1 : simpl never.
#[local] Arguments or1 : simpl never.
#[local] Arguments matpos : simpl never.
#[local] Arguments matpos2 : simpl never.

Lemma bset_array_spec : forall src d s len m q,
  bset_array m src d s len q = if Nat.leb d q && Nat.ltb q (d + len) then src (s + (q - d)) else m q.
Proof.
  intros src d s len m q. unfold bset_array. induction len.
  - rewrite for_empty by lia. destruct (Nat.leb_spec d q), (Nat.ltb_spec q (d + 0)); auto. lia.
  - rewrite (for_split 0 len (S len)) by lia. rewrite for_step by lia. rewrite for_empty by lia.
    destruct (Nat.eq_dec q (d + len)) as [->|n].
    + rewrite upd_same. destruct (Nat.leb_spec d (d + len)); [|lia]. destruct (Nat.ltb_spec (d + len) (d + S len)); [|lia].
      simpl. f_equal. lia.
    + rewrite upd_other by auto. rewrite IHlen.
      destruct (Nat.leb_spec d q), (Nat.ltb_spec q (d + len)), (Nat.ltb_spec q (d + S len)); auto; lia.
Qed.

(** where variable [x] goes *)
Definition vseg (o n x : nat) : option nat := if Nat.leb o x then Some (n + (x - o)) else None.
Fixpoint vmap (pos : list nat) (add : bool) (mult o n x : nat) : option nat :=
  match pos with
  | [] => vseg o n x
  | p :: pos =>
    if Nat.ltb x p then vseg o n x
    else vmap pos add mult (if add then p else p + mult) (n + (p - o) + if add then mult else 0) x
  end.
Fixpoint okpos (pos : list nat) (add : bool) (mult o : nat) : Prop :=
  match pos with
  | [] => True
  | p :: pos => o <= p /\ okpos pos add mult (if add then p else p + mult)
  end.
Lemma vmap_ge : forall pos add mult o n x y, okpos pos add mult o -> vmap pos add mult o n x = Some y -> n <= y /\ o <= x.
Proof.
  induction pos; simpl; intros add mult o n x y K H.
  - unfold vseg in H. destruct (Nat.leb_spec o x); inversion H; lia.
  - destruct (Nat.ltb_spec x a).
    + unfold vseg in H. destruct (Nat.leb_spec o x); inversion H; lia.
    + apply IHpos in H; [|tauto]. destruct add; lia.
Qed.
Lemma vmap_mono : forall pos add mult o n x x' y y', okpos pos add mult o ->
  vmap pos add mult o n x = Some y -> vmap pos add mult o n x' = Some y' -> x < x' -> y < y'.
Proof.
  induction pos; simpl; intros add mult o n x x' y y' K H H' L.
  - unfold vseg in *. destruct (Nat.leb_spec o x), (Nat.leb_spec o x'); inversion H; inversion H'; lia.
  - destruct (Nat.ltb_spec x a), (Nat.ltb_spec x' a); try lia.
    + unfold vseg in *. destruct (Nat.leb_spec o x), (Nat.leb_spec o x'); inversion H; inversion H'; lia.
    + unfold vseg in *. destruct (Nat.leb_spec o x); inversion H. apply vmap_ge in H'; [|tauto]. lia.
    + eapply IHpos; eauto. tauto.
Qed.
Lemma vmap_inj : forall pos add mult o n x x' y, okpos pos add mult o ->
  vmap pos add mult o n x = Some y -> vmap pos add mult o n x' = Some y -> x = x'.
Proof.
  intros. destruct (Nat.lt_total x x') as [L|[L|L]]; auto.
  - pose proof (vmap_mono _ _ _ _ _ _ _ _ _ H H0 H1 L). lia.
  - pose proof (vmap_mono _ _ _ _ _ _ _ _ _ H H1 H0 L). lia.
Qed.

Lemma lit_split : forall l, l = 2 * (l / 2) + l mod 2 /\ l mod 2 < 2.
Proof. intros. split; [apply Nat.div_mod; lia|apply Nat.mod_upper_bound; lia]. Qed.
Lemma lit_mk : forall x b, b < 2 -> (2 * x + b) / 2 = x /\ (2 * x + b) mod 2 = b.
Proof.
  intros x b H. destruct b as [|[|b]]; [| |lia].
  - rewrite Nat.add_0_r, div2_even, mod2_even. auto.
  - rewrite div2_odd, mod2_odd. auto.
Qed.

(** one line *)
Definition line_result (pos : list nat) (mult : nat) (add : bool) (size oc nc org new : nat) (src m : hmat) : hmat :=
  let '(org_i, new_i, m) := addrem_elems pos mult add size oc nc org new src m in
  bset_array m src (nc + new_i) (oc + org_i) (size - org_i).
Lemma line_spec : forall pos mult add k oc nc src o n m, okpos pos add mult o ->
  let m' := line_result pos mult add (2 * k) oc nc (2 * o) (2 * n) src m in
  (forall l y, l < 2 * k -> vmap pos add mult o n (l / 2) = Some y -> m' (nc + (2 * y + l mod 2)) = src (oc + l)) /\
  (forall q, (forall l y, l < 2 * k -> vmap pos add mult o n (l / 2) = Some y -> q <> nc + (2 * y + l mod 2)) -> m' q = m q).
Proof.
  intros pos mult add k oc nc src.
  assert (SEG : forall hi o n m, let m' := bset_array m src (nc + 2 * n) (oc + 2 * o) (2 * hi - 2 * o) in
    (forall l y, l < 2 * hi -> vseg o n (l / 2) = Some y -> m' (nc + (2 * y + l mod 2)) = src (oc + l)) /\
    (forall q, (forall l y, l < 2 * hi -> vseg o n (l / 2) = Some y -> q <> nc + (2 * y + l mod 2)) -> m' q = m q)).
  { intros hi o n m m'. unfold m'. split.
    - intros l y Hl V. unfold vseg in V. destruct (Nat.leb_spec o (l / 2)); inversion V; subst y.
      destruct (lit_split l). rewrite bset_array_spec.
      destruct (Nat.leb_spec (nc + 2 * n) (nc + (2 * (n + (l / 2 - o)) + l mod 2))); [|lia].
      destruct (Nat.ltb_spec (nc + (2 * (n + (l / 2 - o)) + l mod 2)) (nc + 2 * n + (2 * hi - 2 * o))); [|lia].
      simpl. f_equal. lia.
    - intros q Q. rewrite bset_array_spec.
      destruct (Nat.leb_spec (nc + 2 * n) q); auto. destruct (Nat.ltb_spec q (nc + 2 * n + (2 * hi - 2 * o))); auto.
      exfalso. set (l := 2 * o + (q - nc - 2 * n)). destruct (lit_split l) as [El Eb].
      apply (Q l (n + (l / 2 - o))).
      + unfold l. lia.
      + unfold vseg. destruct (Nat.leb_spec o (l / 2)); auto. unfold l in *. lia.
      + unfold l in *. lia. }
  induction pos as [|p pos IH]; intros o n m K.
  - unfold line_result. simpl. apply SEG.
  - destruct K as [K1 K2]. unfold line_result. simpl.
    destruct (Nat.leb_spec (2 * k) (p * 2)) as [B|B].
    + specialize (SEG k o n m). cbv zeta in SEG. destruct SEG as [S1 S2]. split.
      * intros l y Hl. destruct (Nat.ltb_spec (l / 2) p); [|destruct (lit_split l); lia]. apply S1; auto.
      * intros q Q. apply S2. intros l y Hl V. apply Q; auto. destruct (Nat.ltb_spec (l / 2) p); auto. destruct (lit_split l); lia.
    + set (m1 := bset_array m src (nc + 2 * n) (oc + 2 * o) (p * 2 - 2 * o)).
      specialize (SEG p o n m). replace (2 * p - 2 * o) with (p * 2 - 2 * o) in SEG by lia. cbv zeta in SEG. fold m1 in SEG. destruct SEG as [S1 S2].
      specialize (IH (if add then p else p + mult) (n + (p - o) + if add then mult else 0) m1 K2).
      unfold line_result in IH.
      replace (if add then p * 2 else p * 2 + 2 * mult) with (2 * (if add then p else p + mult)) by (destruct add; lia).
      replace (if add then 2 * n + (p * 2 - 2 * o) + 2 * mult else 2 * n + (p * 2 - 2 * o)) with
        (2 * (n + (p - o) + (if add then mult else 0))) by (destruct add; lia).
      destruct (addrem_elems _ _ _ _ _ _ _ _ _ _) as [[oi ni] m2]. set (m' := bset_array _ _ _ _ _) in *.
      destruct IH as [I1 I2]. split.
      * intros l y Hl. destruct (Nat.ltb_spec (l / 2) p).
        -- intros V. rewrite I2.
           ++ apply S1; auto. destruct (lit_split l). lia.
           ++ intros l' y' Hl' V'. apply vmap_ge in V'; auto. unfold vseg in V. destruct (Nat.leb_spec o (l / 2)); inversion V; subst.
              destruct (lit_split l), (lit_split l'). lia.
        -- intros V. apply I1; auto.
      * intros q Q. rewrite I2; [apply S2|].
        -- intros l y Hl V. destruct (lit_split l). apply Q; [lia|]. destruct (Nat.ltb_spec (l / 2) p); auto. lia.
        -- intros l y Hl V. apply Q; auto. destruct (Nat.ltb_spec (l / 2) p); auto.
           apply vmap_ge in V; auto. destruct add; lia.
Qed.

(** literal map *)
Section Rows.
Variables (pos : list nat) (mult : nat) (add : bool).
Hypothesis K : okpos pos add mult 0.
Definition V (x : nat) : option nat := vmap pos add mult 0 0 x.
Definition lmap (l : nat) (l' : nat) : Prop := exists y, V (l / 2) = Some y /\ l' = 2 * y + l mod 2.
Lemma lmap_half : forall r r' c c', lmap r r' -> lmap c c' -> c <= or1 r -> c' <= or1 r'.
Proof.
  intros r r' c c' [y [Y ->]] [x [X ->]] H. rewrite half_div in *. destruct (lit_split r) as [_ Hr], (lit_split c) as [_ Hc].
  destruct (lit_mk y _ Hr) as [-> _]. destruct (lit_mk x _ Hc) as [-> _].
  destruct (Nat.eq_dec (c / 2) (r / 2)) as [e|n].
  - rewrite e in X. unfold V in *. assert (x = y) by congruence. lia.
  - assert (x < y); [|lia]. apply (vmap_mono pos add mult 0 0 (c / 2) (r / 2)); auto. lia.
Qed.
Lemma lmap_fun : forall l a b, lmap l a -> lmap l b -> a = b.
Proof. intros l a b [y [Y ->]] [z [Z ->]]. congruence. Qed.
Lemma lmap_inj : forall a b l, lmap a l -> lmap b l -> a = b.
Proof.
  intros a b l [y [Y ->]] [z [Z E0]]. destruct (lit_split a) as [Ea La], (lit_split b) as [Eb Lb].
  assert (y = z) by lia. subst z. pose proof (vmap_inj _ _ _ _ _ _ _ _ K Y Z). lia.
Qed.

Definition copied (P : nat -> Prop) (src m m' : hmat) : Prop :=
  (forall r r' c c', P r -> lmap r r' -> lmap c c' -> c <= or1 r -> m' (matpos r' c') = src (matpos r c)) /\
  (forall q, (forall r r' c c', P r -> lmap r r' -> lmap c c' -> c <= or1 r -> q <> matpos r' c') -> m' q = m q).
Lemma copied_trans : forall (P Q : nat -> Prop) src m m1 m2, (forall r, P r -> Q r -> False) ->
  copied P src m m1 -> copied Q src m1 m2 -> copied (fun r => P r \/ Q r) src m m2.
Proof.
  intros P Q src m m1 m2 D [A1 B1] [A2 B2]. split.
  - intros r r' c c' [p|q] Hr Hc L; [|apply A2; auto]. rewrite B2; [apply A1; auto|].
    intros r2 r2' c2 c2' q2 Hr2 Hc2 L2 E0. apply matpos_inj in E0; [|eapply lmap_half; eauto|eapply lmap_half; eauto].
    destruct E0 as [e1 e2]. subst r2' c2'. assert (r = r2) by (eapply lmap_inj; eauto). subst. eauto.
  - intros q H. rewrite B2; [apply B1|]; intros; eapply H; eauto.
Qed.
Lemma copied_ext : forall (P Q : nat -> Prop) src m m', (forall r r', lmap r r' -> (P r <-> Q r)) -> copied P src m m' -> copied Q src m m'.
Proof.
  intros P Q src m m' E0 [A B]. split.
  - intros. apply A; auto. eapply E0; eauto.
  - intros q H. apply B. intros. eapply H; eauto. eapply E0; eauto.
Qed.
Lemma size_line : forall r, r + 2 - r mod 2 = 2 * (r / 2 + 1) /\ or1 r + 1 = 2 * (r / 2 + 1).
Proof.
  intros r. destruct (par_cases r) as [x [-> | ->]];
  rewrite ?mod2_even, ?mod2_odd, ?or1_even, ?or1_odd, ?div2_even, ?div2_odd; lia.
Qed.
Lemma matpos_off : forall i j, matpos i j = matpos i 0 + j.
Proof. intros. unfold matpos. lia. Qed.
Lemma addrem_line_spec : forall src m r r', lmap r r' ->
  copied (fun x => x = r) src m (addrem_line pos mult add r r' (matpos r 0) (matpos r' 0) src m).
Proof.
  intros src m r r' Hr. unfold addrem_line. destruct (size_line r) as [S1 S2]. rewrite S1.
  pose proof (line_spec pos mult add (r / 2 + 1) (matpos r 0) (matpos r' 0) src 0 0 m K) as L.
  unfold line_result in L. change (2 * 0) with 0 in L. cbv zeta.
  destruct (addrem_elems _ _ _ _ _ _ _ _ _ _) as [[oi ni] m2]. destruct L as [A B]. split.
  - intros r0 r0' c c' -> Hr0 [y [Y ->]] Hc. assert (r0' = r') by (eapply lmap_fun; eauto). subst r0'.
    rewrite (matpos_off r' (2 * y + _)), (matpos_off r c). apply A; auto. lia.
  - intros q Q. apply B. intros l y Hl Y. intros E0. apply (Q r r' l (2 * y + l mod 2)); auto.
    + exists y. auto.
    + lia.
    + rewrite (matpos_off r' (2 * y + _)). auto.
Qed.
Lemma next_row : forall r, matpos (r + 1) 0 = matpos r 0 + (r + 2 - r mod 2).
Proof.
  intros. replace (r + 1) with (S r) by lia. rewrite matpos_next_row, (matpos_off r (or1 r)). destruct (size_line r). lia.
Qed.
Lemma addrem_lines_spec : forall count src r r' m, (forall t, t < count -> lmap (r + t) (r' + t)) ->
  let '(ro, ro', m') := addrem_lines count pos mult add r r' (matpos r 0) (matpos r' 0) src m in
  ro = r + count /\ ro' = r' + count /\ copied (fun x => r <= x < r + count) src m m'.
Proof.
  induction count; intros src r r' m H; simpl.
  - split; [lia|]. split; [lia|]. split; [intros; lia|auto].
  - assert (H0 : lmap r r') by (specialize (H 0); rewrite !Nat.add_0_r in H; apply H; lia).
    rewrite <- !next_row.
    specialize (IHcount src (r + 1) (r' + 1) (addrem_line pos mult add r r' (matpos r 0) (matpos r' 0) src m)).
    destruct (addrem_lines _ _ _ _ _ _ _ _ _ _) as [[ro ro'] m']. destruct IHcount as (I1 & I2 & I3).
    { intros t Ht. specialize (H (S t)). replace (r + 1 + t) with (r + S t) by lia. replace (r' + 1 + t) with (r' + S t) by lia. apply H. lia. }
    split; [lia|]. split; [lia|].
    apply copied_ext with (fun x => x = r \/ r + 1 <= x < r + 1 + count); [intros; lia|].
    eapply copied_trans; [|apply addrem_line_spec; exact H0|exact I3]. simpl; intros; lia.
Qed.

(** the loop on blocks of lines, as a recursion on the positions *)
Definition hd_pos (rest : list nat) (dim : nat) : nat := match rest with p :: _ => p | [] => dim end.
Fixpoint blocks (rest : list nat) (dim : nat) (src : hmat) (s : nat * nat * hmat) : nat * nat * hmat :=
  match rest with
  | [] => s
  | p :: rest =>
    let '(org_j, new_j, m) := s in
    let new_j := if add then new_j + 2 * mult else new_j in
    let org_j := if add then org_j else org_j + 2 * mult in
    blocks rest dim src (addrem_lines (hd_pos rest dim * 2 - org_j) pos mult add org_j new_j
        (matsize (org_j / 2)) (matsize (new_j / 2)) src m)
  end.
Lemma for_blocks : forall dim src rest k s, skipn k pos = rest -> k <= length pos ->
  for_ k (length pos) (fun j (s : nat * nat * hmat) =>
      let '(org_j, new_j, m) := s in
      let new_j := if add then new_j + 2 * mult else new_j in
      let org_j := if add then org_j else org_j + 2 * mult in
      let last_org_j := (if Nat.ltb j (length pos - 1) then nth (j + 1) pos 0 else dim) * 2 in
      addrem_lines (last_org_j - org_j) pos mult add org_j new_j
        (matsize (org_j / 2)) (matsize (new_j / 2)) src m) s = blocks rest dim src s.
Proof.
  induction rest as [|p rest IH]; intros k s Hs Hk.
  - assert (L := skipn_length k pos). rewrite Hs in L. simpl in L. rewrite for_empty by lia. reflexivity.
  - assert (L := skipn_length k pos). rewrite Hs in L. simpl in L. rewrite for_step by lia.
    assert (Hs' : skipn (S k) pos = rest).
    { clear - Hs. revert k Hs. induction pos as [|q ps IHp]; intros k Hs; [destruct k; discriminate|].
      destruct k; simpl in *; [inversion Hs; auto|]. apply IHp; auto. }
    rewrite (IH (S k)); auto; [|lia]. destruct s as [[org new] m]. simpl.
    assert (X : (if Nat.ltb k (length pos - 1) then nth (k + 1) pos 0 else dim) = hd_pos rest dim).
    { destruct (Nat.ltb_spec k (length pos - 1)).
      - rewrite <- (firstn_skipn (S k) pos), Hs'. rewrite app_nth2; rewrite firstn_length; [|lia].
        replace (k + 1 - Nat.min (S k) (length pos)) with 0 by lia. destruct rest; [simpl in L; lia|reflexivity].
      - destruct rest; [reflexivity|simpl in L; lia]. }
    rewrite X. reflexivity.
Qed.
Lemma okpos_app : forall rest d o, okpos (rest ++ [d]) add mult o -> okpos rest add mult o.
Proof. induction rest; simpl; intros; auto. destruct H; split; eauto. Qed.
Lemma vmap_lt : forall rest o n x, okpos rest add mult o -> x < o -> vmap rest add mult o n x = None.
Proof. intros. destruct (vmap rest add mult o n x) eqn:E0; auto. apply vmap_ge in E0; auto. lia. Qed.
Lemma blocks_spec : forall dim src m0 rest o n m, okpos (rest ++ [dim]) add mult o ->
  (forall x, o <= x -> V x = vmap rest add mult o n x) ->
  copied (fun r => r < 2 * hd_pos rest dim) src m0 m ->
  copied (fun r => r < 2 * dim) src m0
    (snd (blocks rest dim src (2 * hd_pos rest dim, 2 * (n + (hd_pos rest dim - o)), m))).
Proof.
  intros dim src m0. induction rest as [|p rest IH]; intros o n m Ko HV HC; simpl; auto.
  simpl in Ko, HC. destruct Ko as [Ko1 Ko2].
  set (o' := if add then p else p + mult) in *. set (n' := n + (p - o) + if add then mult else 0).
  replace (if add then 2 * p else 2 * p + 2 * mult) with (2 * o') by (unfold o'; destruct add; lia).
  replace (if add then 2 * (n + (p - o)) + 2 * mult else 2 * (n + (p - o))) with (2 * n') by (unfold n'; destruct add; lia).
  rewrite !div2_even, <- !matpos_last.
  assert (HV' : forall x, p <= x -> V x = vmap rest add mult o' n' x).
  { intros x Hx. rewrite HV by lia. simpl. destruct (Nat.ltb_spec x p); [lia|]. reflexivity. }
  assert (Po : p <= o') by (unfold o'; destruct add; lia).
  assert (Hh : o' <= hd_pos rest dim) by (destruct rest; simpl in Ko2; tauto).
  assert (L : forall t, t < hd_pos rest dim * 2 - 2 * o' -> lmap (2 * o' + t) (2 * n' + t)).
  { intros t Ht. destruct (lit_split (2 * o' + t)) as [e1 e2].
    exists (n' + ((2 * o' + t) / 2 - o')). split; [|lia]. rewrite HV' by lia. unfold vmap.
    destruct rest as [|q rest]; simpl in *.
    - unfold vseg. destruct (Nat.leb_spec o' ((2 * o' + t) / 2)); auto. lia.
    - destruct (Nat.ltb_spec ((2 * o' + t) / 2) q); [|lia].
      unfold vseg. destruct (Nat.leb_spec o' ((2 * o' + t) / 2)); auto. lia. }
  pose proof (addrem_lines_spec (hd_pos rest dim * 2 - 2 * o') src (2 * o') (2 * n') m L) as S.
  destruct (addrem_lines _ _ _ _ _ _ _ _ _ _) as [[ro ro'] m']. destruct S as (-> & -> & S).
  replace (2 * o' + (hd_pos rest dim * 2 - 2 * o')) with (2 * hd_pos rest dim) in * by lia.
  replace (2 * n' + (hd_pos rest dim * 2 - 2 * o')) with (2 * (n' + (hd_pos rest dim - o'))) in * by lia.
  apply IH; auto.
  - intros x Hx. apply HV'. lia.
  - apply copied_ext with (fun r => r < 2 * p \/ 2 * o' <= r < 2 * hd_pos rest dim).
    + intros r r' [y [Y _]]. split; [lia|]. intros Hr. destruct (Nat.lt_ge_cases r (2 * p)); auto. right. split; auto.
      destruct (Nat.lt_ge_cases r (2 * o')); auto. destruct (lit_split r).
      rewrite HV' in Y by lia. rewrite vmap_lt in Y; [discriminate| |lia]. eapply okpos_app; eauto.
    + eapply copied_trans; eauto. simpl. intros; lia.
Qed.
Lemma addrem_spec : forall dim dst src, pos <> [] -> okpos (pos ++ [dim]) add mult 0 ->
  copied (fun r => r < 2 * dim) src dst (hmat_addrem_dimensions dst src pos mult dim add).
Proof.
  intros dim dst src NE Kd. unfold hmat_addrem_dimensions. cbv zeta.
  rewrite (for_blocks dim src pos 0) by (auto; lia).
  pose proof (blocks_spec dim src dst pos 0 0 (bset_array dst src 0 0 (matsize (hd_pos pos dim))) Kd) as B.
  assert (X : nth 0 pos 0 = hd_pos pos dim) by (destruct pos; [congruence|reflexivity]).
  rewrite X, (Nat.mul_comm (hd_pos pos dim) 2). rewrite Nat.sub_0_r, Nat.add_0_l in B.
  destruct (blocks _ _ _ _) as [[? ?] m']. simpl in B. apply B; auto.
  clear B. set (p := hd_pos pos dim) in *.
  assert (ID : forall l l', l < 2 * p -> lmap l l' -> l' = l).
  { intros l l' Hl [y [Y ->]]. destruct (lit_split l). unfold V, p in *. destruct pos as [|q ps]; [congruence|].
    simpl in *. destruct (Nat.ltb_spec (l / 2) q); [|lia]. unfold vseg in Y. simpl in Y. inversion Y. lia. }
  assert (ID' : forall l, l < 2 * p -> lmap l l).
  { intros l Hl. destruct (lit_split l). exists (l / 2). split; [|lia]. unfold V, p in *. destruct pos as [|q ps]; [congruence|].
    simpl in *. destruct (Nat.ltb_spec (l / 2) q); [|lia]. unfold vseg. simpl. f_equal. lia. }
  split.
  - intros r r' c c' Hr Lr Lc Hc. pose proof (or1_lt _ _ Hr).
    apply ID in Lr; auto. apply ID in Lc; [|lia]. subst r' c'. rewrite bset_array_spec.
    pose proof (matpos_lt p r c Hr Hc). destruct (Nat.leb_spec 0 (matpos r c)); [|lia].
    destruct (Nat.ltb_spec (matpos r c) (0 + matsize p)); [|lia]. simpl. f_equal. lia.
  - intros q Q. rewrite bset_array_spec. destruct (Nat.leb_spec 0 q); auto. destruct (Nat.ltb_spec q (0 + matsize p)); auto.
    exfalso. destruct (matpos_surj p q ltac:(lia)) as (r & c & Hr & Hc & Eq). pose proof (or1_lt _ _ Hr).
    apply (Q r r c c); auto. apply ID'. lia.
Qed.
End Rows.

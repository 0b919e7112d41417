(** oct_assign_linexpr_array: simultaneous assignment of several variables. *)
From Coq Require Import Arith Lia List ZArith QArith Qreals Reals Lra Bool.
From Verif Require Import Bound BoundFacts Util Linexpr LinexprFacts OctMat OctIdx OctClose OctWalk OctInc OctStrong OctGeom OctGeom2 Oct OctFacts OctFacts2 OctFacts3 OctForget OctResize OctResize3 OctTransfer OctUexpr OctGuard OctGuard2 OctGuard3 OctGuard4 OctGuard5 OctAssign OctAssign2 OctAssign3 OctAssign4 OctAssign5 OctAssign6.
Import ListNotations.
Open Scope nat_scope.
#[local] Arguments Nat.div : simpl never.
#[local] Arguments Nat.modulo : simpl never.
#[local] Arguments Nat.mul : simpl never.
#[local] Arguments Nat.leb : simpl never.
#[local] Arguments Nat.ltb : simpl never.
#[local] Arguments xor1 : simpl never.
#[local] Arguments or1 : simpl never.
#[local] Arguments matpos : simpl never.
#[local] Arguments matpos2 : simpl never.
Local Notation E := exact_num.

(** ** hmat_permute when some source variables are dropped *)
Section PermDrop.
Variables (nd n : nat) (perm : nat -> nat).
Hypothesis PI : forall i j, i < n -> j < n -> perm i < nd -> perm i = perm j -> i = j.
Notation pl := (pl perm).
Definition kept (l : nat) : Prop := perm (l / 2) < nd.
Lemma kept_xor : forall l, kept (xor1 l) <-> kept l.
Proof. intros l. unfold kept. rewrite div2_xor1. tauto. Qed.
Lemma plk_inj : forall i j, i < 2 * n -> j < 2 * n -> kept i -> pl i = pl j -> i = j.
Proof.
  intros i j Hi Hj K E0. unfold OctResize3.pl in E0. destruct (lit_split i), (lit_split j).
  assert (i / 2 = j / 2) by (apply PI; auto using div2_lt; unfold kept in K; lia). lia.
Qed.
Lemma plk_cell : forall i j i' j', i < 2 * n -> j <= or1 i -> i' < 2 * n -> j' <= or1 i' -> kept i -> kept j ->
  matpos2 (pl i) (pl j) = matpos2 (pl i') (pl j') -> i = i' /\ j = j'.
Proof.
  intros i j i' j' Hi Hj Hi' Hj' Ki Kj E0. pose proof (or1_lt2 _ _ _ Hi Hj). pose proof (or1_lt2 _ _ _ Hi' Hj').
  destruct (matpos2_inj _ _ _ _ E0) as [[e1 e2]|[e1 e2]]; [auto using plk_inj|].
  rewrite <- pl_xor in e1, e2. apply plk_inj in e1; auto using xor1_lt. apply plk_inj in e2; auto using xor1_lt.
  subst i j. rewrite !pl_xor in E0. rewrite half_div, !div2_xor1 in Hj. rewrite half_div in Hj'.
  assert (V2 : j' / 2 = i' / 2) by lia. destruct (same_var _ _ V2) as [->| ->].
  - exfalso. rewrite !matpos2_diag in E0. apply matpos_inj in E0; auto using or1_ge. destruct E0 as [E0 _].
    apply xor1_neq in E0. auto.
  - rewrite xor1_invol. auto.
Qed.
Definition kcop (P : nat -> nat -> Prop) (src dst : hmat) : Prop :=
  forall i j, i < 2 * n -> j <= or1 i -> kept i -> kept j -> P i j -> dst (matpos2 (pl i) (pl j)) = src (matpos i j).
Lemma kcop_upd : forall P src dst i j, i < 2 * n -> j <= or1 i -> kcop P src dst ->
  kcop (fun r c => P r c \/ (r = i /\ c = j)) src (upd dst (matpos2 (pl i) (pl j)) (src (matpos i j))).
Proof.
  intros P src dst i j Hi Hj H r c Hr Hc Kr Kc Q. destruct (Nat.eq_dec (matpos2 (pl r) (pl c)) (matpos2 (pl i) (pl j))) as [e|d].
  - rewrite e, upd_same. apply plk_cell in e; auto. destruct e as [-> ->]. auto.
  - rewrite upd_other by auto. apply H; auto. destruct Q as [Q|[-> ->]]; auto. tauto.
Qed.
Lemma kcop_ext : forall (P Q : nat -> nat -> Prop) src dst, (forall i j, i < 2 * n -> j <= or1 i -> kept i -> kept j -> Q i j -> P i j) -> kcop P src dst -> kcop Q src dst.
Proof. intros P Q src dst H C i j Hi Hj Ki Kj q. apply C; auto. Qed.
Lemma plk2 : forall i, pl (2 * i) = 2 * perm i /\ pl (2 * i + 1) = 2 * perm i + 1.
Proof. intros i. unfold OctResize3.pl. rewrite div2_even, div2_odd, mod2_even, mod2_odd. lia. Qed.
Lemma permute_drop_spec : forall src dst0, kcop (fun _ _ => True) src (hmat_permute dst0 src nd n perm).
Proof.
  intros src dst0. unfold hmat_permute.
  apply kcop_ext with (fun r c => r / 2 < n); [intros; apply div2_lt; auto|].
  set (body := fun i (s : hmat * nat) => _).
  assert (G : let s := for_ 0 n body (dst0, 0) in kcop (fun r c => r / 2 < n) src (fst s) /\ snd s = matsize n).
  { apply (for_ind (fun k (s : hmat * nat) => kcop (fun r c => r / 2 < k) src (fst s) /\ snd s = matsize k)); [lia|split; [intros i j _ _ _ _ X; lia|reflexivity]|].
    intros i [d sp] Hi [H1 H2]. simpl in H1, H2. subst sp. unfold body.
    destruct (Nat.leb_spec (2 * nd) (2 * perm i)) as [B|B0].
    { simpl. split; [|unfold matsize; lia]. eapply kcop_ext; [|exact H1]. simpl. intros r c _ _ Kr _ Hr. unfold kept in Kr.
      destruct (Nat.eq_dec (r / 2) i) as [e|]; [rewrite e in Kr; lia|lia]. }
    set (inner := fun j (s : hmat * nat) => _).
    assert (IN : let s := for_ 0 (i + 1) inner (d, matsize i) in
      kcop (fun r c => r / 2 < i \/ (r / 2 = i /\ c / 2 < i + 1)) src (fst s) /\ snd s = matsize i + 2 * (i + 1)).
    { apply (for_ind (fun k (s : hmat * nat) => kcop (fun r c => r / 2 < i \/ (r / 2 = i /\ c / 2 < k)) src (fst s) /\ snd s = matsize i + 2 * k)).
      - lia.
      - split; [|simpl; lia]. simpl. eapply kcop_ext; [|exact H1]. simpl. intros; lia.
      - intros j [d1 sp] Hj [J1 J2]. simpl in J1, J2. subst sp. unfold inner.
        destruct (Nat.leb_spec (2 * nd) (2 * perm j)) as [B|_].
        { simpl. split; [|lia]. eapply kcop_ext; [|exact J1]. simpl. intros r c _ _ _ Kc [Hr|[Hr Hc]]; [auto|]. unfold kept in Kc.
          destruct (Nat.eq_dec (c / 2) j) as [e|]; [rewrite e in Kc; lia|lia]. }
        cbv zeta. simpl fst; simpl snd. split; [|lia].
        destruct (plk2 i) as [P1 P2], (plk2 j) as [Q1 Q2].
        assert (A1 : matsize i + 2 * j = matpos (2 * i) (2 * j)) by (rewrite matpos_even; unfold matsize; lia).
        assert (A2 : matsize i + 2 * j + 1 = matpos (2 * i) (2 * j + 1)) by (rewrite matpos_even; unfold matsize; lia).
        assert (A3 : matsize i + 2 * j + 2 * (i + 1) = matpos (2 * i + 1) (2 * j)) by (rewrite matpos_odd; unfold matsize; lia).
        assert (A4 : matsize i + 2 * j + 2 * (i + 1) + 1 = matpos (2 * i + 1) (2 * j + 1)) by (rewrite matpos_odd; unfold matsize; lia).
        rewrite A4, A3, A2, A1, <- P2, <- Q2, <- P1, <- Q1. clear A1 A2 A3 A4 P1 P2 Q1 Q2.
        eapply kcop_ext; [|apply kcop_upd; [lia|rewrite or1_odd; lia|]; apply kcop_upd; [lia|rewrite or1_odd; lia|];
          apply kcop_upd; [lia|rewrite or1_even; lia|]; apply kcop_upd; [lia|rewrite or1_even; lia|]; exact J1].
        simpl. intros r c _ _ _ _ [L|[L1 L2]]; [auto 10|].
        destruct (Nat.eq_dec (c / 2) j) as [Ec|]; [|left; left; left; left; right; lia].
        destruct (lit_of_var r i L1) as [->| ->], (lit_of_var c j Ec) as [->| ->]; rewrite ?xor1_even; auto 10. }
    destruct (for_ 0 (i + 1) inner (d, matsize i)) as [d2 sp2]. simpl in IN |- *. destruct IN as [I1 I2]. subst sp2. split.
    - eapply kcop_ext; [|exact I1]. simpl. intros r c _ Hc _ _ Hr. rewrite half_div in Hc. lia.
    - unfold matsize. lia. }
  apply G.
Qed.
Lemma permute_drop2 : forall src dst0 i j, i < 2 * n -> j < 2 * n -> kept i -> kept j ->
  hmat_permute dst0 src nd n perm (matpos2 (pl i) (pl j)) = src (matpos2 i j).
Proof.
  intros src dst0 i j Hi Hj Ki Kj. pose proof (permute_drop_spec src dst0) as C.
  destruct (Nat.eq_dec i j) as [->|D].
  - rewrite (matpos2_diag j). apply C; auto using or1_ge.
  - destruct (matpos2_cases i j) as [[H E0]|[H E0]]; rewrite E0.
    + apply C; auto.
    + rewrite <- matpos2_coh; [|intros e; apply D; apply plk_inj; auto].
      rewrite <- !pl_xor. apply C; auto using xor1_lt; apply kept_xor; auto.
Qed.
Lemma lit_plk : forall w i, lit w (pl i) = lit (fun x => w (perm x)) i.
Proof. intros w i. unfold lit. destruct (pl_div perm i) as [-> ->]. auto. Qed.
Hypothesis PS : forall y, y < nd -> exists x, x < n /\ perm x = y.
Lemma plk_surj : forall i', i' < 2 * nd -> exists i, i < 2 * n /\ kept i /\ pl i = i'.
Proof.
  intros i' Hi'. destruct (PS (i' / 2) (div2_lt _ _ Hi')) as [x [Hx Ex]]. destruct (lit_split i') as [e1 e2].
  exists (2 * x + i' mod 2). unfold kept, OctResize3.pl. destruct (lit_mk x _ e2) as [-> ->]. pose proof (div2_lt _ _ Hi'). split; [lia|]. split; lia.
Qed.
Lemma permute_drop_gam : forall src dst0 w u, (forall x, x < n -> perm x < nd -> u x = w (perm x)) -> gam n src u ->
  gam nd (hmat_permute dst0 src nd n perm) w.
Proof.
  intros src dst0 w u U G. rewrite gam_okm in *. intros i j Hi Hj.
  destruct (plk_surj i Hi) as [x (Hx & Kx & <-)], (plk_surj j Hj) as [y (Hy & Ky & <-)]. rewrite permute_drop2, !lit_plk by auto.
  assert (L : forall z, z < 2 * n -> kept z -> lit (fun x => w (perm x)) z = lit u z).
  { intros z Hz Kz. unfold lit. rewrite U; auto using div2_lt. }
  rewrite !L by auto. apply G; auto.
Qed.
Lemma permute_drop_wf : forall src dst0, wfm n src -> nndiag n src ->
  wfm nd (hmat_permute dst0 src nd n perm) /\ nndiag nd (hmat_permute dst0 src nd n perm).
Proof.
  intros src dst0 W D. split.
  - intros i j Hi Hj. rewrite <- matpos2_half by auto. pose proof (or1_lt2 _ _ _ Hi Hj) as Hj'.
    destruct (plk_surj i Hi) as [x (Hx & Kx & <-)], (plk_surj j Hj') as [y (Hy & Ky & <-)]. rewrite permute_drop2 by auto. eapply wfm2; eauto.
  - intros x Hx. destruct (plk_surj x Hx) as [y (Hy & Ky & <-)]. rewrite <- matpos2_diag, permute_drop2, matpos2_diag by auto. auto.
Qed.
End PermDrop.

(** ** The expression seen in the enlarged matrix *)
Lemma wf_linexpr_mono : forall n k e, wf_linexpr n e -> wf_linexpr (n + k) e.
Proof.
  intros n k e [W1 W2]. split; auto. unfold wf_terms in *. destruct (le_terms e) as [l|ts].
  - destruct W2. split; auto. lia.
  - destruct W2 as (A & B & C). repeat split; auto. intros d I. specialize (C d I). lia.
Qed.
Lemma lin_coeff_out : forall n e j, wf_linexpr n e -> n <= j -> lin_coeff e j = None.
Proof.
  intros n e j [_ W2] Hj. unfold lin_coeff, wf_terms in *. destruct (le_terms e) as [l|ts].
  - apply nth_error_None. lia.
  - destruct W2 as (A & B & C). apply sp_coeff_none. intros I. specialize (C j I). lia.
Qed.
Section Arr.
Context {N : numtype}.
Definition zeros (n k : nat) (dst : hmat) : Prop := forall p, 2 * n + 2 <= p < 2 * (n + k) + 2 -> dst p = Fin 0.
Lemma zero_tmp_spec : forall from count tmp p, zero_tmp from count tmp p = if Nat.leb from p && Nat.ltb p (from + count) then Fin 0 else tmp p.
Proof.
  intros from count tmp p. unfold zero_tmp. induction count.
  - rewrite for_empty by lia. destruct (Nat.leb_spec from p), (Nat.ltb_spec p (from + 0)); auto. lia.
  - rewrite (for_split 0 count (S count)) by lia. rewrite for_step by lia. rewrite for_empty by lia.
    destruct (Nat.eq_dec p (from + count)) as [->|d].
    + rewrite upd_same. destruct (Nat.leb_spec from (from + count)); [|lia]. destruct (Nat.ltb_spec (from + count) (from + S count)); [auto|lia].
    + rewrite upd_other by auto. rewrite IHcount.
      destruct (Nat.leb_spec from p), (Nat.ltb_spec p (from + count)), (Nat.ltb_spec p (from + S count)); auto; lia.
Qed.
Lemma uspec_lift : forall intdim n k e dst u, wf_linexpr n e -> zeros n k dst -> uspec (N:=N) intdim n e dst u -> uspec (N:=N) intdim (n + k) e dst u.
Proof.
  intros intdim n k e dst u W Z US.
  assert (ZC : forall j, j < n + k -> n <= j -> dst (2 * j + 2) = Fin 0 /\ dst (2 * j + 3) = Fin 0) by (intros j H1 H2; split; apply Z; lia).
  assert (ZZ : forall j, j < n + k -> n <= j -> zcell dst j) by (intros j H1 H2; destruct (ZC j H1 H2) as [A B]; unfold zcell; rewrite A, B; auto).
  destruct US as [U1 U2 U3 U4 U5 U6]. simpl in *. constructor; simpl; auto.
  - intros j Hj. destruct (Nat.lt_ge_cases j n) as [L|G]; [apply U2; auto|]. rewrite (lin_coeff_out n) by auto. unfold cell2.
    replace (2 * j + 2 + 1) with (2 * j + 3) by lia. auto.
  - unfold cls in *. destruct (u_type u); auto.
    + intros j Hj. destruct (Nat.lt_ge_cases j n); auto.
    + destruct U3 as (A & B & C). repeat split; auto; try lia; try apply B. all: destruct (Nat.lt_ge_cases j n); [apply C; auto|apply ZZ; auto].
    + destruct U3 as (A & B & C & D & F & G). repeat split; auto; try lia; try apply D; try apply F. all: destruct (Nat.lt_ge_cases j n); [apply G; auto|apply ZZ; auto].
    + eapply nonoct_mono; [| | |exact U3]; simpl; intros; [lia|tauto|tauto].
  - intros T. destruct (U4 T) as [A B]. split; auto. intros j Hj. destruct (Nat.lt_ge_cases j n) as [L|G]; [apply B; auto|]. rewrite (lin_coeff_out n) by auto. exact I.
  - intros T. destruct (U5 T) as [A|(j & c & A & B & C)]; auto. right. exists j, c. repeat split; auto. lia.
  - intros T. destruct (U6 T) as [A B]. split; auto. intros j c Hj LC. apply B; auto. destruct (Nat.lt_ge_cases j n) as [L|G]; auto. rewrite (lin_coeff_out n) in LC by auto. discriminate.
Qed.
Lemma gam_same : forall n m v w, (forall x, v x = w x) -> gam n m v -> gam n m w.
Proof. intros n m v w H. apply gam_ext. auto. Qed.

Lemma hassign_agree : forall intdim n d e dst u m, d < n -> wf_linexpr n e -> uspec (N:=N) intdim n e dst u -> u_type u <> UEmpty -> (u_type u = UUnary -> u_i u <> d) ->
  agree_except n d m (fst (hmat_assign (N:=N) dst m u n d false)).
Proof.
  intros intdim n d e dst u m Hd W US NE NI.
  assert (OA : agree_except n d m (assign_other (N:=N) dst m n d)).
  { destruct (other_sums (N:=N) n m dst) as [[tmp' cs] Cs] eqn:OS. apply (assign_other_inv n d dst m Hd (fun x => agree_except n d m x) tmp' cs Cs OS).
    1: apply (ac_off _ _ _ _ _ _ _ _ (fvar_acells n d m Hd)).
    all: intros; apply upd_agree; auto; try (left; apply div2_even); try (left; apply div2_odd); try (right; apply div2_even); try (right; apply div2_odd). }
  unfold hmat_assign. destruct (u_type u) eqn:T; try congruence; auto.
  - cbn [fst]. apply (ac_off _ _ _ _ _ _ _ _ (zero0_cells n d dst m Hd)).
  - destruct (uci intdim n e dst u US T) as [Hi CI]. destruct (Nat.eqb_spec (u_i u) d) as [ED|ND']; [exfalso; apply NI; auto|]. cbn [negb fst].
    unfold assign_copy. apply (ac_off _ _ _ _ _ _ _ _ (copy_cells n d (ulit (u_i u) (u_ci u)) dst m Hd ltac:(rewrite ulit_half; auto))).
Qed.

(** ** the loop of assignments to the temporary dimensions *)
Definition same_below (n : nat) (m m' : hmat) : Prop := forall i j, i < 2 * n -> j <= or1 i -> m' (matpos i j) = m (matpos i j).
Lemma assign_loop_sound : forall es intdim n size i tmp mm v, i + length es <= size -> zeros n size tmp ->
  (forall e, In e es -> wf_linexpr n e) -> wfm (n + size) mm -> nndiag (n + size) mm -> gam (n + size) mm v ->
  (forall k e, nth_error es k = Some e -> expr_val e v (v (n + (i + k)))) ->
  (forall e tmp dst u mm', In e es -> uexpr_of_linexpr (N:=N) tmp e intdim n = (dst, u) -> u_type u <> UEmpty -> zeros n size dst -> same_below n mm mm' ->
     ~ general u \/ other_ok (N:=N) (n + size) dst mm') ->
  exists mm', assign_loop (N:=N) tmp mm intdim n size i es = Some mm' /\ gam (n + size) mm' v /\ wfm (n + size) mm' /\ nndiag (n + size) mm'.
Proof.
  induction es as [|e es IH]; intros intdim n size i tmp mm v HL Z WE W D G HV OK.
  - exists mm. auto.
  - simpl. destruct (uexpr_of_linexpr tmp e intdim n) as [dst u] eqn:UE.
    assert (We : wf_linexpr n e) by (apply WE; left; auto).
    destruct (uexpr_spec intdim tmp e n dst u We UE) as [US FR].
    assert (Zd : zeros n size dst) by (intros p Hp; rewrite FR by lia; apply Z; auto).
    pose proof (uspec_lift intdim n size e dst u We Zd US) as US'. pose proof (wf_linexpr_mono n size e We) as We'.
    pose proof (HV 0 e eq_refl) as HE. rewrite Nat.add_0_r in HE.
    pose proof (uval_nonempty intdim (n + size) e dst u We' US' v _ HE) as T.
    assert (Hd : n + i < n + size) by (simpl in HL; lia).
    pose proof (hassign_sound intdim (n + size) (n + i) e dst u mm Hd We' US' D false v _ G HE) as HS.
    destruct (hassign_wf intdim (n + size) (n + i) e dst u mm Hd We' US' D false W T) as [W1 D1]; [discriminate|].
    destruct (hmat_assign dst mm u (n + size) (n + i) false) as [mm1 rr] eqn:HA. simpl in HS, W1, D1.
    assert (SB : same_below n mm mm1).
    { assert (AG : agree_except (n + size) (n + i) mm mm1).
      { replace mm1 with (fst (hmat_assign (N:=N) dst mm u (n + size) (n + i) false)) by (rewrite HA; auto). eapply hassign_agree; eauto.
        intros TU. destruct (uci intdim n e dst u US TU) as [Hi _]. lia. }
      intros p q Hp Hq. pose proof (or1_lt2 _ _ _ Hp Hq) as Hq'. apply div2_lt in Hq'. pose proof (div2_lt _ _ Hp). apply AG; auto; lia. }
    assert (G1 : gam (n + size) mm1 v).
    { apply gam_vset_id with (d := n + i). apply HS. intros GE. destruct (OK e tmp dst u mm (or_introl eq_refl) UE T Zd) as [X|X]; [intros p q _ _; auto|tauto|tauto]. }
    destruct (IH intdim n size (S i) dst mm1 v) as (mm' & H1 & H2); auto.
    + simpl in HL. lia.
    + intros e' I. apply WE. right; auto.
    + intros k e' H. specialize (HV (S k) e' H). replace (S i + k) with (i + S k) by lia. auto.
    + intros e' t1 d1 u1 m1 I U1 T1 Z1 S1. apply (OK e' t1 d1 u1 m1); auto; [right; auto|]. intros p q Hp Hq. rewrite S1, SB; auto.
    + exists mm'. split; auto. destruct (u_type u); auto; congruence.
Qed.

(** ** the array of destinations *)
Lemma assign_perm_spec : forall n ds, NoDup ds -> (forall d, In d ds -> d < n) ->
  (forall i, i < length ds -> assign_perm n ds (n + i) = nth i ds 0) /\
  (forall x, x < n -> In x ds -> assign_perm n ds x = n) /\ (forall x, x < n -> ~ In x ds -> assign_perm n ds x = x).
Proof.
  intros n ds ND L.
  assert (G : forall k, k <= length ds -> let p := for_ 0 k (fun i d => fun x => if Nat.eqb x (nth i ds 0) then n else if Nat.eqb x (n + i) then nth i ds 0 else d x) (fun x => x) in
    (forall i, i < k -> p (n + i) = nth i ds 0) /\ (forall i, i < k -> p (nth i ds 0) = n) /\ (forall x, x < n -> (forall i, i < k -> nth i ds 0 <> x) -> p x = x)).
  { induction k; intros Hk; cbv zeta.
    - rewrite for_empty by lia. repeat split; intros; lia || auto.
    - rewrite (for_split 0 k (S k)) by lia. rewrite for_step by lia. rewrite for_empty by lia. specialize (IHk ltac:(lia)). cbv zeta in IHk.
      set (p := for_ 0 k _ _) in *. destruct IHk as (A & B & C).
      assert (Lk : forall i, i < length ds -> nth i ds 0 < n) by (intros i Hi; apply L, nth_In; auto).
      repeat split.
      + intros i Hi. destruct (Nat.eqb_spec (n + i) (nth k ds 0)) as [e|_]; [specialize (Lk k ltac:(lia)); lia|].
        destruct (Nat.eqb_spec (n + i) (n + k)) as [e|d]; [replace i with k by lia; auto|apply A; lia].
      + intros i Hi. destruct (Nat.eqb_spec (nth i ds 0) (nth k ds 0)) as [e|d]; auto.
        destruct (Nat.eqb_spec (nth i ds 0) (n + k)) as [e|_]; [specialize (Lk i ltac:(lia)); lia|]. apply B. destruct (Nat.eq_dec i k) as [->|]; [congruence|lia].
      + intros x Hx F. destruct (Nat.eqb_spec x (nth k ds 0)) as [e|_]; [exfalso; apply (F k); auto|].
        destruct (Nat.eqb_spec x (n + k)) as [e|_]; [lia|]. apply C; auto. }
  specialize (G (length ds) (le_n _)). cbv zeta in G. destruct G as (A & B & C). unfold assign_perm. repeat split; auto.
  - intros x Hx I. apply In_nth with (d := 0) in I. destruct I as (i & Hi & <-). auto.
  - intros x Hx I. apply C; auto. intros i Hi e. apply I. rewrite <- e. apply nth_In; auto.
Qed.
Section PermA.
Variables (n : nat) (ds : list nat).
Hypothesis ND : NoDup ds.
Hypothesis L : forall d, In d ds -> d < n.
Notation p := (assign_perm n ds).
Lemma ap_inj : forall i j, i < n + length ds -> j < n + length ds -> p i < n -> p i = p j -> i = j.
Proof.
  destruct (assign_perm_spec n ds ND L) as (A & B & C).
  assert (K : forall i, i < n + length ds -> p i < n -> (i < n /\ ~ In i ds /\ p i = i) \/ (exists k, k < length ds /\ i = n + k /\ p i = nth k ds 0)).
  { intros i Hi Pi. destruct (Nat.lt_ge_cases i n) as [Hn|Hn].
    - destruct (in_dec Nat.eq_dec i ds) as [I|I]; [rewrite B in Pi by auto; lia|left; auto].
    - right. exists (i - n). replace (n + (i - n)) with i by lia. split; [lia|split; auto]. rewrite <- A by lia. f_equal. lia. }
  intros i j Hi Hj Pi E0. destruct (K i Hi Pi) as [(H1 & H2 & H3)|(k & H1 & H2 & H3)], (K j Hj ltac:(lia)) as [(J1 & J2 & J3)|(q & J1 & J2 & J3)]; try lia.
  - exfalso. apply H2. replace i with (nth q ds 0) by congruence. apply nth_In; auto.
  - exfalso. apply J2. replace j with (nth k ds 0) by congruence. apply nth_In; auto.
  - assert (k = q) by (apply (proj1 (NoDup_nth ds 0) ND); auto; congruence). lia.
Qed.
Lemma ap_surj : forall y, y < n -> exists x, x < n + length ds /\ p x = y.
Proof.
  destruct (assign_perm_spec n ds ND L) as (A & B & C). intros y Hy. destruct (in_dec Nat.eq_dec y ds) as [I|I].
  - apply In_nth with (d := 0) in I. destruct I as (i & Hi & <-). exists (n + i). split; [lia|auto].
  - exists y. split; [lia|auto].
Qed.
End PermA.
End Arr.

(** ** oct_assign_linexpr_array *)
Section ArrMain.
Context {N : numtype}.
(** the simultaneous assignment: variable [nth k ds 0] gets [nth k rs 0], the others keep their value *)
Fixpoint vsets (v : nat -> R) (ds : list nat) (rs : list R) : nat -> R :=
  match ds, rs with d :: ds, r :: rs => vset (vsets v ds rs) d r | _, _ => v end.
Lemma vsets_out : forall ds rs v x, ~ In x ds -> vsets v ds rs x = v x.
Proof.
  induction ds as [|d ds IH]; intros [|r rs] v x H; simpl; auto. unfold vset. destruct (Nat.eqb_spec x d) as [->|_]; [exfalso; apply H; left; auto|].
  apply IH. intros I. apply H. right; auto.
Qed.
Lemma vsets_nth : forall ds rs v k, NoDup ds -> length rs = length ds -> k < length ds -> vsets v ds rs (nth k ds 0) = nth k rs 0%R.
Proof.
  induction ds as [|d ds IH]; intros [|r rs] v k ND L Hk; simpl in *; try lia. inversion ND as [|? ? N1 N2]; subst. unfold vset. destruct k as [|k].
  - rewrite Nat.eqb_refl. auto.
  - destruct (Nat.eqb_spec (nth k ds 0) d) as [e|_]; [exfalso; apply N1; rewrite <- e; apply nth_In; lia|]. apply IH; auto; lia.
Qed.
Lemma expr_val_ext' : forall n e v w r, wf_linexpr n e -> (forall x, x < n -> w x = v x) -> expr_val e v r -> expr_val e w r.
Proof.
  intros n e v w r [_ W] H A. rewrite (expr_val_lin n) in *; auto. destruct A as (c0 & k & A1 & A2 & A3). exists c0, k. split; auto. split; auto. rewrite A3. f_equal. apply lsum_ext. intros j J. rewrite H; auto.
Qed.
Lemma embed_cells : forall n k m i j, i < 2 * (n + k) -> j <= or1 i ->
  bset_array (hmat_top (n + k)) m 0 0 (matsize n) (matpos i j) = if Nat.ltb i (2 * n) then m (matpos i j) else if Nat.eqb i j then Fin 0 else PInf.
Proof.
  intros n k m i j Hi Hj. rewrite bset_array_spec. cbn [Nat.leb Nat.add]. rewrite Nat.sub_0_r.
  destruct (Nat.leb_spec 0 (matpos i j)) as [_|]; [|lia]. simpl andb.
  assert (X : matpos i j < matsize n <-> i < 2 * n).
  { destruct (par_cases i) as [a [-> | ->]].
    - rewrite or1_even in Hj. rewrite matpos_even. unfold matsize. split; nia.
    - rewrite or1_odd in Hj. rewrite matpos_odd. unfold matsize. split; nia. }
  destruct (Nat.ltb_spec (matpos i j) (matsize n)), (Nat.ltb_spec i (2 * n)); try tauto; try lia. apply top_cells; auto.
Qed.
Lemma embed_ok : forall n k m v, wfm n m -> nndiag n m -> gam n m v ->
  wfm (n + k) (bset_array (hmat_top (n + k)) m 0 0 (matsize n)) /\ nndiag (n + k) (bset_array (hmat_top (n + k)) m 0 0 (matsize n)) /\
  forall w, (forall x, x < n -> w x = v x) -> gam (n + k) (bset_array (hmat_top (n + k)) m 0 0 (matsize n)) w.
Proof.
  intros n k m v W D G. repeat split.
  - intros i j Hi Hj. rewrite embed_cells by auto. destruct (Nat.ltb_spec i (2 * n)); [apply W; auto|]. destruct (Nat.eqb i j); discriminate.
  - intros x Hx. rewrite embed_cells by (auto using or1_ge). destruct (Nat.ltb_spec x (2 * n)); [apply D; auto|]. rewrite Nat.eqb_refl. simpl. lia.
  - intros w HW i j Hi Hj. rewrite embed_cells by auto. destruct (Nat.ltb_spec i (2 * n)) as [L|L].
    + pose proof (or1_lt2 _ _ _ L Hj). apply gam_ext with (w := w) in G; [apply G; auto|]. intros; symmetry; auto.
    + destruct (Nat.eqb_spec i j) as [->|]; [|exact I]. simpl. unfold Q2R; simpl. lra.
Qed.
Lemma close_or_ok : forall algo n m v, wfm n m -> nndiag n m -> gam n m v ->
  exists m', close_or (N:=N) algo m n = Some m' /\ wfm n m' /\ nndiag n m' /\ gam n m' v.
Proof.
  intros algo n m v W D G. unfold close_or. destruct (0 <=? algo)%Z; [|eauto].
  destruct (hmat_close m n) as [c b] eqn:H. destruct (close_sound n m v c b H) as [A B]. specialize (A G). subst b. exists c. split; auto.
  split; [eapply close_wf; eauto|]. split; [eapply close_nndiag; eauto|]. apply B; auto.
Qed.
Theorem assign_array_ok : forall algo tmp a ds es dest v rs, wfo a -> NoDup ds -> (forall d, In d ds -> d < odim a) ->
  length es = length ds -> length rs = length ds -> length ds <> 1 -> (forall e, In e es -> wf_linexpr (odim a) e) -> dest_ok a dest ->
  (forall e tmp dst u m mm, In e es -> uexpr_of_linexpr (N:=N) tmp e (oint a) (odim a) = (dst, u) -> u_type u <> UEmpty -> zeros (odim a) (length ds) dst ->
     best (cached (N:=N) algo a) = Some m -> same_below (odim a) m mm -> ~ general u \/ other_ok (N:=N) (odim a + length ds) dst mm) ->
  gamo a v -> (forall k e, nth_error es k = Some e -> expr_val e v (nth k rs 0%R)) -> in_dest dest (vsets v ds rs) ->
  gamo (oct_assign_linexpr_array (N:=N) algo tmp a ds es dest) (vsets v ds rs) /\ wfo (oct_assign_linexpr_array (N:=N) algo tmp a ds es dest).
Proof.
  intros algo tmp a ds es dest v rs W ND LD LE LR L1 WE DO OK G HV HD.
  assert (DE : dest_empty dest = false).
  { destruct dest as [o|]; simpl in *; auto. destruct (ocl o) eqn:OC; auto. destruct (om o) eqn:OM; auto. destruct HD as ([X|X] & _); congruence. }
  assert (GO : gamo (cached (N:=N) algo a) v) by (apply cached_gamo; auto).
  pose proof (cached_wfo (N:=N) algo a W) as W'. destruct (cached_dim (N:=N) algo a) as [D1 D2]. pose proof GO as GB. rewrite (gamo_best _ v W'), D1 in GB.
  assert (EQ : oct_assign_linexpr_array (N:=N) algo tmp a ds es dest =
    match best (cached (N:=N) algo a) with
    | None => set_mat (cached (N:=N) algo a) None None
    | Some m =>
      match assign_loop (N:=N) (zero_tmp (2 * odim a + 2) (2 * length ds) tmp) (bset_array (hmat_top (odim a + length ds)) m 0 0 (matsize (odim a))) (oint a) (odim a) (length ds) 0 es with
      | None => set_mat (cached (N:=N) algo a) None None
      | Some mm => match close_or (N:=N) algo mm (odim a + length ds) with
        | None => set_mat (cached (N:=N) algo a) None None
        | Some mm => set_mat (cached (N:=N) algo a) (Some (inter_dest (hmat_permute m mm (odim a) (odim a + length ds) (assign_perm (odim a) ds)) dest)) None
        end
      end
    end).
  { unfold oct_assign_linexpr_array. rewrite DE, D1, D2. destruct ds as [|d [|d' ds]]; [reflexivity|simpl in L1; lia|reflexivity]. }
  rewrite EQ. clear EQ. destruct (best (cached algo a)) as [m|] eqn:B; [|tauto]. destruct (best_wf _ m W' B) as [WM DM]. rewrite D1 in *.
  set (n := odim a) in *. set (w := fun x => if Nat.ltb x n then v x else nth (x - n) rs 0%R).
  assert (Wv : forall x, x < n -> w x = v x) by (intros x Hx; unfold w; destruct (Nat.ltb_spec x n); auto; lia).
  destruct (embed_ok n (length ds) m v WM DM GB) as (E1 & E2 & E3). specialize (E3 w Wv).
  destruct (assign_loop_sound (N:=N) es (oint a) n (length ds) 0 (zero_tmp (2 * n + 2) (2 * length ds) tmp) (bset_array (hmat_top (n + length ds)) m 0 0 (matsize n)) w ltac:(lia)) as (mm & -> & H1 & H2 & H3); auto.
  { intros p Hp. rewrite zero_tmp_spec. destruct (Nat.leb_spec (2 * n + 2) p), (Nat.ltb_spec p (2 * n + 2 + 2 * length ds)); auto; lia. }
  { intros k e H. simpl. replace (w (n + k)) with (nth k rs 0%R) by (unfold w; destruct (Nat.ltb_spec (n + k) n); [lia|f_equal; lia]).
    apply (expr_val_ext' n e v); auto. apply WE. eapply nth_error_In; eauto. }
  { intros e t0 d0 u0 m0 I U0 T0 Z0 S0. apply (OK e t0 d0 u0 m m0); auto. intros i j Hi Hj. rewrite S0 by auto. rewrite embed_cells by (auto; lia).
    destruct (Nat.ltb_spec i (2 * n)); auto; lia. }
  destruct (close_or_ok algo (n + length ds) mm w H2 H3 H1) as (mc & -> & C1 & C2 & C3).
  pose proof (ap_inj n ds ND LD) as PI. pose proof (ap_surj n ds ND LD) as PS.
  destruct (permute_drop_wf n (n + length ds) (assign_perm n ds) PI PS mc m C1 C2) as [P1 P2].
  assert (P3 : gam n (hmat_permute m mc n (n + length ds) (assign_perm n ds)) (vsets v ds rs)).
  { apply (permute_drop_gam n (n + length ds) (assign_perm n ds) PI PS mc m (vsets v ds rs) w); auto.
    destruct (assign_perm_spec n ds ND LD) as (A1 & A2 & A3). intros x Hx Px. destruct (Nat.lt_ge_cases x n) as [L|L].
    - destruct (in_dec Nat.eq_dec x ds) as [I|I]; [rewrite A2 in Px by auto; lia|]. rewrite A3, vsets_out by auto. auto.
    - replace x with (n + (x - n)) by lia. rewrite A1 by lia. rewrite vsets_nth by (auto; lia). unfold w. destruct (Nat.ltb_spec (n + (x - n)) n); [lia|f_equal; lia]. }
  unfold set_mat. rewrite D1, D2. fold n. split.
  - apply gamo_single_m. apply (inter_gam n _ dest a); auto.
  - destruct (inter_wf _ dest a DO (conj P1 P2)). apply wfo_single_m; auto. apply (wfo_int _ W).
Qed.
Lemma assign_loop_wf : forall es intdim n size i tmp mm mm', i + length es <= size -> zeros n size tmp ->
  (forall e, In e es -> wf_linexpr n e) -> wfm (n + size) mm -> nndiag (n + size) mm ->
  assign_loop (N:=N) tmp mm intdim n size i es = Some mm' -> wfm (n + size) mm' /\ nndiag (n + size) mm'.
Proof.
  induction es as [|e es IH]; intros intdim n size i tmp mm mm' HL Z WE W D H.
  - injection H as <-. auto.
  - simpl in H. destruct (uexpr_of_linexpr tmp e intdim n) as [dst u] eqn:UE.
    assert (We : wf_linexpr n e) by (apply WE; left; auto).
    destruct (uexpr_spec intdim tmp e n dst u We UE) as [US FR].
    assert (Zd : zeros n size dst) by (intros p Hp; rewrite FR by lia; apply Z; auto).
    pose proof (uspec_lift intdim n size e dst u We Zd US) as US'. pose proof (wf_linexpr_mono n size e We) as We'.
    assert (Hd : n + i < n + size) by (simpl in HL; lia).
    assert (T : u_type u <> UEmpty) by (intros T; rewrite T in H; discriminate).
    destruct (hassign_wf intdim (n + size) (n + i) e dst u mm Hd We' US' D false W T) as [W1 D1]; [discriminate|].
    destruct (hmat_assign dst mm u (n + size) (n + i) false) as [mm1 rr] eqn:HA. simpl in W1, D1.
    assert (H' : assign_loop (N:=N) dst mm1 intdim n size (S i) es = Some mm') by (destruct (u_type u); auto; congruence).
    eapply IH in H'; eauto. simpl in HL. lia. intros e' I. apply WE. right; auto.
Qed.
Lemma embed_wf : forall n k m, wfm n m -> nndiag n m ->
  wfm (n + k) (bset_array (hmat_top (n + k)) m 0 0 (matsize n)) /\ nndiag (n + k) (bset_array (hmat_top (n + k)) m 0 0 (matsize n)).
Proof.
  intros n k m W D. split.
  - intros i j Hi Hj. rewrite embed_cells by auto. destruct (Nat.ltb_spec i (2 * n)); [apply W; auto|]. destruct (Nat.eqb i j); discriminate.
  - intros x Hx. rewrite embed_cells by (auto using or1_ge). destruct (Nat.ltb_spec x (2 * n)); [apply D; auto|]. rewrite Nat.eqb_refl. simpl. lia.
Qed.
Lemma assign_array_wfo : forall algo tmp a ds es dest, wfo a -> NoDup ds -> (forall d, In d ds -> d < odim a) ->
  length es = length ds -> length ds <> 1 -> (forall e, In e es -> wf_linexpr (odim a) e) -> dest_ok a dest ->
  wfo (oct_assign_linexpr_array (N:=N) algo tmp a ds es dest) /\ odim (oct_assign_linexpr_array (N:=N) algo tmp a ds es dest) = odim a /\
  oint (oct_assign_linexpr_array (N:=N) algo tmp a ds es dest) = oint a.
Proof.
  intros algo tmp a ds es dest W ND LD LE L1 WE DO.
  pose proof (cached_wfo (N:=N) algo a W) as W'. destruct (cached_dim (N:=N) algo a) as [D1 D2].
  assert (NONE : wfo (mkOct None None (odim a) (oint a))) by (apply wfo_none, (wfo_int _ W)).
  assert (EQ : oct_assign_linexpr_array (N:=N) algo tmp a ds es dest =
    if dest_empty dest then set_mat a None None else
    match best (cached (N:=N) algo a) with
    | None => set_mat (cached (N:=N) algo a) None None
    | Some m =>
      match assign_loop (N:=N) (zero_tmp (2 * odim a + 2) (2 * length ds) tmp) (bset_array (hmat_top (odim a + length ds)) m 0 0 (matsize (odim a))) (oint a) (odim a) (length ds) 0 es with
      | None => set_mat (cached (N:=N) algo a) None None
      | Some mm => match close_or (N:=N) algo mm (odim a + length ds) with
        | None => set_mat (cached (N:=N) algo a) None None
        | Some mm => set_mat (cached (N:=N) algo a) (Some (inter_dest (hmat_permute m mm (odim a) (odim a + length ds) (assign_perm (odim a) ds)) dest)) None
        end
      end
    end).
  { unfold oct_assign_linexpr_array. rewrite D1, D2. destruct ds as [|d [|d' ds]]; [reflexivity|simpl in L1; lia|reflexivity]. }
  rewrite EQ. clear EQ. unfold set_mat. rewrite D1, D2. destruct (dest_empty dest); [auto|]. destruct (best (cached algo a)) as [m|] eqn:B; [|auto].
  destruct (best_wf _ m W' B) as [WM DM]. rewrite D1 in *. destruct (embed_wf (odim a) (length ds) m WM DM) as [E1 E2].
  destruct (assign_loop _ _ _ _ _ _ _) as [mm|] eqn:AL; [|auto]. eapply assign_loop_wf in AL; eauto; [|lia|].
  2:{ intros p Hp. rewrite zero_tmp_spec. destruct (Nat.leb_spec (2 * odim a + 2) p), (Nat.ltb_spec p (2 * odim a + 2 + 2 * length ds)); auto; lia. }
  destruct AL as [A1 A2]. destruct (close_or algo mm (odim a + length ds)) as [mc|] eqn:CO; [|auto].
  assert (C : wfm (odim a + length ds) mc /\ nndiag (odim a + length ds) mc).
  { unfold close_or in CO. destruct (0 <=? algo)%Z; [|injection CO as <-; auto]. destruct (hmat_close mm (odim a + length ds)) as [c b] eqn:H. destruct b; [discriminate|].
    injection CO as <-. split; [eapply close_wf; eauto|eapply close_nndiag; eauto]. }
  destruct C as [C1 C2]. destruct (permute_drop_wf (odim a) (odim a + length ds) (assign_perm (odim a) ds) (ap_inj _ ds ND LD) (ap_surj _ ds ND LD) mc m C1 C2) as [P1 P2].
  destruct (inter_wf _ dest a DO (conj P1 P2)). split; auto. apply wfo_single_m; auto. apply (wfo_int _ W).
Qed.
End ArrMain.

(** with at least one temporary dimension, the two cells read by mistake hold 0 *)
Section Stale.
Context {N : numtype}.
Lemma bmul_zero_r : forall a, bmul (N:=N) a (Fin 0) = Fin 0.
Proof. intros a. unfold bmul. simpl. rewrite orb_true_r. auto. Qed.
Lemma last_zero_ok : forall n dst m, dst (2 * n + 2) = Fin 0 -> dst (2 * n + 3) = Fin 0 -> other_ok (N:=N) (S n) dst m.
Proof.
  intros n dst m Z1 Z2. unfold other_ok. destruct (other_sums (N:=N) (S n) m dst) as [[t cs] Cs] eqn:OS. right.
  assert (T : t (2 * S n + 2) = Fin 0 /\ t (2 * S n + 3) = Fin 0).
  { unfold other_sums in OS. set (body := fun (j : nat) (s : hmat * osum * osum) => _) in OS. rewrite for_snoc in OS.
    assert (FR : forall p, p < 2 * S n + 2 -> fst (fst (for_ 0 n body (dst, mkS (bmul_2 (N:=N) (dst 0)) 0 0 0, mkS (bmul_2 (N:=N) (dst 1)) 0 0 0))) p = dst p).
    { apply (for_inv (fun s => forall p, p < 2 * S n + 2 -> fst (fst s) p = dst p)); auto.
      intros k [[t1 x1] y1] Hk H p Hp. unfold body. destruct (bounds_mul (N:=N) t1 _ _ _ _ _) as [[t' ta] tb] eqn:B. simpl.
      rewrite (bounds_mul_frame _ _ _ _ _ _ _ _ _ p B) by lia. apply H; auto. }
    destruct (for_ 0 n body _) as [[t1 x1] y1]. simpl in FR. unfold body in OS. rewrite !FR in OS by lia. rewrite Z1, Z2 in OS.
    unfold bounds_mul in OS. rewrite !bmul_zero_r in OS. injection OS as <- _ _.
    replace (2 * S n + 2) with (2 * (S n + 1)) by lia. replace (2 * S n + 3) with (2 * (S n + 1) + 1) by lia.
    split; rewrite ?upd_other by lia; rewrite ?upd_same; rewrite ?upd_other by lia; rewrite ?upd_same; auto. }
  destruct T as [T1 T2]. intros [ST|ST]; rewrite T1, T2 in ST; discriminate.
Qed.
Lemma zeros_ok : forall n k dst m, 0 < k -> zeros n k dst -> other_ok (N:=N) (n + k) dst m.
Proof.
  intros n k dst m Hk Z. replace (n + k) with (S (n + (k - 1))) by lia. apply last_zero_ok; apply Z; lia.
Qed.
End Stale.

(** oct_substitute_linexpr_array: simultaneous substitution of several variables. *)
From Coq Require Import Arith Lia List ZArith QArith Qreals Reals Lra Bool.
From Verif Require Import Bound BoundFacts Util Linexpr LinexprFacts OctMat OctIdx OctClose OctWalk OctInc OctStrong OctGeom OctGeom2 Oct OctFacts OctFacts2 OctFacts3 OctForget OctResize OctResize3 OctTransfer OctUexpr OctGuard OctGuard2 OctGuard3 OctGuard4 OctGuard5 OctAssign OctAssign2 OctAssign3 OctAssign4 OctAssign5 OctAssign6 OctAssignArr OctSubst OctSubst2.
Import ListNotations.
Open Scope nat_scope.
#[local] Arguments Nat.div : simpl never.
#[local] Arguments Nat.modulo : simpl never.
#[local] Arguments Nat.mul : simpl never.
#[local] Arguments Nat.leb : simpl never.
#[local] Arguments Nat.ltb : simpl never.
#[local] Arguments xor1 : simpl never.
#[local] Arguments or1 : simpl never.
#[local] Arguments matpos : simpl never.
#[local] Arguments matpos2 : simpl never.
Section SubArr.
Context {N : numtype}.
(** a matrix with a point has no -oo and no negative diagonal *)
Lemma gam_wf : forall n m v, gam n m v -> wfm n m /\ nndiag n m.
Proof.
  intros n m v G. split.
  - intros i j Hi Hj E0. specialize (G i j Hi Hj). rewrite E0 in G. exact G.
  - intros x Hx. specialize (G x x Hx (or1_ge x)). rewrite Rminus_diag_eq in G by auto. apply not_sneg in G. unfold sneg in G. apply Z.ltb_ge in G. auto.
Qed.
(** the two variables are equal in the point: a bound on one holds for the other *)
Lemma mmin_keep : forall n m i j i' j' v, i < 2 * n -> j < 2 * n -> i' < 2 * n -> j' <= or1 i' -> gam n m v ->
  (lit v j - lit v i = lit v j' - lit v i')%R -> gam n (mmin m (matpos2 i j) (m (matpos i' j'))) v.
Proof. intros n m i j i' j' v Hi Hj Hi' Hj' G E0. apply mmin_gam; auto. split; auto. rewrite E0. apply G; auto. Qed.
Lemma subst_temp_sound : forall n size i x m v y, i < size -> x < n -> gam (n + size) m v -> v x = v (n + i) ->
  gam (n + size) (subst_temp n size i (2 * x) m) (vset v x y).
Proof.
  intros n size i x m v y Hi Hx G EQ. unfold subst_temp. rewrite div2_even.
  assert (L : lit v (2 * (n + i)) = v x /\ lit v (2 * (n + i) + 1) = (- v x)%R /\ lit v (2 * x) = v x /\ lit v (2 * x + 1) = (- v x)%R) by (rewrite !lit_even, !lit_odd, EQ; auto).
  destruct L as (L1 & L2 & L3 & L4).
  set (K := n + size) in *. assert (HK : n + i < K) by (unfold K; lia).
  set (d := 2 * (n + i)) in *.
  match goal with |- gam K (hmat_forget_var K x (mmin (mmin (for_ ?a ?b ?f2 (for_ 0 ?c ?f1 m)) ?p _) ?q _)) _ => set (F1 := f1); set (F2 := f2) end.
  assert (G1 : gam K (for_ 0 (2 * x) F1 m) v).
  { apply (for_inv (fun m0 => gam K m0 v)); auto. intros j m0 Hj G0. unfold F1.
    assert (G1 : gam K (mmin m0 (matpos (d + 1) j) (m0 (matpos (2 * x + 1) j))) v).
    { rewrite <- (matpos2_half (d + 1) j) by (unfold d; rewrite or1_odd; lia). apply mmin_keep; auto; try (unfold d; lia); [rewrite or1_odd; lia|lra]. }
    rewrite <- (matpos2_half d j) by (unfold d; rewrite or1_even; lia).
    replace (m0 (matpos (2 * x) j)) with (mmin m0 (matpos (d + 1) j) (m0 (matpos (2 * x + 1) j)) (matpos (2 * x) j)).
    - apply mmin_keep; auto; try (unfold d; lia); [rewrite or1_even; lia|lra].
    - unfold mmin. rewrite upd_other; auto. intros E0. apply matpos_inj in E0; [unfold d in *; lia|rewrite or1_even; lia|unfold d; rewrite or1_odd; lia]. }
  assert (G2 : gam K (for_ (2 * x + 2) (2 * n + 2 * size) F2 (for_ 0 (2 * x) F1 m)) v).
  { apply (for_inv (fun m0 => gam K m0 v)); auto. intros j m0 Hj G0. unfold F2. cbv zeta.
    assert (Hj2 : xor1 j < 2 * K) by (apply xor1_lt; unfold K; lia).
    assert (Hj3 : 2 * x + 1 <= or1 (xor1 j)). { pose proof (proj2 (half_div (xor1 j) (2 * x + 1))) as HH. apply HH. rewrite div2_xor1, div2_odd. apply Nat.div_le_lower_bound; lia. }
    assert (G1' : gam K (mmin m0 (matpos2 (d + 1) j) (m0 (matpos (xor1 j) (2 * x)))) v).
    { apply mmin_keep; auto; try (unfold d, K in *; lia). rewrite lit_xor1. lra. }
    apply mmin_keep; auto; try (unfold d, K in *; lia). rewrite lit_xor1. lra. }
  assert (G3 : forall m0, gam K m0 v -> gam K (mmin (mmin m0 (matpos (d + 1) d) (m0 (matpos (2 * x + 1) (2 * x)))) (matpos d (d + 1)) (mmin m0 (matpos (d + 1) d) (m0 (matpos (2 * x + 1) (2 * x))) (matpos (2 * x) (2 * x + 1)))) v).
  { intros m0 G0. assert (G1' : gam K (mmin m0 (matpos (d + 1) d) (m0 (matpos (2 * x + 1) (2 * x)))) v).
    { rewrite <- (matpos2_half (d + 1) d) by (unfold d; rewrite or1_odd; lia). apply mmin_keep; auto; try (unfold d; lia); [rewrite or1_odd; lia|lra]. }
    rewrite <- (matpos2_half d (d + 1)) by (unfold d; rewrite or1_even; lia). apply mmin_keep; auto; try (unfold d; lia); [rewrite or1_even; lia|lra]. }
  specialize (G3 _ G2). destruct (gam_wf _ _ _ G3) as [_ ND].
  apply forget_offd; auto; [unfold K; lia|]. apply offd_vset. intros p q Hp Hq _ _. apply gam_full with K; auto.
Qed.
Lemma subst_loop_sound : forall es intdim n size i tmp mm v, i + length es <= size -> zeros n size tmp ->
  (forall e, In e es -> wf_linexpr n e) -> gam (n + size) mm v ->
  (forall k e, nth_error es k = Some e -> expr_val e v (v (n + (i + k)))) ->
  exists mm', subst_loop (N:=N) tmp mm intdim n size i es = Some mm' /\ gam (n + size) mm' v.
Proof.
  induction es as [|e es IH]; intros intdim n size i tmp mm v HL Z WE G HV.
  - exists mm. auto.
  - simpl. destruct (uexpr_of_linexpr tmp e intdim n) as [dst u] eqn:UE.
    assert (We : wf_linexpr n e) by (apply WE; left; auto).
    destruct (uexpr_spec intdim tmp e n dst u We UE) as [US FR].
    assert (Zd : zeros n size dst) by (intros p Hp; rewrite FR by lia; apply Z; auto).
    pose proof (uspec_lift intdim n size e dst u We Zd US) as US'. pose proof (wf_linexpr_mono n size e We) as We'.
    pose proof (HV 0 e eq_refl) as HE. rewrite Nat.add_0_r in HE.
    pose proof (uval_nonempty intdim (n + size) e dst u We' US' v _ HE) as T.
    assert (Hd : n + i < n + size) by (simpl in HL; lia).
    destruct (gam_wf _ _ _ G) as [_ D].
    destruct (hsubst_sound intdim (n + size) (n + i) e dst u mm Hd We' US' D false v _ (proj1 (gam_vset_id _ _ _ _) G) HE) as (mm1 & rr & HS & G1).
    destruct (IH intdim n size (S i) dst mm1 v) as (mm' & H1 & H2); auto.
    + simpl in HL. lia.
    + intros e' I. apply WE. right; auto.
    + intros k e' H. specialize (HV (S k) e' H). replace (S i + k) with (i + S k) by lia. auto.
    + exists mm'. split; auto. rewrite HS. destruct (u_type u); auto; congruence.
Qed.
Lemma in_firstn_nth : forall (l : list nat) k x, In x (firstn k l) <-> exists i, i < k /\ i < length l /\ nth i l 0 = x.
Proof.
  intros l k x. split.
  - intros I. apply In_nth with (d := 0) in I. destruct I as (i & Hi & E0). rewrite firstn_length in Hi. exists i. split; [lia|split; [lia|]].
    rewrite <- E0. rewrite <- (firstn_skipn k l) at 1. rewrite app_nth1; auto. rewrite firstn_length. lia.
  - intros (i & H1 & H2 & <-). rewrite <- (firstn_skipn k l) at 1. rewrite app_nth1 by (rewrite firstn_length; lia). apply nth_In. rewrite firstn_length; lia.
Qed.
Lemma temps_sound : forall n ds rs v mm, NoDup ds -> (forall d, In d ds -> d < n) -> length rs = length ds ->
  gam (n + length ds) mm (fun x => if Nat.ltb x n then vsets v ds rs x else nth (x - n) rs 0%R) ->
  gam (n + length ds) (for_ 0 (length ds) (fun i mm => subst_temp n (length ds) i (2 * nth i ds 0) mm) mm)
    (fun x => if Nat.ltb x n then v x else nth (x - n) rs 0%R).
Proof.
  intros n ds rs v mm ND LD LR G.
  set (U := fun k x => if Nat.ltb x n then (if in_dec Nat.eq_dec x (firstn k ds) then v x else vsets v ds rs x) else nth (x - n) rs 0%R).
  assert (G0 : gam (n + length ds) mm (U 0)) by (revert G; apply gam_same; intros x; unfold U; simpl; auto).
  assert (GK : forall k, k <= length ds -> gam (n + length ds) (for_ 0 k (fun i mm => subst_temp n (length ds) i (2 * nth i ds 0) mm) mm) (U k)).
  { induction k; intros Hk; [rewrite for_empty by lia; auto|]. rewrite for_snoc. specialize (IHk ltac:(lia)).
    assert (Lk : nth k ds 0 < n) by (apply LD, nth_In; lia).
    assert (NK : ~ In (nth k ds 0) (firstn k ds)).
    { intros I. apply in_firstn_nth in I. destruct I as (i & H1 & H2 & H3). apply (proj1 (NoDup_nth ds 0) ND) in H3; lia. }
    assert (E1 : U k (nth k ds 0) = U k (n + k)).
    { unfold U. destruct (Nat.ltb_spec (nth k ds 0) n); [|lia]. destruct (Nat.ltb_spec (n + k) n); [lia|]. destruct (in_dec _ _ _); [tauto|].
      rewrite vsets_nth by (auto; lia). f_equal. lia. }
    pose proof (subst_temp_sound n (length ds) k (nth k ds 0) _ (U k) (v (nth k ds 0)) ltac:(lia) Lk IHk E1) as S1.
    revert S1. apply gam_same. intros x. unfold vset, U. destruct (Nat.eqb_spec x (nth k ds 0)) as [->|NE].
    - destruct (Nat.ltb_spec (nth k ds 0) n); [|lia]. destruct (in_dec _ _ (firstn (S k) ds)) as [|X]; auto. exfalso. apply X. apply in_firstn_nth. exists k. repeat split; lia.
    - destruct (Nat.ltb x n); auto. destruct (in_dec _ x (firstn k ds)) as [I|I], (in_dec _ x (firstn (S k) ds)) as [J|J]; auto; exfalso.
      + apply J. apply in_firstn_nth in I. destruct I as (i & H1 & H2 & H3). apply in_firstn_nth. exists i. repeat split; auto.
      + apply in_firstn_nth in J. destruct J as (i & H1 & H2 & H3). destruct (Nat.eq_dec i k) as [->|]; [congruence|]. apply I. apply in_firstn_nth. exists i. repeat split; auto. lia. }
  specialize (GK (length ds) (le_n _)). revert GK. apply gam_same. intros x. unfold U. rewrite firstn_all. destruct (Nat.ltb x n); auto.
  destruct (in_dec _ x ds); auto. apply vsets_out; auto.
Qed.
Theorem subst_array_ok : forall algo tmp a ds es dest v rs, wfo a -> NoDup ds -> (forall d, In d ds -> d < odim a) ->
  length es = length ds -> length rs = length ds -> length ds <> 1 -> (forall e, In e es -> wf_linexpr (odim a) e) -> dest_ok a dest ->
  gamo a (vsets v ds rs) -> (forall k e, nth_error es k = Some e -> expr_val e v (nth k rs 0%R)) -> in_dest dest v ->
  gamo (oct_substitute_linexpr_array (N:=N) algo tmp a ds es dest) v /\ wfo (oct_substitute_linexpr_array (N:=N) algo tmp a ds es dest).
Proof.
  intros algo tmp a ds es dest v rs W ND LD LE LR L1 WE DO G HV HD.
  assert (DE : dest_empty dest = false).
  { destruct dest as [o|]; simpl in *; auto. destruct (ocl o) eqn:OC; auto. destruct (om o) eqn:OM; auto. destruct HD as ([X|X] & _); congruence. }
  assert (GO : gamo (cached (N:=N) algo a) (vsets v ds rs)) by (apply cached_gamo; auto).
  pose proof (cached_wfo (N:=N) algo a W) as W'. destruct (cached_dim (N:=N) algo a) as [D1 D2]. pose proof GO as GB. rewrite (gamo_best _ _ W'), D1 in GB.
  assert (EQ : oct_substitute_linexpr_array (N:=N) algo tmp a ds es dest =
    match best (cached (N:=N) algo a) with
    | None => set_mat (cached (N:=N) algo a) None None
    | Some m =>
      match subst_loop (N:=N) (zero_tmp (2 * odim a + 2) (2 * length ds) tmp)
        (for_ 0 (length ds) (fun i mm => subst_temp (odim a) (length ds) i (2 * nth i ds 0) mm) (bset_array (hmat_top (odim a + length ds)) m 0 0 (matsize (odim a))))
        (oint a) (odim a) (length ds) 0 es with
      | None => set_mat (cached (N:=N) algo a) None None
      | Some mm => match close_or (N:=N) algo mm (odim a + length ds) with
        | None => set_mat (cached (N:=N) algo a) None None
        | Some mm => set_mat (cached (N:=N) algo a) (Some (inter_dest mm dest)) None
        end
      end
    end).
  { unfold oct_substitute_linexpr_array. rewrite DE, D1, D2. destruct ds as [|d [|d' ds]]; [reflexivity|simpl in L1; lia|reflexivity]. }
  rewrite EQ. clear EQ. destruct (best (cached algo a)) as [m|] eqn:B; [|tauto]. destruct (best_wf _ m W' B) as [WM DM]. rewrite D1 in *.
  set (n := odim a) in *. set (u := fun x => if Nat.ltb x n then v x else nth (x - n) rs 0%R).
  destruct (embed_ok n (length ds) m _ WM DM GB) as (_ & _ & E3).
  specialize (E3 (fun x => if Nat.ltb x n then vsets v ds rs x else nth (x - n) rs 0%R)).
  assert (E4 : gam (n + length ds) (bset_array (hmat_top (n + length ds)) m 0 0 (matsize n)) (fun x => if Nat.ltb x n then vsets v ds rs x else nth (x - n) rs 0%R)).
  { apply E3. intros x Hx. destruct (Nat.ltb_spec x n); auto; lia. }
  pose proof (temps_sound n ds rs v _ ND LD LR E4) as T. fold u in T.
  destruct (subst_loop_sound es (oint a) n (length ds) 0 (zero_tmp (2 * n + 2) (2 * length ds) tmp) _ u ltac:(lia)
    ltac:(intros p Hp; rewrite zero_tmp_spec; destruct (Nat.leb_spec (2 * n + 2) p), (Nat.ltb_spec p (2 * n + 2 + 2 * length ds)); auto; lia) WE T) as (mm & -> & H1).
  { intros k e H. simpl. replace (u (n + k)) with (nth k rs 0%R) by (unfold u; destruct (Nat.ltb_spec (n + k) n); [lia|f_equal; lia]).
    apply (expr_val_ext' n e v); auto. apply WE. eapply nth_error_In; eauto. intros x Hx. unfold u. destruct (Nat.ltb_spec x n); auto; lia. }
  destruct (gam_wf _ _ _ H1) as [H2 H3]. destruct (close_or_ok (N:=N) algo (n + length ds) mm u H2 H3 H1) as (mc & -> & C1 & C2 & C3).
  assert (P3 : gam n mc v).
  { apply gam_ext with u; [intros x Hx; unfold u; destruct (Nat.ltb_spec x n); auto; lia|]. intros i j Hi Hj. apply C3; auto. lia. }
  assert (P1 : wfm n mc) by (intros i j Hi Hj; apply C1; auto; lia). assert (P2 : nndiag n mc) by (intros i Hi; apply C2; lia).
  unfold set_mat. rewrite D1, D2. fold n. split.
  - apply gamo_single_m. apply (inter_gam n _ dest a); auto.
  - destruct (inter_wf _ dest a DO (conj P1 P2)). apply wfo_single_m; auto. apply (wfo_int _ W).
Qed.
End SubArr.

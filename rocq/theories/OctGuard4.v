(** hmat_add_lincons: soundness, exactness, preservation of the invariants. *)
From Coq Require Import Arith Lia List ZArith QArith Qreals Reals Lra Bool.
From Verif Require Import Bound BoundFacts Linexpr LinexprFacts OctMat OctIdx OctClose OctWalk OctInc OctStrong OctGeom OctGeom2 Oct OctFacts OctFacts2 OctFacts3 OctTransfer OctUexpr OctGuard OctGuard2 OctGuard3.
Import ListNotations.
Open Scope nat_scope.
#[local] Arguments Nat.div : simpl never.
#[local] Arguments Nat.modulo : simpl never.
#[local] Arguments Nat.mul : simpl never.
#[local] Arguments Nat.leb : simpl never.
#[local] Arguments Nat.ltb : simpl never.
#[local] Arguments xor1 : simpl never.
#[local] Arguments or1 : simpl never.
#[local] Arguments matpos : simpl never.
#[local] Arguments matpos2 : simpl never.
Local Notation E := exact_num.

(** points with integer values on the integer dimensions *)
Definition int_pts (intdim : nat) (v : nat -> R) : Prop := forall d, d < intdim -> is_integer (v d).

Section Guard.
Context {N : numtype}.
Variables (intdim n : nat).

(** the constant after the treatment of strict integer constraints *)
Definition strict_int (u : uexpr) (t : constyp) : bool := u_int u && match t with CSup => true | _ => false end.
Definition strict_tmp (u : uexpr) (t : constyp) (tmp : hmat) : hmat :=
  if strict_int u t then upd (upd tmp 0 (badd_uint (N:=N) (tmp 0) 1)) 1 (bsub_uint (N:=N) (tmp 1) 1) else tmp.
Definition strict_typ (u : uexpr) (t : constyp) : constyp := if strict_int u t then CSupEq else t.
Lemma strict_cell : forall u t tmp p, 2 <= p -> strict_tmp u t tmp p = tmp p.
Proof. intros. unfold strict_tmp. destruct (strict_int u t); auto. rewrite !upd_other by lia. auto. Qed.
Lemma strict_cst : forall u t tmp, tmp 0 <> MInf -> tmp 1 <> MInf -> strict_tmp u t tmp 0 <> MInf /\ strict_tmp u t tmp 1 <> MInf.
Proof.
  intros u t tmp H0 H1. unfold strict_tmp. destruct (strict_int u t); auto. rewrite upd_same, upd_other, upd_same by lia.
  destruct (tmp 0), (tmp 1); simpl; try congruence; split; try discriminate; apply rnd_not_MInf.
Qed.

(** the bounds for  part + [-lo,hi] CMP 0 *)
Definition add_unit (m : hmat) (t : constyp) (i j : nat) (hi lo : bound) : hmat :=
  let m := mmin m (matpos2 i j) hi in
  match t with CEq => mmin m (matpos2 (xor1 i) (xor1 j)) lo | _ => m end.

Lemma snonneg_spec : forall b, snonneg b = true <-> le_rb 0 b.
Proof. intros b. unfold snonneg. rewrite Z.leb_le. apply bsgn_ge0_iff. Qed.
Lemma spos_spec : forall b, spos b = true <-> exists x, (0 < x)%R /\ le_rb x b.
Proof.
  intros b. unfold spos. rewrite Z.ltb_lt. destruct b as [|q|]; simpl.
  - split; [lia|]. intros [x [_ H]]. tauto.
  - rewrite sgn_Q_pos. split; [intros H; exists (Q2R q); lra|]. intros [x H]; lra.
  - split; [intros _; exists 1%R; split; [lra|auto]|lia].
Qed.
Lemma pend_sound : forall keep g v, (g_pend g = true -> g_var g < n) -> gam n (g_m g) v ->
  exists m, pend_close (N:=N) n keep g = Some m /\ gam n m v.
Proof.
  intros keep g v HV G. unfold pend_close. destruct (g_resp g && g_pend g && negb keep) eqn:T; [|eauto].
  apply andb_true_iff in T as [T _]. apply andb_true_iff in T as [_ T].
  destruct (hmat_close_incremental (N:=N) (g_m g) n (g_var g)) as [m' b] eqn:C.
  destruct (close_inc_sound n (g_m g) (g_var g) v m' b (HV T) C) as [H1 H2]. rewrite (H1 G) in *. exists m'. split; auto. apply H2; auto.
Qed.
Lemma pend_back : forall keep g v m, (g_pend g = true -> g_var g < n) -> pend_close (N:=N) n keep g = Some m -> gam n m v -> gam n (g_m g) v.
Proof.
  intros keep g v m HV H G. unfold pend_close in H. destruct (g_resp g && g_pend g && negb keep) eqn:T; [|inversion H; subst; auto].
  apply andb_true_iff in T as [T _]. apply andb_true_iff in T as [_ T].
  destruct (hmat_close_incremental (N:=N) (g_m g) n (g_var g)) as [m' b] eqn:C. destruct b; inversion H; subst.
  destruct (close_inc_sound n (g_m g) (g_var g) v m false (HV T) C) as [H1 H2]. apply H2; auto.
Qed.
Lemma pend_wf : forall keep g m, (g_pend g = true -> g_var g < n) -> pend_close (N:=N) n keep g = Some m ->
  wfm n (g_m g) /\ nndiag n (g_m g) -> wfm n m /\ nndiag n m.
Proof.
  intros keep g m HV H W. unfold pend_close in H. destruct (g_resp g && g_pend g && negb keep) eqn:T; [|inversion H; subst; auto].
  apply andb_true_iff in T as [T _]. apply andb_true_iff in T as [_ T].
  destruct (hmat_close_incremental (N:=N) (g_m g) n (g_var g)) as [m' b] eqn:C. destruct b; inversion H; subst. split.
  - eapply close_inc_wf; [apply HV; auto| |exact C]. tauto.
  - eapply close_inc_nndiag; exact C.
Qed.

(** one iteration, by kind of constraint *)
Inductive step (c : lincons) (g : gst) : option gst -> Prop :=
| step_skip : (lc_typ c = CEqMod \/ lc_typ c = CDisEq) -> step c g (Some (mkG (g_m g) (g_tmp g) false (g_resp g) (g_pend g) (g_var g)))
| step_empty : forall dst u, ~ (lc_typ c = CEqMod \/ lc_typ c = CDisEq) -> uspec (N:=N) intdim n (lc_expr c) dst u -> u_type u = UEmpty ->
    step c g (Some (mkG (g_m g) (strict_tmp u (lc_typ c) dst) (g_exact g) (g_resp g) (g_pend g) (g_var g)))
| step_zero : forall dst u tmp t o, ~ (lc_typ c = CEqMod \/ lc_typ c = CDisEq) -> uspec (N:=N) intdim n (lc_expr c) dst u -> u_type u = UZero ->
    tmp = strict_tmp u (lc_typ c) dst -> t = strict_typ u (lc_typ c) ->
    o = (if match t with
         | CSupEq => (snonneg (tmp 1))
         | CSup => (spos (tmp 1))
         | _ => (snonneg (tmp 0)) && (snonneg (tmp 1))
         end
      then Some (mkG (g_m g) tmp (g_exact g) (g_resp g) (g_pend g) (g_var g)) else None) ->
    step c g o
| step_unit : forall dst u tmp tmp' t keep x i j hi lo o, ~ (lc_typ c = CEqMod \/ lc_typ c = CDisEq) -> uspec (N:=N) intdim n (lc_expr c) dst u ->
    (u_type u = UUnary \/ u_type u = UBinary) ->
    tmp = strict_tmp u (lc_typ c) dst -> t = strict_typ u (lc_typ c) -> i < 2 * n -> j < 2 * n -> i <> j -> x < n ->
    (i / 2 = x \/ j / 2 = x) -> (keep = true -> g_var g = x) ->
    (forall v, exists k, (k = 1 \/ k = 2)%R /\ (lit v j - lit v i = - (k * upart u v))%R /\
       (k = 1%R -> hi = tmp 1 /\ lo = tmp 0) /\ (k = 2%R -> hi = bmul_2 (N:=N) (tmp 1) /\ lo = bmul_2 (N:=N) (tmp 0))) ->
    o = match pend_close (N:=N) n keep g with
        | None => None
        | Some m => Some (mkG (add_unit m t i j hi lo) tmp' (match t with CSup => false | _ => g_exact g end) (g_resp g) true x)
        end ->
    step c g o
| step_other : forall dst u tmp tmp' cs Cs t, ~ (lc_typ c = CEqMod \/ lc_typ c = CDisEq) -> uspec (N:=N) intdim n (lc_expr c) dst u -> u_type u = UOther ->
    tmp = strict_tmp u (lc_typ c) dst -> t = strict_typ u (lc_typ c) ->
    other_sums (N:=N) n (g_m g) tmp = (tmp', cs, Cs) ->
    step c g (Some (mkG (match t with
               | CEq => other_half (N:=N) n cs (cell_hi tmp') (cell_lo tmp') (other_half (N:=N) n Cs (cell_lo tmp') (cell_hi tmp') (g_m g))
               | _ => other_half (N:=N) n Cs (cell_lo tmp') (cell_hi tmp') (g_m g)
               end) tmp' false false (g_pend g) (g_var g))).

Lemma add1_step : forall c g, wf_linexpr n (lc_expr c) -> step c g (add_lincons1 (N:=N) intdim n c g).
Proof.
  intros c g W. unfold add_lincons1. destruct (uexpr_of_linexpr (N:=N) (g_tmp g) (lc_expr c) intdim n) as [dst u] eqn:UE.
  destruct (uexpr_spec intdim (g_tmp g) (lc_expr c) n dst u W UE) as [S0 _].
  assert (DM : (lc_typ c = CEqMod \/ lc_typ c = CDisEq) \/ ~ (lc_typ c = CEqMod \/ lc_typ c = CDisEq)) by (destruct (lc_typ c); auto; right; intros [H|H]; discriminate).
  destruct DM as [DM|DM].
  { pose proof (step_skip c g DM) as H. destruct DM as [-> | ->]; exact H. }
  assert (X : step c g (
    let tmp := strict_tmp u (lc_typ c) dst in
    let typ := strict_typ u (lc_typ c) in
    let exact := match typ with CSup => false | _ => g_exact g end in
    match u_type u with
    | UEmpty => Some (mkG (g_m g) tmp (g_exact g) (g_resp g) (g_pend g) (g_var g))
    | UZero =>
      if match typ with
         | CSupEq => (snonneg (tmp 1))
         | CSup => (spos (tmp 1))
         | _ => (snonneg (tmp 0)) && (snonneg (tmp 1))
         end
      then Some (mkG (g_m g) tmp (g_exact g) (g_resp g) (g_pend g) (g_var g))
      else None
    | UUnary =>
      match pend_close (N:=N) n (Nat.eqb (g_var g) (u_i u)) g with
      | None => None
      | Some m =>
        let ui := ulit (u_i u) (u_ci u) in
        let tmp := upd (upd tmp 0 (bmul_2 (N:=N) (tmp 0))) 1 (bmul_2 (N:=N) (tmp 1)) in
        let m := mmin m (matpos ui (xor1 ui)) (tmp 1) in
        let m := match typ with CEq => mmin m (matpos (xor1 ui) ui) (tmp 0) | _ => m end in
        Some (mkG m tmp exact (g_resp g) true (u_i u))
      end
    | UBinary =>
      match pend_close (N:=N) n (Nat.eqb (g_var g) (u_i u) || Nat.eqb (g_var g) (u_j u)) g with
      | None => None
      | Some m =>
        let ui := ulit (u_i u) (u_ci u) in
        let uj := ulit (u_j u) (u_cj u) in
        let m := mmin m (matpos2 uj (xor1 ui)) (tmp 1) in
        let m := match typ with CEq => mmin m (matpos2 (xor1 uj) ui) (tmp 0) | _ => m end in
        Some (mkG m tmp exact (g_resp g) true
                (if Nat.eqb (g_var g) (u_j u) then u_j u else u_i u))
      end
    | UOther =>
      let '(tmp, cs, Cs) := other_sums (N:=N) n (g_m g) tmp in
      let m := other_half (N:=N) n Cs (cell_lo tmp) (cell_hi tmp) (g_m g) in
      let m := match typ with
               | CEq => other_half (N:=N) n cs (cell_hi tmp) (cell_lo tmp) m
               | _ => m
               end in
      Some (mkG m tmp false false (g_pend g) (g_var g))
    end)).
  { cbv zeta. set (tmp := strict_tmp u (lc_typ c) dst). set (typ := strict_typ u (lc_typ c)).
    destruct (u_type u) eqn:UT.
    - eapply step_empty; eauto.
    - eapply step_zero; eauto.
    - pose proof (unit_idx intdim n (lc_expr c) dst u S0) as IX. unfold unit_type in IX. rewrite UT in IX. specialize (IX I).
      set (ui := ulit (u_i u) (u_ci u)).
      eapply (step_unit c g dst u tmp _ typ (Nat.eqb (g_var g) (u_i u)) (u_i u) ui (xor1 ui) (bmul_2 (N:=N) (tmp 1)) (bmul_2 (N:=N) (tmp 0))); auto.
      + apply ulit_lt; auto.
      + apply xor1_lt, ulit_lt; auto.
      + intros HH. symmetry in HH. revert HH. apply xor1_neq.
      + left. apply ulit_div.
      + intros HH. apply Nat.eqb_eq in HH. auto.
      + intros v. exists 2%R. unfold upart. rewrite UT. fold ui. rewrite lit_xor1. split; [auto|]. split; [lra|]. split; [intros; lra|auto].
      + destruct (pend_close n (g_var g =? u_i u) g); auto. f_equal. unfold add_unit. rewrite upd_same, upd_other, upd_same by lia.
        rewrite unary_cell, xor1_invol, unary_cell'. reflexivity.
    - pose proof (unit_idx intdim n (lc_expr c) dst u S0) as IX. unfold unit_type in IX. rewrite UT in IX. destruct (IX I) as (I1 & I2 & I3).
      set (ui := ulit (u_i u) (u_ci u)). set (uj := ulit (u_j u) (u_cj u)).
      eapply (step_unit c g dst u tmp tmp typ (Nat.eqb (g_var g) (u_i u) || Nat.eqb (g_var g) (u_j u)) (if Nat.eqb (g_var g) (u_j u) then u_j u else u_i u) uj (xor1 ui) (tmp 1) (tmp 0)); auto.
      + apply ulit_lt; auto.
      + apply xor1_lt, ulit_lt; auto.
      + intros HH. apply (f_equal (fun x => x / 2)) in HH. rewrite div2_xor1 in HH. unfold ui, uj in HH. rewrite !ulit_div in HH. congruence.
      + destruct (Nat.eqb (g_var g) (u_j u)); auto.
      + destruct (Nat.eqb (g_var g) (u_j u)); [left|right; rewrite div2_xor1]; apply ulit_div.
      + intros HH. apply orb_true_iff in HH. rewrite !Nat.eqb_eq in HH. destruct (Nat.eqb_spec (g_var g) (u_j u)); tauto.
      + intros v. exists 1%R. unfold upart. rewrite UT. fold ui uj. rewrite lit_xor1. split; [auto|]. split; [lra|]. split; [auto|intros; lra].
      + destruct (pend_close n _ g); auto. f_equal. unfold add_unit. rewrite xor1_invol. reflexivity.
    - destruct (other_sums n (g_m g) tmp) as [[tmp' cs] Cs] eqn:OS.
      pose proof (step_other c g dst u tmp tmp' cs Cs typ DM S0 UT eq_refl eq_refl OS) as H. destruct typ; exact H. }
  destruct (lc_typ c); try exact X; exfalso; apply DM; auto.
Qed.

(** what a solution gives for the bounds in the buffer *)
Lemma strict_val : forall c dst u v r, wf_linexpr n (lc_expr c) -> uspec (N:=N) intdim n (lc_expr c) dst u ->
  (lc_typ c = CSup -> int_pts intdim v /\ repr_e (N:=N) (lc_expr c)) ->
  ~ (lc_typ c = CEqMod \/ lc_typ c = CDisEq) ->
  expr_val (lc_expr c) v r -> sat_typ (lc_typ c) (lc_mod c) r ->
  exists c0 k, in2 c0 (strict_tmp u (lc_typ c) dst 0) (strict_tmp u (lc_typ c) dst 1) /\
    (forall j, j < n -> in2 (k j) (dst (2 * j + 2)) (dst (2 * j + 3))) /\
    match strict_typ u (lc_typ c) with CEq => (c0 + lsum n k v = 0)%R | CSup => (0 < c0 + lsum n k v)%R | _ => (0 <= c0 + lsum n k v)%R end.
Proof.
  intros c dst u v r W S0 HI DM HV HS. destruct (uval intdim n _ dst u W S0 v r HV) as (c0 & k & A1 & A2 & A3 & _ & _).
  unfold strict_tmp, strict_typ, strict_int. destruct (u_int u) eqn:UI; simpl.
  2:{ exists c0, k. split; auto. split; auto. rewrite <- A3. destruct (lc_typ c); simpl in HS; auto; exfalso; apply DM; auto. }
  destruct (lc_typ c) eqn:TC; simpl in HS; try (exfalso; apply DM; auto; fail).
  - exists c0, k. rewrite <- A3. auto.
  - exists c0, k. rewrite <- A3. auto.
  - destruct (HI eq_refl) as [IP RE]. pose proof (uval_int intdim n _ dst u W S0 v r UI RE IP HV) as [z Hz].
    exists (c0 - 1)%R, k. rewrite upd_same, upd_other, upd_same by lia. split; [|split; auto].
    + destruct A1 as [A0 A1]. split.
      * eapply le_rb_le; [|apply (badd_uint_sound (- c0)%R (dst 0) 1 A0)]. lra.
      * apply (bsub_uint_sound c0 (dst 1) 1 A1).
    + assert (1 <= z)%Z by (assert (0 < z)%Z by (apply lt_IZR; lra); lia). apply IZR_le in H. lra.
Qed.

Lemma add1_sound : forall c g v, wf_linexpr n (lc_expr c) -> (g_pend g = true -> g_var g < n) -> gam n (g_m g) v ->
  sat_cons c v -> (lc_typ c = CSup -> int_pts intdim v /\ repr_e (N:=N) (lc_expr c)) ->
  exists g', add_lincons1 (N:=N) intdim n c g = Some g' /\ gam n (g_m g') v /\ (g_pend g' = true -> g_var g' < n).
Proof.
  intros c g v W HV G [r [HE HS]] HI. pose proof (add1_step c g W) as ST.
  remember (add_lincons1 (N:=N) intdim n c g) as o eqn:O. clear O. destruct ST.
  - eexists. split; [reflexivity|]. auto.
  - eexists. split; [reflexivity|]. auto.
  - destruct (strict_val c dst u v r W H0 HI H HE HS) as (c0 & k & A1 & A2 & A3). subst tmp t.
    assert (UT : unit_type u) by (unfold unit_type; rewrite H1; exact I).
    rewrite (upart_sum intdim n _ dst u H0 k v UT A2) in A3. unfold upart in A3. rewrite H1, Rplus_0_r in A3. destruct A1 as [A0 A1].
    assert (B : match strict_typ u (lc_typ c) with
         | CSupEq => snonneg (strict_tmp u (lc_typ c) dst 1)
         | CSup => spos (strict_tmp u (lc_typ c) dst 1)
         | _ => snonneg (strict_tmp u (lc_typ c) dst 0) && snonneg (strict_tmp u (lc_typ c) dst 1) end = true).
    { assert (Q : ~ (strict_typ u (lc_typ c) = CEqMod \/ strict_typ u (lc_typ c) = CDisEq)).
      { unfold strict_typ. destruct (strict_int u (lc_typ c)); auto. intros [Q|Q]; discriminate. }
      destruct (strict_typ u (lc_typ c)); try (exfalso; apply Q; auto; fail).
      - subst c0. rewrite Ropp_0 in A0. apply andb_true_iff. rewrite !snonneg_spec. auto.
      - apply snonneg_spec. eapply le_rb_le; [|exact A1]. auto.
      - apply spos_spec. eauto. }
    rewrite B in H4. subst o. eexists. split; [reflexivity|]. auto.
  - destruct (strict_val c dst u v r W H0 HI H HE HS) as (c0 & k & A1 & A2 & A3). subst tmp t.
    assert (UT : unit_type u) by (unfold unit_type; destruct H1 as [-> | ->]; exact I).
    rewrite (upart_sum intdim n _ dst u H0 k v UT A2) in A3. destruct A1 as [A0 A1].
    destruct (pend_sound keep g v HV G) as (m & PC & Gm). rewrite PC in H11. subst o. eexists. split; [reflexivity|]. simpl. split; [|auto].
    destruct (H10 v) as (kk & K1 & K2 & K3 & K4).
    assert (P1 : (0 <= c0 + upart u v)%R) by (destruct (strict_typ u (lc_typ c)); lra).
    assert (L1 : le_rb (lit v j - lit v i) hi).
    { rewrite K2. destruct K1 as [-> | ->].
      - destruct (K3 eq_refl) as [-> _]. eapply le_rb_le; [|exact A1]. lra.
      - destruct (K4 eq_refl) as [-> _]. eapply le_rb_le; [|apply bmul_2_sound; exact A1]. lra. }
    assert (L2 : strict_typ u (lc_typ c) = CEq -> le_rb (lit v (xor1 j) - lit v (xor1 i)) lo).
    { intros TE. rewrite TE in A3. rewrite !lit_xor1. replace (- lit v j - - lit v i)%R with (- (lit v j - lit v i))%R by lra. rewrite K2. destruct K1 as [-> | ->].
      - destruct (K3 eq_refl) as [_ ->]. eapply le_rb_le; [|exact A0]. lra.
      - destruct (K4 eq_refl) as [_ ->]. eapply le_rb_le; [|apply bmul_2_sound; exact A0]. lra. }
    assert (G1 : gam n (mmin m (matpos2 i j) hi) v) by (apply mmin_gam; auto).
    unfold add_unit. destruct (strict_typ u (lc_typ c)); auto. apply mmin_gam; auto using xor1_lt.
  - destruct (strict_val c dst u v r W H0 HI H HE HS) as (c0 & k & A1 & A2 & A3). subst tmp t. set (tmp := strict_tmp u (lc_typ c) dst) in *.
    destruct (other_sums_spec n (g_m g) tmp tmp' cs Cs H4) as (FR & OL & OH).
    eexists. split; [reflexivity|]. simpl. split; [|auto].
    assert (CC : forall j, j < n -> in2 (k j) (tmp (2 * j + 2)) (tmp (2 * j + 3))) by (intros j Hj; unfold tmp; rewrite !strict_cell by lia; auto).
    assert (P1 : (0 <= c0 + lsum n k v)%R) by (destruct (strict_typ u (lc_typ c)); lra). destruct A1 as [A0 A1].
    assert (S1 : gam n (other_half (N:=N) n Cs (cell_lo tmp') (cell_hi tmp') (g_m g)) v /\ mle (other_half (N:=N) n Cs (cell_lo tmp') (cell_hi tmp') (g_m g)) (g_m g)).
    { apply (other_half_sound n _ _ Cs (cell_lo tmp') (cell_hi tmp') OH (g_m g) v k c0); auto.
      - apply bmul_2_sound; auto.
      - intros j Hj. unfold cell_lo, cell_hi. rewrite !FR by lia. auto.
      - intros j x Hj Hx. unfold Thi. destruct (bounds_mul (N:=N) tmp 0 _ _ _ _) as [[t' ti] ts] eqn:BM. simpl.
        apply (bounds_mul_sound _ _ _ _ _ _ _ _ _ x (k j) BM Hx (CC j Hj)).
      - apply mle_refl. }
    destruct S1 as [S1 S2]. destruct (strict_typ u (lc_typ c)); auto.
    apply (other_half_sound n _ _ cs (cell_hi tmp') (cell_lo tmp') OL (g_m g) v (fun j => - k j)%R (- c0)%R); auto.
    + replace (2 * - c0)%R with (2 * (- c0))%R by ring. apply bmul_2_sound; auto.
    + intros j Hj. unfold cell_lo, cell_hi. rewrite !FR by lia. destruct (CC j Hj). split; auto. rewrite Ropp_involutive; auto.
    + intros j x Hj Hx. unfold Tlo. destruct (bounds_mul (N:=N) tmp 0 _ _ _ _) as [[t' ti] ts] eqn:BM. simpl.
      destruct (bounds_mul_sound _ _ _ _ _ _ _ _ _ x (k j) BM Hx (CC j Hj)) as [X1 _]. eapply le_rb_le; [|exact X1]. lra.
    + rewrite lsum_opp. lra.
Qed.

(** representation invariant, any number type *)
Lemma add_unit_wf : forall m t i j hi lo, i <> j -> hi <> MInf -> lo <> MInf -> wfm n m /\ nndiag n m ->
  wfm n (add_unit m t i j hi lo) /\ nndiag n (add_unit m t i j hi lo).
Proof.
  intros m t i j hi lo D H1 H2 [W1 W2]. unfold add_unit.
  assert (X : wfm n (mmin m (matpos2 i j) hi) /\ nndiag n (mmin m (matpos2 i j) hi)) by (split; [apply mmin_wfm|apply mmin_nndiag]; auto).
  destruct t; auto. destruct X. split; [apply mmin_wfm; auto|]. apply mmin_nndiag; auto. intros HH. apply D. apply xor1_inj; auto.
Qed.
Definition ginv (g : gst) : Prop := (g_pend g = true -> g_var g < n) /\ wfm n (g_m g) /\ nndiag n (g_m g).
Lemma add1_wf : forall c g g', wf_linexpr n (lc_expr c) -> ginv g -> add_lincons1 (N:=N) intdim n c g = Some g' -> ginv g'.
Proof.
  intros c g g' W (HV & W1 & W2) HG. pose proof (add1_step c g W) as ST. rewrite HG in ST. clear HG.
  remember (Some g') as o eqn:O. destruct ST; try (inversion O; subst g'; split; simpl; auto; fail).
  - rewrite O in H4. destruct (match t with CEq => _ | _ => _ end); inversion H4. split; simpl; auto.
  - rewrite O in H11. destruct (pend_close (N:=N) n keep g) as [m|] eqn:PC; inversion H11. clear H11. split; simpl; auto.
    destruct (cell_not_MInf intdim n _ dst u W H0) as (C0 & C1 & _).
    destruct (strict_cst u (lc_typ c) dst C0 C1) as [D0 D1]. rewrite <- H2 in D0, D1.
    destruct (H10 (fun _ => 0%R)) as (kk & K1 & _ & K3 & K4).
    apply add_unit_wf; auto.
    + destruct K1 as [-> | ->]; [destruct (K3 eq_refl) as [-> _]; auto|destruct (K4 eq_refl) as [-> _]; apply bmul_2_not_MInf; auto].
    + destruct K1 as [-> | ->]; [destruct (K3 eq_refl) as [_ ->]; auto|destruct (K4 eq_refl) as [_ ->]; apply bmul_2_not_MInf; auto].
    + eapply pend_wf; eauto.
  - inversion O; subst g'. clear O. split; simpl; auto. subst tmp t. set (tmp := strict_tmp u (lc_typ c) dst) in *.
    destruct (cell_not_MInf intdim n _ dst u W H0) as (C0 & C1 & CJ).
    destruct (strict_cst u (lc_typ c) dst C0 C1) as [D0 D1]. fold tmp in D0, D1.
    destruct (other_sums_spec n (g_m g) tmp tmp' cs Cs H4) as (FR & OL & OH).
    assert (TM : forall j, j < n -> Tlo (N:=N) (g_m g) tmp j <> MInf /\ Thi (N:=N) (g_m g) tmp j <> MInf).
    { intros j Hj. unfold Tlo, Thi. destruct (bounds_mul (N:=N) tmp 0 _ _ _ _) as [[t' ti] ts] eqn:BM. simpl.
      destruct (CJ j Hj). apply (bounds_mul_not_MInf _ _ _ _ _ _ _ _ _ BM).
      - apply W1; [lia|]. rewrite or1_even. lia.
      - apply W1; [lia|]. rewrite or1_odd. lia.
      - unfold tmp. rewrite strict_cell by lia. auto.
      - unfold tmp. rewrite strict_cell by lia. auto. }
    assert (X : wfm n (other_half (N:=N) n Cs (cell_lo tmp') (cell_hi tmp') (g_m g)) /\ nndiag n (other_half (N:=N) n Cs (cell_lo tmp') (cell_hi tmp') (g_m g))).
    { apply (other_half_wf n _ _ Cs _ _ OH); auto; [apply bmul_2_not_MInf; auto|]. intros; apply TM; auto. }
    destruct (strict_typ u (lc_typ c)); auto. apply (other_half_wf n _ _ cs _ _ OL); auto; [apply bmul_2_not_MInf; auto|]. intros; apply TM; auto.
Qed.
End Guard.

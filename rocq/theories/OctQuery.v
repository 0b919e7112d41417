(** oct_sat_lincons and oct_bound_linexpr: soundness, and exactness for octagonal expressions. *)
From Coq Require Import Arith Lia List ZArith QArith Qreals Reals Lra Bool.
From Verif Require Import Bound BoundFacts Linexpr LinexprFacts OctMat OctIdx OctClose OctWalk OctInc OctStrong OctGeom OctGeom2 Oct OctFacts OctFacts2 OctFacts3 OctTransfer OctUexpr OctGuard OctGuard2 OctGuard3 OctGuard4 OctGuard5.
Import ListNotations.
Open Scope nat_scope.
#[local] Arguments Nat.div : simpl never.
#[local] Arguments Nat.modulo : simpl never.
#[local] Arguments Nat.mul : simpl never.
#[local] Arguments Nat.leb : simpl never.
#[local] Arguments Nat.ltb : simpl never.
#[local] Arguments xor1 : simpl never.
#[local] Arguments or1 : simpl never.
#[local] Arguments matpos : simpl never.
#[local] Arguments matpos2 : simpl never.
Local Notation E := exact_num.

(** the factor, and the two cells, for the non constant part of a unit expression *)
Definition uk (u : uexpr) : R := match u_type u with UUnary => 2%R | _ => 1%R end.
Definition ulo (m : hmat) (u : uexpr) : bound :=
  let ui := ulit (u_i u) (u_ci u) in let uj := ulit (u_j u) (u_cj u) in
  match u_type u with UUnary => m (matpos ui (xor1 ui)) | UBinary => m (matpos2 uj (xor1 ui)) | _ => Fin 0 end.
Definition uhi (m : hmat) (u : uexpr) : bound :=
  let ui := ulit (u_i u) (u_ci u) in let uj := ulit (u_j u) (u_cj u) in
  match u_type u with UUnary => m (matpos (xor1 ui) ui) | UBinary => m (matpos2 (xor1 uj) ui) | _ => Fin 0 end.
Lemma uk_cases : forall u, uk u = 1%R \/ uk u = 2%R.
Proof. intros u. unfold uk. destruct (u_type u); auto. Qed.

Definition uidx (n : nat) (u : uexpr) : Prop :=
  match u_type u with UZero => True | UUnary => u_i u < n | UBinary => u_i u < n /\ u_j u < n /\ u_i u <> u_j u | _ => False end.
Lemma ucells_sound : forall n m u v, uidx n u -> gam n m v -> in2 (uk u * upart u v) (ulo m u) (uhi m u).
Proof.
  intros n m u v UI G. unfold uidx, uk, upart, ulo, uhi in *. destruct (u_type u); try tauto.
  - split; simpl; rewrite Q2R_0'; lra.
  - pose proof (ulit_lt (u_i u) (u_ci u) n UI) as L. remember (ulit (u_i u) (u_ci u)) as k. rewrite <- (unary_cell k), <- (unary_cell' k).
    pose proof (gam_full n m v k (xor1 k) G L (xor1_lt _ _ L)) as G1. pose proof (gam_full n m v (xor1 k) k G (xor1_lt _ _ L) L) as G2.
    rewrite lit_xor1 in *. split; [eapply le_rb_le; [|exact G1]|eapply le_rb_le; [|exact G2]]; lra.
  - destruct UI as (I1 & I2 & I3). pose proof (ulit_lt (u_i u) (u_ci u) n I1) as L. pose proof (ulit_lt (u_j u) (u_cj u) n I2) as L'.
    remember (ulit (u_i u) (u_ci u)) as k. remember (ulit (u_j u) (u_cj u)) as l.
    pose proof (gam_full n m v l (xor1 k) G L' (xor1_lt _ _ L)) as G1. pose proof (gam_full n m v (xor1 l) k G (xor1_lt _ _ L') L) as G2.
    rewrite lit_xor1 in *. split; [eapply le_rb_le; [|exact G1]|eapply le_rb_le; [|exact G2]]; lra.
Qed.
Lemma ucells_exact : forall n m u x, uidx n u -> sclosed n m -> in2 (uk u * x) (ulo m u) (uhi m u) -> exists v, gam n m v /\ upart u v = x.
Proof.
  intros n m u x UI S0 [H1 H2]. unfold uidx, uk, upart, ulo, uhi in *. destruct (u_type u); try tauto.
  - simpl in *. rewrite Q2R_0' in *. destruct (sc_nonempty n m S0) as [v G]. exists v. split; auto. lra.
  - pose proof (ulit_lt (u_i u) (u_ci u) n UI) as L. remember (ulit (u_i u) (u_ci u)) as k. rewrite <- (unary_cell k) in H1. rewrite <- (unary_cell' k) in H2.
    destruct (project n m S0 (xor1 k) k (2 * x)) as (v & G & A); auto using xor1_lt; [apply xor1_neq|].
    exists v. split; auto. rewrite lit_xor1 in A. lra.
  - destruct UI as (I1 & I2 & I3). pose proof (ulit_lt (u_i u) (u_ci u) n I1) as L. pose proof (ulit_lt (u_j u) (u_cj u) n I2) as L'.
    pose proof (ulit_div (u_i u) (u_ci u)) as D1. pose proof (ulit_div (u_j u) (u_cj u)) as D2.
    remember (ulit (u_i u) (u_ci u)) as k. remember (ulit (u_j u) (u_cj u)) as l. rewrite Rmult_1_l in *.
    assert (NE : xor1 l <> k) by (intros NE; apply I3; rewrite <- D1, <- D2, <- NE, div2_xor1; auto).
    destruct (project n m S0 (xor1 l) k x) as (v & G & A); auto using xor1_lt.
    + rewrite <- (matpos2_coh k (xor1 l)) by auto. rewrite xor1_invol. auto.
    + exists v. split; auto. rewrite lit_xor1 in A. lra.
Qed.

(** sums of two intervals *)
Lemma in2_add : forall N x y l1 h1 l2 h2, in2 x l1 h1 -> in2 y l2 h2 -> in2 (x + y) (badd (N:=N) l1 l2) (badd (N:=N) h1 h2).
Proof. intros N x y l1 h1 l2 h2 [A1 A2] [B1 B2]. split; [replace (- (x + y))%R with (- x + - y)%R by ring|]; apply badd_sound; auto. Qed.
Lemma in2_split_up : forall a0 b0 l1 h1 l2 h2 z, in2 a0 l1 h1 -> in2 b0 l2 h2 -> (a0 + b0 <= z)%R -> le_rb z (badd (N:=E) h1 h2) ->
  exists a b, in2 a l1 h1 /\ in2 b l2 h2 /\ (a + b = z)%R.
Proof.
  intros a0 b0 l1 h1 l2 h2 z [A1 A2] [B1 B2] Hz L.
  assert (M : forall a b l, (a <= b)%R -> le_rb (- a) l -> le_rb (- b) l) by (intros a b l Hab H; eapply le_rb_le; [|exact H]; lra).
  destruct h1 as [|p|]; [destruct A2| |].
  - destruct h2 as [|q|]; [destruct B2| |].
    + simpl in L. rewrite Q2R_plus in L. destruct (Rle_dec (z - b0) (Q2R p)) as [C|C].
      * exists (z - b0)%R, b0. split; [split; [apply (M a0); auto; lra|simpl; lra]|]. split; [split; auto|lra].
      * exists (Q2R p), (z - Q2R p)%R. split; [split; [apply (M a0); auto; simpl in A2; lra|simpl; lra]|]. split; [split; [apply (M b0); auto; lra|simpl; lra]|lra].
    + exists a0, (z - a0)%R. split; [split; auto|]. split; [split; [apply (M b0); auto; lra|exact I]|lra].
  - exists (z - b0)%R, b0. split; [split; [apply (M a0); auto; lra|exact I]|]. split; [split; auto|lra].
Qed.
Lemma in2_split : forall a0 b0 l1 h1 l2 h2 z, in2 a0 l1 h1 -> in2 b0 l2 h2 -> in2 z (badd (N:=E) l1 l2) (badd (N:=E) h1 h2) ->
  exists a b, in2 a l1 h1 /\ in2 b l2 h2 /\ (a + b = z)%R.
Proof.
  intros a0 b0 l1 h1 l2 h2 z A B [H1 H2]. destruct (Rle_dec (a0 + b0) z) as [C|C].
  - apply (in2_split_up a0 b0); auto.
  - assert (F : forall x l h, in2 x l h -> in2 (- x) h l) by (intros x l h [X Y]; split; [rewrite Ropp_involutive|]; auto).
    destruct (in2_split_up (- a0) (- b0) h1 l1 h2 l2 (- z)) as (a & b & X & Y & Z0); auto; [lra|].
    exists (- a)%R, (- b)%R. split; [apply F; auto|]. split; [apply F; auto|]. lra.
Qed.
Lemma snonpos_spec : forall b, snonpos b = true <-> le_bb b (Fin 0).
Proof.
  intros b. unfold snonpos. rewrite Z.leb_le. destruct b as [|q|]; simpl; try (split; intros; auto; lia).
  - unfold Qle, Qnum, Qden. simpl. destruct q as [a b]; simpl. rewrite Z.mul_1_r. destruct a; simpl; lia.
Qed.
Lemma sneg_spec : forall b, sneg b = true <-> (bsgn b < 0)%Z.
Proof. intros. unfold sneg. apply Z.ltb_lt. Qed.

Section QSound.
Context {N U : numtype}.
(** the values of the expression are within the bounds computed *)
Lemma uval_cells : forall intdim n e dst u m v r, wf_linexpr n e -> uspec (N:=N) intdim n e dst u -> unit_type u -> gam n m v -> expr_val e v r ->
  exists c0, in2 c0 (dst 0) (dst 1) /\ coeff_in c0 (le_cst e) /\ (uk u * r = uk u * c0 + uk u * upart u v)%R /\ in2 (uk u * upart u v) (ulo m u) (uhi m u).
Proof.
  intros intdim n e dst u m v r W S0 UT G H. destruct (uval intdim n e dst u W S0 v r H) as (c0 & c & A1 & A2 & A3 & A4 & A5).
  rewrite (upart_sum intdim n e dst u S0 c v UT A2) in A3. exists c0. split; auto. split; auto. split; [rewrite A3; ring|].
  apply (ucells_sound n); auto. unfold uidx. pose proof (unit_idx intdim n e dst u S0 UT) as UI. unfold unit_type in UT. destruct (u_type u); auto.
Qed.
Lemma sat_test : forall (t : constyp) b r k, (k = 1 \/ k = 2)%R -> match t with CEqMod | CDisEq => False | _ => True end ->
  (exists lo hi, in2 (k * r) lo hi /\ snonpos lo && match t with CSup => sneg lo | _ => true end && match t with CEq => snonpos hi | _ => true end = true) ->
  sat_typ t b r.
Proof.
  intros t b r k K T (lo & hi & [H1 H2] & H). apply andb_true_iff in H as [H H3]. apply andb_true_iff in H as [H4 H5].
  rewrite snonpos_spec in H4.
  assert (R0 : (0 <= r)%R) by (pose proof (le_rb_mono _ _ _ H1 H4) as L; simpl in L; rewrite Q2R_0' in L; destruct K as [-> | ->]; lra).
  destruct t; simpl; auto; try tauto.
  - rewrite snonpos_spec in H3. pose proof (le_rb_mono _ _ _ H2 H3) as L. simpl in L. rewrite Q2R_0' in L. destruct K as [-> | ->]; lra.
  - apply sneg_spec in H5. destruct lo as [|q|]; simpl in *; try tauto; try lia.
    apply sgn_Q_neg in H5. destruct K as [-> | ->]; lra.
Qed.
Lemma sat_lincons_sound : forall algo tmp a c v, wfo a -> wf_linexpr (odim a) (lc_expr c) -> ordered (lc_expr c) ->
  oct_sat_lincons (N:=N) algo tmp a c = true -> gamo a v -> forall r, expr_val (lc_expr c) v r -> sat_typ (lc_typ c) (lc_mod c) r.
Proof.
  intros algo tmp a c v W WC OE H G r HE.
  unfold oct_sat_lincons in H. pose proof (proj1 (cached_dim (N:=N) algo a)) as D.
  rewrite <- (cached_gamo (N:=N) algo a v W), gamo_best in G by (apply cached_wfo; auto).
  destruct (best (cached algo a)) as [b|]; [|tauto].
  rewrite D in *. destruct (uexpr_of_linexpr tmp (lc_expr c) (oint (cached algo a)) (odim a)) as [dst u] eqn:UE.
  destruct (uexpr_spec _ tmp _ _ dst u WC UE) as [S0 _]. pose proof (uexpr_ordered _ _ _ _ _ _ OE UE) as OR.
  pose proof (uval_nonempty _ _ _ dst u WC S0 v r HE) as NE.
  destruct (lc_typ c) eqn:TC; try discriminate; rewrite <- TC in *.
  all: destruct (u_type u) eqn:UT; try discriminate; try congruence.
  all: assert (UN : unit_type u) by (unfold unit_type; rewrite UT; exact I).
  all: destruct (uval_cells _ _ _ dst u b v r WC S0 UN G HE) as (c0 & A1 & _ & A2 & A3).
  all: apply (sat_test _ _ r (uk u) (uk_cases u)); [rewrite TC; exact I|].
  all: try (unfold uk in A2; rewrite UT in A2; unfold upart in A2; rewrite UT, !Rmult_1_l, Rplus_0_r in A2; subst r).
  all: try (exists (dst 0), (dst 1); split; [unfold uk; rewrite UT, Rmult_1_l; auto|]; rewrite TC in *; unfold snonpos, sneg, szero in *; simpl in *;
            rewrite ?andb_true_r; fail).
  all: try (exists (badd (N:=N) (bmul_2 (N:=N) (dst 0)) (ulo b u)), (badd (N:=N) (bmul_2 (N:=N) (dst 1)) (uhi b u)); split;
    [rewrite A2; apply in2_add; auto; unfold uk; rewrite UT; destruct A1; split; [replace (- (2 * c0))%R with (2 * - c0)%R by ring|]; apply bmul_2_sound; auto
    |unfold ulo, uhi; rewrite UT; rewrite TC in *; rewrite ?andb_true_r in *; exact H]; fail).
  all: try (exists (badd (N:=N) (dst 0) (ulo b u)), (badd (N:=N) (dst 1) (uhi b u)); split;
    [rewrite A2; apply in2_add; auto; unfold uk; rewrite UT, Rmult_1_l; auto
    |unfold ulo, uhi; rewrite UT; rewrite TC in *; rewrite ?andb_true_r in *; rewrite !matpos2_half; [exact H|..]; specialize (OR eq_refl);
      unfold ulit; repeat match goal with |- context [(?x =? 1)%Z] => destruct (x =? 1)%Z end;
      rewrite ?or1_even, ?or1_odd, ?xor1_even, ?xor1_odd, ?or1_even, ?or1_odd; lia]; fail).
  all: exists (dst 0), (dst 1); split; [unfold uk; rewrite UT, Rmult_1_l; auto|].
  all: rewrite TC in *; unfold snonpos, sneg, szero in *; rewrite ?andb_true_r in *; auto.
  - apply andb_true_iff in H as [H1 H2]. apply Z.eqb_eq in H1, H2. rewrite H1, H2. auto.
  - rewrite H. rewrite andb_true_r. apply Z.ltb_lt in H. apply Z.leb_le. lia.
Qed.

Lemma bound_other_sound : forall n m dst v c0 c, gam n m v -> in2 c0 (dst 0) (dst 1) ->
  (forall j, j < n -> in2 (c j) (dst (2 * j + 2)) (dst (2 * j + 3))) ->
  in2 (c0 + lsum n c v) (bound_other (N:=N) n m dst 0) (bound_other (N:=N) n m dst 1).
Proof.
  intros n m dst v c0 c G H0 HC. unfold bound_other.
  apply (for_ind (fun i tmp => in2 (c0 + lsum i c v) (tmp 0) (tmp 1) /\ (forall p, 2 * i + 2 <= p -> p < 2 * n + 2 -> tmp p = dst p))); [lia| |].
  - simpl. rewrite Rplus_0_r. auto.
  - intros i tmp Hi [I1 I2]. rewrite upd_same.
    set (t1 := upd tmp (2 * i + 2) (bdiv_2 (N:=N) (tmp (2 * i + 2)))). set (t2 := upd t1 (2 * i + 3) (bdiv_2 (N:=N) (t1 (2 * i + 3)))).
    destruct (bounds_mul (N:=N) t2 (2 * (n + 1)) _ _ _ _) as [[t3 ta] tb] eqn:BM.
    pose proof (fun q => bounds_mul_frame t2 _ _ _ _ _ _ _ _ q BM) as FR.
    assert (X : in2 (2 * v i * (c i / 2)) ta tb).
    { apply (bounds_mul_sound _ _ _ _ _ _ _ _ _ _ _ BM).
      - apply (gam_unary n); auto. lia.
      - assert (T1 : t1 (2 * i + 3) = dst (2 * i + 3)) by (unfold t1; rewrite upd_other by lia; apply I2; lia).
        assert (T2 : t2 (2 * i + 2) = bdiv_2 (N:=N) (dst (2 * i + 2))) by (unfold t2; rewrite upd_other by lia; unfold t1; rewrite upd_same; rewrite I2 by lia; auto).
        rewrite T1, T2. destruct (HC i ltac:(lia)) as [C1 C2]. split; [replace (- (c i / 2))%R with (- c i / 2)%R by field|]; apply bdiv_2_sound; auto. }
    split.
    + repeat rewrite ?upd_same, ?upd_other by lia. simpl. replace (c0 + (lsum i c v + c i * v i))%R with (c0 + lsum i c v + 2 * v i * (c i / 2))%R by field.
      apply in2_add; auto. rewrite !FR by lia. unfold t2, t1. rewrite !upd_other by lia. auto.
    + intros p P1 P2. rewrite !upd_other by lia. rewrite FR by lia. unfold t2, t1. rewrite !upd_other by lia. apply I2; lia.
Qed.
Lemma in_u1 : forall x lo hi, in2 x lo hi -> in_u x (interval_of_bounds (U:=U) lo hi false).
Proof.
  intros x lo hi [H1 H2]. split; simpl.
  - unfold scalar_of_lower. destruct (binfty lo); [exact I|]. apply bneg_ge. apply bconv_sound. auto.
  - unfold scalar_of_upper. destruct (binfty hi); [exact I|]. apply bconv_sound. auto.
Qed.
Lemma in_u2 : forall x lo hi, in2 (2 * x) lo hi -> in_u x (interval_of_bounds (U:=U) lo hi true).
Proof.
  intros x lo hi [H1 H2]. split; simpl; [apply inf_sound|apply sup_sound]; auto. eapply le_rb_le; [|exact H1]. lra.
Qed.
Lemma coeff_mul2 : forall k c0 lo hi em, wf_coeff k -> coeff_in c0 k -> bounds_of_coeff (N:=N) (coeff_reduce k) true = (lo, hi, em) -> in2 (2 * c0) lo hi.
Proof.
  intros k c0 lo hi em W H B. apply reduce_in in H; auto. destruct (coeff_reduce k) as [s|l u]; simpl in *; inversion B; subst.
  - destruct s as [|q|]; try tauto. subst c0. split; [eapply le_rb_le; [|apply (bos_lo (N:=N) (Q2R q) (Fin q))]|apply bos_up]; simpl; lra.
  - destruct H. split; [eapply le_rb_le; [|apply (bos_lo (N:=N) c0 l); auto]; lra|apply bos_up; auto].
Qed.
Lemma bound_linexpr_sound : forall algo tmp a e v, wfo a -> wf_linexpr (odim a) e -> gamo a v ->
  forall r, expr_val e v r -> in_u r (oct_bound_linexpr (N:=N) (U:=U) algo tmp a e).
Proof.
  intros algo tmp a e v W WC G r HE. unfold oct_bound_linexpr. pose proof (proj1 (cached_dim (N:=N) algo a)) as D.
  rewrite <- (cached_gamo (N:=N) algo a v W), gamo_best in G by (apply cached_wfo; auto).
  destruct (best (cached algo a)) as [b|]; [|tauto]. rewrite D in *.
  destruct (uexpr_of_linexpr tmp e (oint (cached algo a)) (odim a)) as [dst u] eqn:UE.
  destruct (uexpr_spec _ tmp _ _ dst u WC UE) as [S0 _].
  pose proof (uval_nonempty _ _ _ dst u WC S0 v r HE) as NE.
  assert (C : unit_type u -> exists c0, in2 c0 (dst 0) (dst 1) /\ coeff_in c0 (le_cst e) /\ (uk u * r = uk u * c0 + uk u * upart u v)%R /\ in2 (uk u * upart u v) (ulo b u) (uhi b u)) by (intros; eapply uval_cells; eauto).
  unfold unit_type, uk, ulo, uhi, upart in C. destruct (u_type u); [congruence| | | |].
  - destruct C as (c0 & A1 & A2 & A3 & A4); auto. apply in_u1. replace r with c0 by lra. auto.
  - destruct C as (c0 & A1 & A2 & A3 & A4); auto. destruct (bounds_of_coeff (coeff_reduce (le_cst e)) true) as [[t0 t1] em] eqn:BC.
    apply in_u2. rewrite A3. apply in2_add; auto. eapply coeff_mul2; eauto. apply WC.
  - destruct C as (c0 & A1 & A2 & A3 & A4); auto. apply in_u1. rewrite !Rmult_1_l in A3. rewrite A3. apply in2_add; auto. rewrite Rmult_1_l in A4. auto.
  - clear C. destruct (uval _ _ _ dst u WC S0 v r HE) as (c0 & c & A1 & A2 & -> & _). apply in_u1. apply bound_other_sound; auto.
Qed.
End QSound.

(** ** Exactness *)
Lemma uidx_unit : forall intdim n e dst u, uspec (N:=E) intdim n e dst u -> unit_type u -> uidx n u.
Proof. intros intdim n e dst u S0 UT. pose proof (unit_idx intdim n e dst u S0 UT) as UI. unfold uidx, unit_type in *. destruct (u_type u); auto. Qed.
(** every value within the bounds is reached *)
Lemma values_exact : forall intdim n e dst u m x, wf_linexpr n e -> uspec (N:=E) intdim n e dst u -> unit_type u -> sclosed n m ->
  forall lo hi, (forall c, in2 (uk u * c) lo hi <-> in2 c (dst 0) (dst 1)) ->
  in2 (uk u * x) (badd (N:=E) lo (ulo m u)) (badd (N:=E) hi (uhi m u)) ->
  exists v, gam n m v /\ expr_val e v x.
Proof.
  intros intdim n e dst u m x W S0 UT SC lo hi K H.
  assert (T : u_type u <> UEmpty) by (unfold unit_type in UT; destruct (u_type u); try tauto; discriminate).
  pose proof (uidx_unit intdim n e dst u S0 UT) as UI.
  destruct (sc_nonempty n m SC) as [v0 G0]. destruct (uval_exists intdim n e dst u W S0 v0 T) as [r0 Hr].
  destruct (uval_unit intdim n e dst u W S0 v0 r0 UT Hr) as (c1 & A1 & _).
  pose proof (ucells_sound n m u v0 UI G0) as A2. apply K in A1.
  destruct (in2_split _ _ _ _ _ _ _ A1 A2 H) as (p & q & P & Q0 & S1).
  assert (KK : (uk u <> 0)%R) by (destruct (uk_cases u) as [-> | ->]; lra).
  replace p with (uk u * (p / uk u))%R in P by (field; auto). replace q with (uk u * (q / uk u))%R in Q0 by (field; auto).
  apply K in P. destruct (ucells_exact n m u (q / uk u) UI SC Q0) as (v & G & L). exists v. split; auto.
  replace x with (p / uk u + upart u v)%R by (rewrite L; field_simplify_eq; auto; lra).
  apply (uval_back intdim n e dst); auto.
Qed.
Lemma in_u1_exact : forall r lo hi, lo <> MInf -> hi <> MInf -> in_u r (interval_of_bounds (U:=E) lo hi false) <-> in2 r lo hi.
Proof.
  intros r lo hi Hl Hh. unfold in_u, interval_of_bounds, scalar_of_lower, scalar_of_upper, in2; simpl.
  destruct lo as [|l|], hi as [|h|]; simpl; try congruence; try tauto; rewrite ?Q2R_opp; split; intros [H1 H2]; split; auto; lra.
Qed.
Lemma badd_nM : forall b c, b <> MInf -> c <> MInf -> badd (N:=E) b c <> MInf.
Proof. intros [|p|] [|q|]; simpl; intros; congruence. Qed.
Lemma ucell_nM : forall n m u, uidx n u -> wfm n m -> ulo m u <> MInf /\ uhi m u <> MInf.
Proof.
  intros n m u UI W. assert (P : forall i j, i < 2 * n -> j < 2 * n -> m (matpos2 i j) <> MInf) by (intros; eapply wfm_okm; eauto).
  unfold uidx, ulo, uhi in *. destruct (u_type u); try tauto.
  - split; discriminate.
  - pose proof (ulit_lt (u_i u) (u_ci u) n UI) as L. rewrite <- unary_cell, <- unary_cell'. split; apply P; auto using xor1_lt.
  - destruct UI as (I1 & I2 & _). pose proof (ulit_lt (u_i u) (u_ci u) n I1). pose proof (ulit_lt (u_j u) (u_cj u) n I2). split; apply P; auto using xor1_lt.
Qed.
Lemma mul2_iff : forall lo hi c, in2 (2 * c) (bmul_2 (N:=E) lo) (bmul_2 (N:=E) hi) <-> in2 c lo hi.
Proof. intros [|l|] [|h|] c; unfold in2; simpl; rewrite ?Q2R_two; split; intros [H1 H2]; split; auto; lra. Qed.
Lemma coeff_mul2_iff : forall k lo hi em lo' hi' em', wf_coeff k -> cbnd (N:=E) k = (lo, hi, em) -> bounds_of_coeff (N:=E) (coeff_reduce k) true = (lo', hi', em') ->
  lo' = bmul_2 (N:=E) lo /\ hi' = bmul_2 (N:=E) hi.
Proof.
  intros k lo hi em lo' hi' em' W B B'. unfold cbnd in B. destruct (coeff_reduce k); simpl in *; inversion B; inversion B'; subst; unfold bound_of_scalar; auto.
Qed.
Lemma bound_linexpr_exact : forall algo tmp a e r, (0 <= algo)%Z -> exo a -> wf_linexpr (odim a) e -> oct_expr e ->
  (in_u r (oct_bound_linexpr (N:=E) (U:=E) algo tmp a e) <-> exists v, gamo a v /\ expr_val e v r).
Proof.
  intros algo tmp a e r Hz X WC OE. split; [|intros (v & G & H); eapply bound_linexpr_sound; eauto; apply X].
  intros H. unfold oct_bound_linexpr in H. pose proof (proj1 (cached_dim (N:=E) algo a)) as D.
  destruct (best (cached algo a)) as [m|] eqn:B; [|exfalso; eapply uitv_bottom_empty; eauto].
  pose proof (closed_ex algo a m Hz X B) as SC. rewrite D in *.
  assert (Q : (exists v, gam (odim a) m v /\ expr_val e v r) -> exists v, gamo a v /\ expr_val e v r).
  { intros (v & G & V). exists v. split; auto. rewrite <- (cached_gamo (N:=E) algo) by apply X.
    rewrite gamo_best by (apply cached_wfo; apply X). rewrite B, D. auto. }
  apply Q. clear Q.
  destruct (uexpr_of_linexpr tmp e (oint (cached algo a)) (odim a)) as [dst u] eqn:UE.
  destruct (uexpr_spec _ tmp _ _ dst u WC UE) as [S0 _].
  pose proof (oct_not_other _ _ _ dst u WC S0 OE) as NO.
  destruct (cell_not_MInf _ _ _ dst u WC S0) as (M0 & M1 & _).
  pose proof (uidx_unit _ _ _ dst u S0) as UI.
  assert (CM : unit_type u -> ulo m u <> MInf /\ uhi m u <> MInf) by (intros UT; apply (ucell_nM (odim a)); [auto|apply SC]).
  pose proof (values_exact _ _ e dst u m r WC S0) as VX.
  assert (K1 : uk u = 1%R -> forall c, in2 (uk u * c) (dst 0) (dst 1) <-> in2 c (dst 0) (dst 1)) by (intros ->; intros; rewrite Rmult_1_l; tauto).
  unfold unit_type, uk, ulo, uhi in *. destruct (u_type u) eqn:T; [exfalso; eapply uitv_bottom_empty; eauto| | | |congruence].
  - apply (VX I SC (dst 0) (dst 1)); auto. rewrite Rmult_1_l. apply in_u1_exact in H; auto.
    destruct H as [H1 H2]. split; (eapply le_rb_mono; [eassumption|]); destruct (dst 0), (dst 1); simpl in *; auto; try lra; rewrite Qplus_0_r; apply Qle_refl.
  - destruct (bounds_of_coeff (N:=E) (coeff_reduce (le_cst e)) true) as [[t0 t1] em] eqn:BC.
    destruct (ui_cst _ _ _ _ _ S0) as [em' CB]. simpl in CB. destruct WC as [WC1 WC2].
    destruct (coeff_mul2_iff _ _ _ _ _ _ _ WC1 CB BC) as [-> ->].
    destruct (CM I) as [C1 C2].
    assert (B2 : forall b, b <> MInf -> bmul_2 (N:=E) b <> MInf) by (intros [|q|]; simpl; congruence).
    apply (VX I SC (bmul_2 (N:=E) (dst 0)) (bmul_2 (N:=E) (dst 1))); [intros; apply mul2_iff|].
    apply in_u_exact in H; auto using badd_nM. destruct H as [H1 H2]. split; auto. eapply le_rb_le; [|exact H1]. lra.
  - destruct (CM I) as [C1 C2]. apply (VX I SC (dst 0) (dst 1)); auto. rewrite Rmult_1_l. apply in_u1_exact in H; auto using badd_nM.
Qed.
Lemma pick_neg : forall x0 lo hi, in2 x0 lo hi -> (snonpos lo = false -> exists x, in2 x lo hi /\ (x < 0)%R) /\
  (sneg lo = false -> exists x, in2 x lo hi /\ (x <= 0)%R).
Proof.
  intros x0 lo hi [H1 H2].
  assert (M : forall y, le_rb (- y) lo -> (y <= x0)%R -> in2 y lo hi) by (intros y Hy L; split; auto; eapply le_rb_le; [|exact H2]; auto).
  assert (HF : forall q, lo = Fin q -> in2 (- Q2R q) lo hi).
  { intros q ->. apply M; simpl in *; lra. }
  assert (HI : lo = PInf -> exists x, in2 x lo hi /\ (x < 0)%R).
  { intros ->. exists (Rmin x0 (-1)). split; [apply M; [exact I|apply Rmin_l]|]. pose proof (Rmin_r x0 (-1)). lra. }
  split; intros H.
  - destruct lo as [|q|]; [destruct H1| |auto]. exists (- Q2R q)%R. split; [auto|]. unfold snonpos in H. apply Z.leb_gt in H. simpl in H. apply sgn_Q_pos in H. lra.
  - destruct lo as [|q|]; [destruct H1| |]. 
    + exists (- Q2R q)%R. split; [auto|]. unfold sneg in H. apply Z.ltb_ge in H. simpl in H. apply sgn_Q_ge in H. lra.
    + destruct HI as (x & A & C); auto. exists x. split; auto. lra.
Qed.
Lemma sat_lincons_exact : forall algo tmp a c, (0 <= algo)%Z -> exo a -> wf_linexpr (odim a) (lc_expr c) -> ordered (lc_expr c) -> oct_expr (lc_expr c) ->
  match lc_typ c with CEqMod | CDisEq => False | _ => True end ->
  oct_sat_lincons (N:=E) algo tmp a c = false -> exists v r, gamo a v /\ expr_val (lc_expr c) v r /\ ~ sat_typ (lc_typ c) (lc_mod c) r.
Proof.
  intros algo tmp a c Hz X WC OR OE TC H. unfold oct_sat_lincons in H. pose proof (proj1 (cached_dim (N:=E) algo a)) as D.
  destruct (best (cached algo a)) as [m|] eqn:B; [|discriminate].
  pose proof (closed_ex algo a m Hz X B) as SC. rewrite D in *. set (e := lc_expr c) in *.
  assert (Q : (exists v r, gam (odim a) m v /\ expr_val e v r /\ ~ sat_typ (lc_typ c) (lc_mod c) r) -> exists v r, gamo a v /\ expr_val e v r /\ ~ sat_typ (lc_typ c) (lc_mod c) r).
  { intros (v & r & G & V). exists v, r. split; auto. rewrite <- (cached_gamo (N:=E) algo) by apply X.
    rewrite gamo_best by (apply cached_wfo; apply X). rewrite B, D. auto. }
  apply Q. clear Q.
  destruct (uexpr_of_linexpr tmp e (oint (cached algo a)) (odim a)) as [dst u] eqn:UE.
  destruct (uexpr_spec _ tmp _ _ dst u WC UE) as [S0 _].
  pose proof (oct_not_other _ _ _ dst u WC S0 OE) as NO. pose proof (uexpr_ordered _ _ _ _ _ _ OR UE) as OU.
  assert (HT : u_type u <> UEmpty) by (intros T; rewrite T in H; destruct (lc_typ c); try tauto; discriminate).
  assert (UT : unit_type u) by (unfold unit_type; destruct (u_type u); try tauto; congruence).
  pose proof (uidx_unit _ _ _ dst u S0 UT) as UI.
  set (lo := if match u_type u with UUnary => true | _ => false end then bmul_2 (N:=E) (dst 0) else dst 0).
  set (hi := if match u_type u with UUnary => true | _ => false end then bmul_2 (N:=E) (dst 1) else dst 1).
  assert (K : forall x, in2 (uk u * x) lo hi <-> in2 x (dst 0) (dst 1)).
  { intros x. unfold lo, hi, uk. destruct (u_type u); rewrite ?Rmult_1_l; try tauto. apply mul2_iff. }
  assert (P : forall x, in2 (uk u * x) (badd (N:=E) lo (ulo m u)) (badd (N:=E) hi (uhi m u)) -> ~ sat_typ (lc_typ c) (lc_mod c) x ->
      exists v r, gam (odim a) m v /\ expr_val e v r /\ ~ sat_typ (lc_typ c) (lc_mod c) r).
  { intros x Hx NS. destruct (values_exact _ _ e dst u m x WC S0 UT SC lo hi K Hx) as (v & G & V). exists v, x. auto. }
  destruct (sc_nonempty _ m SC) as [v0 G0]. destruct (uval_exists _ _ e dst u WC S0 v0 HT) as [r0 Hr].
  destruct (uval_unit _ _ e dst u WC S0 v0 r0 UT Hr) as (c1 & A1 & _). apply K in A1.
  pose proof (in2_add E _ _ _ _ _ _ A1 (ucells_sound _ m u v0 UI G0)) as I0.
  set (t0 := badd (N:=E) lo (ulo m u)) in *. set (t1 := badd (N:=E) hi (uhi m u)) in *.
  assert (KP : (0 < uk u)%R) by (destruct (uk_cases u) as [-> | ->]; lra).
  assert (HT2 : snonpos t0 && match lc_typ c with CSup => sneg t0 | _ => true end && match lc_typ c with CEq => snonpos t1 | _ => true end = false).
  { destruct (u_type u) eqn:T; try congruence.
    - assert (E0 : forall b, bsgn (badd (N:=E) b (Fin 0)) = bsgn b).
      { intros [|q|]; simpl; auto. destruct q as [a0 b0]; simpl; rewrite Z.mul_1_r, Z.add_0_r; reflexivity. }
      unfold t0, t1, lo, hi, ulo, uhi. rewrite ?T. unfold snonpos, sneg. rewrite !E0.
      destruct A1 as [A1 A2]. unfold lo, hi in A1, A2. rewrite ?T in A1, A2.
      destruct (lc_typ c); try tauto; unfold snonpos, sneg, szero in H; rewrite ?andb_true_r in *; auto.
      + apply andb_false_iff. apply andb_false_iff in H. rewrite !Z.eqb_neq in H. rewrite !Z.leb_gt.
        destruct (Z_lt_dec (bsgn (dst 0)) 0) as [L0|]; [|destruct (Z_lt_dec (bsgn (dst 1)) 0) as [L1|]; [|lia]].
        * right. pose proof (bsgn_lt0 (dst 0)) as BL. destruct (dst 0) as [|q|]; simpl in *; try lia; try tauto. apply sgn_Q_neg in L0.
          destruct (dst 1) as [|q'|]; simpl in *; try lia; try tauto. apply sgn_Q_pos. lra.
        * left. destruct (dst 1) as [|q|]; simpl in *; try lia; try tauto. apply sgn_Q_neg in L1.
          destruct (dst 0) as [|q'|]; simpl in *; try lia; try tauto. apply sgn_Q_pos. lra.
      + rewrite H. apply andb_false_r.
    - unfold t0, t1, lo, hi, ulo, uhi. rewrite ?T. destruct (lc_typ c); try tauto; exact H.
    - assert (M1 : matpos2 (ulit (u_j u) (u_cj u)) (xor1 (ulit (u_i u) (u_ci u))) = matpos (ulit (u_j u) (u_cj u)) (xor1 (ulit (u_i u) (u_ci u))) /\
                   matpos2 (xor1 (ulit (u_j u) (u_cj u))) (ulit (u_i u) (u_ci u)) = matpos (xor1 (ulit (u_j u) (u_cj u))) (ulit (u_i u) (u_ci u))).
      { specialize (OU eq_refl). split; apply matpos2_half; unfold ulit; repeat match goal with |- context [(?x =? 1)%Z] => destruct (x =? 1)%Z end;
        rewrite ?or1_even, ?or1_odd, ?xor1_even, ?xor1_odd, ?or1_even, ?or1_odd; lia. }
      unfold t0, t1, lo, hi, ulo, uhi. rewrite ?T. destruct M1 as [-> ->]. destruct (lc_typ c); try tauto; exact H. }
  assert (NG : forall x, (x < 0)%R -> ~ sat_typ (lc_typ c) (lc_mod c) (x / uk u)).
  { intros x Hx. assert (x / uk u < 0)%R by (apply Ropp_lt_cancel; rewrite Ropp_0, <- Ropp_div; apply Rdiv_lt_0_compat; lra).
    destruct (lc_typ c); simpl; try tauto; lra. }
  assert (DK : forall x, in2 x t0 t1 -> in2 (uk u * (x / uk u)) t0 t1) by (intros x Hx; replace (uk u * (x / uk u))%R with x by (field; lra); auto).
  apply andb_false_iff in HT2 as [HT2|HT2]; [apply andb_false_iff in HT2 as [HT2|HT2]|].
  - destruct (proj1 (pick_neg _ _ _ I0) HT2) as (x & X1 & X2). apply (P (x / uk u)%R); auto.
  - destruct (lc_typ c) eqn:TY; try discriminate. destruct (proj2 (pick_neg _ _ _ I0) HT2) as (x & X1 & X2). apply (P (x / uk u)%R); auto.
    simpl. assert (x / uk u <= 0)%R; [|lra]. apply Ropp_le_cancel. rewrite Ropp_0, <- Ropp_div. apply Rle_mult_inv_pos; lra.
  - destruct (lc_typ c) eqn:TY; try discriminate.
    assert (F : forall y l h, in2 y l h -> in2 (- y) h l) by (intros y l h [Y1 Y2]; split; [rewrite Ropp_involutive|]; auto).
    destruct (proj1 (pick_neg _ _ _ (F _ _ _ I0)) HT2) as (x & X1 & X2). apply (P (- x / uk u)%R); [apply DK; apply F; auto|].
    simpl. assert (0 < - x / uk u)%R; [|lra]. apply Rdiv_lt_0_compat; lra.
Qed.

(** Guards on octagons: hmat_add_lincons. *)
From Coq Require Import Arith Lia List ZArith QArith Qreals Reals Lra Bool.
From Verif Require Import Bound BoundFacts Linexpr LinexprFacts OctMat OctIdx OctClose OctWalk OctInc OctStrong OctGeom OctGeom2 Oct OctFacts OctFacts2 OctFacts3 OctTransfer OctUexpr.
Import ListNotations.
Open Scope nat_scope.
#[local] Arguments Nat.div : simpl never.
#[local] Arguments Nat.modulo : simpl never.
#[local] Arguments Nat.mul : simpl never.
#[local] Arguments Nat.leb : simpl never.
#[local] Arguments Nat.ltb : simpl never.
#[local] Arguments xor1 : simpl never.
#[local] Arguments or1 : simpl never.
#[local] Arguments matpos : simpl never.
#[local] Arguments matpos2 : simpl never.
Local Notation E := exact_num.

(** ** Adding one constraint *)
Lemma mmin_gam : forall n m i j b v, i < 2 * n -> j < 2 * n ->
  (gam n (mmin m (matpos2 i j) b) v <-> gam n m v /\ le_rb (lit v j - lit v i) b).
Proof.
  intros n m i j b v Hi Hj. split.
  - intros G. split.
    + revert G. apply gam_mono2. intros i' j' Hi' Hj'. apply mmin_mle.
    + pose proof (gam_full n _ v i j G Hi Hj) as H. apply (le_rb_mono _ _ _ H). apply mmin_at.
  - intros [G H]. apply gam_okm. apply gam_okm in G.
    destruct (matpos2_cases i j) as [[A ->]|[A ->]].
    + apply (okm_mmin (N:=E)); auto. apply pathlike_valid.
    + apply (okm_mmin (N:=E)); auto using xor1_lt; [apply pathlike_valid|].
      rewrite !lit_xor1. eapply le_rb_le; [|exact H]. lra.
Qed.
Lemma mmin_wfm : forall n m p b, wfm n m -> b <> MInf -> wfm n (mmin m p b).
Proof.
  intros n m p b W B i j Hi Hj. unfold mmin. destruct (Nat.eq_dec (matpos i j) p) as [<-|D].
  - rewrite upd_same. apply bmin_not_MInf; auto.
  - rewrite upd_other by auto. auto.
Qed.
Lemma matpos2_ndiag : forall i j x, i <> j -> matpos x x <> matpos2 i j.
Proof.
  intros i j x D H. destruct (matpos2_cases i j) as [[A B]|[A B]]; rewrite B in H; apply matpos_inj in H; auto using or1_ge.
  - destruct H. congruence.
  - destruct H as [H1 H2]. apply D. rewrite <- (xor1_invol i), <- (xor1_invol j). congruence.
Qed.
Lemma mmin_nndiag : forall n m i j b, i <> j -> nndiag n m -> nndiag n (mmin m (matpos2 i j) b).
Proof.
  intros n m i j b D H x Hx. unfold mmin. rewrite upd_other by (apply matpos2_ndiag; auto). auto.
Qed.
Lemma mmin_agree : forall n x m0 m i j b, i / 2 = x \/ j / 2 = x -> agree_except n x m0 m ->
  agree_except n x m0 (mmin m (matpos2 i j) b).
Proof.
  intros n x m0 m i j b D H i' j' Hi' Hj' Di Dj. unfold mmin. rewrite upd_other; [apply H; auto|].
  intros HH. rewrite <- matpos2_half in HH by auto. 
  destruct (matpos2_cases i j) as [[A B]|[A B]]; rewrite B in HH; apply matpos2_inv in HH; auto;
    destruct HH as [[-> ->]|[-> ->]]; rewrite ?xor1_invol, ?div2_xor1 in *; tauto.
Qed.
Lemma unary_cell : forall i, matpos2 i (xor1 i) = matpos i (xor1 i).
Proof. intros. apply matpos2_half. apply xor1_le_or1. Qed.
Lemma unary_cell' : forall i, matpos2 (xor1 i) i = matpos (xor1 i) i.
Proof. intros. apply matpos2_half. rewrite or1_xor1. apply or1_ge. Qed.

Lemma ulit_div : forall i c, ulit i c / 2 = i.
Proof. intros. unfold ulit. destruct (c =? 1)%Z; [apply div2_even|apply div2_odd]. Qed.
Lemma ulit_lt : forall i c n, i < n -> ulit i c < 2 * n.
Proof. intros. unfold ulit. destruct (c =? 1)%Z; lia. Qed.
Lemma ulit_val : forall i c v, (c = 1 \/ c = -1)%Z -> lit v (ulit i c) = (IZR c * v i)%R.
Proof. intros i c v [->| ->]; unfold ulit; simpl; [rewrite lit_even|rewrite lit_odd]; lra. Qed.

(** ** Values of classified expressions *)
Section Val.
Context {N : numtype}.
Variables (intdim n : nat) (e : linexpr) (dst : hmat) (u : uexpr).
Hypothesis W : wf_linexpr n e.
Hypothesis S0 : uspec (N:=N) intdim n e dst u.

Lemma cell_not_MInf : dst 0 <> MInf /\ dst 1 <> MInf /\ forall j, j < n -> dst (2 * j + 2) <> MInf /\ dst (2 * j + 3) <> MInf.
Proof.
  destruct W as [WC WT]. destruct (ui_cst _ _ _ _ _ S0) as [em CB]. simpl in CB. destruct (cbnd_wf _ _ _ _ WC CB) as [A1 A2].
  split; auto. split; auto. intros j Hj. pose proof (ui_cell _ _ _ _ _ S0 j Hj) as C. simpl in C. unfold cell2 in C.
  replace (2 * j + 2 + 1) with (2 * j + 3) in C by lia.
  destruct (lin_coeff e j) as [k|] eqn:K.
  - destruct C as [em' C]. destruct (wf_lin_coeff n e j k WT K) as [Wk _]. apply (cbnd_wf _ _ _ _ Wk C).
  - destruct C as [-> ->]. split; discriminate.
Qed.
Lemma uval : forall v r, expr_val e v r -> exists c0 c, in2 c0 (dst 0) (dst 1) /\
  (forall j, j < n -> in2 (c j) (dst (2 * j + 2)) (dst (2 * j + 3))) /\ r = (c0 + lsum n c v)%R /\
  coeff_in c0 (le_cst e) /\ (forall j, j < n -> ocoeff_in (c j) (lin_coeff e j)).
Proof.
  intros v r H. destruct W as [WC WT]. apply (expr_val_lin n) in H; auto. destruct H as (c0 & c & H0 & H1 & H2).
  exists c0, c. destruct (ui_cst _ _ _ _ _ S0) as [em CB]. simpl in CB.
  split; [apply (cbnd_in _ _ _ _ _ WC H0 CB)|]. split; auto.
  intros j Hj. pose proof (ui_cell _ _ _ _ _ S0 j Hj) as C. simpl in C. unfold cell2 in C.
  replace (2 * j + 2 + 1) with (2 * j + 3) in C by lia. specialize (H1 j Hj).
  destruct (lin_coeff e j) as [k|] eqn:K; simpl in H1.
  - destruct C as [em' C]. destruct (wf_lin_coeff n e j k WT K) as [Wk _]. apply (cbnd_in _ _ _ _ _ Wk H1 C).
  - destruct C as [-> ->]. rewrite H1. split; simpl; rewrite Q2R_0'; lra.
Qed.
Lemma uval_nonempty : forall v r, expr_val e v r -> u_type u <> UEmpty.
Proof.
  intros v r H T. destruct W as [WC WT]. apply (expr_val_lin n) in H; auto. destruct H as (c0 & c & H0 & H1 & H2).
  destruct (ui_em _ _ _ _ _ S0 T) as [A|(j & k & Hj & Kj & A)].
  - destruct (cbnd (N:=N) (le_cst e)) as [[lo hi] em] eqn:B. simpl in A. subst. apply (cbnd_empty _ _ _ _ WC B H0).
  - destruct (wf_lin_coeff n e j k WT Kj) as [Wk _]. specialize (H1 j Hj). rewrite Kj in H1.
    destruct (cbnd (N:=N) k) as [[lo hi] em] eqn:B. simpl in A. subst. apply (cbnd_empty _ _ _ _ Wk B H1).
Qed.
Lemma zcell_in2 : forall j x, zcell dst j -> in2 x (dst (2 * j + 2)) (dst (2 * j + 3)) -> x = 0%R.
Proof.
  intros j x [Z1 Z2] [H1 H2]. apply szero_spec in Z1, Z2. destruct Z1 as [q1 [E1 Q1]], Z2 as [q2 [E2 Q2]].
  rewrite E1 in H1. rewrite E2 in H2. simpl in *. lra.
Qed.
Lemma ucell_in2 : forall j c x, ucell dst j c -> in2 x (dst (2 * j + 2)) (dst (2 * j + 3)) -> x = IZR c.
Proof.
  intros j c x (C & Z1 & Z2) [H1 H2]. apply ieq_spec in Z1, Z2. destruct Z1 as [q1 [E1 Q1]], Z2 as [q2 [E2 Q2]].
  rewrite E1 in H1. rewrite E2 in H2. simpl in *. rewrite opp_IZR in Q1. lra.
Qed.
(** the part of the value that does not come from the constant *)
Definition upart (v : nat -> R) : R :=
  match u_type u with
  | UUnary => lit v (ulit (u_i u) (u_ci u))
  | UBinary => (lit v (ulit (u_i u) (u_ci u)) + lit v (ulit (u_j u) (u_cj u)))%R
  | _ => 0%R
  end.
Definition unit_type : Prop := match u_type u with UZero | UUnary | UBinary => True | _ => False end.
Lemma upart_sum : forall (c : nat -> R) v, unit_type -> (forall j, j < n -> in2 (c j) (dst (2 * j + 2)) (dst (2 * j + 3))) ->
  lsum n c v = upart v.
Proof.
  intros c v UT H. pose proof (ui_cls _ _ _ _ _ S0) as C. simpl in C. unfold cls, unit_type, upart in *. destruct (u_type u); try tauto.
  - apply lsum_zero. intros j Hj. rewrite (zcell_in2 j (c j)) by auto. lra.
  - destruct C as (A1 & A2 & A3). rewrite (lsum_one n c v (u_i u) A1).
    + rewrite (ucell_in2 (u_i u) (u_ci u) (c (u_i u))) by auto. rewrite ulit_val; auto. apply A2.
    + intros j Hj D. rewrite (zcell_in2 j (c j)) by auto. lra.
  - destruct C as (A1 & A2 & A3 & A4 & A5 & A6). rewrite (lsum_two n c v (u_i u) (u_j u) A1 A2 A3).
    + rewrite (ucell_in2 (u_i u) (u_ci u) (c (u_i u))), (ucell_in2 (u_j u) (u_cj u) (c (u_j u))) by auto. rewrite !ulit_val; auto; [apply A5|apply A4].
    + intros j Hj D D'. rewrite (zcell_in2 j (c j)) by auto. lra.
Qed.
Lemma uval_unit : forall v r, unit_type -> expr_val e v r -> exists c0, in2 c0 (dst 0) (dst 1) /\ r = (c0 + upart v)%R.
Proof.
  intros v r UT H. destruct (uval v r H) as (c0 & c & H0 & H1 & H2 & _). exists c0. split; auto.
  rewrite <- (upart_sum c v UT H1). auto.
Qed.
Lemma unit_idx : unit_type ->
  match u_type u with
  | UUnary => u_i u < n
  | UBinary => u_i u < n /\ u_j u < n /\ u_i u <> u_j u
  | _ => True
  end.
Proof.
  intros UT. pose proof (ui_cls _ _ _ _ _ S0) as C. simpl in C. unfold cls, unit_type in *. destruct (u_type u); tauto.
Qed.
(** some value exists *)
Lemma uval_exists : forall v, u_type u <> UEmpty -> exists r, expr_val e v r.
Proof.
  intros v T. destruct W as [WC WT]. destruct (ui_ne _ _ _ _ _ S0 T) as [A B]. simpl in A.
  destruct (cbnd (N:=N) (le_cst e)) as [[lo hi] em] eqn:C. simpl in A. subst em.
  destruct (cbnd_ne _ _ _ WC C) as [c0 H0].
  assert (G : forall k, k <= n -> exists c : nat -> R, forall j, j < k -> ocoeff_in (c j) (lin_coeff e j)).
  { induction k; intros Hk; [exists (fun _ => 0%R); intros; lia|]. destruct IHk as [c Hc]; [lia|].
    assert (X : exists x, ocoeff_in x (lin_coeff e k)).
    { specialize (B k ltac:(lia)). destruct (lin_coeff e k) as [kk|] eqn:K; [|exists 0%R; reflexivity].
      destruct (wf_lin_coeff n e k kk WT K) as [Wk _]. simpl in B. destruct (cbnd (N:=N) kk) as [[l h] em] eqn:CC. simpl in B. subst em.
      apply (cbnd_ne _ _ _ Wk CC). }
    destruct X as [x Hx]. exists (fun j => if Nat.eqb j k then x else c j). intros j Hj.
    destruct (Nat.eqb_spec j k) as [->|]; auto. apply Hc. lia. }
  destruct (G n) as [c Hc]; auto. exists (c0 + lsum n c v)%R. apply (expr_val_lin n); auto. exists c0, c. auto.
Qed.
(** coefficients whose conversion is exact *)
Definition repr_k (k : coeff) : Prop := match coeff_reduce k with Scal (Fin q) => exists p, rnd N (- q) = Fin p /\ (p == - q)%Q | _ => True end.
Definition repr_e : Prop := repr_k (le_cst e) /\ forall j k, lin_coeff e j = Some k -> repr_k k.
Lemma int_coeff : forall k p em hi x, wf_coeff k -> repr_k k -> is_scalar k -> cbnd (N:=N) k = (p, hi, em) -> binteger p = true ->
  coeff_in x k -> is_integer x.
Proof.
  intros k p em hi x Wk RK SK CB BI H. unfold repr_k, is_scalar in *. apply reduce_in in H; auto.
  unfold cbnd in CB. destruct (coeff_reduce k) as [s|]; [|tauto]. destruct s as [|q|]; simpl in *; try tauto.
  inversion CB; subst. destruct RK as [p [E1 E2]]. unfold bound_of_scalar in BI. simpl in BI. rewrite E1 in BI.
  apply binteger_spec in BI. destruct BI as [z [E3|[q' [E3 E4]]]]; inversion E3; subst.
  - exists (- z)%Z. apply Qeq_Q2R in E2. rewrite Q2R_inject, Q2R_opp in E2. rewrite opp_IZR. lra.
  - exists (- z)%Z. apply Qeq_Q2R in E2. rewrite Q2R_opp in E2. rewrite opp_IZR. lra.
Qed.
Lemma uval_int : forall v r, u_int u = true -> repr_e -> (forall d, d < intdim -> is_integer (v d)) -> expr_val e v r -> is_integer r.
Proof.
  intros v r UI [R0 R1] VI H. destruct W as [WC WT]. destruct (ui_int _ _ _ _ _ S0 UI) as [[SC BC] IC]. simpl in BC, IC.
  apply (expr_val_lin n) in H; auto. destruct H as (c0 & c & H0 & H1 & ->).
  assert (IA : forall a b, is_integer a -> is_integer b -> is_integer (a + b)).
  { intros a b [z ->] [z' ->]. exists (z + z')%Z. rewrite plus_IZR. auto. }
  assert (IM : forall a b, is_integer a -> is_integer b -> is_integer (a * b)).
  { intros a b [z ->] [z' ->]. exists (z * z')%Z. rewrite mult_IZR. auto. }
  assert (I0 : is_integer 0) by (exists 0%Z; auto).
  apply IA.
  - destruct (ui_cst _ _ _ _ _ S0) as [em CB]. simpl in CB. apply (int_coeff _ _ _ _ _ WC R0 SC CB BC H0).
  - assert (G : forall k, k <= n -> is_integer (lsum k c v)).
    { induction k; intros Hk; simpl; auto. apply IA; [apply IHk; lia|].
      specialize (H1 k ltac:(lia)). destruct (lin_coeff e k) as [kk|] eqn:K; simpl in H1.
      - destruct (IC k kk ltac:(lia) K) as (Hk1 & SK & BK). destruct (wf_lin_coeff n e k kk WT K) as [Wk _].
        assert (Hkn : k < n) by lia. pose proof (ui_cell _ _ _ _ _ S0 k Hkn) as C. simpl in C. rewrite K in C. destruct C as [em C].
        apply IM; [|apply VI; auto]. apply (int_coeff _ _ _ _ _ Wk (R1 k kk K) SK C BK H1).
      - rewrite H1. exists 0%Z. lra. }
    apply G; auto.
Qed.
End Val.
Lemma uval_back : forall intdim n e dst u v c0, wf_linexpr n e -> uspec (N:=E) intdim n e dst u -> unit_type u ->
  in2 c0 (dst 0) (dst 1) -> expr_val e v (c0 + upart u v)%R.
Proof.
  intros intdim n e dst u v c0 W S0 UT H0.
  assert (T : u_type u <> UEmpty) by (unfold unit_type in UT; destruct (u_type u); try tauto; discriminate).
  destruct (uval_exists intdim n e dst u W S0 v T) as [r Hr]. destruct (uval intdim n e dst u W S0 v r Hr) as (c1 & c & A1 & A2 & A3 & A4 & A5).
  destruct W as [WC WT]. apply (expr_val_lin n); auto. exists c0, c. split; [|split; auto].
  - destruct (ui_cst _ _ _ _ _ S0) as [em CB]. simpl in CB. apply (cbnd_exact _ _ _ _ _ WC CB H0).
  - rewrite (upart_sum intdim n e dst u S0 c v UT A2). auto.
Qed.

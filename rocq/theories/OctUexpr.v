(** Classification of linear expressions by the octagon domain: specification. *)
From Coq Require Import Arith Lia List ZArith QArith Qreals Reals Lra Bool Sorted.
From Verif Require Import Bound BoundFacts Linexpr LinexprFacts OctMat OctIdx OctClose Oct OctFacts3 OctTransfer.
Import ListNotations.
Open Scope nat_scope.
#[local] Arguments Nat.mul : simpl never.
#[local] Arguments Nat.leb : simpl never.
Local Notation E := exact_num.

(** [-lo,hi] contains r *)
Definition in2 (r : R) (lo hi : bound) : Prop := le_rb (- r) lo /\ le_rb r hi.

Section Coeff.
Context {N : numtype}.
Definition cbnd (k : coeff) : bound * bound * bool := bounds_of_coeff (N:=N) (coeff_reduce k) false.
Lemma reduce_in : forall r k, wf_coeff k -> (coeff_in r (coeff_reduce k) <-> coeff_in r k).
Proof.
  intros r [s|l u] W; simpl; [tauto|]. destruct (bequal l u) eqn:B; [|simpl; tauto].
  simpl in W. destruct l as [|p|], u as [|q|]; simpl in *; try discriminate; try tauto.
  apply Qeq_bool_eq in B. apply Qeq_Q2R in B. split; intros; [|]; lra.
Qed.
Lemma reduce_wf : forall k, wf_coeff k -> wf_coeff (coeff_reduce k).
Proof.
  intros [s|l u] W; simpl; auto. destruct (bequal l u) eqn:B; simpl; auto.
  simpl in W. destruct l, u; simpl in *; try discriminate; tauto.
Qed.
Lemma cbnd_in : forall r k lo hi em, wf_coeff k -> coeff_in r k -> cbnd k = (lo, hi, em) -> em = false /\ in2 r lo hi.
Proof.
  intros r k lo hi em W H B. unfold cbnd in B. apply reduce_in in H; auto. destruct (coeff_reduce k) as [s|l u]; simpl in *.
  - inversion B; subst. split; auto. destruct s as [|q|]; simpl in H; try tauto. subst r. split.
    + apply bos_lo1. simpl. lra.
    + apply bos_up1. simpl. lra.
  - destruct H as [H1 H2]. inversion B; subst. split.
    + rewrite Z.ltb_ge, bcmp_le. destruct l, u; simpl in *; auto; try tauto. apply Qle_Q2R. lra.
    + split; [apply bos_lo1|apply bos_up1]; auto.
Qed.
Lemma cbnd_wf : forall k lo hi em, wf_coeff k -> cbnd k = (lo, hi, em) -> lo <> MInf /\ hi <> MInf.
Proof.
  intros k lo hi em W B. apply reduce_wf in W. unfold cbnd in B. destruct (coeff_reduce k) as [s|l u]; simpl in *; inversion B; subst.
  - destruct s as [|q|]; try tauto. split; [apply (bos_not_MInf (N:=N) (Fin q) true false)|apply (bos_not_MInf (N:=N) (Fin q) false false)]; discriminate.
  - split; [apply (bos_not_MInf (N:=N) l true false)|apply (bos_not_MInf (N:=N) u false false)]; tauto.
Qed.
Lemma cbnd_ne : forall k lo hi, wf_coeff k -> cbnd k = (lo, hi, false) -> exists r, coeff_in r k.
Proof.
  intros k lo hi W B. unfold cbnd in B. pose proof (reduce_wf k W) as W'.
  assert (G : exists r, coeff_in r (coeff_reduce k)).
  { destruct (coeff_reduce k) as [s|l u]; simpl in *.
    - destruct s as [|q|]; try tauto. exists (Q2R q). auto.
    - inversion B as [[A1 A2 A3]]. apply Z.ltb_ge in A3. apply bcmp_le in A3. destruct l as [|p|], u as [|q|]; simpl in *; try tauto.
      + exists (Q2R q). simpl. lra.
      + exists 0%R. auto.
      + exists (Q2R p). apply Qle_Q2R in A3. lra.
      + exists (Q2R p). lra. }
  destruct G as [r G]. exists r. apply reduce_in; auto.
Qed.
Lemma cbnd_empty : forall k lo hi r, wf_coeff k -> cbnd k = (lo, hi, true) -> ~ coeff_in r k.
Proof. intros k lo hi r W B H. destruct (cbnd_in r k lo hi true W H B). discriminate. Qed.
End Coeff.
Lemma cbnd_exact : forall k lo hi em r, wf_coeff k -> cbnd (N:=E) k = (lo, hi, em) -> in2 r lo hi -> coeff_in r k.
Proof.
  intros k lo hi em r W B [H1 H2]. apply reduce_in; auto. apply reduce_wf in W. unfold cbnd in B.
  destruct (coeff_reduce k) as [s|l u]; simpl in *; inversion B; subst; unfold bound_of_scalar in *.
  - destruct s as [|q|]; simpl in *; try tauto. rewrite Q2R_opp in H1. lra.
  - split.
    + destruct l as [|q|]; simpl in *; auto. rewrite Q2R_opp in H1. lra.
    + destruct u as [|q|]; simpl in *; auto.
Qed.

(** ** Sign and integer comparison tests *)
Lemma szero_spec : forall b, szero b = true <-> exists q, b = Fin q /\ Q2R q = 0%R.
Proof.
  intros b. unfold szero. rewrite Z.eqb_eq. destruct b as [|q|]; simpl.
  - split; [lia|intros [q [H _]]; discriminate].
  - rewrite sgn_Q_zero. split; [eauto|]. intros [p [H1 H2]]. inversion H1; subst; auto.
  - split; [lia|intros [q [H _]]; discriminate].
Qed.
Lemma ieq_spec : forall b z, ieq b z = true <-> exists q, b = Fin q /\ Q2R q = IZR z.
Proof.
  intros b z. unfold ieq, bcmp_int. rewrite Z.eqb_eq. destruct b as [|q|]; simpl.
  - split; [lia|intros [q [H _]]; discriminate].
  - rewrite qcmp_eq, Q2R_inject. split; [eauto|]. intros [p [H1 H2]]. inversion H1; subst; auto.
  - split; [lia|intros [q [H _]]; discriminate].
Qed.
Lemma ile_spec : forall b z x, ile b z = true -> le_rb x b -> (x <= IZR z)%R.
Proof.
  intros b z x. unfold ile, bcmp_int. rewrite Z.leb_le, bcmp_le. intros H1 H2. 
  pose proof (le_rb_mono _ _ _ H2 H1) as G. simpl in G. rewrite Q2R_inject in G. auto.
Qed.
Lemma binteger_spec : forall b, binteger b = true -> exists z, b = Fin (inject_Z z) \/ exists q, b = Fin q /\ Q2R q = IZR z.
Proof.
  intros [|q|] H; simpl in H; try discriminate. apply Qeq_bool_eq in H. exists (Qround.Qfloor q). right. exists q. split; auto.
  rewrite <- Q2R_inject. apply Qeq_Q2R. auto.
Qed.

(** ** Cells of the buffer *)
Section Uexpr.
Context {N : numtype}.
Variable intdim : nat.
(** cells p, p+1 hold the bounds of a coefficient *)
Definition cell2 (dst : hmat) (p : nat) (k : option coeff) : Prop :=
  match k with
  | Some k => exists em, cbnd (N:=N) k = (dst p, dst (p + 1), em)
  | None => dst p = Fin 0 /\ dst (p + 1) = Fin 0
  end.
Definition zcell (dst : hmat) (j : nat) : Prop := szero (dst (2 * j + 2)) = true /\ szero (dst (2 * j + 3)) = true.
Definition ucell (dst : hmat) (j : nat) (c : Z) : Prop :=
  (c = 1 \/ c = -1)%Z /\ ieq (dst (2 * j + 2)) (- c) = true /\ ieq (dst (2 * j + 3)) c = true.
Definition nonempty_k (k : option coeff) : Prop :=
  match k with Some k => snd (cbnd (N:=N) k) = false | None => True end.
Definition is_scalar (k : coeff) : Prop := match coeff_reduce k with Scal _ => True | _ => False end.

Section Inv.
Variable (cst : coeff) (K : nat -> option coeff).
Definition nonoct (P : nat -> Prop) (dst : hmat) : Prop :=
  (exists j, P j /\ ~ zcell dst j /\ forall c, ~ ucell dst j c) \/
  (exists i j k, P i /\ P j /\ P k /\ i <> j /\ i <> k /\ j <> k /\ ~ zcell dst i /\ ~ zcell dst j /\ ~ zcell dst k).
Lemma nonoct_mono : forall (P Q : nat -> Prop) dst dst', (forall j, P j -> Q j) -> (forall j, P j -> (zcell dst' j <-> zcell dst j)) ->
  (forall j c, P j -> (ucell dst' j c <-> ucell dst j c)) -> nonoct P dst -> nonoct Q dst'.
Proof.
  intros P Q dst dst' HQ HZ HU [(j & A1 & A2 & A3)|(i & j & k & A1 & A2 & A3 & A4 & A5 & A6 & A7 & A8 & A9)]; [left|right].
  - exists j. split; auto. split; [rewrite HZ; auto|]. intros c. rewrite HU; auto.
  - exists i, j, k. rewrite !HZ by auto. repeat (split; [auto|]). auto.
Qed.
Lemma ucell_nz : forall dst j c, ucell dst j c -> ~ zcell dst j.
Proof.
  intros dst j c (C & H1 & H2) [Z1 Z2]. apply ieq_spec in H2. apply szero_spec in Z2. destruct H2 as (q & E1 & Q1), Z2 as (q' & E2 & Q2).
  assert (q = q') by congruence. subst q'. destruct C as [-> | ->]; simpl in Q1; lra.
Qed.
Definition cls (P : nat -> Prop) (dst : hmat) (u : uexpr) : Prop :=
  match u_type u with
  | UZero => forall j, P j -> zcell dst j
  | UUnary => P (u_i u) /\ ucell dst (u_i u) (u_ci u) /\ forall j, P j -> j <> u_i u -> zcell dst j
  | UBinary => P (u_i u) /\ P (u_j u) /\ u_i u <> u_j u /\ ucell dst (u_i u) (u_ci u) /\ ucell dst (u_j u) (u_cj u) /\
               forall j, P j -> j <> u_i u -> j <> u_j u -> zcell dst j
  | UOther => nonoct P dst
  | UEmpty => True
  end.
Record uinv (P : nat -> Prop) (s : hmat * uexpr) : Prop := {
  ui_cst : cell2 (fst s) 0 (Some cst);
  ui_cell : forall j, P j -> cell2 (fst s) (2 * j + 2) (K j);
  ui_cls : cls P (fst s) (snd s);
  ui_ne : u_type (snd s) <> UEmpty -> nonempty_k (Some cst) /\ forall j, P j -> nonempty_k (K j);
  ui_em : u_type (snd s) = UEmpty -> snd (cbnd (N:=N) cst) = true \/ exists j k, P j /\ K j = Some k /\ snd (cbnd (N:=N) k) = true;
  ui_int : u_int (snd s) = true -> (is_scalar cst /\ binteger (fst s 0) = true) /\
     forall j k, P j -> K j = Some k -> j < intdim /\ is_scalar k /\ binteger (fst s (2 * j + 2)) = true
}.
Lemma ucoeff_cst : forall tmp, uinv (fun _ => False) (ucoeff (N:=N) cst 0 (tmp, mkU UZero 0 0 0 0 true)).
Proof.
  intros tmp. unfold ucoeff. destruct (bounds_of_coeff (coeff_reduce cst) false) as [[lo hi] em] eqn:B.
  assert (C : cell2 (upd (upd tmp 0 lo) (0 + 1) hi) 0 (Some cst)).
  { exists em. unfold cbnd. rewrite B. unfold upd; simpl. auto. }
  assert (EM : snd (cbnd (N:=N) cst) = em) by (unfold cbnd; rewrite B; auto).
  destruct em; constructor; simpl fst; auto; try tauto.
  - unfold cls. destruct (_ || _); simpl; auto.
  - intros H. destruct (_ || _); simpl in H; tauto.
  - intros H. unfold is_scalar. destruct (coeff_reduce cst); simpl in *; [|discriminate].
    unfold upd; simpl. destruct (binteger lo); simpl in *; [tauto|discriminate].
  - unfold cls. destruct (_ || _); simpl; tauto.
  - intros H. destruct (_ || _); simpl in H; discriminate.
  - intros H. unfold is_scalar. destruct (coeff_reduce cst); simpl in *; [|discriminate].
    unfold upd; simpl. destruct (binteger lo); simpl in *; [tauto|discriminate].
Qed.
Lemma zcell_upd : forall dst d lo hi j, j <> d -> zcell (upd (upd dst (2 * d + 2) lo) (2 * d + 3) hi) j <-> zcell dst j.
Proof. intros. unfold zcell. rewrite !upd_other by lia. tauto. Qed.
Lemma ucell_upd : forall dst d lo hi j c, j <> d -> ucell (upd (upd dst (2 * d + 2) lo) (2 * d + 3) hi) j c <-> ucell dst j c.
Proof. intros. unfold ucell. rewrite !upd_other by lia. tauto. Qed.
Lemma cell2_upd : forall dst d lo hi j k, j <> d -> cell2 (upd (upd dst (2 * d + 2) lo) (2 * d + 3) hi) (2 * j + 2) k <-> cell2 dst (2 * j + 2) k.
Proof. intros. unfold cell2. rewrite !upd_other by lia. tauto. Qed.

Definition is0 (dst : hmat) (d : nat) : bool := szero (dst (2 * d + 2)) && szero (dst (2 * d + 3)).
Definition isu (dst : hmat) (d : nat) (c : Z) : bool := ieq (dst (2 * d + 2)) (- c) && ieq (dst (2 * d + 3)) c.
Lemma class_var_fst : forall d s, fst (class_var intdim d s) = fst s.
Proof.
  intros d [dst u]. unfold class_var. destruct (u_type _); auto; destruct (_ && _); auto; 
  destruct (class_coeff dst _ d 1); auto; destruct (class_coeff dst _ d (-1)); auto.
Qed.
Lemma class_var_int : forall d s, u_int (snd (class_var intdim d s)) = true -> u_int (snd s) = true /\ d < intdim.
Proof.
  intros d [dst u] H. unfold class_var, class_coeff in H. destruct (Nat.leb_spec intdim d); simpl in *.
  - exfalso. revert H. destruct (u_type u); simpl; try discriminate; repeat (destruct (_ && _); simpl; try discriminate).
  - split; [|lia]. revert H. destruct (u_type u); simpl; auto; repeat (destruct (_ && _); simpl; auto).
Qed.
Lemma class_var_empty : forall d s, u_type (snd (class_var intdim d s)) = UEmpty <-> u_type (snd s) = UEmpty.
Proof.
  intros d [dst u]. unfold class_var, class_coeff. destruct (Nat.leb intdim d); simpl;
  destruct (u_type u) eqn:T; simpl; try rewrite T; try tauto; repeat (destruct (_ && _); simpl; try rewrite T; try (split; discriminate)); split; discriminate.
Qed.
Lemma class_var_cls : forall d dst u P, ~ P d -> cls P dst u -> cls (fun j => P j \/ j = d) dst (snd (class_var intdim d (dst, u))).
Proof.
  intros d dst u P ND C. unfold class_var, class_coeff.
  assert (Z0 : forall j, szero (dst (2 * j + 2)) && szero (dst (2 * j + 3)) = true -> zcell dst j) by (intros j HH; apply andb_true_iff in HH; auto).
  assert (U1 : ieq (dst (2 * d + 2)) (- (1)) && ieq (dst (2 * d + 3)) 1 = true -> ucell dst d 1) by (intros HH; apply andb_true_iff in HH; split; [auto|tauto]).
  assert (U2 : ieq (dst (2 * d + 2)) (- (-1)) && ieq (dst (2 * d + 3)) (-1) = true -> ucell dst d (-1)) by (intros HH; apply andb_true_iff in HH; split; [auto|tauto]).
  assert (NZ : szero (dst (2 * d + 2)) && szero (dst (2 * d + 3)) = false -> ~ zcell dst d) by (intros HH [H1 H2]; rewrite H1, H2 in HH; discriminate).
  assert (NU : ieq (dst (2 * d + 2)) (- (1)) && ieq (dst (2 * d + 3)) 1 = false -> ieq (dst (2 * d + 2)) (- (-1)) && ieq (dst (2 * d + 3)) (-1) = false ->
    forall c, ~ ucell dst d c) by (intros HH HH' c ([-> | ->] & H1 & H2); [rewrite H1, H2 in HH|rewrite H1, H2 in HH']; discriminate).
  set (u' := if Nat.leb intdim d then u_not_int u else u).
  assert (EI : u_i u' = u_i u /\ u_j u' = u_j u /\ u_ci u' = u_ci u /\ u_cj u' = u_cj u /\ u_type u' = u_type u) by (unfold u'; destruct (Nat.leb intdim d); simpl; auto).
  destruct EI as (E1 & E2 & E3 & E4 & E5). clearbody u'.
  unfold cls in C. rewrite E5. destruct (u_type u) eqn:T.
  - simpl. unfold cls. rewrite E5. auto.
  - destruct (szero _ && szero _) eqn:B0.
    + simpl. unfold cls. rewrite E5. intros j [H|H]; subst; auto.
    + destruct (ieq _ (- (1)) && _) eqn:B1; [|destruct (ieq _ (- (-1)) && _) eqn:B2]; simpl; unfold cls; simpl; auto.
      * split; [auto|]. split; auto. intros j [H|H] D; [auto|tauto].
      * split; [auto|]. split; auto. intros j [H|H] D; [auto|tauto].
      * left. exists d. auto.
  - destruct C as (C1 & C2 & C3). destruct (szero _ && szero _) eqn:B0.
    + simpl. unfold cls. rewrite E5, E1, E3. split; auto. split; auto. intros j [H|H]; subst; auto.
    + assert (Dd : u_i u <> d) by (intros HH; subst; tauto).
      destruct (ieq _ (- (1)) && _) eqn:B1; [|destruct (ieq _ (- (-1)) && _) eqn:B2]; simpl; unfold cls; simpl; rewrite ?E1, ?E3.
      * do 5 (split; [auto|]). intros j [H|H] D1 D2; [auto|tauto].
      * do 5 (split; [auto|]). intros j [H|H] D1 D2; [auto|tauto].
      * left. exists d. auto.
  - destruct (szero _ && szero _) eqn:B0.
    + destruct C as (C1 & C2 & C3 & C4 & C5 & C6). simpl. unfold cls. rewrite E5, E1, E2, E3, E4. 
      do 5 (split; [auto|]). intros j [H|H]; subst; auto.
    + destruct C as (C1 & C2 & C3 & C4 & C5 & C6). simpl. unfold cls; simpl. right. exists (u_i u), (u_j u), d.
      do 3 (split; [auto|]). split; auto. split; [intros HH; subst; tauto|]. split; [intros HH; subst; tauto|].
      split; [eapply ucell_nz; eauto|]. split; [eapply ucell_nz; eauto|auto].
  - assert (C' : nonoct (fun j => P j \/ j = d) dst) by (apply (nonoct_mono P _ dst dst); auto; tauto).
    destruct (szero _ && szero _) eqn:B0; simpl; unfold cls; simpl; rewrite ?E5; auto.
Qed.

Lemma ustep : forall d c P s, uinv P s -> ~ P d -> K d = Some c ->
  uinv (fun j => P j \/ j = d) (class_var intdim d (ucoeff (N:=N) c (2 * d + 2) s)).
Proof.
  intros d c P [dst u] V ND KD.
  unfold ucoeff. destruct (bounds_of_coeff (coeff_reduce c) false) as [[lo hi] em] eqn:B.
  replace (2 * d + 2 + 1) with (2 * d + 3) by lia.
  set (dst' := upd (upd dst (2 * d + 2) lo) (2 * d + 3) hi).
  set (u1 := if em then u_set_type u UEmpty else u).
  set (u2 := if _ || _ then _ else u1).
  assert (CB : cbnd (N:=N) c = (lo, hi, em)) by exact B.
  assert (E2 : u_type u2 = u_type u1) by (unfold u2; destruct (_ || _); auto).
  assert (E0 : u_type u1 = UEmpty <-> em = true \/ u_type u = UEmpty) by (unfold u1; destruct em; simpl; intuition discriminate).
  assert (I2 : u_int u2 = true -> u_int u = true /\ is_scalar c /\ binteger lo = true).
  { unfold u2, is_scalar. destruct (coeff_reduce c); simpl; [|discriminate]. destruct (binteger lo); simpl; [|discriminate].
    intros H. unfold u1 in H. destruct em; auto. }
  destruct V as [V1 V2 V3 V4 V5 V6]. cbn [fst snd] in V1, V2, V3, V4, V5, V6.
  constructor.
  - rewrite class_var_fst. unfold cell2. cbn [fst]. unfold dst'. rewrite !upd_other by lia. auto.
  - rewrite class_var_fst. simpl fst. intros j [H| ->].
    + unfold dst'. apply cell2_upd; [intros ->; tauto|auto].
    + rewrite KD. exists em. rewrite CB. unfold dst'. replace (2 * d + 2 + 1) with (2 * d + 3) by lia.
      rewrite upd_same, upd_other, upd_same by lia. auto.
  - rewrite class_var_fst. simpl fst. apply class_var_cls; auto.
    unfold cls. rewrite E2. unfold u1. destruct em; [simpl; auto|].
    assert (EI : u_i u2 = u_i u /\ u_j u2 = u_j u /\ u_ci u2 = u_ci u /\ u_cj u2 = u_cj u).
    { unfold u2, u1. destruct (_ || _); simpl; auto. }
    destruct EI as (F1 & F2 & F3 & F4). rewrite F1, F2, F3, F4. unfold cls in V3. destruct (u_type u) eqn:TU; auto.
    + intros j Hj. unfold dst'. apply zcell_upd; [intros ->; tauto|auto].
    + destruct V3 as (A1 & A2 & A3). split; auto. split.
      * unfold dst'. apply ucell_upd; auto. intros HH; rewrite HH in A1; tauto.
      * intros j Hj D. unfold dst'. apply zcell_upd; [intros ->; tauto|auto].
    + destruct V3 as (A1 & A2 & A3 & A4 & A5 & A6). split; auto. split; auto. split; auto. split; [|split].
      * unfold dst'. apply ucell_upd; auto. intros HH; rewrite HH in A1; tauto.
      * unfold dst'. apply ucell_upd; auto. intros HH; rewrite HH in A2; tauto.
      * intros j Hj D1 D2. unfold dst'. apply zcell_upd; [intros ->; tauto|auto].
    + revert V3. apply nonoct_mono; auto.
      * intros j Hj. apply zcell_upd. intros ->; tauto.
      * intros j k Hj. apply ucell_upd. intros ->; tauto.
  - intros H. rewrite class_var_empty in H. simpl in H. rewrite E2, E0 in H. assert (em = false) by (destruct em; tauto). subst em.
    destruct V4 as [A1 A2]; [tauto|]. split; auto. intros j [Hj| ->]; auto. rewrite KD. simpl. rewrite CB. auto.
  - intros H. rewrite class_var_empty in H. simpl in H. rewrite E2, E0 in H. destruct H as [H|H].
    + right. exists d, c. rewrite CB. simpl. auto.
    + destruct (V5 H) as [A|(j & k & A1 & A2 & A3)]; auto. right. exists j, k. auto.
  - rewrite class_var_fst. simpl fst. intros H. apply class_var_int in H. destruct H as [H H']. simpl in H. destruct (I2 H) as (H1 & H2 & H3).
    destruct (V6 H1) as [A1 A2]. split.
    + unfold dst'. rewrite !upd_other by lia. auto.
    + intros j k [Hj| ->] Kj.
      * destruct (A2 j k Hj Kj) as (B1 & B2 & B3). split; auto. split; auto. unfold dst'. rewrite !upd_other; auto; intros HH; assert (j = d) by lia; subst; tauto.
      * split; auto. assert (k = c) by congruence. subst k. split; auto. unfold dst'. rewrite upd_other, upd_same by lia. auto.
Qed.
Lemma uinv_ext : forall (P Q : nat -> Prop) s, (forall j, P j <-> Q j) -> uinv P s -> uinv Q s.
Proof.
  intros P Q [dst u] H [V1 V2 V3 V4 V5 V6]. simpl in *. constructor; simpl; auto.
  - intros j Hj. apply V2, H, Hj.
  - unfold cls in *. destruct (u_type u); auto.
    + intros j Hj. apply V3, H, Hj.
    + destruct V3 as (A1 & A2 & A3). split; [apply H; auto|]. split; auto. intros j Hj. apply A3, H, Hj.
    + destruct V3 as (A1 & A2 & A3 & A4 & A5 & A6). split; [apply H; auto|]. split; [apply H; auto|]. do 3 (split; [auto|]). intros j Hj. apply A6, H, Hj.
    + revert V3. apply nonoct_mono; try tauto. intros j; apply H.
  - intros T. destruct (V4 T) as [A1 A2]. split; auto. intros j Hj. apply A2, H, Hj.
  - intros T. destruct (V5 T) as [A|(j & k & A1 & A2 & A3)]; auto. right. exists j, k. split; [apply H|]; auto.
  - intros T. destruct (V6 T) as [A1 A2]. split; auto. intros j k Hj. apply A2, H, Hj.
Qed.
(** cells outside [P] may change *)
Lemma uinv_dst : forall (P : nat -> Prop) (dst dst' : hmat) u, (forall j, P j -> dst' (2 * j + 2) = dst (2 * j + 2) /\ dst' (2 * j + 3) = dst (2 * j + 3)) ->
  dst' 0 = dst 0 -> dst' 1 = dst 1 -> uinv P (dst, u) -> uinv P (dst', u).
Proof.
  intros P dst dst' u H H0 H1 [V1 V2 V3 V4 V5 V6]. simpl in *.
  assert (ZC : forall j, P j -> zcell dst j -> zcell dst' j) by (intros j Hj; unfold zcell; destruct (H j Hj) as [-> ->]; auto).
  assert (UC : forall j c, P j -> ucell dst j c -> ucell dst' j c) by (intros j c Hj; unfold ucell; destruct (H j Hj) as [-> ->]; auto).
  constructor; simpl; auto.
  - rewrite H0, H1. auto.
  - intros j Hj. specialize (V2 j Hj). unfold cell2 in *. replace (2 * j + 2 + 1) with (2 * j + 3) in * by lia. destruct (H j Hj) as [-> ->]. auto.
  - unfold cls in *. destruct (u_type u); auto.
    + destruct V3 as (A1 & A2 & A3). auto.
    + destruct V3 as (A1 & A2 & A3 & A4 & A5 & A6). repeat (split; auto).
    + revert V3. apply nonoct_mono; auto.
      * intros j Hj. unfold zcell. destruct (H j Hj) as [-> ->]. tauto.
      * intros j c Hj. unfold ucell. destruct (H j Hj) as [-> ->]. tauto.
  - intros T. destruct (V6 T) as [A1 A2]. split; [rewrite H0; auto|]. intros j k Hj Kj. destruct (H j Hj) as [-> _]. auto.
Qed.
(** adding zero cells *)
Lemma uinv_zero : forall (P Q : nat -> Prop) dst u, (forall j, Q j -> P j \/ (K j = None /\ dst (2 * j + 2) = Fin 0 /\ dst (2 * j + 3) = Fin 0)) ->
  (forall j, P j -> Q j) -> uinv P (dst, u) -> uinv Q (dst, u).
Proof.
  intros P Q dst u H HQ [V1 V2 V3 V4 V5 V6]. simpl in *.
  assert (ZC : forall j, K j = None /\ dst (2 * j + 2) = Fin 0 /\ dst (2 * j + 3) = Fin 0 -> zcell dst j).
  { intros j (_ & E1 & E2). unfold zcell. rewrite E1, E2. auto. }
  constructor; simpl; auto.
  - intros j Hj. destruct (H j Hj) as [A|(A1 & A2 & A3)]; auto. rewrite A1. simpl. replace (2 * j + 2 + 1) with (2 * j + 3) by lia. auto.
  - unfold cls in *. destruct (u_type u); auto.
    + intros j Hj. destruct (H j Hj); auto.
    + destruct V3 as (A1 & A2 & A3). split; auto. split; auto. intros j Hj D. destruct (H j Hj); auto.
    + destruct V3 as (A1 & A2 & A3 & A4 & A5 & A6). do 5 (split; [auto|]). intros j Hj D D'. destruct (H j Hj); auto.
    + revert V3. apply nonoct_mono; auto; tauto.
  - intros T. destruct (V4 T) as [A1 A2]. split; auto. intros j Hj. destruct (H j Hj) as [A|(A & _)]; auto. rewrite A. simpl; auto.
  - intros T. destruct (V5 T) as [A|(j & k & A1 & A2 & A3)]; auto. right. exists j, k. auto.
  - intros T. destruct (V6 T) as [A1 A2]. split; auto. intros j k Hj Kj. destruct (H j Hj) as [A|(A & _)]; [eauto|congruence].
Qed.

Lemma udense_inv : forall l i P s, uinv P s -> (forall t, t < length l -> ~ P (i + t)) -> (forall t, t < length l -> K (i + t) = nth_error l t) ->
  uinv (fun j => P j \/ (i <= j < i + length l)) (udense (N:=N) intdim i l s).
Proof.
  induction l; intros i P s V NP HK; simpl.
  - revert V. apply uinv_ext. intros j. split; [auto|]. intros [H|H]; [auto|lia].
  - eapply uinv_ext; [|apply (IHl (S i) (fun j => P j \/ j = i))].
    + intros j. simpl. split; [intros [[H|H]|H]|intros [H|H]]; try (left; tauto); try (right; lia).
      destruct (Nat.eq_dec j i); [left; tauto|right; lia].
    + apply ustep; auto.
      * specialize (NP 0 ltac:(simpl; lia)). rewrite Nat.add_0_r in NP. auto.
      * specialize (HK 0 ltac:(simpl; lia)). rewrite Nat.add_0_r in HK. auto.
    + intros t Ht [H|H]; [|lia]. apply (NP (S t)); [simpl; lia|]. replace (i + S t) with (S i + t) by lia. auto.
    + intros t Ht. specialize (HK (S t) ltac:(simpl; lia)). replace (S i + t) with (i + S t) by lia. auto.
Qed.
Lemma usparse_inv : forall l P s, uinv P s -> NoDup (term_dims l) -> (forall j, In j (term_dims l) -> ~ P j /\ K j = sp_coeff l j) ->
  uinv (fun j => P j \/ In j (term_dims l)) (usparse (N:=N) intdim l s).
Proof.
  induction l as [|[[d|] c] l IH]; intros P s V ND HK; simpl in *.
  - revert V. apply uinv_ext. tauto.
  - inversion ND; subst. eapply uinv_ext; [|apply (IH (fun j => P j \/ j = d))]; auto.
    + intros j. simpl. intuition.
    + destruct (HK d) as [A1 A2]; auto. rewrite Nat.eqb_refl in A2. apply ustep; auto.
    + intros j Hj. destruct (HK j) as [A1 A2]; auto. assert (j <> d) by (intros ->; tauto). split; [tauto|].
      destruct (Nat.eqb_spec d j); [subst; tauto|auto].
  - apply IH; auto.
Qed.
End Inv.

Lemma zeros_spec : forall lo hi dst p, (for_ lo hi zero2 dst) p =
  if Nat.leb (2 * lo + 2) p && Nat.ltb p (2 * hi + 2) then Fin 0 else dst p.
Proof.
  intros lo hi dst p. destruct (le_lt_dec hi lo).
  { rewrite for_empty by auto. destruct (Nat.leb_spec (2 * lo + 2) p), (Nat.ltb_spec p (2 * hi + 2)); simpl; auto; lia. }
  replace hi with (lo + (hi - lo)) by lia. clear l. generalize (hi - lo). intros k. induction k.
  - rewrite for_empty by lia. destruct (Nat.leb_spec (2 * lo + 2) p), (Nat.ltb_spec p (2 * (lo + 0) + 2)); simpl; auto; lia.
  - rewrite (for_split lo (lo + k)) by lia. rewrite for_step by lia. rewrite for_empty by lia.
    unfold zero2 at 1. destruct (Nat.eq_dec p (2 * (lo + k) + 3)) as [->|D].
    { rewrite upd_same. destruct (Nat.leb_spec (2 * lo + 2) (2 * (lo + k) + 3)), (Nat.ltb_spec (2 * (lo + k) + 3) (2 * (lo + S k) + 2)); simpl; auto; lia. }
    rewrite upd_other by auto. destruct (Nat.eq_dec p (2 * (lo + k) + 2)) as [->|D'].
    { rewrite upd_same. destruct (Nat.leb_spec (2 * lo + 2) (2 * (lo + k) + 2)), (Nat.ltb_spec (2 * (lo + k) + 2) (2 * (lo + S k) + 2)); simpl; auto; lia. }
    rewrite upd_other by auto. rewrite IHk.
    destruct (Nat.leb_spec (2 * lo + 2) p), (Nat.ltb_spec p (2 * (lo + k) + 2)), (Nat.ltb_spec p (2 * (lo + S k) + 2)); simpl; auto; lia.
Qed.

(** frame: only the cells below 2n+2 are written *)
Lemma ucoeff_frame : forall c i s p, p <> i -> p <> i + 1 -> fst (ucoeff (N:=N) c i s) p = fst s p.
Proof.
  intros c i [dst u] p H1 H2. unfold ucoeff. destruct (bounds_of_coeff (coeff_reduce c) false) as [[lo hi] em]. simpl.
  rewrite !upd_other; auto.
Qed.
Lemma udense_frame : forall l i s p, 2 * (i + length l) + 2 <= p -> fst (udense (N:=N) intdim i l s) p = fst s p.
Proof.
  induction l; intros i s p H; simpl in *; auto. rewrite IHl by lia. rewrite class_var_fst. apply ucoeff_frame; lia.
Qed.
Lemma usparse_frame : forall l s p, (forall d, In d (term_dims l) -> 2 * d + 3 < p) -> fst (usparse (N:=N) intdim l s) p = fst s p.
Proof.
  induction l as [|[[d|] c] l IH]; intros s p H; simpl in *; auto. rewrite IH by auto. rewrite class_var_fst.
  specialize (H d (or_introl eq_refl)). apply ucoeff_frame; lia.
Qed.

Definition uspec (n : nat) (e : linexpr) (dst : hmat) (u : uexpr) : Prop :=
  uinv (le_cst e) (lin_coeff e) (fun j => j < n) (dst, u).

Theorem uexpr_spec : forall tmp e n dst u, wf_linexpr n e -> uexpr_of_linexpr (N:=N) tmp e intdim n = (dst, u) ->
  uspec n e dst u /\ forall p, 2 * n + 2 <= p -> dst p = tmp p.
Proof.
  intros tmp e n dst u [WC WT] H. unfold uexpr_of_linexpr in H. unfold uspec.
  pose proof (ucoeff_cst (le_cst e) (lin_coeff e) tmp) as V0.
  assert (F0 : forall p, 2 <= p -> fst (ucoeff (N:=N) (le_cst e) 0 (tmp, mkU UZero 0 0 0 0 true)) p = tmp p).
  { intros p Hp. rewrite ucoeff_frame; auto; lia. }
  destruct (ucoeff (le_cst e) 0 (tmp, mkU UZero 0 0 0 0 true)) as [d0 u0]. simpl in F0.
  unfold lin_coeff in *. destruct (le_terms e) as [l|ts]; simpl in WT.
  - pose proof (udense_inv (le_cst e) (nth_error l) l 0 _ _ V0) as V1.
    assert (F1 : forall p, 2 * length l + 2 <= p -> fst (udense (N:=N) intdim 0 l (d0, u0)) p = tmp p).
    { intros p Hp. rewrite udense_frame by (simpl; lia). simpl. apply F0. lia. }
    destruct (udense intdim 0 l (d0, u0)) as [d1 u1]. inversion H; subst; clear H. simpl in F1. split.
    + apply (uinv_zero _ _ (fun j => False \/ 0 <= j < 0 + length l)).
      * intros j Hj. destruct (le_lt_dec (length l) j); [right|left; lia]. rewrite !zeros_spec.
        split; [apply nth_error_None; auto|].
        destruct (Nat.leb_spec (2 * length l + 2) (2 * j + 2)), (Nat.ltb_spec (2 * j + 2) (2 * n + 2)); try lia.
        destruct (Nat.leb_spec (2 * length l + 2) (2 * j + 3)), (Nat.ltb_spec (2 * j + 3) (2 * n + 2)); try lia. auto.
      * intros j [[]|Hj]. lia.
      * apply (uinv_dst _ _ _ d1).
        -- intros j [[]|Hj]. rewrite !zeros_spec. destruct (Nat.leb_spec (2 * length l + 2) (2 * j + 2)), (Nat.leb_spec (2 * length l + 2) (2 * j + 3)); try lia. auto.
        -- rewrite zeros_spec. destruct (Nat.leb_spec (2 * length l + 2) 0); auto; lia.
        -- rewrite zeros_spec. destruct (Nat.leb_spec (2 * length l + 2) 1); auto; lia.
        -- apply V1; [tauto|]. intros t Ht. auto.
    + intros p Hp. rewrite zeros_spec. destruct (Nat.ltb_spec p (2 * n + 2)); [lia|]. rewrite andb_false_r. apply F1. lia.
  - destruct WT as (F & ND & B).
    assert (V1 : uinv (le_cst e) (sp_coeff ts) (fun _ => False) (for_ 0 n zero2 d0, u0)).
    { apply (uinv_dst _ _ _ d0); auto; try tauto; rewrite zeros_spec; auto. }
    pose proof (usparse_inv (le_cst e) (sp_coeff ts) ts _ _ V1 ND ltac:(tauto)) as V2.
    assert (F1 : forall p, 2 * n + 2 <= p -> dst p = tmp p).
    { intros p Hp. assert (E0 : dst = fst (usparse (N:=N) intdim ts (for_ 0 n zero2 d0, u0))) by (rewrite H; auto).
      rewrite E0, usparse_frame by (intros d Hd; specialize (B d Hd); lia). simpl. rewrite zeros_spec.
      destruct (Nat.ltb_spec p (2 * n + 2)); [lia|]. rewrite andb_false_r. apply F0. lia. }
    split; auto.
    assert (FZ : forall j, j < n -> ~ In j (term_dims ts) -> dst (2 * j + 2) = Fin 0 /\ dst (2 * j + 3) = Fin 0).
    { intros j Hj NI. assert (E0 : dst = fst (usparse (N:=N) intdim ts (for_ 0 n zero2 d0, u0))) by (rewrite H; auto).
      assert (G : forall l s p, (forall d, In d (term_dims l) -> p <> 2 * d + 2 /\ p <> 2 * d + 3) -> fst (usparse (N:=N) intdim l s) p = fst s p).
      { clear. induction l as [|[[d|] c] l IH]; intros s p H; simpl in *; auto. rewrite IH by auto. rewrite class_var_fst.
        specialize (H d (or_introl eq_refl)). apply ucoeff_frame; lia. }
      rewrite E0. rewrite !G; simpl; [rewrite !zeros_spec| |].
      - destruct (Nat.leb_spec (2 * 0 + 2) (2 * j + 2)), (Nat.ltb_spec (2 * j + 2) (2 * n + 2)); try lia.
        destruct (Nat.leb_spec (2 * 0 + 2) (2 * j + 3)), (Nat.ltb_spec (2 * j + 3) (2 * n + 2)); try lia. auto.
      - intros d Hd. assert (d <> j) by (intros ->; tauto). lia.
      - intros d Hd. assert (d <> j) by (intros ->; tauto). lia. }
    rewrite H in V2. revert V2. apply uinv_zero.
    + intros j Hj. destruct (in_dec Nat.eq_dec j (term_dims ts)); [left; auto|right]. split; [apply sp_coeff_none; auto|]. apply FZ; auto.
    + intros j [[]|Hj]; auto.
Qed.
(** dimensions in increasing order (sparse terms are sorted) *)
Definition ordered (e : linexpr) : Prop := match le_terms e with Dense _ => True | Sparse ts => StronglySorted lt (term_dims ts) end.
Definition uord (b : nat) (u : uexpr) : Prop := (u_type u = UUnary -> u_i u < b) /\ (u_type u = UBinary -> u_i u < u_j u).
Lemma uord_mono : forall a b u, a <= b -> uord a u -> uord b u.
Proof. intros a b u L [H1 H2]. split; auto. intros H. specialize (H1 H). lia. Qed.
Lemma ucoeff_ord : forall b c p s, uord b (snd s) -> uord b (snd (ucoeff (N:=N) c p s)).
Proof.
  intros b c p [dst u] [H1 H2]. unfold ucoeff. destruct (bounds_of_coeff (coeff_reduce c) false) as [[lo hi] em]. simpl in *.
  unfold uord. destruct em, (negb _ || negb _); simpl; auto; split; intros; discriminate.
Qed.
Lemma class_var_ord : forall b d s, b <= d -> uord b (snd s) -> uord (S d) (snd (class_var intdim d s)).
Proof.
  intros b d [dst u] L [H1 H2]. cbn [snd] in *. unfold class_var, class_coeff.
  set (u' := if Nat.leb intdim d then u_not_int u else u).
  assert (EI : u_i u' = u_i u /\ u_j u' = u_j u /\ u_type u' = u_type u) by (unfold u'; destruct (Nat.leb intdim d); simpl; auto).
  destruct EI as (E1 & E2 & E5). clearbody u'. rewrite E5. unfold uord. destruct (u_type u) eqn:T; simpl; rewrite ?E5.
  - split; intros; discriminate.
  - destruct (szero _ && szero _); simpl; [rewrite E5; split; intros; discriminate|].
    destruct (ieq _ _ && ieq _ _); simpl; [|destruct (ieq _ _ && ieq _ _)]; simpl; split; intros; try discriminate; lia.
  - specialize (H1 eq_refl). destruct (szero _ && szero _); simpl; [rewrite E5, E1; split; intros; [lia|discriminate]|].
    destruct (ieq _ _ && ieq _ _); simpl; [|destruct (ieq _ _ && ieq _ _)]; simpl; rewrite ?E1; split; intros; try discriminate; lia.
  - specialize (H2 eq_refl). destruct (szero _ && szero _); simpl; [rewrite E5, E1, E2; split; intros; [discriminate|lia]|]. split; intros; discriminate.
  - destruct (szero _ && szero _); simpl; rewrite ?E5; split; intros; discriminate.
Qed.
Lemma udense_ord : forall l i s, uord i (snd s) -> uord (i + length l) (snd (udense (N:=N) intdim i l s)).
Proof.
  induction l; intros i s H; simpl; [rewrite Nat.add_0_r; auto|]. rewrite <- Nat.add_succ_comm. apply IHl.
  apply (class_var_ord i); auto. apply ucoeff_ord. auto.
Qed.
Lemma usparse_ord : forall l b s, StronglySorted lt (term_dims l) -> (forall d, In d (term_dims l) -> b <= d) -> uord b (snd s) ->
  exists b', uord b' (snd (usparse (N:=N) intdim l s)).
Proof.
  induction l as [|[[d|] c] l IH]; intros b s SS HB H; simpl in *; [eauto| |eauto].
  inversion SS; subst. apply (IH (S d)); auto.
  - intros x Hx. rewrite Forall_forall in H3. specialize (H3 x Hx). lia.
  - apply (class_var_ord b); auto. apply ucoeff_ord. auto.
Qed.
Lemma uexpr_ordered : forall tmp e n dst u, ordered e -> uexpr_of_linexpr (N:=N) tmp e intdim n = (dst, u) -> u_type u = UBinary -> u_i u < u_j u.
Proof.
  intros tmp e n dst u O H T. unfold uexpr_of_linexpr, ordered in *.
  assert (B : uord 0 (snd (ucoeff (N:=N) (le_cst e) 0 (tmp, mkU UZero 0 0 0 0 true)))) by (apply ucoeff_ord; split; intros; discriminate).
  destruct (ucoeff (le_cst e) 0 _) as [d0 u0] eqn:UC. destruct (le_terms e) as [l|ts].
  - pose proof (udense_ord l 0 (d0, u0) B) as [_ X]. destruct (udense intdim 0 l (d0, u0)) as [d1 u1]. inversion H; subst. auto.
  - destruct (usparse_ord ts 0 (for_ 0 n zero2 d0, u0) O) as [b' [_ X]]; auto; [intros; lia|]. rewrite H in X. auto.
Qed.
End Uexpr.

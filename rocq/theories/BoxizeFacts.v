(** Propagation of bounds through linear constraints keeps the solutions. *)
From Coq Require Import ZArith QArith Qround Qreals Reals Lra Lia Bool List.
From Verif Require Import Bound BoundFacts Itv ItvFacts ItvFacts2 Linexpr ItvLin ItvLinFacts ItvLinExact ItvLinCons ItvLinInt ItvLinApi Box.
Import ListNotations.
Open Scope Z_scope.

Lemma bneg_div_E : forall b q z, Q2R q <> 0%R -> le_rb z (bdiv (N:=exact_num) b (Fin (- q))) -> le_rb z (bneg (bdiv (N:=exact_num) b (Fin q))).
Proof.
  intros b q z NZ H. unfold bdiv in *. simpl in *. rewrite orb_false_r in *.
  destruct (bsgn b =? 0). simpl in *. rewrite Q2R_0' in *. rewrite Q2R_opp, Q2R_0'. lra.
  assert (A : Z.sgn (Qnum q) =? 0 = false). { destruct (Z.eqb_spec (Z.sgn (Qnum q)) 0); auto. apply sgn_Q_zero in e. tauto. }
  assert (B : Z.sgn (Qnum (- q)) =? 0 = false). { destruct (Z.eqb_spec (Z.sgn (Qnum (- q))) 0); auto. apply sgn_Q_zero in e. rewrite Q2R_opp in e. lra. }
  simpl in A, B. rewrite A. rewrite B in H. rewrite Z.sgn_opp in H. pose proof (Z.sgn_spec (Qnum q)) as SS. apply Z.eqb_neq in A.
  unfold binf_of_sgn in *. destruct b as [|p|].
  - destruct SS as [[_ SS]|[[_ SS]|[_ SS]]]; [|congruence|]; rewrite SS in *; simpl in *; auto.
  - simpl. rewrite Q2R_opp. simpl in H. rewrite Q2R_div in * by (apply Q2R_nz; rewrite ?Q2R_opp; lra). rewrite Q2R_opp in H. replace (Q2R p / - Q2R q)%R with (- (Q2R p / Q2R q))%R in H by (field; auto). auto.
  - destruct SS as [[_ SS]|[[_ SS]|[_ SS]]]; [|congruence|]; rewrite SS in *; simpl in *; auto.
Qed.

Section S.
Context {N : numtype}.

(** division by a positive, known, number *)
Lemma bdiv_pos : forall z b q, le_rb z b -> (0 < Q2R q)%R -> le_rb (z / Q2R q) (bdiv (N:=N) b (Fin q)).
Proof.
  intros z b q Hz Hq. destruct (Z_le_gt_dec 0 (bsgn b)).
  - apply bdiv_case1; auto; simpl; try lra. apply sgn_Q_pos; auto.
  - apply bdiv_case2; auto; simpl; try lra; try lia.
Qed.
Lemma bdiv_pos' : forall z b q c, le_rb (z * c) b -> (0 < c)%R -> c = Q2R q -> le_rb z (bdiv (N:=N) b (Fin q)).
Proof. intros z b q c H P ->. replace z with (z * Q2R q / Q2R q)%R by (field; lra). apply bdiv_pos; auto. Qed.

(** candidate bounds: [c] in the coefficient, [r] a value of the other terms *)
Definition cand_ok (ty : constyp) (x c r : R) (b : option bound * option bound) : Prop :=
  (forall u, fst b = Some u -> ((0 < c \/ ty = CEq)%R /\ c <> 0%R) /\ le_rb (- x) u) /\
  (forall u, snd b = Some u -> ((c < 0 \/ ty = CEq)%R /\ c <> 0%R) /\ le_rb x u).
Lemma bz_scal_ok : forall ty a ev x c r, itv_is_point a = true -> in_itv c a -> in_itv r ev ->
  (if is_ceq ty then (c * x + r = 0)%R else (0 <= c * x + r)%R) -> cand_ok ty x c r (bz_scal (N:=N) ty a ev).
Proof.
  intros ty a ev x c r P C R S. apply (point_val a c) in P as V. apply V in C. clear V. apply point_iff in P. destruct P as (p & q & IA & SA & PQ).
  rewrite SA in C. simpl in C. destruct R as [R1 R2]. unfold bz_scal. rewrite IA, SA. simpl bsgn.
  destruct (Z.eqb_spec (Z.sgn (Qnum q)) 0) as [Z0|Z0]. split; intros u H; discriminate H.
  assert (NZ : Q2R q <> 0%R). { intro H. apply Z0. apply sgn_Q_zero; auto. }
  assert (SG : (0 <= c * x + r)%R) by (destruct (is_ceq ty); lra).
  split; simpl; intros u H.
  - destruct (Z.ltb_spec 0 (Z.sgn (Qnum q))) as [L|L]; simpl in H.
    + apply sgn_Q_pos in L. inversion H; subst u. split; [split; [left|]; lra|]. apply bdiv_pos' with c; [|lra|auto]. apply le_rb_le with r; auto. lra.
    + apply sgn_Q_le in L. destruct ty; simpl in *; inversion H; subst u. split; [split; auto; lra|]. apply bdiv_pos' with (- c)%R; [|lra|lra]. apply le_rb_le with (- r)%R; auto. lra.
  - destruct (Z.ltb_spec (Z.sgn (Qnum q)) 0) as [L|L]; simpl in H.
    + apply sgn_Q_neg in L. inversion H; subst u. split; [split; [left|]; lra|]. apply bdiv_pos' with (- c)%R; [|lra|lra]. apply le_rb_le with r; auto. lra.
    + apply sgn_Q_ge in L. destruct ty; simpl in *; inversion H; subst u. split; [split; auto; lra|]. apply bdiv_pos' with c; [|lra|lra]. apply le_rb_le with (- r)%R; auto. lra.
Qed.
End S.
Local Notation E := exact_num.
Lemma bz_itv_ok : forall ty a ev x c r, in_itv c a -> in_itv r ev ->
  (if is_ceq ty then (c * x + r = 0)%R else (0 <= c * x + r)%R) -> cand_ok ty x c r (bz_itv (N:=E) ty a ev).
Proof.
  intros ty a ev x c r [C1 C2] [R1 R2] S. unfold bz_itv.
  assert (SG : (0 <= c * x + r)%R) by (destruct (is_ceq ty); lra).
  destruct (Z.ltb_spec (bsgn (inf a)) 0) as [P|P].
  - (* positive coefficient *) simpl. destruct (inf a) as [|p|] eqn:IA; simpl in C1, P; try tauto; try lia. apply sgn_Q_neg in P.
    assert (CP : (0 < c)%R) by lra. split; simpl; intros u H.
    + inversion H; subst u; clear H. split; [split; [left|]; lra|].
      destruct (Z.leb_spec (bsgn (sup ev)) 0) as [L|L].
      * replace (- x)%R with ((- x * c) / c)%R by (field; lra). apply bdiv_case2; auto. apply le_rb_le with r; auto. lra.
      * apply bneg_div_E; [lra|]. replace (- x)%R with ((- x * c) / c)%R by (field; lra). apply bdiv_case1. apply le_rb_le with r; auto; lra. lia. simpl. rewrite Q2R_opp. lra. simpl. rewrite Z.sgn_opp. apply sgn_Q_neg in P. lia.
    + destruct ty; simpl in H; inversion H; subst u; clear H. split; [split; [right; auto|]; lra|]. simpl in S.
      destruct (Z.leb_spec 0 (bsgn (inf ev))) as [L|L].
      * apply bneg_div_E; [lra|]. replace x with ((x * c) / c)%R by (field; lra). apply bdiv_case1. apply le_rb_le with (- r)%R; auto; lra. lia. simpl. rewrite Q2R_opp. lra. simpl. rewrite Z.sgn_opp. apply sgn_Q_neg in P. lia.
      * replace x with ((x * c) / c)%R by (field; lra). apply bdiv_case2; auto; try lia. apply le_rb_le with (- r)%R; auto. lra.
  - destruct (Z.ltb_spec (bsgn (sup a)) 0) as [Q|Q].
    + simpl. destruct (sup a) as [|p|] eqn:IA; simpl in C2, Q; try tauto; try lia. apply sgn_Q_neg in Q.
      assert (CP : (c < 0)%R) by lra. split; simpl; intros u H.
      * destruct ty; simpl in H; inversion H; subst u; clear H. split; [split; [right; auto|]; lra|]. simpl in S.
        destruct (Z.leb_spec (bsgn (inf ev)) 0) as [L|L].
        -- replace (- x)%R with ((- x * (- c)) / (- c))%R by (field; lra). apply bdiv_case2; auto; try lra. apply le_rb_le with (- r)%R; auto. lra.
        -- apply bneg_div_E; [lra|]. replace (- x)%R with ((- x * (- c)) / (- c))%R by (field; lra). apply bdiv_case1. apply le_rb_le with (- r)%R; auto; lra. lia. simpl. rewrite Q2R_opp. lra. simpl. rewrite Z.sgn_opp. apply sgn_Q_neg in Q. lia.
      * inversion H; subst u; clear H. split; [split; [left|]; lra|].
        destruct (Z.leb_spec 0 (bsgn (sup ev))) as [L|L].
        -- apply bneg_div_E; [lra|]. replace x with ((x * (- c)) / (- c))%R by (field; lra). apply bdiv_case1. apply le_rb_le with r; auto; lra. lia. simpl. rewrite Q2R_opp. lra. simpl. rewrite Z.sgn_opp. apply sgn_Q_neg in Q. lia.
        -- replace x with ((x * (- c)) / (- c))%R by (field; lra). apply bdiv_case2; auto; try lia; try lra. apply le_rb_le with r; auto. lra.
    + simpl. split; intros u H; discriminate H.
Qed.

Section L.
Context {N : numtype}.
(** integer tightening *)
Lemma bz_int_sound : forall ty isint b x y, (isint = true -> is_integer x) -> le_rb y b -> (x <= y)%R -> (ty = CSup -> (x < y)%R) -> le_rb x (bz_int (N:=N) ty isint b).
Proof.
  intros ty isint b x y I H XY ST. unfold bz_int. destruct b as [|q|]; auto. simpl in H.
  destruct isint; [|simpl; lra]. destruct (I eq_refl) as [z ->].
  assert (G : le_rb (IZR z) (bfloor (Fin q))). { simpl. rewrite Q2R_inject. apply (int_le_floor z q) in XY || idtac. pose proof (int_le_floor z q). rewrite Q2R_inject in H0. apply H0. lra. }
  destruct ty; auto. destruct (qisint q) eqn:QI; auto. specialize (ST eq_refl).
  apply qisint_iff in QI. replace (IZR z) with (IZR z + 1 - IZR 1)%R by (simpl; lra). apply bsub_uint_sound. simpl.
  rewrite QI in *. assert (z < Qfloor q)%Z by (apply lt_IZR; lra). rewrite <- plus_IZR. apply IZR_le. lia.
Qed.
Lemma bz_upd_sound : forall ty isint b old x y, (isint = true -> is_integer x) -> (forall u, b = Some u -> le_rb y u) -> (x <= y)%R -> (ty = CSup -> b <> None -> (x < y)%R) ->
  le_rb x old -> le_rb x (fst (bz_upd (N:=N) ty isint b old)).
Proof.
  intros ty isint b old x y I H XY ST O. unfold bz_upd. destruct b as [u|]; auto. destruct (_ <? _); auto. simpl. eapply bz_int_sound; eauto. intro; apply ST; auto; discriminate.
Qed.
Lemma bz_upd_le : forall ty isint b old, le_bb (fst (bz_upd (N:=N) ty isint b old)) old.
Proof.
  intros. unfold bz_upd. destruct b; [|apply le_bb_refl]. destruct (Z.ltb_spec (bcmp (bz_int (N:=N) ty isint b) old) 0); simpl; [|apply le_bb_refl]. apply bcmp_le. lia.
Qed.
Lemma bz_upd_same : forall ty isint b old, snd (bz_upd (N:=N) ty isint b old) = false -> fst (bz_upd (N:=N) ty isint b old) = old.
Proof. intros. unfold bz_upd in *. destruct b; auto. destruct (_ <? _); auto. discriminate. Qed.
Lemma canon_sound : forall isint a x, (isint = true -> is_integer x) -> in_itv x a -> in_itv x (fst (itv_canonicalize isint a)) /\ snd (itv_canonicalize isint a) = false.
Proof.
  intros isint a x I H. assert (G : in_itv x (fst (itv_canonicalize isint a))).
  { unfold itv_canonicalize. simpl. destruct isint; auto. destruct (I eq_refl) as [z ->]. apply itv_floor2_int in H. auto. }
  split; auto. unfold itv_canonicalize in *. simpl in *. destruct (itv_empty_test _) eqn:X; auto. exfalso. eapply itv_empty_test_sound; eauto.
Qed.
Lemma bfloor_le : forall b, le_bb (bfloor b) b.
Proof. destruct b; simpl; auto. apply Qfloor_le. Qed.
Lemma canon_le : forall isint a, le_bb (inf (fst (itv_canonicalize isint a))) (inf a) /\ le_bb (sup (fst (itv_canonicalize isint a))) (sup a).
Proof. intros. unfold itv_canonicalize. simpl. destruct isint; simpl; split; try apply bfloor_le; apply le_bb_refl. Qed.

(** splitting one term off *)
Lemma tval_split : forall v pre t post r, tval v (pre ++ t :: post) r <->
  exists c r', in_itv c (t_itv t) /\ tval v (pre ++ mkT (itv_of_int 0) true (t_dim t) :: post) r' /\ r = (c * v (t_dim t) + r')%R.
Proof.
  intros. split.
  - intro H. apply tval_app in H. destruct H as (r1 & r2 & A & B & ->). inversion B as [|c t0 ts r0 Hc Ht]; subst.
    exists c, (r1 + (0 * v (t_dim t) + r0))%R. split; [auto|split; [|lra]]. apply tval_app. exists r1, (0 * v (t_dim t) + r0)%R. split; [auto|split; [|auto]].
    apply (tv_cons v 0%R (mkT (itv_of_int 0) true (t_dim t))); auto. simpl. split; simpl; rewrite ?Q2R_opp; unfold Q2R; simpl; lra.
  - intros (c & r' & C & T & ->). apply tval_app in T. destruct T as (r1 & r2 & A & B & ->). inversion B as [|c0 t0 ts r0 Hc Ht]; subst. simpl in *.
    assert (c0 = 0%R). { destruct Hc as [H1 H2]. simpl in H1, H2. rewrite Q2R_opp in H1. unfold Q2R in *. simpl in *. lra. } subst c0.
    apply tval_app. exists r1, (c * v (t_dim t) + r0)%R. split; [auto|split; [|lra]]. constructor; auto.
Qed.
Lemma flags_zero : forall pre t post, flags_ok (pre ++ t :: post) -> flags_ok (pre ++ mkT (itv_of_int 0) true (t_dim t) :: post).
Proof. intros. unfold flags_ok in *. rewrite Forall_app in *. destruct H as [A B]. inversion B; subst. split; auto. Qed.
Lemma in_env_zero : forall v env pre t post, in_env v env (pre ++ t :: post) -> in_env v env (pre ++ mkT (itv_of_int 0) true (t_dim t) :: post).
Proof. intros. unfold in_env in *. rewrite Forall_app in *. destruct H as [A B]. inversion B; subst. split; auto. Qed.

Definition in_dims (v : nat -> R) (n : nat) (e : nat -> itv) : Prop := forall d, (d < n)%nat -> in_itv (v d) (e d).
Lemma in_dims_env : forall v n e ts, in_dims v n e -> Forall (fun t => (t_dim t < n)%nat) ts -> in_env v e ts.
Proof. intros v n e ts H F. unfold in_env. eapply Forall_impl; [|exact F]. intros; apply H; auto. Qed.

(** coefficients that are intervals are only divided exactly by the rational instance *)
Definition scal_or_exact (ts : list iterm) : Prop := N = E \/ Forall (fun t => t_eq t = true) ts.

Lemma cand_cut : forall ty x c r b, boxable ty = true -> sat_typ ty None (c * x + r)%R ->
  (forall x', (if is_ceq ty then (c * x' + r = 0)%R else (0 <= c * x' + r)%R) -> cand_ok ty x' c r b) ->
  (exists y, (forall u, fst b = Some u -> le_rb y u) /\ (- x <= y)%R /\ (ty = CSup -> fst b <> None -> (- x < y)%R)) /\
  (exists y, (forall u, snd b = Some u -> le_rb y u) /\ (x <= y)%R /\ (ty = CSup -> snd b <> None -> (x < y)%R)).
Proof.
  intros ty x c r b B S H.
  assert (NS : (ty <> CSup) -> cand_ok ty x c r b). { intro NS. apply H. destruct ty; simpl in *; try discriminate; try tauto; lra. }
  destruct (match ty with CSup => true | _ => false end) eqn:TY.
  - assert (TS : ty = CSup) by (destruct ty; auto; discriminate). subst ty. simpl in *.
    destruct (Req_dec c 0) as [C0|C0].
    + assert (K : cand_ok CSup x c r b) by (apply H; lra). destruct K as [K1 K2].
      split.
      * exists (- x)%R. split; [intros u U; apply K1 in U; tauto|]. split; [lra|]. intros _ U. destruct (fst b); [|congruence]. destruct (K1 _ eq_refl). tauto.
      * exists x%R. split; [intros u U; apply K2 in U; tauto|]. split; [lra|]. intros _ U. destruct (snd b); [|congruence]. destruct (K2 _ eq_refl). tauto.
    + assert (K : cand_ok CSup (- r / c)%R c r b). { apply H. right. field. auto. } destruct K as [K1 K2].
      assert (PX : (c * (x - - r / c) > 0)%R) by (replace (c * (x - - r / c))%R with (c * x + r)%R by (field; auto); lra).
      split.
      * destruct (fst b) as [u|] eqn:FB.
        -- destruct (K1 _ eq_refl) as [[[CP|X] _] U]; [|discriminate]. exists (- (- r / c))%R. assert (x > - r / c)%R by nra. split; [intros u' U'; inversion U'; subst; auto|]. split; [lra|]. intros; lra.
        -- exists (- x)%R. split; [discriminate|]. split; [lra|congruence].
      * destruct (snd b) as [u|] eqn:FB.
        -- destruct (K2 _ eq_refl) as [[[CP|X] _] U]; [|discriminate]. exists (- r / c)%R. assert (x < - r / c)%R by nra. split; [intros u' U'; inversion U'; subst; auto|]. split; [lra|]. intros; lra.
        -- exists x%R. split; [discriminate|]. split; [lra|congruence].
  - assert (TS : ty <> CSup) by (intro; subst; discriminate). destruct (NS TS) as [K1 K2]. split.
    + exists (- x)%R. split; [intros u U; apply K1 in U; tauto|]. split; [lra|tauto].
    + exists x. split; [intros u U; apply K2 in U; tauto|]. split; [lra|tauto].
Qed.
Lemma sat_boxable : forall ty m m' r, boxable ty = true -> sat_typ ty m r -> sat_typ ty m' r.
Proof. destruct ty; simpl; intros; auto; discriminate. Qed.

Lemma bz_loop_sound : forall v n same intdim ionly ty cst ceq env rest pre res gch, boxable ty = true ->
  int_point intdim v -> flags_ok (pre ++ rest) -> scal_or_exact rest -> Forall (fun t => (t_dim t < n)%nat) (pre ++ rest) ->
  (exists c r, in_itv c cst /\ tval v (pre ++ rest) r /\ sat_typ ty None (c + r)%R) ->
  in_dims v n env -> in_dims v n res ->
  let '(res', ch, em) := bz_loop (N:=N) same intdim ionly ty cst ceq env pre rest res gch in em = false /\ in_dims v n res'.
Proof.
  intros v n same intdim ionly ty cst ceq env rest. induction rest as [|t post IH]; intros pre res gch BX IP FL SE DM (c & r & C & T & S) HE HR; cbn [bz_loop].
  - auto.
  - assert (NEXT : forall res' g, in_dims v n res' -> let '(res', ch, em) := bz_loop (N:=N) same intdim ionly ty cst ceq env (pre ++ [t]) post res' g in em = false /\ in_dims v n res').
    { intros res' g HR'. apply IH; auto; try (rewrite <- app_assoc; simpl; auto).
      - destruct SE as [SE|SE]; [left; auto|right; inversion SE; auto].
      - exists c, r. split; auto. }
    destruct (proj1 (tval_split v pre t post r) T) as (k & r' & K & T' & ->).
    set (e1 := mkIL (pre ++ mkT (itv_of_int 0) true (t_dim t) :: post) cst ceq).
    set (en := if same then res else env).
    assert (EV : in_itv (c + r')%R (itv_eval_linexpr (N:=N) en e1)).
    { apply eval_linexpr_sound with (v := v). exists c, r'. auto. apply flags_zero; auto. apply in_env_zero. apply in_dims_env with n; auto. unfold en; destruct same; auto. }
    set (ev := itv_eval_linexpr (N:=N) en e1) in *.
    set (cd := if itv_is_top ev then (None, None) else if t_eq t then (if ionly then (None, None) else bz_scal (N:=N) ty (t_itv t) ev) else bz_itv (N:=N) ty (t_itv t) ev).
    assert (DT : (t_dim t < n)%nat). { rewrite Forall_app in DM. destruct DM as [_ DM]. inversion DM; auto. }
    assert (CK : forall x', (if is_ceq ty then (k * x' + (c + r') = 0)%R else (0 <= k * x' + (c + r'))%R) -> cand_ok ty x' k (c + r') cd).
    { intros x' S'. unfold cd. destruct (itv_is_top ev). split; intros u H; discriminate H. destruct (t_eq t) eqn:TE.
      - destruct ionly. split; intros u H; discriminate H. apply bz_scal_ok; auto. unfold flags_ok in FL. rewrite Forall_app in FL. destruct FL as [_ FL]. inversion FL; auto.
      - destruct SE as [SE|SE]; [|inversion SE; congruence]. rewrite SE. apply bz_itv_ok; auto. }
    replace (c + (k * v (t_dim t) + r'))%R with (k * v (t_dim t) + (c + r'))%R in S by lra.
    destruct (cand_cut ty (v (t_dim t)) k (c + r')%R cd BX S CK) as [(y1 & Y1 & L1 & T1) (y2 & Y2 & L2 & T2)].
    clear CK. destruct cd as [bi bs]. simpl in Y1, T1, Y2, T2.
    assert (II : Nat.ltb (t_dim t) intdim = true -> is_integer (v (t_dim t))) by (intro X; apply Nat.ltb_lt in X; apply IP; auto).
    assert (II' : Nat.ltb (t_dim t) intdim = true -> is_integer (- v (t_dim t))). { intro X. destruct (II X) as [z ->]. exists (- z). rewrite opp_IZR. auto. }
    destruct (HR _ DT) as [G1 G2].
    pose proof (bz_upd_sound ty (Nat.ltb (t_dim t) intdim) bi (inf (res (t_dim t))) (- v (t_dim t)) y1 II' Y1 L1 T1 G1) as U1.
    pose proof (bz_upd_sound ty (Nat.ltb (t_dim t) intdim) bs (sup (res (t_dim t))) (v (t_dim t)) y2 II Y2 L2 T2 G2) as U2.
    destruct (bz_upd (N:=N) ty _ bi _) as [i1 c1]. destruct (bz_upd (N:=N) ty _ bs _) as [s1 c2]. simpl in U1, U2.
    destruct (c1 || c2); [|apply NEXT; auto].
    destruct (canon_sound (Nat.ltb (t_dim t) intdim) (mkItv i1 s1) (v (t_dim t)) II (conj U1 U2)) as [G3 G4].
    destruct (itv_canonicalize _ _) as [i exc]. simpl in G3, G4. subst exc. apply NEXT.
    intros d D. unfold eset. destruct (Nat.eqb_spec d (t_dim t)); subst; auto.
Qed.

Definition bz_ok (n : nat) (c : icons) : Prop :=
  flags_ok (il_terms (ic_expr c)) /\ scal_or_exact (il_terms (ic_expr c)) /\ Forall (fun t => (t_dim t < n)%nat) (il_terms (ic_expr c)) /\ eq_flag_ok c.
Lemma boxize_lincons_sound : forall v n same intdim ionly c env res, boxable (ic_typ c) = true -> int_point intdim v -> bz_ok n c -> sat_some c v ->
  in_dims v n env -> in_dims v n res ->
  let '(res', ch, em) := boxize_lincons (N:=N) same intdim ionly c env res in em = false /\ in_dims v n res'.
Proof.
  intros v n same intdim ionly c env res BX IP (F & SE & D & EF) S HE HR. unfold boxize_lincons.
  assert (SS := S). destruct SS as (r & (c0 & r1 & C & T & ->) & ST).
  pose proof (bz_loop_sound v n same intdim ionly (ic_typ c) (il_cst (ic_expr c)) (il_eq (ic_expr c)) env (il_terms (ic_expr c)) [] res false BX IP F SE D) as G.
  specialize (G (ex_intro _ c0 (ex_intro _ r1 (conj C (conj T (sat_boxable _ _ None _ BX ST))))) HE HR).
  destruct (bz_loop _ _ _ _ _ _ _ _ _ _ _) as [[res' ch] em]. destruct (il_terms (ic_expr c)) eqn:TE; auto.
  destruct (tfalse (eval_cst c)) eqn:TF; auto. exfalso. apply (eval_cst_false c v TE EF); auto. destruct (eval_cst c); auto; discriminate.
Qed.
Lemma bz_pass_sound : forall v n same intdim ionly env l res ch, int_point intdim v -> Forall (fun c => boxable (ic_typ c) = true -> bz_ok n c /\ sat_some c v) l ->
  in_dims v n env -> in_dims v n res ->
  let '(res', ch', em) := bz_pass (N:=N) same intdim ionly l env res ch in em = false /\ in_dims v n res'.
Proof.
  intros v n same intdim ionly env. induction l as [|c l IH]; intros res ch IP F HE HR; simpl. auto.
  inversion F as [|? ? F1 F2]; subst. destruct (boxable (ic_typ c)) eqn:BX; [|apply IH; auto].
  destruct (F1 eq_refl) as [OK S]. pose proof (boxize_lincons_sound v n same intdim ionly c env res BX IP OK S HE HR) as G.
  destruct (boxize_lincons _ _ _ _ _ _) as [[res' c1] em]. destruct G as [-> G]. apply IH; auto.
Qed.
Lemma bz_iter_sound : forall v n same intdim ionly env l k res g, int_point intdim v -> Forall (fun c => boxable (ic_typ c) = true -> bz_ok n c /\ sat_some c v) l ->
  in_dims v n env -> in_dims v n res ->
  let '(res', ch', em) := bz_iter (N:=N) k same intdim ionly l env res g in em = false /\ in_dims v n res'.
Proof.
  intros v n same intdim ionly env l. induction k as [|k IH]; intros res g IP F HE HR; simpl. auto.
  pose proof (bz_pass_sound v n same intdim ionly env l res false IP F HE HR) as G. destruct (bz_pass _ _ _ _ _ _ _) as [[res' c1] em]. destruct G as [-> G].
  destruct c1; auto. apply IH; auto.
Qed.

(** the propagation only lowers bounds, and what it reports about changes is right *)
Definition env_le (e e' : nat -> itv) : Prop := forall d, le_bb (inf (e d)) (inf (e' d)) /\ le_bb (sup (e d)) (sup (e' d)).
Lemma env_le_refl : forall e, env_le e e. Proof. intros e d. split; apply le_bb_refl. Qed.
Lemma env_le_trans : forall a b c, env_le a b -> env_le b c -> env_le a c.
Proof. intros a b c H1 H2 d. destruct (H1 d), (H2 d). split; eapply le_bb_trans; eauto. Qed.
Lemma env_le_in : forall v n a b, env_le a b -> in_dims v n a -> in_dims v n b.
Proof. intros v n a b L H d D. destruct (L d), (H d D). split; eapply le_rb_mono; eauto. Qed.
Definition bz_red (old : nat -> itv) (g : bool) (r : (nat -> itv) * bool * bool) : Prop :=
  env_le (fst (fst r)) old /\ (snd (fst r) = false -> g = false /\ fst (fst r) = old) /\ (snd r = true -> snd (fst r) = true).
Lemma bz_loop_red : forall same intdim ionly ty cst ceq env rest pre res gch, bz_red res gch (bz_loop (N:=N) same intdim ionly ty cst ceq env pre rest res gch).
Proof.
  intros same intdim ionly ty cst ceq env. induction rest as [|t post IH]; intros pre res gch; cbn [bz_loop].
  - split; [apply env_le_refl|]. split; auto. simpl. discriminate.
  - destruct (if itv_is_top _ then _ else _) as [bi bs].
    pose proof (bz_upd_le ty (Nat.ltb (t_dim t) intdim) bi (inf (res (t_dim t)))) as L1. pose proof (bz_upd_le ty (Nat.ltb (t_dim t) intdim) bs (sup (res (t_dim t)))) as L2.
    destruct (bz_upd (N:=N) ty _ bi _) as [i1 c1]. destruct (bz_upd (N:=N) ty _ bs _) as [s1 c2]. simpl in L1, L2.
    destruct (c1 || c2); [|apply IH].
    destruct (canon_le (Nat.ltb (t_dim t) intdim) (mkItv i1 s1)) as [L3 L4]. destruct (itv_canonicalize _ _) as [i exc]. simpl in L3, L4.
    assert (L : env_le (eset res (t_dim t) i) res). { intro d. unfold eset. destruct (Nat.eqb_spec d (t_dim t)); subst. split; eapply le_bb_trans; eauto. split; apply le_bb_refl. }
    destruct exc. split; [exact L|]. split; simpl; auto; discriminate.
    destruct (IH (pre ++ [t]) (eset res (t_dim t) i) true) as (A & B & C). split; [eapply env_le_trans; eauto|]. split; auto. intro X. apply B in X. destruct X; discriminate.
Qed.
Lemma boxize_lincons_red : forall same intdim ionly c env res, bz_red res false (boxize_lincons (N:=N) same intdim ionly c env res).
Proof.
  intros. unfold boxize_lincons. pose proof (bz_loop_red same intdim ionly (ic_typ c) (il_cst (ic_expr c)) (il_eq (ic_expr c)) env (il_terms (ic_expr c)) [] res false) as H.
  destruct (bz_loop _ _ _ _ _ _ _ _ _ _ _) as [[res' ch] em]. destruct (il_terms (ic_expr c)); auto. destruct (tfalse _); auto.
  destruct H as (A & B & C). split; [exact A|]. split; simpl; auto; discriminate.
Qed.
Lemma bz_pass_red : forall same intdim ionly env l res ch, bz_red res ch (bz_pass (N:=N) same intdim ionly l env res ch).
Proof.
  intros same intdim ionly env. induction l as [|c l IH]; intros res ch; simpl. split; [apply env_le_refl|]. split; auto. simpl. discriminate.
  destruct (boxable _); auto. pose proof (boxize_lincons_red same intdim ionly c env res) as (A & B & C). destruct (boxize_lincons _ _ _ _ _ _) as [[res' c1] em]. simpl in *.
  destruct em. split; [exact A|]. split; simpl; auto. discriminate.
  destruct (IH res' (c1 || ch)) as (A' & B' & C'). split; [eapply env_le_trans; eauto|]. split; auto. intro X. apply B' in X. destruct X as [X Y]. apply orb_false_iff in X. destruct X as [-> ->]. split; auto. rewrite Y. apply B; auto.
Qed.
Lemma bz_iter_red : forall same intdim ionly env l k res g, bz_red res g (bz_iter (N:=N) k same intdim ionly l env res g).
Proof.
  intros same intdim ionly env l. induction k as [|k IH]; intros res g; simpl. split; [apply env_le_refl|]. split; auto. simpl. discriminate.
  pose proof (bz_pass_red same intdim ionly env l res false) as (A & B & C). destruct (bz_pass _ _ _ _ _ _ _) as [[res' c1] em]. simpl in *.
  destruct em. split; [exact A|]. split; simpl; auto. discriminate.
  destruct c1. destruct (IH res' true) as (A' & B' & C'). split; [eapply env_le_trans; eauto|]. split; auto. intro X. apply B' in X. destruct X; discriminate.
  split; [exact A|]. split; simpl; try discriminate. intros ->. split; auto. apply B; auto.
Qed.
End L.

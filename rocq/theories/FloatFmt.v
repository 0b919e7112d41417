(** The floating-point formats of the IEEE standard are an instance of the formats of TexprSem
    (so that the theorems about them are not vacuous), with the constants that
    /repo/itv/itv.c 11-41, 60-75 initialises. *)
From Coq Require Import Arith ZArith QArith Qminmax Qreals Reals Lra Lia Psatz Bool.
From Coq.micromega Require Import RMicromega.
From Flocq Require Import Core.
From Verif Require Import Bound BoundFacts ApTexpr TexprSem.
Open Scope Z_scope.

Definition qpow2 (e : Z) : Q := Qpower 2 e.
Lemma qpow2_bpow : forall e, Q2R (qpow2 e) = bpow radix2 e.
Proof.
  intros e. unfold qpow2. rewrite Q2RpowerRZ. rewrite bpow_powerRZ. f_equal. unfold Q2R; simpl. lra. left. intro H. discriminate H.
Qed.
Section Fmt.
(** bits of the mantissa after the point, exponent of the least number, exponent of the overflow *)
Variable frac emin emax : Z.
Hypothesis frac_pos : 0 < frac.
Hypothesis range : emin + frac + 1 < emax.
Local Notation prec := (frac + 1).
Local Notation fexp := (FLT_exp emin (frac + 1)).
#[local] Instance prec_gt : Prec_gt_0 (frac + 1). Proof. unfold Prec_gt_0. lia. Qed.
#[local] Instance vexp : Valid_exp fexp. Proof. apply FLT_exp_valid. apply prec_gt. Qed.
Definition fmax : R := ((bpow radix2 prec - 1) * bpow radix2 (emax - prec))%R.
Lemma fmax_F2R : fmax = F2R (Float radix2 (2 ^ prec - 1) (emax - prec)).
Proof. unfold fmax, F2R; simpl Fnum; simpl Fexp. rewrite minus_IZR, (IZR_Zpower radix2) by lia. reflexivity. Qed.
Lemma fmax_pos : (0 < fmax)%R.
Proof. unfold fmax. apply Rmult_lt_0_compat; [|apply bpow_gt_0]. assert (bpow radix2 0 < bpow radix2 prec)%R by (apply bpow_lt; lia). simpl in H. lra. Qed.
Lemma fmax_fmt : generic_format radix2 fexp fmax.
Proof.
  apply generic_format_FLT. apply FLT_spec with (Float radix2 (2 ^ prec - 1) (emax - prec)). apply fmax_F2R.
  - simpl Fnum. assert (0 < 2 ^ prec) by (apply Z.pow_pos_nonneg; lia). rewrite Z.abs_eq by lia. change (Zpower (radix_val radix2) prec) with (2 ^ prec). lia.
  - simpl. lia.
Qed.
Definition fset (x : R) : Prop := generic_format radix2 fexp x /\ (Rabs x <= fmax)%R.
Lemma fset_opp : forall x, fset x -> fset (- x)%R.
Proof. intros x [A B]. split. apply generic_format_opp; auto. rewrite Rabs_Ropp; auto. Qed.
(** rounding upwards *)
Definition up_q (q : Q) : Q := (inject_Z (Zceil (scaled_mantissa radix2 fexp (Q2R q))) * qpow2 (cexp radix2 fexp (Q2R q)))%Q.
Lemma up_q_round : forall q, Q2R (up_q q) = round radix2 fexp Zceil (Q2R q).
Proof. intros q. unfold up_q. rewrite Q2R_mult, qpow2_bpow, Q2R_inject. unfold round, F2R. reflexivity. Qed.
Definition fmax_q : Q := (inject_Z (2 ^ prec - 1) * qpow2 (emax - prec))%Q.
Lemma fmax_q_ok : Q2R fmax_q = fmax.
Proof. unfold fmax_q. rewrite Q2R_mult, Q2R_inject, qpow2_bpow, fmax_F2R. reflexivity. Qed.
Definition up (q : Q) : bound :=
  if Rlt_dec (Q2R q) (- fmax) then Fin (- fmax_q) else if Rle_dec (Q2R q) fmax then Fin (up_q q) else PInf.
Lemma round_bounded : forall rn {V : Valid_rnd rn} x, (Rabs x <= fmax)%R -> (Rabs (round radix2 fexp rn x) <= fmax)%R.
Proof. intros rn V x H. apply abs_round_le_generic; auto; [apply vexp|apply fmax_fmt]. Qed.
Lemma up_ok : forall q, match up q with MInf => False | Fin p => fset (Q2R p) /\ (Q2R q <= Q2R p)%R | PInf => True end.
Proof.
  intros q. unfold up. pose proof fmax_pos as P. destruct (Rlt_dec (Q2R q) (- fmax)) as [L|L].
  - rewrite Q2R_opp, fmax_q_ok. split; [|lra]. apply fset_opp. split; [apply fmax_fmt|]. rewrite Rabs_pos_eq; lra.
  - destruct (Rle_dec (Q2R q) fmax) as [M|M]; auto. rewrite up_q_round. split; [|apply round_UP_pt; auto with typeclass_instances]. split; [apply generic_format_round; auto with typeclass_instances|].
    apply round_bounded; auto with typeclass_instances. apply Rabs_le. lra.
Qed.
Definition fulp : Q := qpow2 (- frac).
Definition fmin : Q := qpow2 emin.
Lemma fulp_pos : (0 <= fulp)%Q.
Proof. apply Qle_Q2R. rewrite Q2R_0'. unfold fulp. rewrite qpow2_bpow. apply bpow_ge_0. Qed.
Lemma fmin_pos : (0 <= fmin)%Q.
Proof. apply Qle_Q2R. rewrite Q2R_0'. unfold fmin. rewrite qpow2_bpow. apply bpow_ge_0. Qed.
Lemma faithful_round : forall x r, faithful fset x r -> (round radix2 fexp Zfloor x <= r <= round radix2 fexp Zceil x)%R.
Proof.
  intros x r ((F1 & F2) & (s1 & [S1 S2] & S3) & (s2 & [T1 T2] & T3) & H).
  assert (B : (Rabs x <= fmax)%R). { apply Rabs_le. pose proof (Rle_abs s1). pose proof (Rle_abs (- s2)) as K. rewrite Rabs_Ropp in K. lra. }
  split.
  - apply H; [split; [apply generic_format_round|apply round_bounded]; auto with typeclass_instances|]. apply round_DN_pt; auto with typeclass_instances.
  - apply H; [split; [apply generic_format_round|apply round_bounded]; auto with typeclass_instances|]. apply round_UP_pt; auto with typeclass_instances.
Qed.
Lemma err_ok : forall x r, faithful fset x r -> (Rabs (r - x) <= Q2R fulp * Rabs x + Q2R fmin)%R.
Proof.
  intros x r H. apply faithful_round in H. unfold fulp, fmin. rewrite !qpow2_bpow.
  assert (A : (Rabs (r - x) <= ulp radix2 fexp x)%R).
  { pose proof (error_le_ulp radix2 fexp Zfloor x) as E1. pose proof (error_le_ulp radix2 fexp Zceil x) as E2.
    pose proof (round_DN_pt radix2 fexp x) as (_ & D & _). pose proof (round_UP_pt radix2 fexp x) as (_ & U & _).
    apply Rabs_le. apply Rabs_le_inv in E1. apply Rabs_le_inv in E2. lra. }
  eapply Rle_trans; [exact A|]. pose proof (bpow_ge_0 radix2 emin). pose proof (bpow_ge_0 radix2 (- frac)). pose proof (Rabs_pos x).
  destruct (Rle_lt_dec (bpow radix2 (emin + prec - 1)) (Rabs x)) as [L|L].
  - pose proof (ulp_FLT_le radix2 emin prec x L) as E. replace (1 - prec) with (- frac) in E by lia. nra.
  - rewrite ulp_FLT_small; [nra|auto with typeclass_instances|]. eapply Rlt_le_trans; [exact L|]. apply bpow_le. lia.
Qed.
Definition ieee : ffmt := mkFmt fset fset_opp up up_ok fulp fmin fulp_pos fmin_pos err_ok.
End Fmt.
(** inclusion of a format in a larger one *)
Lemma fmt_incl : forall f1 m1 x1 f2 m2 x2, 0 < f1 -> f1 <= f2 -> m2 <= m1 -> x1 <= x2 -> m1 + f1 + 1 < x1 ->
  forall x, fset f1 m1 x1 x -> fset f2 m2 x2 x.
Proof.
  intros f1 m1 x1 f2 m2 x2 P A B C D x [F G]. split.
  - apply (generic_inclusion_mag radix2 (FLT_exp m1 (f1 + 1))); auto. intros _. unfold FLT_exp. lia.
  - eapply Rle_trans; [exact G|]. unfold fmax. rewrite !Rmult_minus_distr_r, <- !bpow_plus, !Rmult_1_l.
    replace (f1 + 1 + (x1 - (f1 + 1))) with x1 by lia. replace (f2 + 1 + (x2 - (f2 + 1))) with x2 by lia.
    destruct (Z.eq_dec x1 x2) as [->|N].
    + assert (bpow radix2 (x2 - (f2 + 1)) <= bpow radix2 (x2 - (f1 + 1)))%R by (apply bpow_le; lia). lra.
    + assert (bpow radix2 x1 <= bpow radix2 (x2 - 1))%R by (apply bpow_le; lia).
      assert (bpow radix2 (x2 - (f2 + 1)) <= bpow radix2 (x2 - 1))%R by (apply bpow_le; lia).
      assert (bpow radix2 x2 = 2 * bpow radix2 (x2 - 1))%R. { replace x2 with (1 + (x2 - 1)) at 1 by lia. rewrite bpow_plus. simpl. lra. }
      pose proof (bpow_ge_0 radix2 (x1 - (f1 + 1))). lra.
Qed.
(** itv.c 60-75 (and IEEE 754): single, double, extended, quadruple *)
Definition ieee_fmts : fmts.
Proof.
  refine (mkFmts (ieee 23 (-149) 128 ltac:(lia) ltac:(lia)) (ieee 52 (-1074) 1024 ltac:(lia) ltac:(lia)) (ieee 63 (-16445) 16384 ltac:(lia) ltac:(lia)) (ieee 112 (-16494) 16384 ltac:(lia) ltac:(lia)) _ _ _);
  intros x; simpl; apply fmt_incl; lia.
Defined.
(** numbers of the formats: F2R (m, e) *)
Lemma fset_float : forall f m x, 0 < f -> forall n e, Z.abs n < 2 ^ (f + 1) -> m <= e -> e + f + 1 <= x -> m + f + 1 < x -> fset f m x (IZR n * bpow radix2 e)%R.
Proof.
  intros f m x P n e H1 H2 H3 H4. split.
  - apply generic_format_FLT. apply FLT_spec with (Float radix2 n e); auto.
  - rewrite Rabs_mult, (Rabs_pos_eq (bpow radix2 e)) by apply bpow_ge_0. unfold fmax. rewrite <- abs_IZR. apply Rmult_le_compat; try apply bpow_ge_0.
    + apply IZR_le. lia.
    + rewrite <- (IZR_Zpower radix2) by lia. rewrite <- minus_IZR. apply IZR_le. change (Zpower (radix_val radix2) (f + 1)) with (2 ^ (f + 1)). lia.
    + apply bpow_le. lia.
Qed.

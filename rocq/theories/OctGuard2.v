(** The general case of guards: interval products and sums. *)
From Coq Require Import Arith Lia List ZArith QArith Qreals Reals Lra Bool.
From Verif Require Import Bound BoundFacts Linexpr LinexprFacts OctMat OctIdx OctClose OctWalk OctInc OctStrong OctGeom OctGeom2 Oct OctFacts OctFacts2 OctFacts3 OctTransfer OctUexpr OctGuard.
Import ListNotations.
Open Scope nat_scope.
#[local] Arguments Nat.div : simpl never.
#[local] Arguments Nat.modulo : simpl never.
#[local] Arguments Nat.mul : simpl never.
#[local] Arguments Nat.leb : simpl never.
#[local] Arguments Nat.ltb : simpl never.
#[local] Arguments xor1 : simpl never.
#[local] Arguments or1 : simpl never.
#[local] Arguments matpos : simpl never.
#[local] Arguments matpos2 : simpl never.

Section Mul.
Context {N : numtype}.
Lemma bmul_pos : forall x y A B, le_rb x A -> le_rb 0 A -> (0 <= y)%R -> le_rb y B -> le_rb (x * y) (bmul (N:=N) A B).
Proof.
  intros x y A B H1 H2 H3 H4. unfold bmul.
  destruct (Z.eqb_spec (bsgn A) 0) as [ZA|ZA]; simpl.
  { destruct A as [|p|]; simpl in ZA; try lia. apply sgn_Q_zero in ZA. simpl in *. rewrite Q2R_0'. nra. }
  destruct (Z.eqb_spec (bsgn B) 0) as [ZB|ZB]; simpl.
  { destruct B as [|p|]; simpl in ZB; try lia. apply sgn_Q_zero in ZB. simpl in *. rewrite Q2R_0'. assert (y = 0)%R by lra. subst y. lra. }
  destruct A as [|p|], B as [|q|]; simpl in *; try tauto.
  - apply rnd_ge. rewrite Q2R_mult. nra.
  - assert (0 < Z.sgn (Qnum p))%Z. { pose proof (proj2 (sgn_Q_ge p) H2). lia. }
    unfold binf_of_sgn. rewrite (proj2 (Z.ltb_lt _ _)) by lia. simpl; auto.
  - assert (0 <= Q2R q)%R by lra. assert (0 < Z.sgn (Qnum q))%Z. { pose proof (proj2 (sgn_Q_ge q) H). lia. }
    destruct (Z.sgn (Qnum q)); try lia. exact I.
Qed.
Lemma bmul_neg : forall x y A B, le_rb x A -> ~ le_rb 0 A -> (0 <= y)%R -> le_rb (- y) B -> le_rb (x * y) (bmul (N:=N) (bneg A) B).
Proof.
  intros x y A B H1 H2 H3 H4. destruct A as [|p|]; simpl in H1, H2; try tauto. assert (P : (Q2R p < 0)%R) by lra.
  unfold bmul. assert (SP : (0 < bsgn (bneg (Fin p)))%Z) by (simpl; apply (sgn_Q_pos (- p)); rewrite Q2R_opp; lra).
  destruct (Z.eqb_spec (bsgn (bneg (Fin p))) 0) as [ZA|ZA]; [lia|]. cbn [orb].
  destruct (Z.eqb_spec (bsgn B) 0) as [ZB|ZB].
  { destruct B as [|q|]; simpl in ZB; try lia. apply sgn_Q_zero in ZB. simpl in *. rewrite Q2R_0'. nra. }
  destruct B as [|q|]; simpl in *; try tauto.
  - apply rnd_ge. rewrite Q2R_mult, Q2R_opp. nra.
  - destruct (Z.sgn (- Qnum p)); try lia. exact I.
Qed.
Lemma mul_cases : forall x c Ai As Bi Bs, in2 x Ai As -> in2 c Bi Bs ->
  le_rb (x * c) (bmul (N:=N) As Bs) \/ le_rb (x * c) (bmul (N:=N) Ai Bi) \/
  le_rb (x * c) (bmul (N:=N) (bneg As) Bi) \/ le_rb (x * c) (bmul (N:=N) (bneg Ai) Bs).
Proof.
  intros x c Ai As Bi Bs [A1 A2] [B1 B2].
  assert (D : forall b, le_rb 0 b \/ ~ le_rb 0 b) by (intros b; destruct b; simpl; try tauto; lra).
  destruct (Rle_dec 0 c) as [C|C].
  - destruct (D As) as [DA|DA].
    + left. apply bmul_pos; auto.
    + right; right; left. apply bmul_neg; auto.
  - replace (x * c)%R with ((- x) * (- c))%R by ring. destruct (D Ai) as [DA|DA].
    + right; left. apply bmul_pos; auto. lra.
    + right; right; right. apply bmul_neg; auto; [lra|]. rewrite Ropp_involutive. auto.
Qed.
Lemma bounds_mul_sound : forall tmp p Ai As Bi Bs tmp' ti ts x c,
  bounds_mul (N:=N) tmp p Ai As Bi Bs = (tmp', ti, ts) -> in2 x Ai As -> in2 c Bi Bs -> in2 (x * c) ti ts.
Proof.
  intros tmp p Ai As Bi Bs tmp' ti ts x c H IA IB. unfold bounds_mul in H. inversion H; subst ti ts. clear H. split.
  - assert (IB' : in2 (- c) Bs Bi) by (destruct IB; split; [rewrite Ropp_involutive|]; auto).
    pose proof (mul_cases x (- c) Ai As Bs Bi IA IB') as M. replace (- (x * c))%R with (x * - c)%R by ring.
    rewrite !bmax_spec. tauto.
  - pose proof (mul_cases x c Ai As Bi Bs IA IB) as M. rewrite !bmax_spec. tauto.
Qed.
Lemma bounds_mul_frame : forall tmp p Ai As Bi Bs tmp' ti ts q,
  bounds_mul (N:=N) tmp p Ai As Bi Bs = (tmp', ti, ts) -> q < p -> tmp' q = tmp q.
Proof.
  intros tmp p Ai As Bi Bs tmp' ti ts q H Hq. unfold bounds_mul in H. inversion H; subst tmp'. rewrite !upd_other by lia. auto.
Qed.
Lemma bmul_MInf : forall A B, A <> MInf -> B <> MInf -> bmul (N:=N) A B = MInf ->
  (A = PInf /\ (bsgn B < 0)%Z) \/ (B = PInf /\ (bsgn A < 0)%Z).
Proof.
  intros A B HA HB H. unfold bmul in H. destruct (Z.eqb_spec (bsgn A) 0); [discriminate|]. destruct (Z.eqb_spec (bsgn B) 0); [discriminate|]. simpl in H.
  destruct A as [|p|], B as [|q|]; try congruence.
  - exfalso. revert H. apply rnd_not_MInf.
  - right. split; auto. unfold binf_of_sgn in H. destruct (Z.ltb_spec 0 (bsgn (Fin p) * bsgn PInf)); [discriminate|]. change (bsgn PInf) with 1%Z in *. lia.
  - left. split; auto. unfold binf_of_sgn in H. destruct (Z.ltb_spec 0 (bsgn PInf * bsgn (Fin q))); [discriminate|]. change (bsgn PInf) with 1%Z in *. lia.
  - cbn in H. discriminate.
Qed.
Lemma mul_not_MInf : forall Ai As Bi Bs, Ai <> MInf -> As <> MInf -> Bi <> MInf -> Bs <> MInf ->
  bmul (N:=N) As Bs = MInf -> bmul (N:=N) Ai Bi = MInf -> bmul (N:=N) (bneg As) Bi = MInf -> bmul (N:=N) (bneg Ai) Bs = MInf -> False.
Proof.
  intros Ai As Bi Bs HAi HAs HBi HBs H1 H2 H3 H4.
  apply bmul_MInf in H1; auto. apply bmul_MInf in H2; auto.
  destruct H1 as [[-> S1]|[-> S1]], H2 as [[-> S2]|[-> S2]]; try (simpl in S1, S2; lia).
  - unfold bmul in H3. simpl in H3. destruct (Z.eqb_spec (bsgn Bi) 0); [lia|]. 
    unfold binf_of_sgn in H3. destruct Bi; try (simpl in S2; lia); try congruence.
    destruct (bsgn (Fin q)); try lia. discriminate.
  - apply bmul_MInf in H4; [|destruct Ai; simpl in *; try congruence; lia|auto].
    destruct H4 as [[H4 _]|[-> _]]; [|simpl in S1; lia]. destruct Ai; simpl in *; congruence.
  - apply bmul_MInf in H3; [|destruct As; simpl in *; try congruence; lia|auto].
    destruct H3 as [[H3 _]|[-> _]]; [|simpl in S2; lia]. destruct As; simpl in *; congruence.
  - destruct As as [|p|]; simpl in S1; try congruence; try lia.
    unfold bmul in H3. assert (SP : (0 < bsgn (bneg (Fin p)))%Z) by (simpl; apply (sgn_Q_pos (- p)); rewrite Q2R_opp; apply sgn_Q_neg in S1; lra).
    destruct (Z.eqb_spec (bsgn (bneg (Fin p))) 0); [lia|]. simpl in SP, H3. destruct (Z.sgn (- Qnum p)); try lia. discriminate.
Qed.
Lemma bmax_MInf : forall a b, bmax a b = MInf -> a = MInf /\ b = MInf.
Proof. intros [|p|] [|q|]; simpl; try discriminate; auto. destruct (Qle_bool p q); discriminate. Qed.
Lemma bounds_mul_not_MInf : forall tmp p Ai As Bi Bs tmp' ti ts, bounds_mul (N:=N) tmp p Ai As Bi Bs = (tmp', ti, ts) ->
  Ai <> MInf -> As <> MInf -> Bi <> MInf -> Bs <> MInf -> ti <> MInf /\ ts <> MInf.
Proof.
  intros tmp p Ai As Bi Bs tmp' ti ts H HAi HAs HBi HBs. unfold bounds_mul in H. injection H as _ <- <-. split; intros H.
  - apply bmax_MInf in H as [H H4]. apply bmax_MInf in H as [H H3]. apply bmax_MInf in H as [H1 H2].
    apply (mul_not_MInf Ai As Bs Bi); auto.
  - apply bmax_MInf in H as [H H4]. apply bmax_MInf in H as [H H3]. apply bmax_MInf in H as [H1 H2].
    apply (mul_not_MInf Ai As Bi Bs); auto.
Qed.

(** ** Sums *)
Lemma for_snoc : forall A k f (a : A), for_ 0 (S k) f a = f k (for_ 0 k f a).
Proof. clear N. intros. rewrite (for_split 0 k (S k)) by lia. rewrite for_step, for_empty by lia. auto. Qed.
Definition one : nat -> R := fun _ => 1%R.
Definition osum_fold (n : nat) (b0 : bound) (T : nat -> bound) : osum :=
  for_ 0 n (fun j s => osum_add (N:=N) j (T j) s) (mkS b0 0 0 0).
Record osum_ok (n : nat) (b0 : bound) (T : nat -> bound) (s : osum) : Prop := {
  os_le : forall (f : nat -> R) x, le_rb x b0 -> (forall j, j < n -> binfty (T j) = false -> le_rb (f j) (T j)) ->
            (forall j, j < n -> binfty (T j) = true -> f j = 0%R) -> le_rb (x + lsum n f one) (s_b s);
  os_0 : s_inf s = 0 -> forall j, j < n -> binfty (T j) = false;
  os_1 : s_inf s >= 1 -> s_1 s < n /\ binfty (T (s_1 s)) = true;
  os_1' : s_inf s = 1 -> forall j, j < n -> j <> s_1 s -> binfty (T j) = false;
  os_2 : s_inf s >= 2 -> s_2 s < s_1 s /\ binfty (T (s_2 s)) = true;
  os_2' : s_inf s = 2 -> forall j, j < n -> j <> s_1 s -> j <> s_2 s -> binfty (T j) = false;
  os_m : b0 <> MInf -> (forall j, j < n -> T j <> MInf) -> s_b s <> MInf
}.
Lemma osum_fold_ok : forall n b0 T, osum_ok n b0 T (osum_fold n b0 T).
Proof.
  intros n b0 T. unfold osum_fold. apply (for_ind (fun k s => osum_ok k b0 T s)); [lia| |].
  - constructor; simpl; intros; try lia; auto. rewrite Rplus_0_r. auto.
  - intros i s Hi [A0 A1 A2 A3 A4 A5 A6]. unfold osum_add. destruct (binfty (T i)) eqn:B.
    + constructor; simpl.
      * intros f x Hx H1 H2. rewrite (H2 i) by (auto; lia). rewrite Rmult_0_l, Rplus_0_r. apply A0; auto.
      * discriminate.
      * intros _. split; [lia|auto].
      * intros HH j Hj D. apply A1; lia.
      * intros HH. destruct A2 as [A2 A2']; [lia|]. auto.
      * intros HH j Hj D1 D2. apply A3; lia.
      * intros HH HT. apply A6; auto.
    + constructor; simpl.
      * intros f x Hx H1 H2. unfold one at 2. rewrite Rmult_1_r, <- Rplus_assoc. apply badd_sound; auto.
      * intros HH j Hj. destruct (Nat.eq_dec j i) as [->|]; auto. apply A1; auto; lia.
      * intros HH. destruct (A2 HH). split; auto; lia.
      * intros HH j Hj D. destruct (Nat.eq_dec j i) as [->|]; auto. apply A3; auto; lia.
      * auto.
      * intros HH j Hj D D2. destruct (Nat.eq_dec j i) as [->|]; auto. apply A5; auto; lia.
      * intros HH HT. apply badd_not_MInf; auto.
Qed.
(** products of the coefficients with the doubled bounds of the variables *)
Definition Tlo (b tmp : hmat) (j : nat) : bound := snd (fst (bounds_mul (N:=N) tmp 0
  (b (matpos (2 * j) (2 * j + 1))) (b (matpos (2 * j + 1) (2 * j))) (tmp (2 * j + 2)) (tmp (2 * j + 3)))).
Definition Thi (b tmp : hmat) (j : nat) : bound := snd (bounds_mul (N:=N) tmp 0
  (b (matpos (2 * j) (2 * j + 1))) (b (matpos (2 * j + 1) (2 * j))) (tmp (2 * j + 2)) (tmp (2 * j + 3))).
Lemma other_sums_spec : forall n b tmp tmp' cs Cs, other_sums (N:=N) n b tmp = (tmp', cs, Cs) ->
  (forall p, p < 2 * n + 2 -> tmp' p = tmp p) /\
  osum_ok n (bmul_2 (N:=N) (tmp 0)) (Tlo b tmp) cs /\ osum_ok n (bmul_2 (N:=N) (tmp 1)) (Thi b tmp) Cs.
Proof.
  intros n b tmp tmp' cs Cs H.
  assert (G : (forall p, p < 2 * n + 2 -> tmp' p = tmp p) /\ cs = osum_fold n (bmul_2 (N:=N) (tmp 0)) (Tlo b tmp) /\
              Cs = osum_fold n (bmul_2 (N:=N) (tmp 1)) (Thi b tmp)).
  { unfold other_sums, osum_fold in *.
    cut (forall k, k <= n -> let '(t, x, y) := for_ 0 k (fun (j : nat) (s : hmat * osum * osum) =>
          let '(tmp, lo, hi) := s in
          let '(tmp0, ta, tb) := bounds_mul (N:=N) tmp (2 * (n + 1)) (b (matpos (2 * j) (2 * j + 1)))
               (b (matpos (2 * j + 1) (2 * j))) (tmp (2 * j + 2)) (tmp (2 * j + 3)) in
          (tmp0, osum_add (N:=N) j ta lo, osum_add (N:=N) j tb hi))
         (tmp, mkS (bmul_2 (N:=N) (tmp 0)) 0 0 0, mkS (bmul_2 (N:=N) (tmp 1)) 0 0 0) in
       (forall p, p < 2 * n + 2 -> t p = tmp p) /\
       x = for_ 0 k (fun j s => osum_add (N:=N) j (Tlo b tmp j) s) (mkS (bmul_2 (N:=N) (tmp 0)) 0 0 0) /\
       y = for_ 0 k (fun j s => osum_add (N:=N) j (Thi b tmp j) s) (mkS (bmul_2 (N:=N) (tmp 1)) 0 0 0)).
    { intros C. specialize (C n (le_n n)). rewrite H in C. exact C. }
    induction k; intros Hk.
    - rewrite !for_empty by lia. auto.
    - rewrite (for_snoc (hmat * osum * osum)), !(for_snoc osum). specialize (IHk ltac:(lia)).
      destruct (for_ 0 k _ (tmp, _, _)) as [[t x] y]. destruct IHk as (I1 & I2 & I3).
      rewrite !I1 by lia.
      destruct (bounds_mul (N:=N) t (2 * (n + 1)) _ _ _ _) as [[t' ta] tb] eqn:B.
      split; [|split].
      + intros p Hp. rewrite (bounds_mul_frame _ _ _ _ _ _ _ _ _ p B) by lia. auto.
      + rewrite <- I2. f_equal. unfold bounds_mul in B. injection B as _ <- _. reflexivity.
      + rewrite <- I3. f_equal. unfold bounds_mul in B. injection B as _ _ <-. reflexivity. }
  destruct G as (G1 & -> & ->). split; auto. split; apply osum_fold_ok.
Qed.
End Mul.

(** The simplification keeps the set of points and leaves a minimal system. *)
From Coq Require Import ZArith Bool List Lia Reals Lra Permutation.
Import ListNotations.
From Verif Require Import PkCone PkVec PkCherni PkCherniFacts PkRank PkCherniRay PkFarkas PkSimplify PkSimplifyFacts.
Open Scope nat_scope.

(** * Gauss elimination *)
Lemma combine_at_spec : forall n (p : pvec) j (r : row), length p = S n -> length (fst r) = S n -> 1 <= j <= n -> (0 < zn j p)%Z ->
  length (fst (combine_at p j r)) = S n /\ zn 0 (fst (combine_at p j r)) = zn 0 (fst r) /\ zn j (fst (combine_at p j r)) = 0%Z /\ snd (combine_at p j r) = snd r /\
  exists u v, (0 < u)%R /\ veq n (rv (tr (combine_at p j r))) (lin2 u (rv (tr r)) v (rv (tl p))).
Proof.
  intros n p j r LP LR J P. unfold combine_at. destruct (zn j (fst r) =? 0)%Z eqn:E; [apply Z.eqb_eq in E|apply Z.eqb_neq in E].
  - split; auto. split; auto. split; auto. split; auto. exists 1%R, 0%R. split. lra. intros i _. unfold lin2. ring.
  - destruct (combine_spec n (fst r) p (zn 0 (fst r)) j LR LP (or_introl E)) as (A & B & h & H & V). unfold setvec. cbn [fst snd]. split; auto. split. { rewrite B. replace (Nat.eqb j 0) with false; auto. symmetry. apply Nat.eqb_neq. lia. }
    assert (Q : exists u v, (0 < u)%R /\ veq n (rv (tl (vector_combine (fst r) p (zn 0 (fst r)) j))) (lin2 u (rv (tr r)) v (rv (tl p)))). { exists (h * IZR (zn j p))%R, (- (h * IZR (zn j (fst r))))%R. split; auto. apply Rmult_lt_0_compat; auto. apply IZR_lt; auto. }
    split; auto. specialize (V (j - 1) ltac:(lia)). unfold lin2, rv in V. rewrite <- !zn_tl in V. replace (S (j - 1)) with j in V by lia. apply eq_IZR. rewrite V. ring.
Qed.
Definition eq0 (n : nat) (E : list row) (x : vec) : Prop := forall r, In r E -> dt n (rv (tr r)) x = 0%R.
Lemma dt_lin_l : forall n f g t a b x, veq n f (lin2 a g b t) -> dt n f x = (a * dt n g x + b * dt n t x)%R.
Proof. intros n f g t a b x V. rewrite (dt_sym n f), (dt_ext n x f _ V), dt_lin, (dt_sym n x g), (dt_sym n x t). auto. Qed.
Definition ech (n j : nat) (z : list bool) (intp : list nat) (Er Q : list row) : Prop :=
  length intp = length Er /\ Forall (fun r : row => length (fst r) = S n /\ zn 0 (fst r) = 0%Z /\ snd r = z) (Er ++ Q) /\
  (forall a, a < length Er -> j < nth a intp O /\ nth a intp O <= n /\ (0 < zn (nth a intp O) (fst (nth a Er row0)))%Z) /\
  (forall a b, a < b -> b < length Er -> zn (nth a intp O) (fst (nth b Er row0)) = 0%Z) /\
  (forall col r, In r Q -> j < col -> zn col (fst r) = 0%Z).
Lemma find_nz_spec : forall j (Q Er Ir : list row), (find_nz (length Q) (length Er) j (Er ++ Q ++ Ir) = length (Er ++ Q) /\ (forall r, In r Q -> zn j (fst r) = 0%Z)) \/
  exists Q1 q Q2, Q = Q1 ++ q :: Q2 /\ find_nz (length Q) (length Er) j (Er ++ Q ++ Ir) = length (Er ++ Q1) /\ (forall r, In r Q1 -> zn j (fst r) = 0%Z) /\ zn j (fst q) <> 0%Z.
Proof.
  intros j. induction Q as [|q Q IH]; intros Er Ir.
  - left. simpl. rewrite app_nil_r. split; auto. intros r [].
  - cbn [length find_nz]. replace (nth (length Er) (Er ++ (q :: Q) ++ Ir) row0) with q by (symmetry; apply nth_mid). destruct (Z.eqb_spec (zn j (fst q)) 0) as [E|E].
    + specialize (IH (Er ++ [q]) Ir). rewrite <- !app_assoc in IH. replace (length (Er ++ [q])) with (S (length Er)) in IH by (rewrite app_length; simpl; lia). cbn [app] in *. destruct IH as [[A B]|(Q1 & q1 & Q2 & EQ & A & B & C)].
      left. split; auto. intros r [<-|I]; auto. right. exists (q :: Q1), q1, Q2. split. rewrite EQ; auto. split. rewrite A. rewrite <- app_assoc. auto. split; auto. intros r [<-|I]; auto.
    + right. exists [], q, Q. rewrite app_nil_r. split; auto. split; auto. split; auto. intros r [].
Qed.
Lemma exch_vec_eq : forall i j rows z, snd (nth i rows row0) = z -> snd (nth j rows row0) = z -> exch_vec i j rows = exch row0 i j rows.
Proof. intros i j rows z A B. unfold exch_vec, exch, setvec. cbv zeta. rewrite A, B. replace (fst (nth j rows row0), z) with (nth j rows row0) by (rewrite <- B; destruct (nth j rows row0); auto). replace (fst (nth i rows row0), z) with (nth i rows row0) by (rewrite <- A; destruct (nth i rows row0); auto). auto. Qed.
(** the pivots go leftwards and are the last coefficients of their rows *)
Definition ld (intp : list nat) (Er : list row) : Prop :=
  (forall a, a < length Er -> forall col, nth a intp O < col -> zn col (fst (nth a Er row0)) = 0%Z) /\ (forall a b, a < b -> b < length Er -> nth b intp O < nth a intp O).
Lemma gauss_spec : forall j n z nbeq intp (Er Q Ir : list row), ech n j z intp Er Q -> length (Er ++ Q) = nbeq -> j <= n ->
  exists Er' Zr intp', gauss j nbeq (length Er) intp (Er ++ Q ++ Ir) = (length Er', intp', Er' ++ Zr ++ Ir) /\ length (Er' ++ Zr) = nbeq /\ ech n 0 z intp' Er' Zr /\ (forall x, eq0 n (Er ++ Q) x <-> eq0 n (Er' ++ Zr) x) /\ (ld intp Er -> ld intp' Er').
Proof.
  induction j as [|j IH]; intros n z nbeq intp Er Q Ir EC LN JN.
  - exists Er, Q, intp. cbn [gauss]. split; auto. split; auto. split; auto. split; [tauto|auto].
  - cbn [gauss]. replace (nbeq - length Er) with (length Q) by (rewrite <- LN, app_length; lia). destruct (find_nz_spec (S j) Q Er Ir) as [[-> AZ]|(Q1 & q & Q2 & EQ & -> & Z1 & NZ)].
    + rewrite LN, Nat.ltb_irrefl. apply IH; auto; [|lia]. destruct EC as (A & B & C & D & F). split; auto. split; auto. split. intros a La. destruct (C a La) as (C1 & C2 & C3). split; auto. lia. split; auto. intros col r I J. destruct (Nat.eq_dec col (S j)) as [->|]; auto. apply F; auto. lia.
    + replace (Nat.ltb (length (Er ++ Q1)) nbeq) with true by (symmetry; apply Nat.ltb_lt; rewrite <- LN, EQ, !app_length; simpl; lia).
      assert (NQ : nth (length (Er ++ Q1)) (Er ++ Q ++ Ir) row0 = q). { rewrite EQ. rewrite <- app_assoc. rewrite app_assoc. apply nth_mid. } rewrite NQ. clear NQ.
      destruct EC as (A & B & C & D & F). assert (BI : forall r, In r (Er ++ Q) -> length (fst r) = S n /\ zn 0 (fst r) = 0%Z /\ snd r = z) by (apply Forall_forall; auto).
      assert (X : exists Q1', Permutation Q1' Q1 /\ (if Nat.ltb (length Er) (length (Er ++ Q1)) then exch_vec (length (Er ++ Q1)) (length Er) (Er ++ Q ++ Ir) else Er ++ Q ++ Ir) = Er ++ q :: Q1' ++ Q2 ++ Ir).
      { destruct Q1 as [|h Q1]. { exists []. split; auto. rewrite app_nil_r, Nat.ltb_irrefl. rewrite EQ. rewrite <- app_assoc. auto. }
        replace (Nat.ltb (length Er) (length (Er ++ h :: Q1))) with true by (symmetry; apply Nat.ltb_lt; rewrite app_length; simpl; lia). exists (Q1 ++ [h]). split. symmetry; apply Permutation_cons_append.
        replace (Er ++ Q ++ Ir) with (Er ++ h :: Q1 ++ q :: Q2 ++ Ir) by (rewrite EQ; rewrite <- !app_assoc; reflexivity). replace (length (Er ++ h :: Q1)) with (length Er + S (length Q1)) by (rewrite app_length; simpl; lia).
        rewrite (exch_vec_eq _ _ _ z). destruct (exch_app row row0 Er h Q1 q (Q2 ++ Ir)) as [_ X]. rewrite X. rewrite <- app_assoc. auto.
        replace (Er ++ h :: Q1 ++ q :: Q2 ++ Ir) with ((Er ++ h :: Q1) ++ q :: Q2 ++ Ir) by (rewrite <- app_assoc; auto). replace (length Er + S (length Q1)) with (length (Er ++ h :: Q1)) by (rewrite app_length; simpl; lia). rewrite nth_mid. apply BI. rewrite EQ. rewrite !in_app_iff. right; right; left; auto.
        rewrite nth_mid. apply BI. rewrite EQ. rewrite !in_app_iff. right; left; left; auto. }
      destruct X as (Q1' & PQ & ->). rewrite !nth_mid, !lset_app.
      set (p := setsign 0 (if (zn (S j) (fst q) <? 0)%Z then vector_neg_from 1 (fst q) else fst q)). assert (IQ : In q (Er ++ Q)) by (rewrite EQ, !in_app_iff; right; right; left; auto). destruct (BI q IQ) as (LQ & ZQ & SQ).
      assert (ZP : zn 0 p = 0%Z) by reflexivity.
      assert (PP : length p = S n /\ (0 < zn (S j) p)%Z /\ exists s, (s <> 0)%R /\ veq n (rv (tl p)) (lin2 s (rv (tr q)) 0 (rv (tr q))) /\ forall col, zn (S col) (fst q) = 0%Z -> zn (S col) p = 0%Z).
      { unfold p. assert (ZS : forall (y : pvec) m, zn (S m) (setsign 0 y) = zn (S m) y) by (intros y m; unfold setsign; rewrite !zn_tl; auto). destruct (Z.ltb_spec (zn (S j) (fst q)) 0) as [N|N].
        - destruct (neg_from_spec n 1 (fst q) (le_n 1) LQ) as (L1 & _ & V1). split. unfold setsign. simpl. rewrite (len_tl _ n); auto. rewrite ZS.
          assert (VN : forall m, m < n -> zn (S m) (vector_neg_from 1 (fst q)) = (- zn (S m) (fst q))%Z). { intros m M. apply eq_IZR. rewrite opp_IZR. specialize (V1 m M). unfold lin2, rv in V1. rewrite <- !zn_tl in V1. rewrite V1. ring. }
          split. rewrite VN by lia. lia. exists (-1)%R. split. lra. split. intros i Hi. unfold setsign. cbn [tl]. rewrite (V1 i Hi). unfold lin2, tr. ring.
          intros col Z0. rewrite ZS. destruct (Nat.lt_ge_cases col n). rewrite VN by auto. lia. unfold zn. apply nth_overflow. lia.
        - split. unfold setsign. simpl. rewrite (len_tl _ n); auto. rewrite ZS. split. lia. exists 1%R. split. lra. split. intros i Hi. unfold setsign, lin2, tr. cbn [tl]. ring. intros col Z0. rewrite ZS. auto. }
      destruct PP as (LP & PZ & s & SN & SV & PC). clearbody p.
      set (pr := setvec p q). assert (MI : mapi (fun (k : nat) (r : row) => if Nat.ltb (length (Er ++ Q1)) k && Nat.ltb k nbeq then combine_at p (S j) r else r) (Er ++ pr :: Q1' ++ Q2 ++ Ir) = (Er ++ [pr]) ++ (Q1' ++ map (combine_at p (S j)) Q2) ++ Ir).
      { replace (Er ++ pr :: Q1' ++ Q2 ++ Ir) with ((Er ++ pr :: Q1') ++ Q2 ++ Ir) by (rewrite <- app_assoc; auto). assert (L1 : length (Er ++ pr :: Q1') = S (length (Er ++ Q1))) by (rewrite !app_length; simpl; rewrite (Permutation_length PQ); lia).
        assert (L2 : nbeq = length (Er ++ pr :: Q1') + length Q2) by (rewrite L1, <- LN, EQ, !app_length; simpl; lia).
        rewrite (mapi_app _ _ _ (Er ++ pr :: Q1')). rewrite (mapi_app _ _ _ Q2). rewrite <- !app_assoc. cbn [app]. rewrite (mapi_map _ _ _ (fun r => r) (Er ++ pr :: Q1')). rewrite (mapi_map _ _ _ (combine_at p (S j)) Q2). rewrite (mapi_map _ _ _ (fun r => r) Ir). rewrite !map_id. rewrite <- app_assoc. auto.
        - intros i x _. replace (Nat.ltb (length (Er ++ pr :: Q1') + (length Q2 + i)) nbeq) with false by (symmetry; apply Nat.ltb_ge; lia). rewrite andb_false_r. auto.
        - intros i x H. assert (i < length Q2) by (apply nth_error_Some; intros N; assert (Y := eq_trans (eq_sym H) N); discriminate Y). replace (Nat.ltb (length (Er ++ Q1)) (length (Er ++ pr :: Q1') + i)) with true by (symmetry; apply Nat.ltb_lt; lia). replace (Nat.ltb (length (Er ++ pr :: Q1') + i) nbeq) with true by (symmetry; apply Nat.ltb_lt; lia). auto.
        - intros i x H. assert (i < length (Er ++ pr :: Q1')) by (apply nth_error_Some; intros N; assert (Y := eq_trans (eq_sym H) N); discriminate Y). replace (Nat.ltb (length (Er ++ Q1)) i) with false by (symmetry; apply Nat.ltb_ge; lia). auto. }
      rewrite MI. clear MI. replace (S (length Er)) with (length (Er ++ [pr])) by (rewrite app_length; simpl; lia).
      assert (TP : tr pr = tl p) by auto.
      assert (JJ : 1 <= S j <= n) by lia.
      assert (IQ2 : forall r, In r Q2 -> In r (Er ++ Q)) by (intros r I; rewrite EQ, !in_app_iff; right; right; right; auto).
      assert (IQ1 : forall r, In r Q1' -> In r Q1) by (intros r I; apply (Permutation_in r PQ); auto).
      destruct (IH n z nbeq (intp ++ [S j]) (Er ++ [pr]) (Q1' ++ map (combine_at p (S j)) Q2) Ir) as (Er' & Zr & intp' & G1 & G2 & G3 & G4 & G5).
      * split. rewrite !app_length, A; auto. split. { apply Forall_forall. intros r I. rewrite !in_app_iff in I. destruct I as [[I|[<-|[]]]|[I|I]]. apply BI; rewrite in_app_iff; auto. unfold pr, setvec. cbn [fst snd]. split; auto. apply BI. rewrite EQ, !in_app_iff. right; left; auto.
          apply in_map_iff in I. destruct I as (w & <- & I). destruct (BI w (IQ2 w I)) as (B1 & B2 & B3). destruct (combine_at_spec n p (S j) w LP B1 JJ PZ) as (C1 & C2 & C3 & C4 & _). rewrite C1, C2, C4. auto. }
        split. { intros a La. rewrite app_length in La. simpl in La. destruct (Nat.eq_dec a (length Er)) as [->|]. assert (NI : nth (length Er) (intp ++ [S j]) 0 = S j) by (rewrite <- A; apply nth_mid). rewrite NI, nth_mid. split; [lia|]. split; [lia|]. auto. rewrite !app_nth1 by lia. destruct (C a ltac:(lia)) as (C1 & C2 & C3). split; auto. lia. }
        split. { intros a b AB Lb. rewrite app_length in Lb. simpl in Lb. rewrite (app_nth1 intp) by lia. destruct (Nat.eq_dec b (length Er)) as [->|]. rewrite nth_mid. unfold pr. cbn [setvec fst]. destruct (C a ltac:(lia)) as (C1 & C2 & C3). destruct (nth a intp 0) as [|col] eqn:EA; [lia|]. apply PC. rewrite <- EA in *. apply F; auto. rewrite EQ, in_app_iff; right; left; auto. rewrite app_nth1 by lia. apply D; auto. lia. }
        intros col r I J. rewrite in_app_iff in I. destruct I as [I|I]. destruct (Nat.eq_dec col (S j)) as [->|]. apply Z1; auto. apply F. rewrite EQ, in_app_iff; auto. lia.
        apply in_map_iff in I. destruct I as (w & <- & I). destruct (BI w (IQ2 w I)) as (B1 & B2 & B3). destruct (combine_at_spec n p (S j) w LP B1 JJ PZ) as (C1 & C2 & C3 & C4 & u & v & U & V). destruct (Nat.eq_dec col (S j)) as [->|NC]; auto. destruct col as [|col]; [lia|]. destruct (Nat.lt_ge_cases col n) as [CN|CN].
        assert (W0 : zn (S col) (fst w) = 0%Z) by (apply F; [rewrite EQ, in_app_iff; right; right; auto|lia]). assert (P0 : zn (S col) p = 0%Z) by (apply PC; apply F; [rewrite EQ, in_app_iff; right; left; auto|lia]).
        apply eq_IZR. specialize (V col CN). unfold lin2, rv, tr in V. rewrite <- !zn_tl in V. rewrite V, W0, P0. ring. unfold zn. apply nth_overflow. lia.
      * rewrite <- LN, EQ, !app_length, map_length. simpl. rewrite (Permutation_length PQ). lia.
      * lia.
      * exists Er', Zr, intp'. split; auto. split; auto. split; auto. split; [|intros [LD1 LD2]; apply G5; split;
          [intros a La col Hc; rewrite app_length in La; simpl in La; destruct (Nat.eq_dec a (length Er)) as [->|];
             [rewrite nth_mid; unfold pr; cbn [setvec fst]; rewrite <- A in Hc; rewrite nth_mid in Hc; destruct col as [|col]; [lia|]; apply PC; apply F; [rewrite EQ, in_app_iff; right; left; auto|lia]
             |rewrite app_nth1 by lia; apply LD1; [lia|]; rewrite app_nth1 in Hc by lia; auto]
          |intros a b AB Lb; rewrite app_length in Lb; simpl in Lb; rewrite (@app_nth1 nat intp [S j] 0 a) by lia; destruct (Nat.eq_dec b (length Er)) as [->|];
             [rewrite <- A; rewrite nth_mid; destruct (C a ltac:(lia)) as (C1 & _); lia|rewrite app_nth1 by lia; apply LD2; lia]]].
        intros x. rewrite <- G4. clear - EQ BI IQ2 IQ1 PQ TP SV SN LP PZ JJ. 
        assert (EP : dt n (rv (tr pr)) x = (s * dt n (rv (tr q)) x)%R). { rewrite TP. rewrite (dt_lin_l n _ _ _ _ _ x SV). ring. }
        assert (EW : forall w, In w Q2 -> exists u v, (0 < u)%R /\ dt n (rv (tr (combine_at p (S j) w))) x = (u * dt n (rv (tr w)) x + v * dt n (rv (tr pr)) x)%R). { intros w I. destruct (BI w (IQ2 w I)) as (B1 & B2 & B3). destruct (combine_at_spec n p (S j) w LP B1 JJ PZ) as (C1 & C2 & C3 & C4 & u & v & U & V). exists u, v. split; auto. rewrite TP. apply dt_lin_l; auto. }
        split.
        -- intros H r I. rewrite !in_app_iff in I. assert (HP : dt n (rv (tr pr)) x = 0%R). { rewrite EP, (H q). ring. rewrite EQ, !in_app_iff. right; right; left; auto. } destruct I as [[I|[<-|[]]]|[I|I]]; auto. apply H. rewrite in_app_iff; auto. apply H. rewrite EQ, !in_app_iff. right; left; auto. apply in_map_iff in I. destruct I as (w & <- & I). destruct (EW w I) as (u & v & _ & ->). rewrite HP, (H w). ring. auto.
        -- intros H r I. assert (HP : dt n (rv (tr pr)) x = 0%R). { apply H. rewrite !in_app_iff. left; right; left; auto. } rewrite EQ, !in_app_iff in I. destruct I as [I|[I|[<-|I]]]. apply H; rewrite !in_app_iff; auto. apply H. rewrite !in_app_iff. right; left. apply (Permutation_in r (Permutation_sym PQ)); auto. rewrite EP in HP. apply Rmult_integral in HP. tauto. destruct (EW r I) as (u & v & U & E). rewrite (H (combine_at p (S j) r)), HP in E. assert (u * dt n (rv (tr r)) x = 0)%R by lra. apply Rmult_integral in H0. destruct H0; auto. lra. rewrite !in_app_iff. right; right. apply in_map; auto.
Qed.

(** * Back-substitution *)
Definition piv (n : nat) (intp : list nat) (Er : list row) : Prop :=
  (forall a, a < length Er -> 1 <= nth a intp O <= n /\ (0 < zn (nth a intp O) (fst (nth a Er row0)))%Z) /\ (forall a b, a < b -> b < length Er -> zn (nth a intp O) (fst (nth b Er row0)) = 0%Z).
Definition basic (n : nat) (r r' : row) : Prop := snd r' = snd r /\ zn 0 (fst r') = zn 0 (fst r) /\ length (fst r') = S n.
Definition propor (n : nat) (x : vec) (r r' : row) : Prop := exists u, (0 < u)%R /\ dt n (rv (tr r')) x = (u * dt n (rv (tr r)) x)%R.
Definition sim (n : nat) (Er Ir Er' Ir' : list row) : Prop :=
  Forall2 (basic n) Er Er' /\ Forall2 (basic n) Ir Ir' /\ (forall x, eq0 n Er x <-> eq0 n Er' x) /\ (forall x, eq0 n Er x -> Forall2 (propor n x) Ir Ir').
Lemma Forall2_trans' : forall A (P : A -> A -> Prop), (forall a b c, P a b -> P b c -> P a c) -> forall l m, Forall2 P l m -> forall q, Forall2 P m q -> Forall2 P l q.
Proof. intros A P T l m F. induction F; intros q G; inversion G; subst; constructor; eauto. Qed.
Lemma sim_trans : forall n A B A1 B1 A2 B2, sim n A B A1 B1 -> sim n A1 B1 A2 B2 -> sim n A B A2 B2.
Proof.
  intros n A B A1 B1 A2 B2 (H1 & H2 & H3 & H4) (K1 & K2 & K3 & K4). assert (BT : forall a b c, basic n a b -> basic n b c -> basic n a c) by (intros a b c (X1 & X2 & X3) (Y1 & Y2 & Y3); split; [congruence|split; auto; congruence]). split. eapply Forall2_trans'; eauto. split. eapply Forall2_trans'; eauto. split. intros x. rewrite H3. auto.
  intros x E. eapply Forall2_trans'; [|apply H4; auto|apply K4, H3; auto]. intros a b c (u & U & X) (v & V & Y). exists (v * u)%R. split. apply Rmult_lt_0_compat; auto. rewrite Y, X. ring.
Qed.
Lemma sim_refl : forall n A B, Forall (fun r : row => length (fst r) = S n) (A ++ B) -> sim n A B A B.
Proof.
  intros n A B F. apply Forall_app in F. destruct F as [FA FB]. assert (R : forall l, Forall (fun r : row => length (fst r) = S n) l -> Forall2 (basic n) l l) by (induction 1; constructor; auto; split; auto). split; auto. split; auto. split. tauto. intros x _. clear. induction B; constructor; auto. exists 1%R. split. lra. ring.
Qed.
Lemma Forall2_map_r : forall A B (P : A -> B -> Prop) f l, (forall x, In x l -> P x (f x)) -> Forall2 P l (map f l).
Proof. induction l; intros H; simpl; constructor; auto. apply H; left; auto. apply IHl. intros x I. apply H; right; auto. Qed.
Lemma Forall2_mapi : forall A B (P : A -> B -> Prop) f l d, (forall i, i < length l -> P (nth i l d) (f i (nth i l d))) -> Forall2 P l (mapi f l).
Proof. intros A B P f l d. revert f. induction l as [|a l IH]; intros f H. constructor. rewrite mapi_cons. constructor. apply (H 0). simpl; lia. apply IH. intros i I. apply (H (S i)). simpl; lia. Qed.
Lemma backsub_step : forall n intp k (Er Ir : list row), Forall (fun r : row => length (fst r) = S n) (Er ++ Ir) -> piv n intp Er -> k < length Er ->
  exists Er' Ir', mapi (fun (i : nat) (r : row) => if Nat.eqb i k then r else combine_at (fst (nth k (Er ++ Ir) row0)) (nth k intp O) r) (Er ++ Ir) = Er' ++ Ir' /\ sim n Er Ir Er' Ir' /\ piv n intp Er' /\ length Er' = length Er /\ Forall (fun r : row => length (fst r) = S n) (Er' ++ Ir').
Proof.
  intros n intp k Er Ir F PV K. rewrite app_nth1 by auto. set (p := fst (nth k Er row0)). set (j := nth k intp 0). destruct PV as [PV1 PV2]. destruct (PV1 k K) as [J P]. fold j p in J, P.
  apply Forall_app in F. destruct F as [FE FI]. assert (LE : forall i, i < length Er -> length (fst (nth i Er row0)) = S n) by (intros i I; rewrite Forall_forall in FE; apply FE, nth_In; auto). assert (LP : length p = S n) by (apply LE; auto).
  set (f := fun (i : nat) (r : row) => if Nat.eqb i k then r else combine_at p j r). exists (mapi f Er), (map (combine_at p j) Ir). rewrite mapi_app. rewrite (mapi_map _ _ _ (combine_at p j) Ir). 2: { intros i x _. unfold f. replace (Nat.eqb (length Er + i) k) with false; auto. symmetry; apply Nat.eqb_neq; lia. } split; auto.
  assert (FS : forall i, i < length Er -> basic n (nth i Er row0) (f i (nth i Er row0)) /\ exists u v, (0 < u)%R /\ veq n (rv (tr (f i (nth i Er row0)))) (lin2 u (rv (tr (nth i Er row0))) v (rv (tl p))) /\ (k < i -> f i (nth i Er row0) = nth i Er row0)).
  { intros i I. unfold f. destruct (Nat.eqb_spec i k) as [->|NE]. split. split; auto. exists 1%R, 0%R. split. lra. split; auto. intros m _. unfold lin2. ring. destruct (combine_at_spec n p j (nth i Er row0) LP (LE i I) J P) as (C1 & C2 & C3 & C4 & u & v & U & V). split. split; auto. exists u, v. split; auto. split; auto. intros KI. unfold combine_at. unfold j. rewrite PV2 by auto. auto. }
  assert (NF : forall i, i < length Er -> nth i (mapi f Er) row0 = f i (nth i Er row0)) by (intros i I; apply mapi_nth; auto). assert (LF : length (mapi f Er) = length Er) by apply mapi_length.
  assert (FP : f k (nth k Er row0) = nth k Er row0) by (unfold f; rewrite Nat.eqb_refl; auto).
  assert (SM : sim n Er Ir (mapi f Er) (map (combine_at p j) Ir)).
  { split. apply Forall2_mapi with row0. intros i I. apply FS; auto. split. apply Forall2_map_r. intros r I. rewrite Forall_forall in FI. destruct (combine_at_spec n p j r LP (FI r I) J P) as (C1 & C2 & C3 & C4 & _). split; auto. split.
    - intros x. split; intros H r I.
      + apply (In_nth _ _ row0) in I. destruct I as (i & Hi & <-). rewrite LF in Hi. rewrite NF by auto. destruct (FS i Hi) as (_ & u & v & U & V & _). rewrite (dt_lin_l n _ _ _ _ _ x V). rewrite (H (nth i Er row0)) by (apply nth_In; auto). assert (HP := H (nth k Er row0) (nth_In _ _ K)). unfold tr in HP at 1. fold p in HP. rewrite HP. ring.
      + apply (In_nth _ _ row0) in I. destruct I as (i & Hi & <-). destruct (FS i Hi) as (_ & u & v & U & V & _). assert (HI := H (f i (nth i Er row0))). rewrite (dt_lin_l n _ _ _ _ _ x V) in HI. assert (HP := H (nth k Er row0)). unfold tr in HP at 1. fold p in HP. rewrite HP in HI. 2: { rewrite <- FP, <- NF by auto. apply nth_In. rewrite LF; auto. } assert (HI' : (u * dt n (rv (tr (nth i Er row0))) x + v * 0 = 0)%R). { apply HI. rewrite <- NF by auto. apply nth_In. rewrite LF; auto. } assert (u * dt n (rv (tr (nth i Er row0))) x = 0)%R by lra. apply Rmult_integral in H0. destruct H0; auto. lra.
    - intros x H. apply Forall2_map_r. intros r I. rewrite Forall_forall in FI. destruct (combine_at_spec n p j r LP (FI r I) J P) as (C1 & C2 & C3 & C4 & u & v & U & V). exists u. split; auto. rewrite (dt_lin_l n _ _ _ _ _ x V). assert (HP := H (nth k Er row0) (nth_In _ _ K)). unfold tr in HP at 1. fold p in HP. rewrite HP. ring. }
  split; auto.
  assert (ZC : forall i c, i < length Er -> 1 <= c <= n -> exists u v, (0 < u)%R /\ IZR (zn c (fst (f i (nth i Er row0)))) = (u * IZR (zn c (fst (nth i Er row0))) + v * IZR (zn c p))%R). { intros i c I C. destruct (FS i I) as (_ & u & v & U & V & _). exists u, v. split; auto. specialize (V (c - 1) ltac:(lia)). unfold lin2, rv, tr in V. rewrite <- !zn_tl in V. replace (S (c - 1)) with c in V by lia. auto. }
  split; [|split; auto].
  - split.
    + intros a La. rewrite LF in La. rewrite NF by auto. destruct (PV1 a La) as [A1 A2]. split; auto. destruct (Nat.lt_trichotomy a k) as [AK|[->|AK]].
      * destruct (ZC a (nth a intp 0) La A1) as (u & v & U & E). unfold p in E. rewrite (PV2 a k AK K) in E. apply lt_IZR. rewrite E. apply IZR_lt in A2. nra.
      * rewrite FP; auto.
      * destruct (FS a La) as (_ & u & v & _ & _ & ->); auto.
    + intros a b AB Lb. rewrite LF in Lb. rewrite NF by auto. destruct (Nat.lt_trichotomy b k) as [BK|[->|BK]].
      * destruct (PV1 a ltac:(lia)) as [A1 _]. destruct (ZC b (nth a intp 0) Lb A1) as (u & v & U & E). unfold p in E. rewrite (PV2 a k ltac:(lia) K), (PV2 a b AB Lb) in E. apply eq_IZR. rewrite E. ring.
      * rewrite FP; auto.
      * destruct (FS b Lb) as (_ & u & v & _ & _ & ->); auto.
  - destruct SM as (B1 & B2 & _). apply Forall_app. split. clear - B1. induction B1; constructor; auto. apply H. clear - B2. induction B2; constructor; auto. apply H.
Qed.
Lemma backsub_spec : forall n intp k (Er Ir : list row), Forall (fun r : row => length (fst r) = S n) (Er ++ Ir) -> piv n intp Er -> k <= length Er ->
  exists Er' Ir', backsubstitute k intp (Er ++ Ir) = Er' ++ Ir' /\ sim n Er Ir Er' Ir' /\ length Er' = length Er /\ piv n intp Er'.
Proof.
  intros n intp. induction k as [|k IH]; intros Er Ir F PV K.
  - exists Er, Ir. split; auto. split; auto. apply sim_refl; auto.
  - cbn [backsubstitute]. destruct (backsub_step n intp k Er Ir F PV K) as (E1 & I1 & EQ & S1 & P1 & L1 & F1). cbv zeta. rewrite EQ. destruct (IH E1 I1 F1 P1) as (E2 & I2 & EQ2 & S2 & L2 & P2). lia. exists E2, I2. split; auto. split. eapply sim_trans; eauto. split; auto. congruence.
Qed.
(** the columns of the pivots are null in the other rows *)
Definition redr (k : nat) (intp : list nat) (Er Ir : list row) : Prop :=
  forall a i, k <= a -> a < length Er -> i < length (Er ++ Ir) -> i <> a -> zn (nth a intp O) (fst (nth i (Er ++ Ir) row0)) = 0%Z.
Lemma combine_at_zero : forall n (p : pvec) j (r : row) c, length p = S n -> length (fst r) = S n -> 1 <= j <= n -> (0 < zn j p)%Z -> 1 <= c -> zn c (fst r) = 0%Z -> zn c p = 0%Z -> zn c (fst (combine_at p j r)) = 0%Z.
Proof.
  intros n p j r c LP LR J P C R0 P0. destruct (combine_at_spec n p j r LP LR J P) as (C1 & C2 & C3 & C4 & u & v & U & V). destruct (Nat.le_gt_cases c n) as [CN|CN].
  - specialize (V (c - 1) ltac:(lia)). unfold lin2, rv, tr in V. rewrite <- !zn_tl in V. replace (S (c - 1)) with c in V by lia. apply eq_IZR. rewrite V, R0, P0. ring.
  - unfold zn. apply nth_overflow. lia.
Qed.
Lemma backsub_full : forall n intp k (Er Ir : list row), Forall (fun r : row => length (fst r) = S n) (Er ++ Ir) -> piv n intp Er -> ld intp Er -> redr k intp Er Ir -> k <= length Er ->
  exists Er' Ir', backsubstitute k intp (Er ++ Ir) = Er' ++ Ir' /\ sim n Er Ir Er' Ir' /\ length Er' = length Er /\ piv n intp Er' /\ ld intp Er' /\ redr 0 intp Er' Ir'.
Proof.
  intros n intp. induction k as [|k IH]; intros Er Ir F PV LD RD K.
  - exists Er, Ir. split; auto. split. apply sim_refl; auto. auto.
  - cbn [backsubstitute]. destruct (backsub_step n intp k Er Ir F PV K) as (E1 & I1 & EQ & S1 & P1 & L1 & F1). cbv zeta. rewrite EQ.
    assert (LL : length (E1 ++ I1) = length (Er ++ Ir)) by (rewrite <- EQ; apply mapi_length).
    assert (NN : forall i, i < length (Er ++ Ir) -> nth i (E1 ++ I1) row0 = if Nat.eqb i k then nth i (Er ++ Ir) row0 else combine_at (fst (nth k (Er ++ Ir) row0)) (nth k intp 0) (nth i (Er ++ Ir) row0)).
    { intros i I. rewrite <- EQ. rewrite (mapi_nth _ _ _ _ _ row0 row0) by auto. destruct (Nat.eqb i k); auto. }
    rewrite (app_nth1 Er Ir row0 K) in NN. destruct (proj1 PV k K) as [J P].
    assert (LR : forall i, i < length (Er ++ Ir) -> length (fst (nth i (Er ++ Ir) row0)) = S n) by (intros i I; rewrite Forall_forall in F; apply F, nth_In; auto).
    assert (LE : length Er <= length (Er ++ Ir)) by (rewrite app_length; lia).
    assert (LP : length (fst (nth k Er row0)) = S n) by (rewrite <- (app_nth1 Er Ir row0 K); apply LR; lia).
    destruct (IH E1 I1 F1 P1) as (E2 & I2 & EQ2 & S2 & L2 & P2 & LD2 & RD2).
    + destruct LD as [D1 D2]. split.
      * intros a La col C. rewrite L1 in La. rewrite <- (app_nth1 E1 I1 row0) by lia. rewrite NN by lia. rewrite app_nth1 by lia. destruct (Nat.eqb_spec a k) as [->|NE]. apply D1; auto.
        destruct (Nat.lt_ge_cases a k) as [AK|AK]. apply (combine_at_zero n); auto. rewrite <- (app_nth1 Er Ir row0 La); apply LR; lia. lia. apply D1; auto. assert (X := D2 a k AK K). lia.
        unfold combine_at. rewrite (proj2 PV k a) by lia. simpl. apply D1; auto.
      * intros a b AB Lb. apply D2; lia.
    + intros a i KA La Li NE. rewrite L1 in La. rewrite LL in Li. rewrite NN by auto. destruct (Nat.eqb_spec i k) as [->|IK].
      * apply RD; lia.
      * destruct (Nat.eq_dec a k) as [->|AK]. apply (combine_at_spec n); auto.
        apply (combine_at_zero n); auto. destruct (proj1 PV a La); lia. apply RD; lia. rewrite <- (app_nth1 Er Ir row0 K). apply RD; lia.
    + lia.
    + exists E2, I2. split; auto. split. eapply sim_trans; eauto. split; auto. congruence.
Qed.
(** every equation has a last positive coefficient, the column of which is null in the other rows *)
Definition rdc (C : list pvec) : Prop := forall q, In q C -> zn 0 q = 0%Z -> exists j, 1 <= j /\ (0 < zn j q)%Z /\ (forall col, j < col -> zn col q = 0%Z) /\ forall r, In r C -> r = q \/ zn j r = 0%Z.
Lemma redr_rdc : forall n intp Er Ir, piv n intp Er -> ld intp Er -> redr 0 intp Er Ir -> Forall (fun r : row => zn 0 (fst r) <> 0%Z) Ir -> rdc (map fst (Er ++ Ir)).
Proof.
  intros n intp Er Ir [P1 P2] [L1 L2] RD FI q I Z. apply in_map_iff in I. destruct I as (w & <- & I). apply in_app_iff in I. destruct I as [I|I]. 2: { rewrite Forall_forall in FI. destruct (FI w I); auto. }
  destruct (In_nth _ _ row0 I) as (a & La & Ea). destruct (P1 a La) as [A1 A2]. exists (nth a intp 0). rewrite Ea in A2. split; [lia|]. split; auto. split. intros col H. rewrite <- Ea. apply L1; auto.
  intros r Ir0. apply in_map_iff in Ir0. destruct Ir0 as (v & <- & Iv). destruct (In_nth _ _ row0 Iv) as (i & Li & Ei). destruct (Nat.eq_dec i a) as [->|NE]. left. rewrite <- Ei, <- Ea. rewrite app_nth1; auto. right. rewrite <- Ei. apply RD; auto. lia.
Qed.
Lemma rdc_perm : forall C C', (forall q, In q C' <-> In q C) -> rdc C -> rdc C'.
Proof. intros C C' P R q I Z. destruct (R q (proj1 (P q) I) Z) as (j & J & A & B & D). exists j. repeat (split; auto). intros r Ir. apply D, P; auto. Qed.
Lemma piv_indep : forall n intp Er, piv n intp Er -> indep n (map tr Er).
Proof.
  intros n intp Er. revert intp. induction Er as [|e Er IH]; intros intp [P1 P2]. apply indep_nil. destruct (P1 O) as [A B]. simpl; lia. cbn [map]. simpl nth in A, B. apply indep_cons with (nth O intp O - 1). destruct intp; simpl in *; lia.
  - unfold rv, tr. rewrite <- zn_tl. replace (S (nth O intp O - 1)) with (nth O intp O) by (destruct intp; simpl in *; lia). intros E. apply eq_IZR in E. simpl in B. destruct intp; simpl in *; lia.
  - intros l I. apply in_map_iff in I. destruct I as (r & <- & I). destruct (In_nth _ _ row0 I) as (b & Hb & <-). unfold rv, tr. rewrite <- zn_tl. replace (S (nth O intp O - 1)) with (nth O intp O) by (destruct intp; simpl in *; lia). assert (Z := P2 O (S b)). simpl in Z. rewrite Z; auto; lia.
  - apply (IH (tl intp)). split. intros a Ha. specialize (P1 (S a)). destruct intp; simpl in *; [destruct a|]; apply P1; lia. intros a b H1 H2. specialize (P2 (S a) (S b)). destruct intp; simpl in *; [destruct a|]; apply P2; lia.
Qed.

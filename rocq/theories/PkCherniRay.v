(** The conversion of PkCherni.v: a constraint saturated by all the lines, and the whole loop. *)
From Coq Require Import ZArith Bool List Lia Reals Lra Permutation.
Import ListNotations.
From Verif Require Import PkCone PkVec PkCherni PkCherniFacts PkRank.
Open Scope R_scope.

Definition ldec : forall a b : list Z, {a = b} + {a <> b} := list_eq_dec Z.eq_dec.
Lemma NoDup_app_remove_r : forall A (l m : list A), NoDup (l ++ m) -> NoDup l.
Proof. induction l as [|x l IH]; simpl; intros m H. constructor. inversion H; subst. constructor. intros J. apply H2. apply in_app_iff; auto. eapply IH; eauto. Qed.
Lemma NoDup_app_remove_l : forall A (l m : list A), NoDup (l ++ m) -> NoDup m.
Proof. induction l as [|x l IH]; simpl; intros m H; auto. inversion H; subst. auto. Qed.
Section Ray.
Variables (n m k : nat) (con : list pvec) (Lr Zr Pr Mr : list row).
Let Rr := Zr ++ Pr ++ Mr.
Let rows := Lr ++ Rr.
Let c := nth k con [].
Let eqb := length (Lr ++ Zr).
Let supb := length (Lr ++ Zr ++ Pr).
Let cs := map kc (firstn k con).
Hypothesis I : inv n m k con Lr Rr.
Hypothesis KL : (k < length con)%nat.
Hypothesis HP : Forall (haspr c) rows.
Hypothesis LZ : Forall (fun r => sgz r = 0%Z) Lr.
Hypothesis FZ : Forall (fun r => sgz r = 0%Z) Zr.
Hypothesis FP : Forall (fun r => (0 < sgz r)%Z) Pr.
Hypothesis FM : Forall (fun r => (sgz r < 0)%Z) Mr.
Let rw i := nth i rows row0.
Lemma rc_con : Forall (fun c : pvec => length c = S n) con. Proof. apply I. Qed.
Lemma rc_len : forall r, In r rows -> length (fst r) = S n. Proof. destruct I as (_ & A & _). rewrite Forall_forall in A. exact A. Qed.
Lemma rc_dd : ddn n cs (map tr Lr) (map tr Rr). Proof. apply I. Qed.
Lemma rc_bits : forall r, In r rows -> good_bits k con m r. Proof. destruct I as (_ & _ & _ & _ & _ & A). rewrite Forall_forall in A. exact A. Qed.
Lemma rc_c : length c = S n. Proof. pose proof rc_con as A. rewrite Forall_forall in A. apply A, nth_In. auto. Qed.
Lemma rc_cj : forall j, (j < k)%nat -> length (nth j con []) = S n. Proof. intros j J. pose proof rc_con as A. rewrite Forall_forall in A. apply A, nth_In. lia. Qed.
Lemma rc_hp : forall r, In r rows -> haspr c r. Proof. rewrite Forall_forall in HP. exact HP. Qed.
Lemma rc_tr : forall r, In r rows -> length (tr r) = n. Proof. intros r H. apply len_tl. apply rc_len; auto. Qed.
Lemma rc_sg : forall r, In r rows -> dt n (fst (kc c)) (rv (tr r)) = IZR (sgz r).
Proof. intros r H. rewrite (dt_prod n c); [|apply rc_c|apply rc_tr; auto]. unfold sgz. rewrite (haspr_zn c); auto. apply rc_hp; auto. Qed.
Lemma rc_R : forall t, In t (map tr Rr) -> exists i, (length Lr <= i < length rows)%nat /\ t = tr (rw i).
Proof. intros t H. apply in_map_iff in H. destruct H as (r & <- & H). apply (In_nth _ _ row0) in H. destruct H as (i & Hi & <-). exists (length Lr + i)%nat. unfold rw, rows. rewrite app_length. split; [lia|]. rewrite app_nth2 by lia. f_equal. f_equal. lia. Qed.
Lemma rc_Rin : forall i, (length Lr <= i < length rows)%nat -> In (rw i) Rr.
Proof. intros i H. unfold rw, rows in *. rewrite app_length in H. rewrite app_nth2 by lia. apply nth_In. lia. Qed.
Lemma rc_in : forall i, (i < length rows)%nat -> In (rw i) rows.
Proof. intros. apply nth_In. auto. Qed.
Lemma rc_inj : forall i j, (length Lr <= i < length rows)%nat -> (length Lr <= j < length rows)%nat -> tr (rw i) = tr (rw j) -> i = j.
Proof.
  intros i j H K E. pose proof (dd_nodup _ _ _ _ _ rc_dd) as ND. unfold rw, rows in *. rewrite app_length in H, K. rewrite !app_nth2 in E by lia. assert (Q : (i - length Lr)%nat = (j - length Lr)%nat); [|lia].
  rewrite (NoDup_nth (map tr Rr) (tr row0)) in ND. apply ND; rewrite ?map_length; try lia. rewrite !map_nth. auto.
Qed.
Lemma rc_pos : forall i, (i < length rows)%nat -> (0 < sgz (rw i))%Z <-> (eqb <= i < supb)%nat.
Proof.
  intros i H. unfold rw, rows, Rr, eqb, supb in *. rewrite !app_length in *. rewrite Forall_forall in LZ, FZ, FP, FM.
  destruct (Nat.lt_ge_cases i (length Lr)) as [A|A]. { rewrite app_nth1 by lia. rewrite LZ by (apply nth_In; auto). lia. } rewrite app_nth2 by lia.
  destruct (Nat.lt_ge_cases (i - length Lr) (length Zr)) as [B|B]. { rewrite app_nth1 by lia. rewrite FZ by (apply nth_In; auto). lia. } rewrite app_nth2 by lia.
  destruct (Nat.lt_ge_cases (i - length Lr - length Zr) (length Pr)) as [C|C]. { rewrite app_nth1 by lia. pose proof (FP _ (nth_In Pr row0 C)). lia. } rewrite app_nth2 by lia.
  assert (Q : (i - length Lr - length Zr - length Pr < length Mr)%nat) by lia. pose proof (FM _ (nth_In Mr row0 Q)). lia.
Qed.
Lemma rc_neg : forall i, (i < length rows)%nat -> (sgz (rw i) < 0)%Z <-> (supb <= i)%nat.
Proof.
  intros i H. unfold rw, rows, Rr, eqb, supb in *. rewrite !app_length in *. rewrite Forall_forall in LZ, FZ, FP, FM.
  destruct (Nat.lt_ge_cases i (length Lr)) as [A|A]. { rewrite app_nth1 by lia. rewrite LZ by (apply nth_In; auto). lia. } rewrite app_nth2 by lia.
  destruct (Nat.lt_ge_cases (i - length Lr) (length Zr)) as [B|B]. { rewrite app_nth1 by lia. rewrite FZ by (apply nth_In; auto). lia. } rewrite app_nth2 by lia.
  destruct (Nat.lt_ge_cases (i - length Lr - length Zr) (length Pr)) as [C|C]. { rewrite app_nth1 by lia. pose proof (FP _ (nth_In Pr row0 C)). lia. } rewrite app_nth2 by lia.
  assert (Q : (i - length Lr - length Zr - length Pr < length Mr)%nat) by lia. pose proof (FM _ (nth_In Mr row0 Q)). lia.
Qed.
(** bits *)
Lemma rc_bit : forall i q, (i < length rows)%nat -> (q < k)%nat -> (nth q (snd (rw i)) false = false <-> sat n rv (kc (nth q con [])) (tr (rw i))).
Proof.
  intros i q H Q. destruct (rc_bits (rw i) (rc_in i H)) as [_ B]. rewrite B. replace (Nat.ltb q k) with true by (symmetry; apply Nat.ltb_lt; auto). rewrite (sat_prod n) by (auto using rc_cj, rc_tr, rc_in). rewrite negb_false_iff, Z.eqb_eq. tauto.
Qed.
Lemma rc_bitk : forall i q, (i < length rows)%nat -> (k <= q)%nat -> nth q (snd (rw i)) false = false.
Proof. intros i q H Q. destruct (rc_bits (rw i) (rc_in i H)) as [_ B]. rewrite B. replace (Nat.ltb q k) with false by (symmetry; apply Nat.ltb_ge; auto). auto. Qed.
Lemma rc_blen : forall i, (i < length rows)%nat -> length (snd (rw i)) = m.
Proof. intros i H. apply (rc_bits (rw i) (rc_in i H)). Qed.
Lemma rc_cs : forall kq, In kq cs <-> exists q, (q < k)%nat /\ kq = kc (nth q con []).
Proof.
  intros kq. unfold cs. rewrite in_map_iff. split.
  - intros (v & <- & H). apply (In_nth _ _ []) in H. destruct H as (q & Hq & <-). rewrite firstn_length in Hq. exists q. split; [lia|]. rewrite <- (firstn_skipn k con) at 2. rewrite app_nth1 by (rewrite firstn_length; lia). auto.
  - intros (q & Hq & ->). exists (nth q con []). split; auto. rewrite <- (firstn_skipn k con) at 1. rewrite app_nth1 by (rewrite firstn_length; lia). apply nth_In. rewrite firstn_length. lia.
Qed.
(** pairs *)
Let pairs := ray_pairs k (S n) (length Lr) eqb supb rows.
Lemma pairs_in : forall i j, In (i, j) pairs <-> (eqb <= i < supb)%nat /\ (supb <= j < length rows)%nat /\ adjacent k (S n) (length Lr) i j rows = true.
Proof.
  intros i j. unfold pairs, ray_pairs. rewrite filter_In, in_prod_iff, !in_seq. simpl. assert (eqb <= supb <= length rows)%nat. { unfold eqb, supb, rows, Rr. rewrite !app_length. lia. } intuition lia.
Qed.
Lemma pair_rng : eqb = (length Lr + length Zr)%nat /\ (eqb <= supb <= length rows)%nat.
Proof. unfold eqb, supb, rows, Rr. rewrite !app_length. lia. Qed.
Let g (p : list Z * list Z) : list Z := tl (vector_combine (prod_t (snd p) (tl c) :: snd p) (prod_t (fst p) (tl c) :: fst p) 0 0).
Lemma new_tr : forall i j, (i < length rows)%nat -> (j < length rows)%nat -> tr (new_ray rows (i, j)) = g (tr (rw i), tr (rw j)).
Proof. intros i j Hi Hj. unfold new_ray, g, tr at 1. cbn [fst snd]. rewrite <- !(rc_hp _ (rc_in _ Hi)), <- !(rc_hp _ (rc_in _ Hj)). auto. Qed.
Lemma new_comb : forall i j, (i < length rows)%nat -> (j < length rows)%nat -> (0 < sgz (rw i))%Z -> (sgz (rw j) < 0)%Z -> length (g (tr (rw i), tr (rw j))) = n /\ comb n rv (kc c) (g (tr (rw i), tr (rw j))) (tr (rw i)) (tr (rw j)).
Proof.
  intros i j Hi Hj Si Sj. unfold g. cbn [fst snd]. unfold sgz in *. rewrite (haspr_zn c) in Si, Sj by (apply rc_hp, rc_in; auto). set (zi := prod_t (tr (rw i)) (tl c)) in *. set (zj := prod_t (tr (rw j)) (tl c)) in *.
  destruct (combine_spec n (zj :: tr (rw j)) (zi :: tr (rw i)) 0 0) as (L & _ & h & H & V). simpl; rewrite rc_tr; auto; apply rc_in; auto. simpl; rewrite rc_tr; auto; apply rc_in; auto. left. unfold zn; simpl; lia. change (zn 0 (zi :: tr (rw i))) with zi in V. change (zn 0 (zj :: tr (rw j))) with zj in V. cbn [tl] in V.
  assert (LL : length (tl (vector_combine (zj :: tr (rw j)) (zi :: tr (rw i)) 0 0)) = n) by (apply len_tl; auto). split; auto. exists (- (h * IZR zj))%R, (h * IZR zi)%R. apply IZR_lt in Si. apply IZR_lt in Sj. split. nra. split. nra. split. intros q Hq. rewrite V by auto. unfold lin2. ring.
  rewrite (dt_ext _ _ _ _ V), dt_lin, !(dt_prod n c) by (auto using rc_c, rc_tr, rc_in). fold zi zj. ring.
Qed.
Lemma adj_bits : forall i j q, (i < length rows)%nat -> (j < length rows)%nat -> (q < k)%nat -> (nth q (bor (snd (rw i)) (snd (rw j))) false = false <-> sat n rv (kc (nth q con [])) (tr (rw i)) /\ sat n rv (kc (nth q con [])) (tr (rw j))).
Proof. intros i j q Hi Hj Q. rewrite bor_spec by (rewrite !rc_blen; auto). rewrite orb_false_iff, !rc_bit by auto. tauto. Qed.
Lemma incl_bits : forall l i j, (l < length rows)%nat -> (i < length rows)%nat -> (j < length rows)%nat -> (sat_incl k (snd (rw l)) (bor (snd (rw i)) (snd (rw j))) = true <-> forall q, In q cs -> sat n rv q (tr (rw i)) -> sat n rv q (tr (rw j)) -> sat n rv q (tr (rw l))).
Proof.
  intros l i j Hl Hi Hj. unfold sat_incl. rewrite forallb_forall. split.
  - intros H kq Hq S1 S2. apply rc_cs in Hq. destruct Hq as (q & Q & ->). specialize (H q). rewrite in_seq in H. specialize (H ltac:(lia)). apply rc_bit; auto. assert (B : nth q (bor (snd (rw i)) (snd (rw j))) false = false) by (apply adj_bits; auto). rewrite B, orb_false_r, negb_true_iff in H. auto.
  - intros H q Q. rewrite in_seq in Q. destruct (Nat.eq_dec q k) as [->|N]. rewrite rc_bitk by auto. auto. destruct (nth q (snd (rw l)) false) eqn:E; auto. simpl. destruct (nth q (bor (snd (rw i)) (snd (rw j))) false) eqn:E2; auto. apply adj_bits in E2; auto; try lia. assert (X : sat n rv (kc (nth q con [])) (tr (rw l))). apply H; try tauto. apply rc_cs. exists q. split; auto. lia. apply rc_bit in X; auto; try lia. congruence.
Qed.
(** what the test means *)
Lemma adjacent_sound : forall i j r3, In (i, j) pairs -> In r3 (map tr Rr) -> r3 <> tr (rw i) -> r3 <> tr (rw j) -> exists q, In q cs /\ sat n rv q (tr (rw i)) /\ sat n rv q (tr (rw j)) /\ ~ sat n rv q r3.
Proof.
  intros i j r3 P H N1 N2. pose proof pair_rng as (E1 & E2). apply pairs_in in P. destruct P as (Hi & Hj & A). apply rc_R in H. destruct H as (l & Hl & ->). unfold adjacent in A. apply andb_prop in A. destruct A as [_ A]. apply negb_true_iff in A.
  assert (B : sat_incl k (snd (rw l)) (bor (snd (rw i)) (snd (rw j))) = false).
  { destruct (sat_incl k (snd (rw l)) (bor (snd (rw i)) (snd (rw j)))) eqn:T; auto. rewrite <- A. symmetry. apply existsb_exists. exists l. rewrite in_seq. split; [lia|]. fold (rw i) (rw j) (rw l). rewrite T. destruct (Nat.eqb_spec l i) as [->|X]; [tauto|]. destruct (Nat.eqb_spec l j) as [->|Y]; [tauto|]. auto. }
  assert (C : ~ forall q, In q cs -> sat n rv q (tr (rw i)) -> sat n rv q (tr (rw j)) -> sat n rv q (tr (rw l))). { intros C. apply incl_bits in C; try lia. congruence. }
  clear - C. induction cs as [|q l0 IH]. exfalso. apply C. intros q []. unfold sat in *. destruct (Req_dec (dt n (fst q) (rv (tr (rw i)))) 0) as [S1|S1]. destruct (Req_dec (dt n (fst q) (rv (tr (rw j)))) 0) as [S2|S2]. destruct (Req_dec (dt n (fst q) (rv (tr (rw l)))) 0) as [S3|S3].
  2: exists q; simpl; auto. all: destruct IH as (q' & Q & S'); [intros X; apply C; intros q' [<-|Q]; auto; tauto|exists q'; simpl; tauto].
Qed.
Lemma adjacent_complete : forall i j, (eqb <= i < supb)%nat -> (supb <= j < length rows)%nat -> In (i, j) pairs \/ exists r3, In r3 (map tr Rr) /\ r3 <> tr (rw i) /\ r3 <> tr (rw j) /\ forall q, In q cs -> sat n rv q (tr (rw i)) -> sat n rv q (tr (rw j)) -> sat n rv q r3.
Proof.
  intros i j Hi Hj. pose proof pair_rng as (E1 & E2). destruct (adjacent k (S n) (length Lr) i j rows) eqn:A. left. apply pairs_in. auto. right. unfold adjacent in A. fold (rw i) (rw j) in A. set (b := bor (snd (rw i)) (snd (rw j))) in *. rewrite !andb_false_iff in A.
  assert (IR : In (tr (rw i)) (map tr Rr)) by (apply in_map, rc_Rin; lia). assert (JR : In (tr (rw j)) (map tr Rr)) by (apply in_map, rc_Rin; lia).
  assert (Hi' : (i < length rows)%nat) by lia. assert (Hj' : (j < length rows)%nat) by lia.
  destruct A as [[A|A]|A].
  - (* dimension 0 or 1 *) apply Nat.leb_gt in A. exfalso. pose proof (proj2 (rc_pos i Hi') Hi) as Si. pose proof (proj2 (rc_neg j Hj') ltac:(lia)) as Sj. apply IZR_lt in Si. apply IZR_lt in Sj. rewrite <- rc_sg in Si, Sj by (apply rc_in; auto). pose proof rc_dd as D. destruct (dd_ray _ _ _ _ _ D _ IR) as (q & Q & S). unfold sat in S.
    pose proof (holds_ge _ _ _ (dd_ray_in _ _ _ _ _ _ D IR q Q)) as G1. pose proof (holds_ge _ _ _ (dd_ray_in _ _ _ _ _ _ D JR q Q)) as G2. destruct (Nat.eq_dec n 0) as [Z|Z]. rewrite Z in Si. unfold dt in Si. simpl in Si. lra. assert (n = 1)%nat by lia. rewrite H in *. unfold dt in *. cbn [sm] in *.
    set (a0 := fst q 0%nat) in *. set (x := rv (tr (rw i)) 0%nat) in *. set (y := rv (tr (rw j)) 0%nat) in *. set (w := fst (kc c) 0%nat) in *. clearbody a0 x y w. clear - Si Sj S G1 G2. assert (P : 0 < a0 * x) by lra. assert (Q : 0 <= a0 * y) by lra. assert (W1 : 0 < w * x) by lra. assert (W2 : w * y < 0) by lra. clear S G1 G2 Si Sj.
    destruct (Rtotal_order x 0) as [X|[X|X]]; [|rewrite X in P; lra|]. assert (a0 < 0) by nra. assert (y <= 0) by nra. assert (w < 0) by nra. nra. assert (0 < a0) by nra. assert (0 <= y) by nra. assert (0 < w) by nra. nra.
  - apply Nat.leb_gt in A. set (cm := map (fun q => kc (nth q con [])) (filter (fun j => negb (nth j b false)) (seq 0 k))). apply (few_common n rv ldec cs (map tr Lr) (map tr Rr) _ _ cm); auto.
    + apply rc_dd.
    + intros kq Hq S1 S2. apply rc_cs in Hq. destruct Hq as (q & Q & ->). apply in_map_iff. exists q. split; auto. apply filter_In. split. apply in_seq; lia. unfold b. rewrite (proj2 (adj_bits i j q Hi' Hj' Q)); auto.
    + intros kq Hq. apply in_map_iff in Hq. destruct Hq as (q & <- & Hq). apply filter_In in Hq. destruct Hq as [Q B]. apply in_seq in Q. apply negb_true_iff in B. split. apply rc_cs. exists q. split; auto. lia. apply adj_bits; auto. lia.
    + unfold cm. rewrite !map_length. unfold nbcommon in A. lia.
  - apply negb_false_iff in A. apply existsb_exists in A. destruct A as (l & Hl & A). apply in_seq in Hl. apply andb_prop in A. destruct A as [A1 A2]. apply andb_prop in A1. destruct A1 as [N1 N2]. apply negb_true_iff, Nat.eqb_neq in N1, N2. fold (rw l) in A2. exists (tr (rw l)). split. apply in_map, rc_Rin; lia.
    split. intros X. apply N1. apply rc_inj; auto; lia. split. intros X. apply N2. apply rc_inj; auto; lia. apply incl_bits; auto. lia.
Qed.
Let N := map (new_ray rows) pairs.
Lemma rc_NoDup_pairs : NoDup pairs.
Proof. unfold pairs, ray_pairs. apply NoDup_filter. apply NoDup_list_prod; apply seq_NoDup. Qed.
Lemma ray_dd : ddn n (cs ++ [kc c]) (map tr Lr) (newR (kc c) (map tr N) (map tr Zr) (map tr Pr)).
Proof.
  pose proof pair_rng as (E1 & E2).
  assert (SGN : forall (Q : R -> Prop) Xr, (forall r, In r Xr -> In r Rr) -> True) by auto. clear SGN.
  assert (RI : forall r, In r Rr -> In r rows) by (intros; apply in_app_iff; auto).
  assert (ROWS : forall t, In t (map tr Rr) -> exists r, In r Rr /\ t = tr r /\ dt n (fst (kc c)) (rv t) = IZR (sgz r)). { intros t H. apply in_map_iff in H. destruct H as (r & <- & H). exists r. split; auto. split; auto. apply rc_sg; auto. }
  pose proof (dd_nodup _ _ _ _ _ rc_dd) as ND. unfold Rr in ND. rewrite !map_app in ND.
  pose proof rc_inj as INJ. pose proof LZ as LZ'. pose proof FZ as FZ'. pose proof FP as FP'. pose proof FM as FM'. rewrite Forall_forall in LZ', FZ', FP', FM'.
  set (P := map (fun ij => (tr (rw (fst ij)), tr (rw (snd ij)))) pairs).
  assert (PR : forall r1 r2, In (r1, r2) P -> exists i j, In (i, j) pairs /\ r1 = tr (rw i) /\ r2 = tr (rw j)). { intros r1 r2 H. apply in_map_iff in H. destruct H as ([i j] & E & H). injection E as <- <-. eauto. }
  assert (PGg : forall i j, In (i, j) pairs -> In (tr (rw i)) (map tr Rr) /\ In (tr (rw j)) (map tr Rr) /\ 0 < dt n (fst (kc c)) (rv (tr (rw i))) /\ dt n (fst (kc c)) (rv (tr (rw j))) < 0 /\ comb n rv (kc c) (g (tr (rw i), tr (rw j))) (tr (rw i)) (tr (rw j))).
  { intros i j H. apply pairs_in in H. destruct H as (Hi & Hj & _). assert (Hi' : (i < length rows)%nat) by lia. assert (Hj' : (j < length rows)%nat) by lia. pose proof (proj2 (rc_pos i Hi') Hi) as Si. pose proof (proj2 (rc_neg j Hj') ltac:(lia)) as Sj. split. apply in_map, rc_Rin; lia. split. apply in_map, rc_Rin; lia. split. rewrite rc_sg by (apply rc_in; auto). apply IZR_lt; auto. split. rewrite rc_sg by (apply rc_in; auto). apply IZR_lt; auto. apply new_comb; auto. }
  assert (IDX : forall t, In t (map tr Rr) -> 0 < dt n (fst (kc c)) (rv t) -> exists i, (eqb <= i < supb)%nat /\ t = tr (rw i)). { intros t H S. apply rc_R in H. destruct H as (i & Hi & ->). exists i. split; auto. apply rc_pos. lia. apply lt_IZR. rewrite <- rc_sg; auto. apply rc_in; lia. }
  assert (IDXn : forall t, In t (map tr Rr) -> dt n (fst (kc c)) (rv t) < 0 -> exists i, (supb <= i < length rows)%nat /\ t = tr (rw i)). { intros t H S. apply rc_R in H. destruct H as (i & Hi & ->). exists i. split; auto. split; [|lia]. apply rc_neg. lia. apply lt_IZR. rewrite <- rc_sg; auto. apply rc_in; lia. }
  assert (NE : map tr N = map g P). { unfold N, P. rewrite !map_map. apply map_ext_in. intros [i j] H. apply pairs_in in H. rewrite new_tr by lia. auto. }
  apply step_dd with (cs := cs) (R := map tr Rr) (keep := fun r1 r2 => In (r1, r2) P) (P := P) (g := g); auto.
  - exact ldec.
  - apply rc_dd.
  - intros l H. apply in_map_iff in H. destruct H as (r & <- & H). unfold sat. rewrite rc_sg by (apply in_app_iff; auto). rewrite LZ'; auto.
  - intros r1 r2 H1 H2 S1 S2. destruct (IDX r1 H1 S1) as (i & Hi & ->). destruct (IDXn r2 H2 S2) as (j & Hj & ->). destruct (adjacent_complete i j Hi Hj) as [X|X]; auto. left. apply in_map_iff. exists (i, j). auto.
  - intros p H. rewrite NE in H. apply in_map_iff in H. destruct H as ([r1 r2] & <- & H). destruct (PR _ _ H) as (i & j & Hp & -> & ->). exists (tr (rw i)), (tr (rw j)). apply PGg; auto.
  - intros r1 r2 _ _ _ _ K. exists (g (r1, r2)). split. rewrite NE. apply in_map; auto. destruct (PR _ _ K) as (i & j & Hp & -> & ->). apply PGg; auto.
  - intros r. split.
    + intros H. apply in_map_iff in H. destruct H as (q & <- & H). assert (Q : In q Rr) by (apply in_app_iff; auto). split. apply in_map; auto. rewrite rc_sg by auto. rewrite FZ'; auto.
    + intros [H S]. apply in_map_iff in H. destruct H as (q & <- & H). rewrite rc_sg in S by auto. apply eq_IZR in S. apply in_map. apply in_app_iff in H. destruct H as [H|H]; auto. apply in_app_iff in H. destruct H as [H|H]; [apply FP' in H|apply FM' in H]; lia.
  - intros r. split.
    + intros H. apply in_map_iff in H. destruct H as (q & <- & H). assert (Q : In q Rr) by (apply in_app_iff; right; apply in_app_iff; auto). split. apply in_map; auto. rewrite rc_sg by auto. apply IZR_lt; apply FP'; auto.
    + intros [H S]. apply in_map_iff in H. destruct H as (q & <- & H). rewrite rc_sg in S by auto. apply lt_IZR in S. apply in_map. apply in_app_iff in H. destruct H as [H|H]. apply FZ' in H; lia. apply in_app_iff in H. destruct H as [H|H]; auto. apply FM' in H; lia.
  - apply NoDup_map_inj. apply rc_NoDup_pairs. intros [i j] [i' j'] H H' E. cbn [fst snd] in E. injection E as X Y. apply pairs_in in H. apply pairs_in in H'. f_equal; apply INJ; auto; lia.
  - intros r1 r2 H. destruct (PR _ _ H) as (i & j & Hp & -> & ->). apply PGg; auto.
  - intros r1 r2 r3 H K N1 N2. destruct (PR _ _ H) as (i & j & Hp & -> & ->). apply adjacent_sound; auto.
  - apply NoDup_app_remove_r in ND. auto.
  - apply NoDup_app_remove_l in ND. apply NoDup_app_remove_r in ND. auto.
Qed.
Lemma bits_next : forall r, In r rows -> sgz r = 0%Z -> good_bits (S k) con m r.
Proof.
  intros r H Z. destruct (rc_bits r H) as [B1 B2]. split; auto. intros j. rewrite B2. destruct (Nat.ltb_spec j k), (Nat.ltb_spec j (S k)); try lia; auto. assert (j = k) by lia. subst. fold c. rewrite prod_sym. unfold sgz in Z. rewrite (haspr_zn c) in Z by (apply rc_hp; auto). rewrite Z. auto.
Qed.
Lemma bits_next_pos : forall r, In r rows -> sgz r <> 0%Z -> (k < m)%nat -> good_bits (S k) con m (fst r, lset k true (snd r)).
Proof.
  intros r H Z KM. destruct (rc_bits r H) as [B1 B2]. split. cbn [snd]. rewrite lset_length; auto. intros j. cbn [snd]. unfold tr. cbn [fst]. rewrite lset_nth by lia. destruct (Nat.eqb_spec j k) as [->|NE].
  - replace (Nat.ltb k (S k)) with true by (symmetry; apply Nat.ltb_lt; lia). fold c. rewrite prod_sym. unfold sgz in Z. rewrite (haspr_zn c) in Z by (apply rc_hp; auto). unfold tr in Z. destruct (Z.eqb_spec (prod_t (tl (fst r)) (tl c)) 0); tauto.
  - rewrite B2. destruct (Nat.ltb_spec j k), (Nat.ltb_spec j (S k)); try lia; auto.
Qed.
Lemma bits_new : forall ij, In ij pairs -> good_bits (S k) con m (new_ray rows ij) /\ length (fst (new_ray rows ij)) = S n.
Proof.
  intros [i j] H. pose proof pair_rng as (E1 & E2). apply pairs_in in H. destruct H as (Hi & Hj & _). assert (Hi' : (i < length rows)%nat) by lia. assert (Hj' : (j < length rows)%nat) by lia. pose proof (proj2 (rc_pos i Hi') Hi) as Si. pose proof (proj2 (rc_neg j Hj') ltac:(lia)) as Sj. destruct (new_comb i j Hi' Hj' Si Sj) as [L C]. split.
  - split. unfold new_ray. cbn [fst snd]. rewrite bor_length. apply rc_blen; auto. intros q. assert (SN : snd (new_ray rows (i, j)) = bor (snd (rw i)) (snd (rw j))) by reflexivity. rewrite SN, new_tr by auto. destruct (Nat.ltb_spec q (S k)) as [Q|Q].
    + destruct (Nat.eq_dec q k) as [->|NE].
      * rewrite bor_spec by (rewrite !rc_blen; auto). rewrite !rc_bitk by auto. destruct C as (u & v & _ & _ & _ & Z). rewrite (dt_prod n c) in Z by (auto using rc_c). apply eq_IZR in Z. fold c. rewrite prod_sym, Z. auto.
      * assert (Qk : (q < k)%nat) by lia. assert (CS : sat n rv (kc (nth q con [])) (g (tr (rw i), tr (rw j))) <-> sat n rv (kc (nth q con [])) (tr (rw i)) /\ sat n rv (kc (nth q con [])) (tr (rw j))).
        { apply comb_sat with (cs := cs) (L := map tr Lr) (R := map tr Rr) (a := kc c); auto. apply rc_dd. apply in_map, rc_Rin; lia. apply in_map, rc_Rin; lia. apply rc_cs. eauto. }
        rewrite (sat_prod n) in CS by (auto using rc_cj). pose proof (adj_bits i j q Hi' Hj' Qk) as AB. destruct (nth q (bor (snd (rw i)) (snd (rw j))) false) eqn:E; symmetry.
        -- apply negb_true_iff. apply Z.eqb_neq. intros X. apply CS in X. apply AB in X. discriminate.
        -- apply negb_false_iff. apply Z.eqb_eq. apply CS. apply AB. auto.
    + rewrite bor_spec by (rewrite !rc_blen; auto). rewrite !rc_bitk by (auto; lia). auto.
  - assert (X : length (tr (new_ray rows (i, j))) = n) by (rewrite new_tr; auto). unfold new_ray in *. cbn [fst snd] in *. apply combine_spec. apply rc_len, rc_in; auto. apply rc_len, rc_in; auto. left. unfold sgz, rw in Sj. lia.
Qed.
(** the new state *)
Lemma ray_case_inv : exists Rr', ray_case (is_ineq c) k (S n) (length Lr) eqb supb rows = Lr ++ Rr' /\ inv n m (S k) con Lr Rr'.
Proof.
  pose proof pair_rng as (E1 & E2). destruct I as (A1 & A2 & A3 & A4 & A5 & A6). pose proof ray_dd as DD. unfold newR in DD. unfold kc at 2 in DD. simpl snd in DD.
  assert (EK : cs ++ [kc c] = map kc (firstn (S k) con)) by (rewrite (firstn_S_nth _ con k []) by auto; rewrite map_app; auto). rewrite EK in DD.
  set (Pr' := map (fun r : row => (fst r, lset k true (snd r))) Pr). assert (TP : map tr Pr' = map tr Pr) by (unfold Pr'; rewrite map_map; auto).
  assert (INP : forall r, In r Pr -> In r rows) by (intros; unfold rows, Rr; rewrite !in_app_iff; auto). assert (INZ : forall r, In r Zr -> In r rows) by (intros; unfold rows, Rr; rewrite !in_app_iff; auto). assert (INL : forall r, In r Lr -> In r rows) by (intros; unfold rows, Rr; rewrite !in_app_iff; auto).
  assert (FIN : forall N', Permutation N N' -> forall Rr', Rr' = Zr ++ (if is_ineq c then Pr' else []) ++ N' -> inv n m (S k) con Lr Rr').
  { intros N' PN Rr' ->. split; auto. pose proof rc_len as RL. split; [|split; [auto|split; [lia|split]]].
    - apply Forall_forall. intros r H. rewrite !in_app_iff in H. destruct H as [H|[H|[H|H]]]; auto.
      + destruct (is_ineq c); [|destruct H]. apply in_map_iff in H. destruct H as (q & <- & H). apply (RL q); auto.
      + symmetry in PN. apply (Permutation_in _ PN) in H. apply in_map_iff in H. destruct H as (ij & <- & H). apply bits_new; auto.
    - apply dd_ext with (map tr Lr) (map tr Zr ++ (if zn 0 c =? 0 then [] else map tr Pr) ++ map tr N)%Z; auto. tauto. rewrite !map_app. apply Permutation_app_head. apply Permutation_app. unfold is_ineq. destruct (Z.eqb (zn 0 c) 0); [apply Permutation_refl|change (Permutation (map tr Pr) (map tr Pr')); rewrite TP; apply Permutation_refl]. apply Permutation_map; auto.
    - apply Forall_forall. pose proof LZ as LZ'. pose proof FZ as FZ'. pose proof FP as FP'. rewrite Forall_forall in LZ', FZ', FP'. intros r H. rewrite !in_app_iff in H. destruct H as [H|[H|[H|H]]].
      + apply bits_next; auto.
      + apply bits_next; auto.
      + destruct (is_ineq c); [|destruct H]. apply in_map_iff in H. destruct H as (q & <- & H). apply bits_next_pos; auto. apply FP' in H. lia. lia.
      + symmetry in PN. apply (Permutation_in _ PN) in H. apply in_map_iff in H. destruct H as (ij & <- & H). apply bits_new; auto. }
  unfold ray_case. destruct (Nat.eqb_spec supb (length Lr)) as [ES|NS].
  - exists []. assert (Zr = []) by (destruct Zr; auto; simpl in E1; lia). assert (EP : Pr = []). { destruct Pr; auto. unfold supb in ES. rewrite !app_length in ES. simpl in ES. lia. } split. unfold rows. rewrite firstn_app_l, app_nil_r. auto.
    apply (FIN []). unfold N, pairs, ray_pairs. replace (supb - eqb)%nat with 0%nat by lia. simpl. auto. rewrite H. unfold Pr'. rewrite EP. simpl. destruct (is_ineq c); auto.
  - cbv zeta. fold pairs. fold N. destruct (is_ineq c) eqn:IQ; cbv iota.
    + match goal with |- context [replace_rays _ _ _ _ ?X] => set (rows' := X) end. assert (ER : rows' = (Lr ++ Zr ++ Pr') ++ Mr ++ N ++ []).
      { unfold rows', rows, Rr. replace ((Lr ++ Zr ++ Pr ++ Mr) ++ N) with ((Lr ++ Zr) ++ Pr ++ (Mr ++ N)) by (rewrite <- !app_assoc; auto). rewrite (mapi_app _ _ _ (Lr ++ Zr)), (mapi_app _ _ _ Pr). fold eqb. replace ((Lr ++ Zr ++ Pr') ++ Mr ++ N ++ []) with ((Lr ++ Zr) ++ Pr' ++ (Mr ++ N)) by (rewrite app_nil_r, <- !app_assoc; auto). f_equal; [|f_equal].
        - rewrite (mapi_map _ _ _ (fun r => r)). apply map_id. intros i r H. replace (Nat.leb eqb i) with false. auto. symmetry. apply Nat.leb_gt. unfold eqb. apply nth_error_Some. rewrite H. discriminate.
        - apply mapi_map. intros i r H. assert (i < length Pr)%nat by (apply nth_error_Some; rewrite H; discriminate). replace (Nat.leb eqb (eqb + i)) with true by (symmetry; apply Nat.leb_le; lia). replace (Nat.ltb (eqb + i) supb) with true. auto. symmetry. apply Nat.ltb_lt. unfold supb. rewrite app_assoc, app_length. fold eqb. lia.
        - rewrite (mapi_map _ _ _ (fun r => r)). apply map_id. intros i r H. replace (Nat.ltb (eqb + (length Pr + i)) supb) with false. rewrite andb_false_r. auto. symmetry. apply Nat.ltb_ge. unfold supb. rewrite app_assoc, app_length. fold eqb. lia. }
      rewrite ER. destruct (replace_rays_spec (length ((Lr ++ Zr ++ Pr') ++ Mr ++ N ++ [])) N (Lr ++ Zr ++ Pr') Mr []) as (N' & PN & EN). rewrite !app_length. simpl; lia.
      replace (length ((Lr ++ Zr ++ Pr') ++ Mr ++ N)) with (length ((Lr ++ Zr ++ Pr') ++ Mr ++ N ++ [])) in EN by (rewrite app_nil_r; auto). replace (length (Lr ++ Zr ++ Pr')) with supb in EN by (unfold supb, Pr'; rewrite !app_length, map_length; auto). replace (length ((Lr ++ Zr ++ Pr') ++ Mr)) with (length rows) in EN by (unfold rows, Rr, Pr'; rewrite !app_length, map_length; lia).
      exists (Zr ++ Pr' ++ N'). split. etransitivity. exact EN. rewrite <- !app_assoc. auto. apply (FIN N'); auto.
    + assert (ER : rows ++ N = (Lr ++ Zr) ++ (Pr ++ Mr) ++ N ++ []) by (unfold rows, Rr; rewrite app_nil_r, <- !app_assoc; auto). rewrite ER. destruct (replace_rays_spec (length ((Lr ++ Zr) ++ (Pr ++ Mr) ++ N ++ [])) N (Lr ++ Zr) (Pr ++ Mr) []) as (N' & PN & EN). rewrite !app_length. simpl; lia.
      replace (length ((Lr ++ Zr) ++ (Pr ++ Mr) ++ N)) with (length ((Lr ++ Zr) ++ (Pr ++ Mr) ++ N ++ [])) in EN by (rewrite app_nil_r; auto). fold eqb in EN. replace (length ((Lr ++ Zr) ++ Pr ++ Mr)) with (length rows) in EN by (unfold rows, Rr; rewrite !app_length; lia).
      exists (Zr ++ N'). split. etransitivity. exact EN. rewrite <- !app_assoc. auto. apply (FIN N'); auto.
Qed.
End Ray.

(** * The whole loop *)
Lemma dd_valid : forall n cs L R c, ddn n cs L R -> (forall l, In l L -> dt n (fst c) (rv l) = 0) -> (forall r, In r R -> holds n c (rv r)) -> forall x, inC n cs x -> holds n c x.
Proof. intros n cs L R c D HL HR x H. apply (dd_gen _ _ _ _ _ D) in H. apply (gen_holds n rv c L R x); auto. Qed.
Lemma inC_perm : forall n l l', Permutation l l' -> forall x, inC n l x <-> inC n l' x.
Proof. intros n l l' P x. split; intros H c I; apply H. apply (Permutation_in c (Permutation_sym P)); auto. apply (Permutation_in c P); auto. Qed.
Lemma conv_loop_spec : forall fuel n m k con Lr Rr, inv n m k con Lr Rr -> fuel = (length con - k)%nat ->
  exists con' Lr' Rr', conv_loop fuel k con (Lr ++ Rr) (length Lr) = (con', Lr' ++ Rr', length Lr') /\ inv n m (length con') con' Lr' Rr' /\
    (exists rm, Permutation con (con' ++ rm) /\ Forall (fun c => is_ineq c = true) rm) /\ (forall x, inC n (map kc con) x <-> inC n (map kc con') x) /\ firstn k con' = firstn k con /\ (indep n (map tr Lr) -> indep n (map tr Lr')).
Proof.
  induction fuel; intros n m k con Lr Rr I F.
  - exists con, Lr, Rr. simpl. split; auto. assert (k = length con) by (destruct I as (_ & _ & _ & K & _); lia). subst k. split; auto. split. exists []. rewrite app_nil_r. auto. split; [tauto|split; auto].
  - cbn [conv_loop]. set (c := nth k con []). assert (KL : (k < length con)%nat) by lia. destruct (products_inv n m k con Lr Rr c I) as [I1 HP]. rewrite products_app. set (L1 := products c Lr) in *. set (R1 := products c Rr) in *. assert (TL : map tr Lr = map tr L1) by (unfold L1, products; rewrite map_map; apply map_ext; intros [[|? ?] ?]; reflexivity). rewrite TL. assert (LL : length Lr = length L1) by (unfold L1, products; rewrite map_length; auto). rewrite LL. clearbody L1 R1. clear I Lr Rr LL TL.
    assert (LC : length c = S n) by (destruct I1 as (A & _); rewrite Forall_forall in A; apply A, nth_In; auto).
    destruct (Nat.ltb_spec (first_nonzero (L1 ++ R1)) (length L1)) as [FN|FN].
    + destruct (line_case_inv n m k con L1 R1 I1 KL HP FN) as (L2 & R2 & E & I2 & SH). fold c in E. rewrite E. destruct (IHfuel n m (S k) con L2 R2 I2 ltac:(lia)) as (con' & L3 & R3 & E3 & I3 & RM & IC & FK & IN). exists con', L3, R3. split; auto. split; auto. split; auto. split; auto. split; [|intros X; apply IN; eapply lshape_indep; eauto].
      apply (f_equal (firstn k)) in FK. rewrite !firstn_firstn, !Nat.min_l in FK by lia. auto.
    + destruct (sort_rays_spec R1 L1 [] [] []) as (Zr & Pr & Mr & ES & PS & FZ & FP & FM); auto. simpl app in ES, PS. rewrite !app_nil_r in ES. rewrite app_nil_r in PS.
      replace (length (L1 ++ R1) - length L1)%nat with (length R1) by (rewrite app_length; lia). rewrite ES.
      assert (LZ : Forall (fun r => sgz r = 0%Z) L1). { apply Forall_forall. intros r H. apply (In_nth _ _ row0) in H. destruct H as (i & Hi & <-). destruct (first_nonzero_spec (L1 ++ R1)) as (FZ1 & _). destruct (FZ1 i ltac:(lia)) as [_ Z]. rewrite app_nth1 in Z by auto. exact Z. }
      assert (PP : Permutation (L1 ++ R1) (L1 ++ Zr ++ Pr ++ Mr)) by (apply Permutation_app_head; auto).
      assert (I2 : inv n m k con L1 (Zr ++ Pr ++ Mr)). { destruct I1 as (A1 & A2 & A3 & A4 & A5 & A6). split; auto. split. eapply Permutation_Forall; eauto. split; auto. split; auto. split. apply dd_ext with (map tr L1) (map tr R1); auto. tauto. apply Permutation_map; auto. eapply Permutation_Forall; eauto. }
      assert (HP2 : Forall (haspr c) (L1 ++ Zr ++ Pr ++ Mr)) by (eapply Permutation_Forall; eauto).
      destruct (is_ineq c && Nat.eqb (length (L1 ++ Zr ++ Pr)) (length (L1 ++ Zr ++ Pr ++ Mr))) eqn:RD.
      * apply andb_prop in RD. destruct RD as [IQ EM]. apply Nat.eqb_eq in EM. assert (Mr = []) by (destruct Mr; auto; rewrite !app_length in EM; simpl in EM; lia). subst Mr.
        assert (EC : con = firstn k con ++ c :: skipn (S k) con). { rewrite <- (firstn_skipn k con) at 1. f_equal. unfold c. clear - KL. revert con KL. induction k; intros [|y l] H; simpl in *; try lia; auto. apply IHk. lia. }
        set (a := firstn k con) in *. set (b := skipn (S k) con) in *. assert (La : length a = k) by (unfold a; rewrite firstn_length; lia).
        destruct (exch_drop pvec ([] : pvec) a c b) as (b' & PB & EX). rewrite La in EX. rewrite <- EC in EX. match goal with |- context[firstn ?u (exch ?d k ?v con)] => change (firstn u (exch d k v con)) with (firstn (length con - 1) (exch ([] : pvec) k (length con - 1) con)) end. rewrite EX.
        assert (FK : firstn k (a ++ b') = a) by (rewrite <- La; apply firstn_app_l).
        assert (I3 : inv n m k (a ++ b') L1 (Zr ++ Pr ++ [])).
        { destruct I2 as (A1 & A2 & A3 & A4 & A5 & A6). assert (PC : Permutation con (c :: a ++ b')). { rewrite EC. rewrite <- Permutation_middle. apply perm_skip. apply Permutation_app_head; auto. } split. { eapply Permutation_Forall in A1; [|exact PC]. inversion A1; auto. } split; auto. split. rewrite (Permutation_length PC) in A3. simpl in A3. lia. split. rewrite app_length. lia. split. rewrite FK. auto.
          revert A6. apply Forall_impl. intros r [B1 B2]. split; auto. intros j. rewrite B2. destruct (Nat.ltb_spec j k) as [J|J]; auto. rewrite EC at 1. rewrite !app_nth1 by lia. auto. }
        destruct (IHfuel n m k (a ++ b') L1 (Zr ++ Pr ++ []) I3) as (con' & L3 & R3 & E3 & I4 & (rm & RM & RI) & IC & FK' & IN). { assert (X : length con = length (a ++ c :: b)) by (rewrite <- EC; auto). rewrite app_length in *. simpl in X. rewrite (Permutation_length PB) in X. lia. }
        exists con', L3, R3. split; auto. split; auto. split. { exists (c :: rm). split. rewrite EC. rewrite <- !Permutation_middle. apply perm_skip. rewrite <- RM. apply Permutation_app_head; auto. constructor; auto. } split. 2: split; [rewrite FK', FK; auto|auto].
        intros x. rewrite <- IC. rewrite EC. rewrite (inC_perm n _ (map kc (c :: a ++ b'))). 2: { apply Permutation_map. rewrite <- Permutation_middle. apply perm_skip. apply Permutation_app_head; auto. } split. intros H q Q. apply H. right. auto. intros H q [<-|Q]; [|apply H; auto].
        destruct I2 as (A1 & A2 & A3 & A4 & A5 & A6). assert (SG : forall r, In r (L1 ++ Zr ++ Pr ++ []) -> dt n (fst (kc c)) (rv (tr r)) = IZR (sgz r)). { intros r Hr. rewrite Forall_forall in A2, HP2. rewrite (dt_prod n c); auto. 2: apply len_tl, A2; auto. unfold sgz. rewrite (haspr_zn c); auto. } rewrite Forall_forall in LZ, FZ, FP.
        apply (dd_valid n (map kc a) (map tr L1) (map tr (Zr ++ Pr ++ []))); auto.
        -- intros l Hl. apply in_map_iff in Hl. destruct Hl as (r & <- & Hl). rewrite SG by (apply in_app_iff; auto). rewrite LZ; auto.
        -- intros l Hl. apply in_map_iff in Hl. destruct Hl as (r & <- & Hl). unfold holds. unfold is_ineq in IQ. unfold kc at 1. simpl snd. apply negb_true_iff in IQ. rewrite IQ. rewrite SG by (apply in_app_iff; auto). apply IZR_le. rewrite !in_app_iff in Hl. destruct Hl as [Hl|[Hl|[]]]. rewrite FZ; auto. lia. apply FP in Hl. lia.
        -- intros q Q. apply H. rewrite map_app. apply in_app_iff; auto.
      * rewrite LC. destruct (ray_case_inv n m k con L1 Zr Pr Mr I2 KL HP2 LZ FZ FP FM) as (R2 & E & I3). fold c in E. rewrite E. destruct (IHfuel n m (S k) con L1 R2 I3 ltac:(lia)) as (con' & L3 & R3 & E3 & I4 & RM & IC & FK & IN). exists con', L3, R3. split; auto. split; auto. split; auto. split; auto. split; [|auto].
        apply (f_equal (firstn k)) in FK. rewrite !firstn_firstn, !Nat.min_l in FK by lia. auto.
Qed.
(** the initial state *)
Lemma unit_vec_nth : forall nbcols i j, (j < nbcols)%nat -> zn j (unit_vec nbcols i) = if Nat.eqb j (S i) then 1%Z else 0%Z.
Proof. intros nbcols i j J. unfold unit_vec, zn. rewrite (nth_indep _ 0%Z ((fun j => if Nat.eqb j (S i) then 1%Z else 0%Z) 0%nat)) by (rewrite map_length, seq_length; auto). rewrite (map_nth (fun j => if Nat.eqb j (S i) then 1%Z else 0%Z)), seq_nth by auto. auto. Qed.
Lemma init_inv : forall n m con, Forall (fun c : pvec => length c = S n) con -> (length con <= m)%nat -> inv n m 0 con (init_rows (S n) m) [].
Proof.
  intros n m con F L. split; auto. unfold init_rows. replace (S n - 1)%nat with n by lia. rewrite app_nil_r. split. { apply Forall_forall. intros r H. apply in_map_iff in H. destruct H as (i & <- & H). cbn [fst]. unfold unit_vec. rewrite map_length, seq_length; auto. } split; auto. split; [lia|]. split.
  - simpl. rewrite map_map. constructor; try (intros r []; fail). 2: { intros r r' []. } 2: constructor. intros x. split; [|intros _ c []]. intros _.
    assert (G : forall q, (q <= n)%nat -> gen n rv (map (fun i => tr (unit_vec (S n) i, repeat false m)) (seq 0 n)) [] (fun i => if Nat.ltb i q then x i else 0)).
    { induction q; intros Q. apply gen_0. intros; auto. apply gen_l with (fun i => if Nat.ltb i q then x i else 0) (tl (unit_vec (S n) q)) (x q). apply IHq; lia. apply in_map_iff. exists q. split; auto. apply in_seq. lia.
      intros i Hi. unfold lin2, rv. rewrite <- zn_tl. rewrite unit_vec_nth by lia. destruct (Nat.eqb_spec (S i) (S q)), (Nat.ltb_spec i (S q)), (Nat.ltb_spec i q); try lia; try lra. injection e as ->. ring. }
    apply gen_ext with (fun i => if Nat.ltb i n then x i else 0). apply G; auto. intros i Hi. replace (Nat.ltb i n) with true; auto. symmetry. apply Nat.ltb_lt; auto.
  - apply Forall_forall. intros r H. apply in_map_iff in H. destruct H as (i & <- & H). split. simpl. apply repeat_length. intros j. cbn [snd]. simpl. destruct (Nat.lt_ge_cases j m). rewrite nth_repeat. auto. rewrite nth_overflow; auto. rewrite repeat_length; auto.
Qed.
(** the status coefficients *)
Lemma set_status_spec : forall Lr Rr, exists Lr' Rr', set_status (length Lr) (Lr ++ Rr) = Lr' ++ Rr' /\ length Lr' = length Lr /\ map tr Lr' = map tr Lr /\ map tr Rr' = map tr Rr /\ map snd (Lr' ++ Rr') = map snd (Lr ++ Rr) /\
  Forall (fun r => zn 0 (fst r) = 0%Z) Lr' /\ Forall (fun r => zn 0 (fst r) = 1%Z) Rr' /\ (forall n, Forall (fun r => length (fst r) = S n) (Lr ++ Rr) -> Forall (fun r => length (fst r) = S n) (Lr' ++ Rr')).
Proof.
  intros Lr Rr. exists (map (fun r => setvec (setsign 0 (fst r)) r) Lr), (map (fun r => setvec (setsign 1 (fst r)) r) Rr). unfold set_status. rewrite mapi_app. split.
  - f_equal. apply mapi_map. intros i r H. assert (i < length Lr)%nat by (apply nth_error_Some; intros N; assert (X := eq_trans (eq_sym H) N); discriminate X). replace (Nat.ltb i (length Lr)) with true; auto. symmetry; apply Nat.ltb_lt; auto. apply mapi_map. intros i r H. replace (Nat.ltb (length Lr + i) (length Lr)) with false; auto. symmetry; apply Nat.ltb_ge; lia.
  - rewrite map_length, !map_map, !map_app, !map_map. repeat (split; [solve [auto]|]). split. apply Forall_map, Forall_forall. auto. split. apply Forall_map, Forall_forall. auto. intros n F. apply Forall_app in F. destruct F. apply Forall_app. split; apply Forall_map; (eapply Forall_impl; [|eassumption]); intros r Hr; unfold setvec, setsign; cbn [fst length]; rewrite (len_tl _ n); auto.
Qed.
Theorem conversion_spec : forall n m start con Lr Rr con' rows' nb', inv n m start con Lr Rr -> cherni_conversion con start (Lr ++ Rr) (length Lr) = (con', rows', nb') ->
  exists Lr' Rr', rows' = Lr' ++ Rr' /\ length Lr' = nb' /\ inv n m (length con') con' Lr' Rr' /\ (exists rm, Permutation con (con' ++ rm) /\ Forall (fun c => is_ineq c = true) rm) /\ (forall x, inC n (map kc con) x <-> inC n (map kc con') x) /\ firstn start con' = firstn start con /\
    Forall (fun r => zn 0 (fst r) = 0%Z) Lr' /\ Forall (fun r => zn 0 (fst r) = 1%Z) Rr' /\ (indep n (map tr Lr) -> indep n (map tr Lr')).
Proof.
  intros n m start con Lr Rr con' rows' nb' I E. unfold cherni_conversion in E. destruct (conv_loop_spec _ n m start con Lr Rr I eq_refl) as (c1 & L1 & R1 & E1 & I1 & RM & IC & FK & IN). rewrite E1 in E. injection E as <- <- <-. destruct (set_status_spec L1 R1) as (L2 & R2 & -> & LL & T1 & T2 & SN & Z1 & Z2 & LN).
  rewrite <- T1 in IN. exists L2, R2. split; auto. split; auto. split; [|repeat (split; auto)]. destruct I1 as (A1 & A2 & A3 & A4 & A5 & A6). split; auto. split; auto. split; auto. split; auto. split. rewrite T1, T2. auto.
  assert (TT : map tr (L2 ++ R2) = map tr (L1 ++ R1)) by (rewrite !map_app, T1, T2; auto). clear - A6 TT SN. revert A6 TT SN. generalize (L2 ++ R2) (L1 ++ R1). induction l as [|r l IH]; intros [|r1 l1] A6 TT SN; simpl in *; try discriminate; constructor. inversion A6; subst. injection TT as T _. injection SN as S _. destruct H1 as [B1 B2]. split. rewrite S; auto. intros j. rewrite S, T. auto. inversion A6; subst. injection TT as _ T. injection SN as _ S. apply (IH l1); auto.
Qed.
Lemma init_indep : forall n m, indep n (map tr (init_rows (S n) m)).
Proof.
  intros n m. unfold init_rows. replace (S n - 1)%nat with n by lia. rewrite map_map. assert (G : forall q, (q <= n)%nat -> indep n (map (fun i => tr (unit_vec (S n) i, repeat false m)) (seq (n - q) q))).
  { induction q; intros Q. apply indep_nil. cbn [seq map]. apply indep_cons with (n - S q)%nat. lia. unfold rv. unfold tr at 1. cbn [fst]. rewrite <- zn_tl, unit_vec_nth by lia. rewrite Nat.eqb_refl. lra.
    intros l H. apply in_map_iff in H. destruct H as (i & <- & H). apply in_seq in H. unfold rv, tr. cbn [fst]. rewrite <- zn_tl, unit_vec_nth by lia. destruct (Nat.eqb_spec (S (n - S q)) (S i)); auto. lia. replace (S (n - S q)) with (n - q)%nat by lia. apply IHq. lia. }
  specialize (G n (le_n n)). replace (n - n)%nat with 0%nat in G by lia. exact G.
Qed.

(** Polyhedra of PkPoly.v: the universe and its test. *)
From Coq Require Import ZArith Bool List Lia Reals Lra Permutation Classical.
Import ListNotations.
From Verif Require Import PkCone PkVec PkCherni PkCherniFacts PkRank PkCherniRay PkSpec PkFarkas PkSimplify PkSimplifyFacts PkSimplifyThm PkSimplifyEnd PkMinimize PropPkCherni PropPkMinimize PkPoly PkPolyFacts PkPolyLeq PkPolyMeet.
Open Scope R_scope.

Lemma sm_unit : forall n k (y : vec), (k < n)%nat -> sm n (fun j => (if Nat.eqb j k then 1 else 0) * y j) = y k.
Proof.
  induction n; intros k y H. lia. simpl. destruct (Nat.eq_dec k n) as [->|N]. rewrite Nat.eqb_refl. replace (sm n _) with 0. ring. symmetry. assert (G : forall m, (m <= n)%nat -> sm m (fun j => (if Nat.eqb j n then 1 else 0) * y j) = 0). { induction m; simpl; intros; auto. rewrite IHm by lia. replace (Nat.eqb m n) with false by (symmetry; apply Nat.eqb_neq; lia). ring. } apply G; auto. rewrite IHn by lia. replace (Nat.eqb n k) with false by (symmetry; apply Nat.eqb_neq; lia). ring.
Qed.
Lemma map_nodup_in : forall A B (f : A -> B) l, (forall a b, In a l -> In b l -> f a = f b -> a = b) -> NoDup l -> NoDup (map f l).
Proof. induction l as [|x l IH]; intros H N; simpl. constructor. inversion N; subst. constructor. intros I. apply in_map_iff in I. destruct I as (y & E & I). apply H in E; simpl; auto. subst; tauto. apply IH; auto. intros; apply H; simpl; auto. Qed.
Definition uline (d k : nat) : pvec := map (fun j => if Nat.eqb j k then 1%Z else 0%Z) (seq 0 (d + 2)).
Lemma nth_uline : forall d k j, (j < d + 2)%nat -> nth j (uline d k) 0%Z = if Nat.eqb j k then 1%Z else 0%Z.
Proof. intros d k j H. unfold uline. rewrite (nth_indep _ _ (if Nat.eqb 0 k then 1 else 0)%Z) by (rewrite map_length, seq_length; auto). rewrite (map_nth (fun j => if Nat.eqb j k then 1%Z else 0%Z)). rewrite seq_nth by auto. reflexivity. Qed.
Lemma rv_uline : forall d k, (0 < k)%nat -> veq (S d) (rv (tl (uline d k))) (fun j => if Nat.eqb j (k - 1) then 1 else 0).
Proof. intros d k K j H. unfold rv. rewrite <- zn_tl. unfold zn. rewrite nth_uline by lia. destruct (Nat.eqb_spec (S j) k), (Nat.eqb_spec j (k - 1)); auto; lia. Qed.
Lemma dt_uline : forall d k y, (0 < k)%nat -> (k < d + 2)%nat -> dt (S d) (rv (tl (uline d k))) y = y (k - 1)%nat.
Proof. intros d k y K1 K2. rewrite dt_sym. rewrite (dt_ext (S d) y _ _ (rv_uline d k K1)). rewrite dt_sym. apply sm_unit. lia. Qed.
Lemma rv_pos : forall d, veq (S d) (rv (tl (positivity d))) (fun j => match j with O => 1 | _ => 0 end).
Proof. intros d [|j] H. reflexivity. unfold rv, positivity. simpl. assert (E : nth j (repeat 0%Z d) 0%Z = 0%Z). { clear. revert j. induction d; intros [|j]; simpl; auto. } rewrite E. auto. Qed.
Lemma dt_pos1 : forall d y, dt (S d) (rv (tl (positivity d))) y = y 0%nat.
Proof. intros d y. rewrite dt_sym. rewrite (dt_ext (S d) y _ _ (rv_pos d)). rewrite dt_sym. apply e0_dt. lia. Qed.
Lemma len_pos : forall d, lenS (S d) (positivity d). Proof. intros d. unfold lenS, positivity. simpl. rewrite repeat_length. auto. Qed.
Lemma len_uline : forall d k, lenS (S d) (uline d k). Proof. intros d k. unfold lenS, uline. rewrite map_length, seq_length. lia. Qed.
Lemma st_uline : forall d k, (0 < k)%nat -> zn 0 (uline d k) = 0%Z. Proof. intros d k K. unfold zn. rewrite nth_uline by lia. destruct k; auto; lia. Qed.
Lemma top_lines_in : forall d f, In f (top_lines d) <-> exists k, (2 <= k <= S d)%nat /\ f = uline d k.
Proof.
  intros d f. unfold top_lines. rewrite in_map_iff. split. intros (i & <- & I). apply in_seq in I. exists (S d - i)%nat. split. lia. reflexivity. intros (k & K & ->). exists (S d - k)%nat. split. unfold uline. replace (S d - (S d - k))%nat with k by lia. auto. apply in_seq. lia.
Qed.
Lemma top_cone : forall d y, cone (top_lines d ++ [positivity d]) y <-> 0 <= y 0%nat /\ forall j, (1 <= j <= d)%nat -> y j = 0.
Proof.
  intros d y. rewrite cone_in. assert (RU : forall k, (2 <= k <= S d)%nat -> (row_holds (uline d k) y <-> y (k - 1)%nat = 0)). { intros k K. rewrite (row_dt (S d)) by apply len_uline. rewrite st_uline by lia. rewrite dt_uline by lia. simpl. tauto. } assert (RP : row_holds (positivity d) y <-> 0 <= y 0%nat). { rewrite (row_dt (S d)) by apply len_pos. rewrite dt_pos1. simpl. tauto. }
  split.
  - intros H. split. apply RP, H. apply in_app_iff; simpl; auto. intros j J. assert (Q : row_holds (uline d (S j)) y). { apply H. apply in_app_iff. left. apply top_lines_in. exists (S j). split; auto. lia. } apply RU in Q. replace (S j - 1)%nat with j in Q by lia. auto. lia.
  - intros [H0 H] c I. apply in_app_iff in I. destruct I as [I|[<-|[]]]. apply top_lines_in in I. destruct I as (k & K & ->). apply RU. lia. apply H. lia. apply RP; auto.
Qed.
Lemma top_lens : forall d, Forall (lenS (S d)) (top_lines d ++ [positivity d]).
Proof. intros d. apply Forall_app. split. apply Forall_forall. intros f I. apply top_lines_in in I. destruct I as (k & _ & ->). apply len_uline. constructor; auto. apply len_pos. Qed.
Lemma top_lines_st : forall d, Forall (st 0) (top_lines d).
Proof. intros d. apply Forall_forall. intros f I. apply top_lines_in in I. destruct I as (k & K & ->). apply st_uline. lia. Qed.
Lemma unit_indep : forall d ks, NoDup ks -> Forall (fun k => 2 <= k <= S d)%nat ks -> indep (S d) (map (fun k => tl (uline d k)) ks).
Proof.
  intros d. induction ks as [|k ks IH]; intros ND F; simpl. apply indep_nil. inversion ND; subst. inversion F; subst. apply indep_cons with (k - 1)%nat; auto. lia. rewrite (rv_uline d k) by lia. rewrite Nat.eqb_refl. lra.
  intros l I. apply in_map_iff in I. destruct I as (k2 & <- & I). rewrite Forall_forall in H4. assert (B := H4 k2 I). rewrite (rv_uline d k2) by lia. replace (Nat.eqb (k - 1) (k2 - 1)) with false; auto. symmetry. apply Nat.eqb_neq. intros E. assert (k = k2) by lia. subst. tauto.
Qed.
Lemma top_mini : forall d, mini (S d) [positivity d] (top_lines d ++ [positivity d]) 0 d.
Proof.
  intros d. exists [], [positivity d], (top_lines d), [positivity d]. split; auto. split; auto. split; auto. split. unfold top_lines. rewrite map_length, seq_length; auto. split. apply Forall_app. split. constructor; auto. apply len_pos. apply top_lens. split. simpl. apply top_lines_st. split. simpl. repeat constructor.
  assert (PP : ~ sat (S d) rv (kc (positivity d)) (tl (positivity d))). { unfold sat, kc. cbn [fst]. rewrite dt_pos1. unfold rv. simpl. lra. }
  assert (EQS : eqs (top_lines d ++ [positivity d]) = tls (top_lines d) /\ ineqs (top_lines d ++ [positivity d]) = tls [positivity d]). { unfold eqs, ineqs, tls. destruct (st_split (top_lines d) [positivity d]) as [A B]. apply top_lines_st. repeat constructor. rewrite A, B. auto. } destruct EQS as [Q1 Q2].
  split. { constructor.
    - intros x. rewrite <- Q1, <- Q2. rewrite gen_split. rewrite (bidual (S d) _ x (top_lens d)). rewrite <- (cone_inC (S d) [positivity d] x). 2: repeat constructor; apply len_pos. rewrite cone_in. split.
      + intros H y Y. apply top_cone in Y. destruct Y as [Y0 Y]. assert (H0 : 0 <= x 0%nat). { assert (H1 := H _ (or_introl eq_refl)). apply (row_dt (S d) _ _ (len_pos d)) in H1. rewrite dt_pos1 in H1. exact H1. }
        unfold dt. rewrite sm_shift. replace (sm d _) with 0. assert (0 <= x 0%nat * y 0%nat) by (apply Rmult_le_pos; auto). lra. symmetry. assert (G : forall m, (m <= d)%nat -> sm m (fun i => x (S i) * y (S i)) = 0). { induction m; simpl; intros; auto. rewrite IHm by lia. rewrite Y by lia. ring. } apply G; auto.
      + intros H c [<-|[]]. apply (row_dt (S d) _ _ (len_pos d)). rewrite dt_pos1. simpl. assert (Y := H (fun j => match j with O => 1 | _ => 0 end)). rewrite dt_sym, e0_dt in Y by lia. apply Y. apply top_cone. split. lra. intros [|j] J; auto; lia.
    - intros r r' [<-|[]] [<-|[]] N; congruence.
    - intros r [<-|[]]. exists (kc (positivity d)). split; auto. left; auto.
    - repeat constructor. intros []. }
  split. { constructor.
    - intros y. rewrite <- (cone_inC (S d) _ y (top_lens d)). rewrite top_cone. split.
      + intros [Y0 Y]. apply gen_r with (fun _ => 0) (tl (positivity d)) (y 0%nat); auto. apply gen_0; auto. left; auto. intros j J. unfold lin2. rewrite (rv_pos d) by auto. destruct j. ring. rewrite Y by lia. ring.
      + intros G. assert (Q : 0 <= y 0%nat /\ forall j, (1 <= j <= d)%nat -> y j = 0). { induction G as [x Z|x l k y G IHG I V|x r k y G IHG I K V]. split. rewrite Z by lia. lra. intros j J. apply Z. lia. destruct I. destruct I as [<-|[]]. destruct IHG as [H0 H]. split. rewrite V by lia. unfold lin2. rewrite (rv_pos d) by lia. lra. intros j J. rewrite V by lia. unfold lin2. rewrite (rv_pos d) by lia. rewrite H by auto. destruct j; [lia|ring]. } exact Q.
    - intros r r' [<-|[]] [<-|[]] N; congruence.
    - intros r [<-|[]]. exists (kc (positivity d)). split; auto. apply in_map. apply in_app_iff. simpl; auto.
    - repeat constructor. intros []. }
  split. apply indep_nil. unfold tls, top_lines. rewrite map_map. rewrite <- (map_map (fun i => (S d - i)%nat) (fun k => tl (uline d k))). apply unit_indep.
  - apply map_nodup_in. intros a b A B E. apply in_seq in A, B. lia. apply seq_NoDup.
  - apply Forall_forall. intros k I. apply in_map_iff in I. destruct I as (i & <- & I). apply in_seq in I. lia.
Qed.
Lemma prod_unit_pos : forall d k, (2 <= k <= S d)%nat -> prod_t (tl (positivity d)) (tl (uline d k)) = 0%Z.
Proof. intros d k K. apply eq_IZR. rewrite prod_dt. 2: { assert (A := len_pos d). assert (B := len_uline d k). unfold lenS in *. destruct (positivity d), (uline d k); simpl in *; lia. } replace (length (tl (positivity d))) with (S d) by (assert (A := len_pos d); unfold lenS in A; destruct (positivity d); simpl in *; lia). rewrite dt_pos1. rewrite (rv_uline d k) by lia. replace (Nat.eqb 0 (k - 1)) with false; auto. symmetry. apply Nat.eqb_neq. lia. Qed.
Theorem top_repr : forall i r, repr (poly_top i r) i r (fun _ => True).
Proof.
  intros i r. set (d := (i + r)%nat). assert (W : swf (poly_top i r)). { unfold swf, poly_top. cbn [pC pF psatC psatF pnbeq pnbline]. unfold pn, pdim. cbn [pint preal]. fold d. split. apply top_mini. split. 2: split; discriminate.
    intros s E. injection E as <-. unfold satmat. rewrite map_app. f_equal.
    - assert (G : forall l, (forall f, In f l -> exists k, (2 <= k <= S d)%nat /\ f = uline d k) -> map (fun a : pvec => satbits (map (fun b : pvec => tl b) [positivity d]) (tl a)) l = repeat [false] (length l)). { induction l as [|f l IH]; intros H; simpl; auto. destruct (H f (or_introl eq_refl)) as (k & K & ->). change (1%Z :: repeat 0%Z d) with (tl (positivity d)). rewrite <- IH. 2: intros; apply H; right; auto. f_equal. unfold satbits. simpl map. rewrite ?prod_unit_pos by auto. rewrite ?(prod_sym (tl (uline d k))). rewrite ?prod_unit_pos by auto. reflexivity. }
      rewrite G. unfold top_lines. rewrite map_length, seq_length. auto. intros f I. apply top_lines_in; auto.
    - simpl. unfold satbits. simpl. f_equal. f_equal. assert (Z : forall k, prod_t (repeat 0%Z k) (repeat 0%Z k) = 0%Z) by (induction k; simpl; auto). rewrite Z. reflexivity. }
  assert (K : forall x, cK (poly_top i r) x <-> 0 <= x 0%nat). { intros x. unfold cK. cbn [pC poly_top]. fold d. rewrite cone_in. split. intros H. specialize (H _ (or_introl eq_refl)). apply (row_dt (S d) _ _ (len_pos d)) in H. rewrite dt_pos1 in H. exact H. intros H c [<-|[]]. apply (row_dt (S d) _ _ (len_pos d)). rewrite dt_pos1. exact H. }
  split. { split; auto. right. split. intros x X. apply K; auto. intros _. exists (fun _ => 1). split. apply K; lra. lra. } split; auto. split; auto. intros x. unfold gamma. rewrite K. simpl. split; auto. intros _; lra.
Qed.
(** the test *)
Lemma mini_one : forall n C F a b, mini n C F a b -> (forall x, cone C x <-> 0 <= x 0%nat) -> (0 < n)%nat -> length C = 1%nat.
Proof.
  intros n C F a b M K N. assert (MP := mini_points _ _ _ _ _ M). destruct (mini_lens _ _ _ _ _ M) as [FC FF]. destruct M as (E & I & L & R & EC & EF & H3 & H4 & H5 & H6 & H7 & H8 & H9 & H10 & H11). apply Forall_app in H6, H7. destruct H6 as [H6 _], H7 as [H7 _].
  set (e0 := fun i : nat => match i with O => 1 | _ => 0 end).
  (* the rows are multiples of the first unit vector *)
  assert (RW : forall c, In c C -> veq n (rv (tl c)) (lin2 (rv (tl c) 0%nat) e0 0 e0) /\ (zn 0 c = 0%Z -> rv (tl c) 0%nat = 0) /\ 0 <= rv (tl c) 0%nat).
  { intros c J. rewrite Forall_forall in FC. assert (HH : forall x, 0 <= x 0%nat -> 0 <= dt n (rv (tl c)) x /\ (zn 0 c = 0%Z -> dt n (rv (tl c)) x = 0)). { intros x X. apply K in X. rewrite cone_in in X. specialize (X c J). apply (row_dt n c x (FC c J)) in X. destruct (Z.eqb_spec (zn 0 c) 0) as [Z|Z]. rewrite X. split. lra. auto. split; auto. tauto. }
    assert (V : forall i, (i < n)%nat -> i <> 0%nat -> rv (tl c) i = 0). { intros i Hi Ni. assert (U1 := HH (fun j => if Nat.eqb j i then 1 else 0)). assert (U2 := HH (lin2 (-1) (fun j => if Nat.eqb j i then 1 else 0) 0 e0)). rewrite dt_lin in U2. rewrite dt_sym in U1, U2. unfold dt in U1, U2. rewrite (sm_unit n i) in U1, U2 by auto. destruct i; [lia|]. cbn [Nat.eqb] in U1, U2. destruct U1 as [U1 _]. lra. destruct U2 as [U2 _]. unfold lin2. cbn [Nat.eqb]. lra. fold (dt n (rv (tl c)) e0) in U2. assert (E0 := HH e0). nra. }
    split. intros [|i] Hi; unfold lin2, e0. ring. rewrite V by (auto; lia). ring. assert (U0 := HH e0 ltac:(unfold e0; lra)). rewrite dt_sym in U0. unfold e0 in U0. rewrite e0_dt in U0 by auto. tauto. }
  assert (E = []). { destruct E as [|e E]; auto. exfalso. assert (J : In e C) by (rewrite EC; left; auto). destruct (RW e J) as (V & ZZ & _). assert (Z0 : rv (tl e) 0%nat = 0) by (apply ZZ; inversion H6; auto). assert (Q := H10 (1 :: repeat 0 (length E))). simpl in Q. rewrite repeat_length in Q. assert (F1 : Forall (fun k => k = 0) (1 :: repeat 0 (length E))). { apply Q. unfold tls. rewrite map_length; auto. intros i Hi. assert (Z1 : rv (tl e) i = 0) by (rewrite V by auto; unfold lin2; rewrite Z0; ring). rewrite Z1. assert (LZ : forall (l : list (list Z)) k, lc (repeat 0 k) l i = 0). { clear. induction l as [|x l IH]; intros [|k]; simpl; auto. rewrite IH. ring. } fold (tls E). rewrite LZ. ring. } inversion F1. lra. }
  subst E. simpl in EC. subst I. destruct C as [|c [|c2 C]]; auto.
  - exfalso. assert (Q : cone [] (fun _ => -1)) by constructor. apply K in Q. lra.
  - exfalso. destruct H9 as [D1 D2 D3 D4]. assert (NN : tl c <> tl c2). { unfold tls in D4. simpl in D4. inversion D4; subst. intros Q. apply H1. left; auto. } destruct (D2 (tl c) (tl c2)) as (f & J & S1 & S2); auto. left; auto. right; left; auto. destruct (D3 (tl c)) as (f' & J' & S'). left; auto.
    destruct (RW c (or_introl eq_refl)) as (V1 & _ & P1). destruct (RW c2 (or_intror (or_introl eq_refl))) as (V2 & _ & P2). unfold sat in *. rewrite (dt_ext n _ _ _ V1), dt_lin in S1. rewrite (dt_ext n _ _ _ V1), dt_lin in S'. rewrite (dt_ext n _ _ _ V2), dt_lin in S2. assert (rv (tl c) 0%nat <> 0) by (intros Z; apply S'; rewrite Z; ring). apply S2. assert (dt n (fst f) e0 = 0) by nra. rewrite H0. ring.
Qed.
Lemma cone_one : forall n c, (0 < n)%nat -> lenS n c -> (forall x, cone [c] x -> 0 <= x 0%nat) -> (exists x, cone [c] x /\ 0 < x 0%nat) -> forall x, 0 <= x 0%nat -> cone [c] x.
Proof.
  intros n c N Lc P (p & Kp & P0) x X. assert (RD : forall y, cone [c] y <-> if (zn 0 c =? 0)%Z then dt n (rv (tl c)) y = 0 else 0 <= dt n (rv (tl c)) y). { intros y. rewrite <- (row_dt n c y Lc). rewrite cone_in. split. intros H; apply H; left; auto. intros H c' [<-|[]]; auto. }
  apply RD. destruct (Z.eqb_spec (zn 0 c) 0) as [Z|Z].
  - exfalso. assert (Q : cone [c] (lin2 (-1) p 0 p)). { apply RD. rewrite dt_lin. apply RD in Kp. rewrite Kp. ring. } apply P in Q. unfold lin2 in Q. lra.
  - destruct (Rlt_le_dec (dt n (rv (tl c)) x) 0) as [NX|]; auto. exfalso. set (a := dt n (rv (tl c)) x) in *. assert (Kp' := proj1 (RD p) Kp). set (b := dt n (rv (tl c)) p) in *.
    (* -x and p are in the cone: y = -x - s p with b s <= -a *)
    assert (Q0 : cone [c] (lin2 (-1) x 0 x)). { apply RD. rewrite dt_lin. fold a. lra. } apply P in Q0. unfold lin2 in Q0. assert (x 0%nat = 0) by lra.
    assert (Q1 : cone [c] (lin2 (- (b + 1) / - a) x (-1) p)). { apply RD. rewrite dt_lin. fold a b. assert (- (b + 1) / - a * a = b + 1) by (field; lra). lra. } apply P in Q1. unfold lin2 in Q1. rewrite H in Q1. lra.
Qed.
Theorem is_top_spec : forall alg po i r S, repr po i r S -> let '(b, po') := pk_is_top alg po in repr po' i r S /\ (b = true -> forall x, S x) /\ (alg = true -> (b = true <-> forall x, S x)).
Proof.
  intros alg po i r S H. unfold pk_is_top. set (po' := if alg then poly_chernikova po else po). assert (A : repr po' i r S /\ (alg = true -> isbot po' = true \/ minimal2 po' = true)). { unfold po'. destruct alg. destruct (chern_repr po i r S H) as (A & _ & B). auto. split; auto. discriminate. } destruct A as [R M]. split; auto. clearbody po'.
  assert (R' := R). destruct R' as ((W & P) & D1 & D2 & G). destruct (pC po') as [C|] eqn:EC, (pF po') as [F|] eqn:EF.
  2-4: split; [discriminate|]; intros HA; split; [discriminate|]; intros Q; exfalso; destruct (M HA) as [B|B]; [|unfold minimal2 in B; rewrite EC in B; try rewrite EF in B; discriminate].
  2-4: apply (repr_bot _ _ _ _ R B (fun _ => 0)); auto.
  assert (W' := W). unfold swf in W'. rewrite EC, EF in W'. destruct W' as [MI _]. destruct P as [P|[P1 P2]]. unfold isbot in P. rewrite EC in P. discriminate. specialize (P2 ltac:(congruence)). assert (KC := cK_C po' C EC). assert (FC := swf_C po' C W EC).
  assert (I1 : length C = 1%nat -> forall x, S x). { intros L x. destruct C as [|c [|]]; try discriminate. apply G. unfold gamma. apply KC. apply cone_one with (pn po'). unfold pn; lia. inversion FC; auto. intros y Y. apply P1, KC; auto. destruct P2 as (p & A & B). exists p. split; auto. apply KC; auto. simpl; lra. }
  assert (I2 : (forall x, S x) -> length C = 1%nat). { intros Q. apply mini_one with (pn po') F (pnbeq po') (pnbline po'); auto. 2: unfold pn; lia. intros x. rewrite <- KC. split; auto. intros X. rewrite KC. apply cone_in. intros c J. rewrite Forall_forall in FC.
    apply (row_valid_ext (fun y => 0 <= y 0%nat) (pn po') c (fun _ => 1)); auto; try lra. intros u y v z U0 V0 Y Z. unfold lin2. assert (0 <= u * y 0%nat) by (apply Rmult_le_pos; auto). assert (0 <= v * z 0%nat) by (apply Rmult_le_pos; auto). lra.
    intros y _ Y0. assert (Gy : gamma po' (fun i => y (Datatypes.S i) / y 0%nat)) by (apply G; auto). assert (Ky : cK po' y). { apply cK_ext with (lin2 (y 0%nat) (homog (fun i => y (Datatypes.S i) / y 0%nat)) 0 (homog (fun i => y (Datatypes.S i) / y 0%nat))); auto. 2: apply cK_lin; auto; lra. intros [|j] _; unfold lin2; simpl. ring. field. lra. } apply KC in Ky. rewrite cone_in in Ky. auto. }
  rewrite Nat.eqb_eq. split; auto. intros _. split; auto.
Qed.

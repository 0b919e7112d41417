(** Assignments and substitutions of polyhedra: proofs. *)
From Coq Require Import ZArith Bool List Lia Reals Lra.
Import ListNotations.
From Verif Require Import PkCone PkVec PkCherni PkCherniFacts PkSpec PkFarkas PkRank PkSimplifyEnd PkMinimize PkPoly PkPolyFacts PkPolyLeq PkPolyMeet PkLin PkRepr PkOps.
Open Scope R_scope.

(** * Rows *)
Lemma norm_row : forall n q, lenS n q -> lenS n (vector_normalize q) /\ zn 0 (vector_normalize q) = zn 0 q /\ exists k, 0 < k /\ forall i, rv (tl (vector_normalize q)) i = k * rv (tl q) i.
Proof.
  intros n [|s t] L. discriminate. destruct (normalize_spec s t) as (g & G & t' & -> & L' & E). unfold lenS in *. simpl in *. split. unfold pvec in *. lia. split; auto. exists (/ IZR g). assert (0 < IZR g) by (apply IZR_lt; auto). split. apply Rinv_0_lt_compat; auto.
  intros i. unfold rv. rewrite E, mult_IZR. field. lra.
Qed.
Lemma zn_mapseq : forall (f : nat -> Z) m j, (j < m)%nat -> zn j (map f (seq 0 m)) = f j.
Proof. intros f m j H. unfold zn. rewrite (nth_indep _ 0%Z (f 0%nat)) by (rewrite map_length, seq_length; auto). rewrite map_nth, seq_nth by auto. reflexivity. Qed.
Lemma rv_zn : forall q i, rv (tl q) i = IZR (zn (S i) q). Proof. intros. unfold rv. rewrite zn_tl. reflexivity. Qed.
Lemma len_mapseq : forall n (f : nat -> Z), lenS n (map f (seq 0 (S n))). Proof. intros. unfold lenS. rewrite map_length, seq_length. reflexivity. Qed.

(** * The map: coordinate [v+1] of a homogeneous vector becomes the value of the expression *)
Definition amap (n v : nat) (tab : pvec) : vec -> vec := fun x j => if Nat.eqb j (v + 1) then dt n (rv (tl tab)) x / IZR (zn 0 tab) else x j.
Lemma amap_lin : forall n v tab, linear n n (amap n v tab).
Proof.
  intros n v tab. split.
  - intros a x b y j Hj. unfold amap, lin2. destruct (Nat.eqb j (v + 1)); auto. unfold Rdiv. change (fun i => a * x i + b * y i) with (lin2 a x b y). rewrite dt_lin. ring.
  - intros x y V j Hj. unfold amap. destruct (Nat.eqb j (v + 1)). rewrite (dt_ext n _ _ _ V). auto. apply V; auto.
Qed.
Lemma amap_0 : forall n v tab x, amap n v tab x 0%nat = x 0%nat. Proof. intros. unfold amap. destruct (Nat.eqb_spec 0 (v + 1)); auto. lia. Qed.
Lemma den_cases : forall t : Z, (0 < t)%Z -> (1 <? t)%Z = false -> t = 1%Z. Proof. intros t H E. apply Z.ltb_ge in E. lia. Qed.
Lemma assign_row_img : forall n destr v tab q, lenS n q -> lenS n tab -> (0 < zn 0 tab)%Z -> (v + 1 < n)%nat ->
  rimg n (amap n v tab) q (assign_row destr v tab q) /\ lenS n (assign_row destr v tab q) /\ (destr = false \/ zn 0 tab = 1%Z -> zn 0 (assign_row destr v tab q) = zn 0 q).
Proof.
  intros n destr v tab q Lq Lt D V. unfold assign_row. assert (Dr : 0 < IZR (zn 0 tab)) by (apply IZR_lt; auto). unfold lenS in Lq. rewrite Lq.
  set (f := fun j : nat => if (j =? v + 2)%nat then vector_product q tab else if (j =? 0)%nat && negb destr then zn 0 q else if (1 <? zn 0 tab)%Z then (zn j q * zn 0 tab)%Z else zn j q).
  destruct (norm_row n _ (len_mapseq n f)) as (L & Z0 & k & K & E). assert (F0 : zn 0 (map f (seq 0 (S n))) = f 0%nat) by (apply zn_mapseq; lia).
  assert (FZ : f 0%nat = zn 0 q \/ (destr = true /\ (1 < zn 0 tab)%Z /\ f 0%nat = (zn 0 q * zn 0 tab)%Z)). { unfold f. destruct (Nat.eqb_spec 0 (v + 2)); try lia. destruct destr; simpl; auto. destruct (1 <? zn 0 tab)%Z eqn:B; auto. apply Z.ltb_lt in B. auto. }
  split; [|split; auto].
  - split. rewrite Z0, F0. destruct FZ as [->|(_ & T & ->)]. tauto. rewrite Z.mul_eq_0. lia. 
    exists (k * IZR (zn 0 tab)). split. apply Rmult_lt_0_compat; auto. intros i Hi. rewrite E, rv_zn, zn_mapseq by lia. unfold f, amap. replace (S i =? v + 2)%nat with (i =? v + 1)%nat by (destruct (Nat.eqb_spec i (v + 1)), (Nat.eqb_spec (S i) (v + 2)); lia).
    destruct (Nat.eqb_spec i (v + 1)) as [->|Ne]. unfold vector_product. rewrite (prod_dt' n) by auto. rewrite (dt_sym n (rv (tl q))). field. lra.
    replace (S i =? 0)%nat with false by reflexivity. cbn [andb]. rewrite (rv_zn q i). destruct (1 <? zn 0 tab)%Z eqn:B. rewrite mult_IZR. ring. rewrite (den_cases _ D B). ring.
  - intros C. rewrite Z0, F0. destruct FZ as [->|(T1 & T2 & ->)]; auto. destruct C; [congruence|lia].
Qed.
Lemma dt_fun : forall n (a b : vec) x, (forall i, (i < n)%nat -> a i = b i) -> dt n a x = dt n b x. Proof. intros n a b x H. rewrite !(dt_sym n _ x). apply dt_ext. exact H. Qed.
Lemma dt_split : forall n j (c x : vec), (j < n)%nat -> dt n c x = c j * x j + dt n (fun i => if Nat.eqb i j then 0 else c i) x.
Proof.
  intros n j c x. unfold dt. induction n; intros H. lia. cbn [sm]. destruct (Nat.eq_dec j n) as [->|Ne].
  - rewrite Nat.eqb_refl. rewrite (sm_ext n (fun i => (if Nat.eqb i n then 0 else c i) * x i) (fun i => c i * x i)). ring. intros i Hi. destruct (Nat.eqb_spec i n); [lia|auto].
  - rewrite IHn by lia. destruct (Nat.eqb_spec n j); [lia|]. ring.
Qed.
Lemma subst_row_pre : forall n v tab q, lenS n q -> lenS n tab -> (0 < zn 0 tab)%Z -> (v + 1 < n)%nat ->
  rpre n n (amap n v tab) q (subst_row v tab q) /\ lenS n (subst_row v tab q) /\ zn 0 (subst_row v tab q) = zn 0 q.
Proof.
  intros n v tab q Lq Lt D V. unfold subst_row. assert (Dr : 0 < IZR (zn 0 tab)) by (apply IZR_lt; auto). destruct (Z.eqb_spec (zn (v + 2) q) 0) as [Z|Z].
  - split; auto. split. tauto. exists 1. split. lra. intros x. rewrite Rmult_1_l. rewrite (dt_split n (v + 1)) by auto. rewrite (dt_split n (v + 1) _ (amap n v tab x)) by auto. rewrite !(rv_zn q). replace (S (v + 1)) with (v + 2)%nat by lia. rewrite Z. rewrite !Rmult_0_l. f_equal. unfold dt. apply sm_ext. intros i Hi. unfold amap. destruct (Nat.eqb_spec i (v + 1)); auto; ring.
  - unfold lenS in Lq. rewrite Lq. set (f := fun j : nat => if (j =? 0)%nat then zn 0 q else if (j =? v + 2)%nat then (zn (v + 2) q * zn (v + 2) tab)%Z else ((if (1 <? zn 0 tab)%Z then zn j q * zn 0 tab else zn j q) + zn (v + 2) q * zn j tab)%Z).
    destruct (norm_row n _ (len_mapseq n f)) as (L & Z0 & k & K & E). assert (F0 : zn 0 (map f (seq 0 (S n))) = f 0%nat) by (apply zn_mapseq; lia). split; [|split; [auto|rewrite Z0, F0; reflexivity]].
    split. rewrite Z0, F0. unfold f. tauto. exists (k * IZR (zn 0 tab)). split. apply Rmult_lt_0_compat; auto. intros x.
    rewrite (dt_fun n _ (lin2 (k * IZR (zn 0 tab)) (fun i => if Nat.eqb i (v + 1) then 0 else rv (tl q) i) (k * IZR (zn (v + 2) q)) (rv (tl tab)))).
    + rewrite dt_sym, dt_lin, !(dt_sym n x). rewrite (dt_split n (v + 1) (rv (tl q)) (amap n v tab x)) by auto. assert (EQ : dt n (fun i => if Nat.eqb i (v + 1) then 0 else rv (tl q) i) (amap n v tab x) = dt n (fun i => if Nat.eqb i (v + 1) then 0 else rv (tl q) i) x).
      { unfold dt. apply sm_ext. intros i Hi. unfold amap. destruct (Nat.eqb_spec i (v + 1)); auto; ring. }
      rewrite EQ. assert (AV : amap n v tab x (v + 1)%nat = dt n (rv (tl tab)) x / IZR (zn 0 tab)) by (unfold amap; rewrite Nat.eqb_refl; auto). rewrite AV. rewrite (rv_zn q). replace (S (v + 1)) with (v + 2)%nat by lia. field. lra.
    + intros i Hi. rewrite E, rv_zn, zn_mapseq by lia. unfold lin2, f. replace (S i =? 0)%nat with false by reflexivity. rewrite (rv_zn tab), (rv_zn q). destruct (Nat.eqb_spec (S i) (v + 2)) as [S1|S1], (Nat.eqb_spec i (v + 1)) as [S2|S2]; try lia. rewrite S1, mult_IZR. ring.
      rewrite plus_IZR, mult_IZR. destruct (1 <? zn 0 tab)%Z eqn:B. rewrite mult_IZR. ring. rewrite (den_cases _ D B). ring.
Qed.

(** * Inversion of the expression *)
Lemma zgcd_div : forall q j, (0 < vector_gcd q)%Z -> (vector_gcd q * (zn j q / vector_gcd q) = zn j q)%Z.
Proof.
  intros q j G. assert ((vector_gcd q | zn j q)%Z). { rewrite vector_gcd_spec. destruct (le_lt_dec (length q) j). unfold zn. rewrite nth_overflow by auto. apply Z.divide_0_r. apply (proj1 (zgcd_divide q (zgcd q)) (Z.divide_refl _)). apply nth_In; auto. }
  destruct H as (m & H). rewrite H at 1. rewrite Z.div_mul by lia. lia.
Qed.
Lemma norm_expr : forall q, length (vector_normalize_expr q) = length q /\ exists g, (0 < g)%Z /\ forall j, (zn j q = g * zn j (vector_normalize_expr q))%Z.
Proof.
  intros q. unfold vector_normalize_expr. destruct (vector_gcd q >? 1)%Z eqn:E. 2: split; auto; exists 1%Z; split; [lia|intros; lia]. assert (vector_gcd q > 1)%Z by (apply Z.gtb_lt in E; lia). split. apply map_length. exists (vector_gcd q). split. lia.
  intros j. rewrite <- (zgcd_div q j) at 1 by lia. f_equal. unfold zn. change 0%Z with ((fun x => x / vector_gcd q) 0)%Z at 2. rewrite map_nth. auto.
Qed.
Lemma invert_spec : forall n v tab, lenS n tab -> (0 < zn 0 tab)%Z -> (v + 1 < n)%nat -> zn (v + 2) tab <> 0%Z -> let inv := vector_invert_expr v tab in
  lenS n inv /\ (0 < zn 0 inv)%Z /\ inverse n (amap n v tab) (amap n v inv).
Proof.
  intros n v tab L D V NZ inv. unfold inv, vector_invert_expr. 
  set (w := if (0 <? zn (v + 2) tab)%Z then _ else _).
  assert (W : exists s : Z, (s = 1 \/ s = -1)%Z /\ (0 < s * zn (v + 2) tab)%Z /\ lenS n w /\ zn 0 w = (s * zn (v + 2) tab)%Z /\ zn (v + 2) w = (s * zn 0 tab)%Z /\ forall j, (j <> 0)%nat -> (j <> v + 2)%nat -> (j <= n)%nat -> zn j w = (- s * zn j tab)%Z).
  { unfold w. unfold lenS in *. rewrite L. destruct (Z.ltb_spec 0 (zn (v + 2) tab)); [exists 1%Z|exists (-1)%Z]; (split; [lia|]); (split; [lia|]); (split; [apply len_mapseq|]); rewrite !zn_mapseq by lia; cbn [Nat.eqb]; rewrite Nat.eqb_refl; (destruct (Nat.eqb_spec (v + 2) 0); [lia|]); (split; [lia|]); (split; [lia|]); intros j J1 J2 J3; rewrite zn_mapseq by lia; (destruct (Nat.eqb_spec j 0); [lia|]); (destruct (Nat.eqb_spec j (v + 2)); [lia|]); lia. }
  destruct W as (s & S1 & S2 & LW & W0 & WV & WJ). destruct (norm_expr w) as (NL & g & G & NG). set (m := vector_normalize_expr w) in *. assert (Lm : lenS n m) by (unfold lenS in *; congruence).
  assert (M0 : (g * zn 0 m = s * zn (v + 2) tab)%Z) by (rewrite <- W0; rewrite NG; auto). assert (MV : (g * zn (v + 2) m = s * zn 0 tab)%Z) by (rewrite <- WV; rewrite NG; auto).
  assert (P0 : (0 < zn 0 m)%Z) by nia. split; auto. split; auto.
  assert (R0 : IZR g * IZR (zn 0 m) = IZR s * IZR (zn (v + 2) tab)) by (rewrite <- !mult_IZR; congruence). assert (RV : IZR g * IZR (zn (v + 2) m) = IZR s * IZR (zn 0 tab)) by (rewrite <- !mult_IZR; congruence).
  assert (RJ : forall i, (i < n)%nat -> i <> (v + 1)%nat -> IZR g * rv (tl m) i = - IZR s * rv (tl tab) i). { intros i Hi Ne. rewrite !rv_zn. rewrite <- opp_IZR, <- !mult_IZR. f_equal. rewrite <- NG. apply WJ; lia. }
  assert (gp : 0 < IZR g) by (apply IZR_lt; auto). assert (mp : 0 < IZR (zn 0 m)) by (apply IZR_lt; auto). assert (tp : 0 < IZR (zn 0 tab)) by (apply IZR_lt; auto). assert (sz : IZR s * IZR s = 1) by (destruct S1 as [->| ->]; lra). assert (tv0 : IZR (zn (v + 2) tab) <> 0) by (intros Q; apply NZ; apply eq_IZR; auto).
  assert (SP : forall (t : pvec) x, dt n (rv (tl t)) x = IZR (zn (v + 2) t) * x (v + 1)%nat + dt n (fun i => if Nat.eqb i (v + 1) then 0 else rv (tl t) i) x). { intros t x. rewrite (dt_split n (v + 1)) by auto. rewrite (rv_zn t (v + 1)). replace (S (v + 1)) with (v + 2)%nat by lia. auto. }
  assert (RR : forall x, IZR g * dt n (fun i => if Nat.eqb i (v + 1) then 0 else rv (tl m) i) x = - IZR s * dt n (fun i => if Nat.eqb i (v + 1) then 0 else rv (tl tab) i) x).
  { intros x. unfold dt. rewrite <- !sm_scal. apply sm_ext. intros i Hi. destruct (Nat.eqb_spec i (v + 1)). ring. rewrite <- !Rmult_assoc. rewrite RJ; auto. }
  assert (REST : forall t t2 x, dt n (fun i => if Nat.eqb i (v + 1) then 0 else rv (tl t) i) (amap n v t2 x) = dt n (fun i => if Nat.eqb i (v + 1) then 0 else rv (tl t) i) x). { intros t t2 x. unfold dt. apply sm_ext. intros i Hi. unfold amap. destruct (Nat.eqb_spec i (v + 1)); auto; ring. }
  assert (AV : forall t x, amap n v t x (v + 1)%nat = dt n (rv (tl t)) x / IZR (zn 0 t)) by (intros; unfold amap; rewrite Nat.eqb_refl; auto).
  assert (svt : IZR s * IZR (zn (v + 2) tab) <> 0) by nra.
  split; intros x i Hi; (destruct (Nat.eq_dec i (v + 1)) as [->|Ne]; [|unfold amap; destruct (Nat.eqb_spec i (v + 1)); [lia|auto]]); rewrite AV, SP, AV, REST; rewrite SP.
  - specialize (RR x). set (a := dt n (fun i => if Nat.eqb i (v + 1) then 0 else rv (tl m) i) x) in *. set (b := dt n (fun i => if Nat.eqb i (v + 1) then 0 else rv (tl tab) i) x) in *. set (X := x (v + 1)%nat).
    assert (IZR (zn 0 m) = IZR s * IZR (zn (v + 2) tab) / IZR g) by (apply Rmult_eq_reg_l with (IZR g); try lra; rewrite R0; field; lra).
    assert (IZR (zn (v + 2) m) = IZR s * IZR (zn 0 tab) / IZR g) by (apply Rmult_eq_reg_l with (IZR g); try lra; rewrite RV; field; lra).
    assert (a = - IZR s * b / IZR g) by (apply Rmult_eq_reg_l with (IZR g); try lra; rewrite RR; field; lra). rewrite H, H0, H1. assert (IZR s <> 0) by (destruct S1 as [->| ->]; lra). field. repeat split; try lra; auto.
  - specialize (RR x). set (a := dt n (fun i => if Nat.eqb i (v + 1) then 0 else rv (tl tab) i) x) in *. set (b := dt n (fun i => if Nat.eqb i (v + 1) then 0 else rv (tl m) i) x) in *. set (X := x (v + 1)%nat).
    assert (IZR (zn 0 m) = IZR s * IZR (zn (v + 2) tab) / IZR g) by (apply Rmult_eq_reg_l with (IZR g); try lra; rewrite R0; field; lra).
    assert (IZR (zn (v + 2) m) = IZR s * IZR (zn 0 tab) / IZR g) by (apply Rmult_eq_reg_l with (IZR g); try lra; rewrite RV; field; lra).
    assert (b = - IZR s * a / IZR g) by (apply Rmult_eq_reg_l with (IZR g); try lra; rewrite RR; field; lra). rewrite H, H0, H1. assert (IZR s <> 0) by (destruct S1 as [->| ->]; lra). field. repeat split; try lra; auto.
Qed.

(** * One dimension *)
Definition asg (i r v : nat) (tab : pvec) (P : vec -> Prop) (y : vec) : Prop := exists x, P x /\ forall j, (j < i + r)%nat -> y j = amap (d1 i r) v tab (homog x) (S j).
Definition sbs (i r v : nat) (tab : pvec) (P : vec -> Prop) (y : vec) : Prop := P (fun j => amap (d1 i r) v tab (homog y) (S j)).
Definition asub (assign : bool) := if assign then asg else sbs.
Lemma asg_inv : forall pa i r v tab inv (P : vec -> Prop), repr pa i r P -> inverse (d1 i r) (amap (d1 i r) v tab) (amap (d1 i r) v inv) -> forall y, asg i r v tab P y <-> sbs i r v inv P y.
Proof.
  intros pa i r v tab inv P HP (I1 & I2) y. assert (D : (0 < d1 i r)%nat) by (unfold d1; lia). split.
  - intros (x & X & E). unfold sbs. apply (repr_P_ext pa i r P x); auto. intros j Hj. assert (V : veq (d1 i r) (homog y) (amap (d1 i r) v tab (homog x))). { intros [|q] Q. rewrite amap_0. reflexivity. apply E. unfold d1 in Q. lia. }
    rewrite (proj2 (amap_lin (d1 i r) v inv) _ _ V) by (unfold d1; lia). rewrite I2 by (unfold d1; lia). reflexivity.
  - intros X. exists (fun j => amap (d1 i r) v inv (homog y) (S j)). split; auto. intros j Hj. assert (V : veq (d1 i r) (homog (fun j => amap (d1 i r) v inv (homog y) (S j))) (amap (d1 i r) v inv (homog y))). { apply homog_eta. rewrite amap_0. reflexivity. }
    rewrite (proj2 (amap_lin (d1 i r) v tab) _ _ V) by (unfold d1; lia). rewrite I1 by (unfold d1; lia). reflexivity.
Qed.
Lemma rpre_ext_inv : forall i r v t1 t2, inverse (d1 i r) (amap (d1 i r) v t1) (amap (d1 i r) v t2) -> inverse (d1 i r) (amap (d1 i r) v t2) (amap (d1 i r) v t1). Proof. intros i r v t1 t2 (A & B). split; auto. Qed.
(** the matrices transformed by an invertible map [A], of inverse [B] *)
Lemma inv_CF : forall pa po i r v ta tb (P : vec -> Prop) destr, repr pa i r P -> isbot pa = false -> lenS (d1 i r) ta -> lenS (d1 i r) tb -> (0 < zn 0 ta)%Z -> (0 < zn 0 tb)%Z -> (v < i + r)%nat -> inverse (d1 i r) (amap (d1 i r) v ta) (amap (d1 i r) v tb) ->
  (destr = true -> minimal2 pa = true -> zn 0 ta = 1%Z) -> pint po = i -> preal po = r -> pF po = option_list (assign_row destr v ta) (pF pa) -> pC po = option_list (subst_row v tb) (pC pa) ->
  psatC po = (if minimal2 pa then psatC pa else None) -> psatF po = (if minimal2 pa then psatF pa else None) -> pnbeq po = (if minimal2 pa then pnbeq pa else 0%nat) -> pnbline po = (if minimal2 pa then pnbline pa else 0%nat) -> repr po i r (asg i r v ta P) /\ repr po i r (sbs i r v tb P).
Proof.
  intros pa po i r v ta tb P destr HP NB La Lb Da Db V IAB HD I' R' EF EC s1 s2 ne nl. assert (V1 : (v + 1 < d1 i r)%nat) by (unfold d1; lia). set (n := d1 i r) in *. set (A := amap n v ta). set (B := amap n v tb).
  assert (W : repr po i r (asg i r v ta P) \/ repr po i r (sbs i r v tb P)).
  2: { assert (Q := asg_inv pa i r v ta tb P HP IAB). destruct W as [W|W]; split; auto; eapply repr_ext; [|exact W| |exact W]; intros x; rewrite Q; tauto. }
  assert (PN := repr_pn _ _ _ _ HP). assert (SW : swf pa) by apply HP. destruct (pC pa) as [C|] eqn:PC, (pF pa) as [F|] eqn:PF.
  - right. unfold minimal2 in *; try rewrite PC in *; try rewrite PF in *. simpl in EF, EC. assert (LC : Forall (lenS n) C) by (unfold n; rewrite <- PN; apply (swf_C pa); auto). assert (LF : Forall (lenS n) F) by (unfold n; rewrite <- PN; apply (swf_F pa); auto). rewrite Forall_forall in LC, LF.
    assert (ST : destr = false \/ zn 0 ta = 1%Z) by (destruct destr; auto).
    assert (HA : forall f, In f F -> rimg n A f (assign_row destr v ta f) /\ lenS n (assign_row destr v ta f) /\ zn 0 (assign_row destr v ta f) = zn 0 f). { intros f If. destruct (assign_row_img n destr v ta f) as (Q1 & Q2 & Q3); auto. }
    assert (HB : forall c, In c C -> rpre n n B c (subst_row v tb c) /\ lenS n (subst_row v tb c) /\ zn 0 (subst_row v tb c) = zn 0 c) by (intros c Ic; apply subst_row_pre; auto).
    assert (BA : forall x, veq n (B (A x)) x) by apply IAB. assert (AB : forall x, veq n (A (B x)) x) by apply IAB.
    apply (both_CF pa po i r i r P B C F [] (subst_row v tb) (assign_row destr v ta)); auto.
    + intros x. apply amap_0.
    + intros f If. split; apply HA; auto.
    + intros y. simpl. fold n. rewrite (gen_map n n A F (assign_row destr v ta) y (amap_lin n v ta)). 2: intros; apply HA; auto. split.
      * intros (x & X & E). apply generated_ext with x; auto. intros j Hj. rewrite (proj2 (amap_lin n v tb) _ _ E) by auto. apply BA; auto.
      * intros X. exists (B y). split; auto. apply veq_sym. auto.
    + intros c f Ic If. destruct (HB c Ic) as ((_ & k & K & E) & _). destruct (HA f If) as ((_ & k2 & K2 & E2) & _). fold n. rewrite E. rewrite (dt_ext n _ _ (lin2 k2 (rv (tl f)) 0 (rv (tl f)))).
      * rewrite dt_lin. split; intros Q. apply Rmult_integral in Q. destruct Q as [Q|Q]; [lra|]. rewrite Rmult_0_l, Rplus_0_r in Q. apply Rmult_integral in Q. destruct Q; [lra|auto]. rewrite Q. ring.
      * assert (V2 : veq n (rv (tl (assign_row destr v ta f))) (lin2 k2 (A (rv (tl f))) 0 (A (rv (tl f))))) by (intros j Hj; rewrite E2 by auto; unfold lin2; ring). intros j Hj. rewrite (proj2 (amap_lin n v tb) _ _ V2) by auto. rewrite (proj1 (amap_lin n v tb)) by auto. unfold lin2. change (amap n v tb) with B. rewrite BA by auto. ring.
    + intros E IE IN. apply (indep_pre n n B); auto. intros y. exists (A y). apply BA. intros l Il. apply HB; auto.
    + intros L IL IN. simpl. apply (inj_indep n n A B); auto. apply amap_lin. intros x y Q. apply (amap_lin n v tb); auto. intros x Z j Hj. apply (linear_0 n n B x (amap_lin n v tb)); auto. intros l Il. apply HA; auto.
    + destruct (repr_F_point pa i r P F HP PF) as (x & X). destruct HP as (_ & _ & _ & G). apply G in X. unfold gamma in X. exists (A (homog x)). split. unfold A, B. rewrite !amap_0. simpl. lra. apply cK_ext with (homog x); auto. rewrite PN. apply veq_sym. auto.
    + intros s E. exists s. left. simpl. split; auto. congruence.
    + intros s E. split; auto. congruence.
    + unfold swf in SW. rewrite PC, PF in SW. destruct SW as (_ & _ & _ & S3). rewrite s1, s2. auto.
  - right. unfold minimal2 in *; try rewrite PC in *; try rewrite PF in *. simpl in EF, EC. apply (preimage_C pa po i r i r P B C (subst_row v tb)); auto. intros x. apply amap_0. intros c Ic. assert (lenS n c). { assert (Q := swf_C pa C SW PC). rewrite PN in Q. rewrite Forall_forall in Q. apply Q; auto. } split; apply subst_row_pre; auto.
  - left. unfold minimal2 in *; try rewrite PC in *; try rewrite PF in *. simpl in EF, EC. apply (image_F pa po i r i r P A F (assign_row destr v ta)); auto. apply amap_lin. intros x. apply amap_0. intros c Ic. assert (lenS n c). { assert (Q := swf_F pa F SW PF). rewrite PN in Q. rewrite Forall_forall in Q. apply Q; auto. } split; apply assign_row_img; auto.
  - unfold isbot in NB. rewrite PC, PF in NB. discriminate.
Qed.
Lemma obtain_Fd : forall (m : bool) pa i r P, repr pa i r P -> let pa1 := duals m (poly_obtain_F_dual m (duals m pa)) in repr pa1 i r P /\ ((if m then pF pa1 else pC pa1) = None -> isbot pa1 = true).
Proof.
  intros [] pa i r P H; simpl; unfold poly_obtain_F_dual.
  - destruct (obtain_F_repr pa i r P H) as (A & _ & B). unfold poly_obtain_F in *. destruct (pF pa); auto.
  - destruct (obtain_C_repr pa i r P H) as (A & _ & B). unfold poly_obtain_C in *. simpl. destruct (pC pa) eqn:E; simpl; rewrite ?dual_dual; auto.
Qed.
Definition den_ok (assign destr : bool) (pa : poly) (v : nat) (tab : pvec) : Prop := destr = true -> minimal2 pa = true -> zn (v + 2) tab <> 0%Z -> zn 0 (if assign then tab else vector_invert_expr v tab) = 1%Z.
Theorem det_spec : forall assign destr pa v tab i r P, repr pa i r P -> isbot pa = false -> lenS (d1 i r) tab -> (0 < zn 0 tab)%Z -> (v < i + r)%nat -> den_ok assign destr pa v tab ->
  let (po, pa') := poly_asssub_linexpr_det assign destr pa v tab in repr po i r (asub assign i r v tab P) /\ (destr = false -> repr pa' i r P) /\ (isbot po = true -> forall x, ~ P x).
Proof.
  intros assign destr pa v tab i r P HP NB Lt Dt V HD. unfold poly_asssub_linexpr_det. assert (V1 : (v + 1 < d1 i r)%nat) by (unfold d1; lia). destruct (Z.eqb_spec (zn (v + 2) tab) 0) as [Z|Z].
  - destruct (obtain_Fd assign pa i r P HP) as (H1 & N1). set (p1 := poly_obtain_F_dual assign (duals assign pa)) in *. assert (SW : swf (duals assign p1)) by apply H1. assert (PN := repr_pn _ _ _ _ H1).
    assert (DI : pint p1 = i /\ preal p1 = r) by (destruct H1 as (_ & I1 & R1 & _); destruct assign; simpl in *; auto). destruct DI as (I1 & R1).
    cbn [has andb].
    split; [|split].
    + destruct (pF p1) as [F|] eqn:PF.
      * destruct assign; simpl in *.
        -- apply (image_F p1 _ i r i r P (amap (d1 i r) v tab) F (assign_row destr v tab)); auto. apply amap_lin. intros; apply amap_0. intros f If. assert (lenS (d1 i r) f). { assert (Q := swf_F p1 F SW PF). rewrite PN in Q. rewrite Forall_forall in Q. apply Q; auto. } split; apply assign_row_img; auto.
        -- apply (preimage_C (poly_dual p1) _ i r i r P (amap (d1 i r) v tab) F (subst_row v tab)); auto. intros; apply amap_0. intros f If. assert (lenS (d1 i r) f). { assert (Q := swf_C (poly_dual p1) F SW PF). rewrite PN in Q. rewrite Forall_forall in Q. apply Q; auto. } split; apply subst_row_pre; auto.
      * assert (B : isbot (duals assign p1) = true) by (apply N1; destruct assign; simpl; auto). assert (NP := repr_none _ _ _ _ H1 B). apply repr_bot; destruct assign; simpl; auto. intros x (y & Y & _). apply (NP y Y). intros x X. apply (NP _ X).
    + intros ->. auto.
    + intros B. assert (pF p1 = None). { destruct assign; simpl in B; unfold isbot in B; simpl in B; destruct (pF p1); simpl in B; auto; discriminate. } apply (repr_none _ _ _ _ H1). apply N1. destruct assign; simpl; auto.
  - destruct (invert_spec (d1 i r) v tab Lt Dt V1 Z) as (Li & Di & IAB). set (inv := vector_invert_expr v tab) in *. unfold den_ok in HD. fold inv in HD.
    assert (BM : forall (o1 o2 : option (list pvec)) (f g : pvec -> pvec), has (option_list f o1) && has (option_list g o2) = match o1, o2 with Some _, Some _ => true | _, _ => false end) by (intros [|] [|]; reflexivity).
    assert (DI : pint pa = i /\ preal pa = r) by (destruct HP as (_ & I1 & R1 & _); auto). destruct DI as (I1 & R1).
    split; [|split].
    + destruct assign.
      * apply (inv_CF pa _ i r v tab inv P destr); auto; simpl; auto; rewrite ?BM; reflexivity.
      * apply (inv_CF pa _ i r v inv tab P destr); auto; simpl; auto; try (rewrite ?BM; unfold minimal2; destruct (pC pa), (pF pa); reflexivity). apply rpre_ext_inv; auto.
    + intros ->. destruct assign; simpl; rewrite ?dual_dual; auto.
    + intros B. exfalso. unfold isbot in *. destruct assign; simpl in B; destruct (pC pa), (pF pa); simpl in B; discriminate.
Qed.
Lemma chern_if : forall (lazy : bool) pa i r P, repr pa i r P -> repr (if lazy then pa else poly_chernikova pa) i r P. Proof. intros [] pa i r P H; auto. apply chern_repr; auto. Qed.
Lemma asub_none : forall assign i r v tab (P : vec -> Prop), (forall x, ~ P x) -> forall x, ~ asub assign i r v tab P x.
Proof. intros [] i r v tab P N x; simpl. intros (y & Y & _). apply (N y Y). intros X. apply (N _ X). Qed.
Theorem asssub_spec : forall (assign lazy destr : bool) pa v tab i r P, repr pa i r P -> lenS (d1 i r) tab -> (0 < zn 0 tab)%Z -> (v < i + r)%nat -> den_ok assign destr (if lazy then pa else poly_chernikova pa) v tab ->
  forall (dest : option poly) (Q : vec -> Prop), (forall pb, dest = Some pb -> repr pb i r Q) ->
  match poly_asssub_linexpr assign lazy destr pa v tab dest with
  | Some (po, pa', pb') => repr po i r (fun x => asub assign i r v tab P x /\ (dest <> None -> Q x)) /\ (destr = false -> repr pa' i r P) /\ (forall pb, pb' = Some pb -> repr pb i r Q)
  | None => assign = false /\ lazy = false /\ dest <> None /\ forall x, ~ asub assign i r v tab P x
  end.
Proof.
  intros assign lazy destr pa v tab i r P HP Lt Dt V HD dest Q HQ. unfold poly_asssub_linexpr. assert (HP1 := chern_if lazy pa i r P HP). set (p1 := if lazy then pa else poly_chernikova pa) in *. assert (DI : pint p1 = i /\ preal p1 = r) by (destruct HP1 as (_ & I1 & R1 & _); auto). destruct DI as (I1 & R1). destruct (isbot p1) eqn:B.
  - assert (NP := repr_none _ _ _ _ HP1 B). split; [|split; auto]. apply repr_bot; try (destruct destr; simpl; auto; fail). intros x (X & _). revert X. apply asub_none; auto.
  - assert (DS := det_spec assign destr p1 v tab i r P HP1 B Lt Dt V HD). destruct (poly_asssub_linexpr_det assign destr p1 v tab) as (po & pa') eqn:ED. destruct DS as (HO & HA & HB). destruct dest as [pb|].
    + assert (HQ' : repr pb i r Q) by auto. assert (MS := poly_meet_spec true lazy false false true po pb i r _ _ HO HQ'). destruct (poly_meet true lazy false false true po pb) as [[[po2 x] pb2]|].
      * destruct MS as (M1 & _ & M3). split; [|split; auto]. apply repr_ext with (T true (d1 i r) (asub assign i r v tab P) Q). intros y. simpl. split. intros []; auto. intros [A1 A2]; split; auto. apply A2. discriminate. apply (chern_if lazy); auto. intros pb0 E. injection E as <-. auto.
      * destruct MS as (_ & L0 & _ & M4). destruct assign. 2: split; auto; split; auto; split; [discriminate|auto]. exfalso.
        subst lazy. destruct (chern_repr pa i r P HP) as (_ & _ & [C|C]). unfold p1 in B. congruence. unfold minimal2 in C. destruct (pC (poly_chernikova pa)); try discriminate. destruct (pF (poly_chernikova pa)) as [F|] eqn:PF; try discriminate.
        destruct (repr_F_point p1 i r P F HP1 PF) as (x & X). apply (M4 (fun j => amap (d1 i r) v tab (homog x) (S j))). exists x. split; auto.
    + split; [|split; [auto|discriminate]]. apply repr_ext with (asub assign i r v tab P). intros y. split. intros; split; auto. congruence. tauto. apply (chern_if lazy); auto.
Qed.

(** Addition of generators, polyhedron of a box. *)
From Coq Require Import ZArith QArith Qreals Reals Lra Bool List Lia Permutation.
Import ListNotations.
From Verif Require Import Bound BoundFacts Itv Linexpr LinexprFacts ItvFacts ItvLin ItvLinFacts ItvLinCons ItvLinInt ItvLinExact ItvLinApi PkCone PkVec PkCherni PkCherniFacts PkSimplify PkMinimize PkSpec PkPoly PkPolyFacts PkPolyLeq PkPolyMeet PkMatrix PkLin PkRepr PkProj Box BoxMeet PkOps PkAssign PkUser PkUserRow PkUserCons PkUserBound PkUserMeet.
Open Scope R_scope.

(** * Generators *)
Lemma gen_cons : forall n f F z, generated n (f :: F) z <-> exists k y, generated n F y /\ (zn 0 f = 0%Z \/ 0 <= k) /\ veq n z (lin2 1 y k (rv (tl f))).
Proof.
  intros n f F z. unfold generated. split.
  - intros (ks & L & S & E). destruct ks as [|k ks]; [discriminate|]. exists k, (combin ks F). split. exists ks. split. simpl in L. lia. split; auto. intros j J NZ. apply (S (Datatypes.S j)); simpl; auto. lia. split.
    destruct (Z.eq_dec (zn 0 f) 0); auto. right. apply (S 0%nat); simpl; auto. lia. intros i Hi. rewrite E by auto. simpl. unfold lin2, rv. destruct f as [|a f]; simpl. destruct i; simpl; ring. ring.
  - intros (k & y & (ks & L & S & E) & K & V). exists (k :: ks). split. simpl; lia. split. intros [|j] J NZ. simpl in *. destruct K; auto. contradiction. simpl in *. apply S; auto. lia. intros i Hi. rewrite V by auto. simpl. unfold lin2. rewrite E by auto. unfold rv. destruct f as [|a f]; simpl. destruct i; simpl; ring. ring.
Qed.
Fixpoint added (n : nat) (l : list (bool * vec)) (x y : vec) : Prop :=
  match l with
  | [] => forall j, (j < n)%nat -> y j = x j
  | (line, d) :: l => exists k, (line = true \/ 0 <= k) /\ added n l (fun j => x j + k * d j) y
  end.
Definition ray_row (n : nat) (q : pvec) (p : bool * vec) : Prop := lenS (S n) q /\ zn 1 q = 0%Z /\ (zn 0 q = 0%Z <-> fst p = true) /\ exists c, 0 < c /\ forall j, (j < n)%nat -> IZR (zn (j + 2) q) = c * snd p j.
Lemma added_ext : forall n l x x' y, (forall j, (j < n)%nat -> x j = x' j) -> added n l x y -> added n l x' y.
Proof. induction l as [|[b d] l IH]; intros x x' y E; simpl. intros H j J. rewrite H, E; auto. intros (k & K & A). exists k. split; auto. eapply IH; [|exact A]. intros j J. simpl. rewrite E; auto. Qed.
Lemma rows_added : forall n rows ps, Forall2 (ray_row n) rows ps -> forall x y, (exists z, generated (S n) rows z /\ forall j, (j < n)%nat -> y j = x j + z (S j)) <-> added n ps x y.
Proof.
  intros n rows ps F. induction F as [|q [b d] rows ps (L & Q1 & Q0 & c & C & QJ) F IH]; intros x y; simpl.
  - split. intros (z & (ks & L & _ & E) & Y) j J. destruct ks; [|discriminate]. rewrite Y by auto. rewrite E by lia. simpl. ring. intros H. exists (fun _ => 0). split. apply gen_zero. intros j J; auto. intros j J. rewrite H; auto. ring.
  - simpl in *. assert (RV : forall j, (j < n)%nat -> rv (tl q) (S j) = c * d j). { intros j J. rewrite <- QJ by auto. unfold rv, zn. destruct q; simpl. destruct (j + 2)%nat; auto. replace (j + 2)%nat with (S (S j)) by lia. reflexivity. }
    split.
    + intros (z & G & Y). apply gen_cons in G. destruct G as (k & w & G & K & V). exists (k * c). split. destruct K as [K|K]. left; tauto. right. apply Rmult_le_pos; lra. apply IH. exists w. split; auto. intros j J. rewrite Y by auto. rewrite V by lia. unfold lin2. rewrite RV; auto. ring.
    + intros (k & K & A). apply IH in A. destruct A as (w & G & Y). exists (lin2 1 w (k / c) (rv (tl q))). split. apply gen_cons. exists (k / c), w. split; auto. split. destruct K as [K|K]. left; tauto. right. apply Rmult_le_pos; auto. left. apply Rinv_0_lt_compat; auto. intros j J; auto. intros j J. rewrite Y by auto. unfold lin2. rewrite RV by auto. field. lra.
Qed.
(** the direction of an expression: its value varies as the scalar product *)
Fixpoint dot (n : nat) (d v : vec) : R := match n with O => 0 | S n => dot n d v + d n * v n end.
Definition direction (n : nat) (e : linexpr) (d : vec) : Prop := forall v, terms_val (le_terms e) v (dot n d v).
Definition unitv (j : nat) : vec := fun i => if Nat.eqb i j then 1 else 0.
Lemma dot_unit : forall n d j, dot n d (unitv j) = if Nat.ltb j n then d j else 0.
Proof. induction n as [|n IH]; intros d j; simpl. auto. rewrite IH. unfold unitv. destruct (Nat.ltb_spec j n), (Nat.ltb_spec j (S n)), (Nat.eqb_spec n j); try lia; subst; lra. Qed.
Lemma rval_unit : forall n q j, (j < n)%nat -> rval n q (unitv j) = IZR (zn 1 q) + IZR (zn (j + 2) q).
Proof.
  intros n q j J. unfold rval. f_equal. assert (H : forall m, sm m (fun i => IZR (zn (i + 2) q) * unitv j i) = if Nat.ltb j m then IZR (zn (j + 2) q) else 0).
  { induction m as [|m IH]; simpl. auto. rewrite IH. unfold unitv. destruct (Nat.ltb_spec j m), (Nat.ltb_spec j (S m)), (Nat.eqb_spec m j); try lia; subst; lra. }
  rewrite H. destruct (Nat.ltb_spec j n); auto. lia.
Qed.
Lemma rval_0 : forall n q, rval n q (fun _ => 0) = IZR (zn 1 q).
Proof. intros. unfold rval. assert (H : forall m, sm m (fun i => IZR (zn (i + 2) q) * 0) = 0) by (induction m; simpl; [auto|rewrite IHm; lra]). rewrite H. ring. Qed.
Lemma tsum_0 : forall ts, tsum ts (fun _ => 0) = 0. Proof. induction ts; simpl; auto. rewrite IHts. ring. Qed.
Definition gen_wf (n : nat) (g : gentyp * linexpr) : Prop := fst g <> GVertex /\ wf_linexpr n (snd g) /\ holes_last (le_terms (snd g)) /\ scalar_terms (snd g).
Definition is_line (t : gentyp) : bool := match t with GLine | GLineMod => true | _ => false end.
Lemma terms_shape : forall n e, wf_linexpr n e -> holes_last (le_terms e) -> scalar_terms e ->
  let ts := il_terms (fst (ilin_of_linexpr (N:=exact_num) e)) in Forall (fun t => t_eq t = true) ts /\ flags_ok ts /\ wf_dims n ts.
Proof.
  intros n e W H S ts. assert (WD := user_wfd n (mkCons CEq e None) W). split; [|split]; [| |exact WD].
  - unfold ts, ilin_of_linexpr. destruct (itv_set_coeff (N:=exact_num) (le_cst e)) as [i ex]. pose proof (set_terms_scal (foreach (le_terms e))) as ST. destruct (set_terms (N:=exact_num) (foreach (le_terms e))) as [t2 res]. simpl in *. apply ST.
    destruct W as [_ W]. apply foreach_wf in W. unfold scalar_terms in S. rewrite Forall_forall in *. intros p P. split; auto. apply W; auto.
  - destruct (user_shape n (mkCons CEq e None)) as (_ & F & _). split; auto. exact F.
Qed.
Lemma dir_tsum : forall n e d, wf_linexpr n e -> holes_last (le_terms e) -> scalar_terms e -> direction n e d -> forall v, tsum (il_terms (fst (ilin_of_linexpr (N:=exact_num) e))) v = dot n d v.
Proof.
  intros n e d W H S D v. destruct (terms_shape n e W H S) as (A & B & _). symmetry. apply tval_tsum; auto.
  set (e0 := mkLin (Scal (Fin 0)) (le_terms e)). assert (X : expr_val e0 v (0 + dot n d v)). { exists 0, (dot n d v). split. simpl. lra. split; auto. }
  apply (ilin_of_linexpr_sound (N:=exact_num)) in X; auto. destruct X as (x & t & X1 & X2 & X3).
  assert (E0 : il_terms (fst (ilin_of_linexpr (N:=exact_num) e0)) = il_terms (fst (ilin_of_linexpr (N:=exact_num) e))). { unfold ilin_of_linexpr, e0. simpl. destruct (itv_set_coeff (N:=exact_num) (le_cst e)). destruct (set_terms (N:=exact_num) (foreach (le_terms e))). reflexivity. }
  rewrite E0 in X2. replace (dot n d v) with t; auto. assert (x = 0). { unfold e0, ilin_of_linexpr in X1. simpl in X1. destruct (set_terms (N:=exact_num) (foreach (le_terms e))). simpl in X1. unfold in_itv in X1. simpl in X1. rewrite Q2R_opp in X1. unfold Q2R in X1. simpl in X1. lra. } lra.
Qed.
Lemma set_at_head : forall j x q n, lenS (S n) q -> zn 0 (set_at (S j) x q) = zn 0 q.
Proof. intros j x q n L. rewrite zn_set_at. reflexivity. unfold lenS in L. lia. Qed.
Lemma gen_row : forall n g d, gen_wf n g -> direction n (snd g) d -> ray_row n (vector_set_generator n g) (is_line (fst g), d).
Proof.
  intros n [t e] d (NV & W & H & S) D. cbn [fst snd] in *. destruct (terms_shape n e W H S) as (_ & _ & WD). pose proof (set_linexpr_spec true n _ WD) as (L0 & l & LP & RV). cbv zeta in RV.
  unfold vector_set_generator. cbn [fst snd]. set (q0 := vector_set_linexpr true n (fst (ilin_of_linexpr (N:=exact_num) e))) in *. set (q1 := set_at 0 (match t with GLine | GLineMod => 0%Z | _ => 1%Z end) q0). set (q2 := set_at 1 0%Z q1).
  assert (L1 : lenS (Datatypes.S n) q1) by (apply len_set_at; auto). assert (L2 : lenS (Datatypes.S n) q2) by (apply len_set_at; auto).
  assert (E : match t with GVertex => q1 | _ => vector_normalize q2 end = vector_normalize q2) by (destruct t; auto; congruence). rewrite E. clear E.
  assert (Z0 : zn 0 q2 = match t with GLine | GLineMod => 0%Z | _ => 1%Z end). { unfold q2. rewrite (set_at_head 0 0%Z q1 n L1). unfold q1. rewrite zn_set_at. reflexivity. unfold lenS in L0; lia. }
  assert (Z1 : zn 1 q2 = 0%Z). { unfold q2. rewrite zn_set_at. reflexivity. unfold lenS in L1; lia. }
  assert (ZJ : forall j, (j < n)%nat -> IZR (zn (j + 2) q2) = l * d j).
  { intros j J. assert (F := dir_tsum n e d W H S D). assert (A := RV (unitv j)). assert (B := RV (fun _ => 0)). rewrite rval_unit in A by auto. rewrite rval_0 in B. rewrite F in A. rewrite dot_unit in A. rewrite tsum_0 in B. destruct (Nat.ltb_spec j n); [|lia].
    replace (zn (j + 2) q2) with (zn (j + 2) q0). lra. unfold q2. rewrite zn_set_at by (unfold lenS in L1; lia). destruct (Nat.eqb_spec (j + 2) 1); [lia|]. unfold q1. rewrite zn_set_at by (unfold lenS in L0; lia). destruct (Nat.eqb_spec (j + 2) 0); [lia|]. auto. }
  clearbody q2. destruct q2 as [|s tl2]; [unfold lenS in L2; discriminate|]. destruct (normalize_spec s tl2) as (g & G & t' & -> & LT & NT).
  split. unfold lenS in *. simpl in *. lia. split. specialize (NT 0%nat). unfold zn in *. simpl in *. nia. split.
  - unfold zn in *. simpl in *. rewrite Z0. destruct t; simpl; split; intros; try congruence; try lia.
  - exists (l / IZR g). assert (0 < IZR g) by (apply (IZR_lt 0); lia). split. apply Rdiv_lt_0_compat; auto. intros j J. specialize (ZJ j J). specialize (NT (Datatypes.S j)). replace (j + 2)%nat with (Datatypes.S (Datatypes.S j)) in * by lia. unfold zn in *. simpl in *. rewrite NT, mult_IZR in ZJ. unfold Rdiv. rewrite Rmult_assoc, (Rmult_comm (/ _)), <- Rmult_assoc, <- ZJ. field. lra.
Qed.
Lemma satF_rep : forall po i r S, repr po i r S -> minimal2 po = true -> exists po', poly_obtain_satF po = Some po' /\ repr po' i r S /\ pC po' = pC po /\ pF po' = pF po /\ psatF po' <> None.
Proof.
  intros po i r S R M. assert (D : poly_obtain_satC (poly_dual po) = option_map poly_dual (poly_obtain_satF po)). { unfold poly_obtain_satC, poly_obtain_satF. simpl. destruct (psatF po); auto. destruct (pC po); auto. destruct (psatC po); auto. }
  destruct (satC_rep false (poly_dual po) i r S) as (q & A & B & C & E & F). unfold rep, U. rewrite dual_dual. exact R. rewrite min_dual. exact M.
  rewrite D in A. destruct (poly_obtain_satF po) as [q'|]; [|discriminate]. simpl in A. inversion A; subst. exists q'. unfold rep, U in B. rewrite dual_dual in B. simpl in *. auto.
Qed.
Lemma sort_gen : forall n mat z, Forall (lenS n) mat -> (generated n (matrix_sort_rows mat) z <-> generated n mat z).
Proof. intros n mat z L. rewrite !bidual; auto. 2: apply sort_len; auto. split; intros H x X; apply H; apply sort_cone; auto. Qed.
Theorem add_ray_spec : forall lazy destr pa rows ps i r (P : vec -> Prop), repr pa i r P -> Forall2 (ray_row (i + r)) rows ps ->
  exists po pa', pk_add_ray_array lazy destr pa rows = Some (po, pa') /\ repr po i r (fun y => exists x, P x /\ added (i + r) ps x y) /\ (destr = false -> repr pa' i r P).
Proof.
  intros lazy destr pa rows ps i r P R FR. unfold pk_add_ray_array.
  set (pa1 := if lazy then poly_obtain_F pa else poly_chernikova pa).
  assert (R1 : repr pa1 i r P /\ (isbot pa1 = false -> pF pa1 <> None) /\ (lazy = false -> isbot pa1 = false -> minimal2 pa1 = true)).
  { unfold pa1. destruct lazy.
    - destruct (get_F false pa i r P R) as (A & B). split; [exact A|]. split; [|discriminate]. intros NB N. rewrite (B N) in NB. discriminate.
    - destruct (chern_repr _ _ _ _ R) as (A & _ & B). split; [exact A|]. split. intros NB N. destruct B as [B|B]; [congruence|]. unfold minimal2 in B. rewrite N in B. destruct (pC (poly_chernikova pa)); discriminate. intros _ NB. destruct B; auto; congruence. }
  clearbody pa1. destruct R1 as (R1 & HF & HM). destruct (isbot pa1) eqn:BOT.
  { exists pa1, pa1. split; auto. pose proof (repr_none _ _ _ _ R1 BOT) as N. split; auto. apply (repr_iff _ _ _ P); auto. intros x. split. intros X; destruct (N x X). intros (y & Y & _). destruct (N y Y). }
  specialize (HF eq_refl).
  assert (LR : Forall (lenS (d1 i r)) rows) by (clear - FR; induction FR as [|q p rows ps (L & _) F IH]; constructor; auto).
  assert (ZR : Forall (fun q => zn 1 q = 0%Z) rows) by (clear - FR; induction FR as [|q p rows ps (L & A & _) F IH]; constructor; auto).
  assert (S2 : exists pa2, (if lazy then Some pa1 else poly_obtain_satF pa1) = Some pa2 /\ repr pa2 i r P /\ pF pa2 = pF pa1 /\ (lazy = true \/ (pC pa2 <> None /\ psatF pa2 <> None))).
  { destruct lazy. exists pa1. auto. specialize (HM eq_refl eq_refl). destruct (satF_rep pa1 i r P R1 HM) as (pa2 & A & B & C & D & E). exists pa2. split; auto. split; auto. split; auto. right. split; auto. rewrite C. unfold minimal2 in HM. destruct (pC pa1); discriminate. }
  destruct S2 as (pa2 & -> & R2 & CC & HL). destruct (pF pa1) as [F|] eqn:EF; [|congruence].
  assert (ZM : Forall (fun q => zn 1 q = 0%Z) (matrix_sort_rows rows)). { eapply Permutation_Forall; [|exact ZR]. apply Permutation_sym. apply isort_perm. }
  destruct (matrix_gen lazy destr pa2 i r P F (matrix_sort_rows rows) R2 CC (sort_len _ _ LR) ZM HL) as (po & pa3 & -> & RP & RD). exists (poly_dual po), (poly_dual pa3). split; auto. split; auto.
  apply (repr_iff _ _ _ _ _ RP). intros y. split.
  - intros (x & z & X & G & Y). exists x. split; auto. apply (rows_added _ _ _ FR). exists z. split; [exact (proj1 (sort_gen _ _ _ LR) G)|]. exact Y.
  - intros (x & X & A). apply (rows_added _ _ _ FR) in A. destruct A as (z & G & Y). exists x, z. split; auto. split; auto. exact (proj2 (sort_gen _ _ _ LR) G).
Qed.
Theorem add_generators_spec : forall lazy destr pa l ds i r (P : vec -> Prop), repr pa i r P -> Forall (gen_wf (i + r)) l -> Forall2 (fun g d => direction (i + r) (snd g) d) l ds ->
  exists po pa' ex, pk_add_generators lazy destr pa l = Some (po, pa', ex) /\ repr po i r (fun y => exists x, P x /\ added (i + r) (combine (map (fun g => is_line (fst g)) l) ds) x y) /\ (destr = false -> repr pa' i r P).
Proof.
  intros lazy destr pa l ds i r P R W D. unfold pk_add_generators. assert (DI : pdim pa = (i + r)%nat) by (destruct R as (_ & A & B & _); unfold pdim; congruence). rewrite DI.
  destruct (add_ray_spec lazy destr pa (map (vector_set_generator (i + r)) l) (combine (map (fun g => is_line (fst g)) l) ds) i r P R) as (po & pa' & -> & A & B).
  { clear - W D. induction D as [|g d l ds G D IH]; simpl; inversion W; subst; constructor; auto. apply gen_row; auto. }
  exists po, pa', (forallb gen_exact l). auto.
Qed.

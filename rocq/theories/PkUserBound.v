(** Bounds of a linear function over generators: pk_matrix_bound_dimension and pk_matrix_bound_itv_linexpr. *)
From Coq Require Import ZArith QArith Qreals Reals Lra Bool List Lia Permutation.
Import ListNotations.
From Verif Require Import Bound BoundFacts Itv OctAssign6 Linexpr LinexprFacts ItvFacts ItvLin ItvLinFacts ItvLinCons ItvLinApi PkCone PkVec PkCherni PkCherniFacts PkSimplify PkMinimize PkSpec PkPoly PkPolyFacts PkPolyLeq PkPolyMeet PkLin PkRepr PkProj Box PkOps PkAssign PkUser PkUserRow.
Open Scope R_scope.

(** a linear function on vectors of n coordinates *)
Definition flin (n : nat) (phi : vec -> R) : Prop := (forall a x b y, phi (lin2 a x b y) = a * phi x + b * phi y) /\ (forall x y, veq n x y -> phi x = phi y).
Definition fopp (phi : vec -> R) : vec -> R := fun x => - phi x.
Lemma flin_opp : forall n phi, flin n phi -> flin n (fopp phi).
Proof. intros n phi (A & B). split. intros. unfold fopp. rewrite A. ring. intros. unfold fopp. rewrite (B x y); auto. Qed.
Definition fpos (F : list pvec) : Prop := forall f, In f F -> (zn 0 f = 0%Z -> zn 1 f = 0%Z) /\ (0 <= zn 1 f)%Z.
Notation rw f := (rv (tl f)).
(** no generator exceeds the bound / the bound is reached *)
Definition row_ub (phi : vec -> R) (f : pvec) : Prop := (zn 0 f = 0%Z -> phi (rw f) = 0) /\ (zn 1 f = 0%Z -> phi (rw f) <= 0).
Definition ub (phi : vec -> R) (F : list pvec) (b : bound) : Prop :=
  match b with
  | PInf => True
  | Fin q => forall f, In f F -> row_ub phi f /\ phi (rw f) <= Q2R q * IZR (zn 1 f)
  | MInf => forall f, In f F -> row_ub phi f /\ zn 1 f = 0%Z
  end.
Definition att (phi : vec -> R) (F : list pvec) (b : bound) : Prop :=
  match b with
  | PInf => exists f, In f F /\ zn 1 f = 0%Z /\ (0 < phi (rw f) \/ (zn 0 f = 0%Z /\ phi (rw f) <> 0))
  | Fin q => exists f, In f F /\ (0 < zn 1 f)%Z /\ phi (rw f) = Q2R q * IZR (zn 1 f)
  | MInf => True
  end.
Lemma flin_0 : forall n phi x, flin n phi -> (forall i, (i < n)%nat -> x i = 0) -> phi x = 0.
Proof. intros n phi x (A & B) H. rewrite (B x (lin2 0 x 0 x)). rewrite A. ring. intros i Hi. unfold lin2. rewrite H by auto. ring. Qed.
Lemma rw0 : forall f, rw f 0%nat = IZR (zn 1 f). Proof. intros. rewrite rv_zn. auto. Qed.
Lemma ub_bound : forall n phi F q x, (0 < n)%nat -> flin n phi -> ub phi F (Fin q) -> fpos F -> generated n F x -> phi x <= Q2R q * x 0%nat.
Proof.
  intros n phi F q x N L H P. revert x. apply (gen_ind' n F (fun x => phi x <= Q2R q * x 0%nat)).
  - intros x Z. rewrite (flin_0 n phi x L Z), Z by auto. lra.
  - intros f x k y I K G E V. rewrite (proj2 L y _ V), (proj1 L), (V 0%nat N). unfold lin2. rewrite rw0. destruct (H f I) as ((R1 & R2) & R3). destruct (P f I) as (P1 & P2). destruct K as [K|K]. rewrite (R1 K), (P1 K). lra. nra.
Qed.
Lemma ub_none : forall n phi F x, (0 < n)%nat -> ub phi F MInf -> generated n F x -> x 0%nat = 0.
Proof.
  intros n phi F x N H. revert x. apply (gen_ind' n F (fun x => x 0%nat = 0)). intros x Z. apply Z; auto.
  intros f x k y I K G E V. rewrite (V 0%nat N). unfold lin2. rewrite rw0, E. destruct (H f I) as (_ & ->). ring.
Qed.
Lemma ub_le : forall n phi F b x, (0 < n)%nat -> flin n phi -> ub phi F b -> fpos F -> generated n F (homog x) -> le_rb (phi (homog x)) b.
Proof.
  intros n phi F [|q|] x N L H P G; simpl; auto. apply (ub_none n phi F) in G; auto. simpl in G. lra. pose proof (ub_bound n phi F q _ N L H P G) as B. simpl in B. lra.
Qed.
Lemma att_reach : forall n phi F b x0 y, (0 < n)%nat -> flin n phi -> att phi F b -> fpos F -> generated n F (homog x0) -> le_rb y b -> exists x, generated n F (homog x) /\ y <= phi (homog x).
Proof.
  intros n phi F b x0 y N L H P G Y.
  assert (HOM : forall z, generated n F z -> z 0%nat = 1 -> y <= phi z -> exists x, generated n F (homog x) /\ y <= phi (homog x)).
  { intros z GZ Z0 YZ. exists (fun j => z (S j)). pose proof (homog_eta n z Z0) as V. split. eapply generated_ext; eauto. rewrite (proj2 L _ _ V). auto. }
  destruct b as [|q|]; simpl in Y; try tauto.
  - destruct H as (f & I & Z & E). apply (HOM (lin2 (/ IZR (zn 1 f)) (rw f) 0 (rw f))). assert (0 < IZR (zn 1 f)) by (apply IZR_lt; lia).
    apply generated_lin; try lra; try apply in_gen; auto. left. apply Rinv_0_lt_compat; auto. unfold lin2. rewrite rw0. field. apply not_0_IZR; lia. rewrite (proj1 L), E. replace (_ + _) with (Q2R q). auto. field. apply not_0_IZR; lia.
  - destruct H as (f & I & Z & E). set (p := phi (rw f)) in *. assert (p <> 0) by (destruct E as [E|(_ & E)]; lra).
    set (k := (y - phi (homog x0)) / p). assert (K : k * p = y - phi (homog x0)) by (unfold k; field; auto).
    destruct E as [E|(E0 & _)].
    + apply (HOM (lin2 1 (homog x0) (Rmax k 0) (rw f))). apply generated_lin; auto; try lra. apply Rmax_r. apply in_gen; auto. unfold lin2. rewrite rw0, Z. simpl. ring. rewrite (proj1 L). fold p. pose proof (Rmax_l k 0). nra.
    + apply (HOM (lin2 1 (homog x0) k (rw f))). apply gen_step with f (homog x0) k; auto. intros i _; auto. unfold lin2. rewrite rw0, Z. simpl. ring. rewrite (proj1 L). fold p. lra.
Qed.
Theorem range_spec : forall n phi F a b x0, (0 < n)%nat -> flin n phi -> fpos F -> generated n F (homog x0) -> ub phi F b -> att phi F b -> ub (fopp phi) F a -> att (fopp phi) F a ->
  forall y, in_itv y (mkItv a b) <-> exists x, generated n F (homog x) /\ phi (homog x) = y.
Proof.
  intros n phi F a b x0 N L P G U1 A1 U2 A2 y. pose proof (flin_opp n phi L) as L'. split.
  - intros (Y1 & Y2). simpl in *. destruct (att_reach n phi F b x0 y N L A1 P G Y2) as (x1 & G1 & E1). destruct (att_reach n (fopp phi) F a x0 (- y) N L' A2 P G Y1) as (x2 & G2 & E2). unfold fopp in E2.
    set (p1 := phi (homog x1)) in *. set (p2 := phi (homog x2)) in *. destruct (Req_dec p1 y) as [D|D]. exists x1; auto.
    set (t := (y - p2) / (p1 - p2)). assert (0 < p1 - p2) by lra. assert (T0 : 0 <= t) by (unfold t; apply Rmult_le_pos; [lra|left; apply Rinv_0_lt_compat; auto]). assert (TE : t * (p1 - p2) = y - p2) by (unfold t; field; lra). assert (T1 : t <= 1) by nra.
    set (z := lin2 t (homog x1) (1 - t) (homog x2)). assert (Z0 : z 0%nat = 1) by (unfold z, lin2; simpl; ring). exists (fun j => z (S j)). pose proof (homog_eta n z Z0) as V. split.
    eapply generated_ext; eauto. apply generated_lin; auto; lra. rewrite (proj2 L _ _ V). unfold z. rewrite (proj1 L). fold p1 p2. lra.
  - intros (x & GX & <-). split; simpl. apply (ub_le n (fopp phi) F a x); auto. apply (ub_le n phi F b x); auto.
Qed.

(** * The loop over the rows *)
Definition hi (phi : vec -> R) (F : list pvec) (b : bound) : Prop := ub phi F b /\ att phi F b.
Lemma att_more : forall phi P f b, att phi P b -> att phi (P ++ [f]) b.
Proof. intros phi P f [|q|] H; simpl in *; auto; destruct H as (g & I & H); exists g; split; auto; apply in_or_app; auto. Qed.
Lemma hi_pinf : forall phi P F, att phi P PInf -> hi phi (P ++ F) PInf.
Proof. intros phi P F (f & I & H). split. exact Logic.I. exists f. split; auto. apply in_or_app; auto. Qed.
Lemma in_snoc : forall (P : list pvec) f g, In g (P ++ [f]) -> In g P \/ g = f. Proof. intros P f g H. apply in_app_or in H. destruct H as [H|[H|[]]]; auto. Qed.
(** a ray along which the function does not increase *)
Lemma hi_ray : forall phi P f b, hi phi P b -> row_ub phi f -> zn 1 f = 0%Z -> hi phi (P ++ [f]) b.
Proof.
  intros phi P f b (U & A) RU Z. split; [|apply att_more; auto]. destruct b as [|q|]; simpl in *; auto; intros g G; apply in_snoc in G; destruct G as [G| ->]; auto. split; auto. rewrite Z. replace (Q2R q * IZR 0) with 0 by (simpl; ring). apply RU; auto.
Qed.
Lemma ub_ray : forall phi P f b, ub phi P b -> row_ub phi f -> zn 1 f = 0%Z -> ub phi (P ++ [f]) b.
Proof.
  intros phi P f b U RU Z. destruct b as [|q|]; simpl in *; auto; intros g G; apply in_snoc in G; destruct G as [G| ->]; auto. split; auto. rewrite Z. replace (Q2R q * IZR 0) with 0 by (simpl; ring). apply RU; auto.
Qed.
Lemma bcmp_less : forall b q, (bcmp b (Fin q) <? 0)%Z = true <-> match b with MInf => True | Fin p => Q2R p < Q2R q | PInf => False end.
Proof.
  intros [|p|] q; simpl; try (split; auto; discriminate); try tauto. unfold qcmp. destruct (p ?= q)%Q eqn:C; simpl; split; intros H; try discriminate; auto.
  - apply Qeq_alt in C. apply Qeq_eqR in C. lra.
  - apply Qlt_alt in C. apply Qlt_Rlt; auto.
  - apply Qgt_alt in C. apply Qlt_Rlt in C. lra.
Qed.
Lemma hi_vertex : forall phi P f b q, hi phi P b -> (0 < zn 1 f)%Z -> zn 0 f <> 0%Z -> phi (rw f) = Q2R q * IZR (zn 1 f) -> fpos P -> hi phi (P ++ [f]) (set_if_less b q).
Proof.
  intros phi P f b q (U & A) Z Z0 E FP. assert (ZR : 0 < IZR (zn 1 f)) by (apply IZR_lt; auto). assert (RU : row_ub phi f) by (split; intros; lia).
  assert (NEW : (forall g, In g P -> row_ub phi g /\ phi (rw g) <= Q2R q * IZR (zn 1 g)) -> hi phi (P ++ [f]) (Fin q)).
  { intros H. split. simpl. intros g G. apply in_snoc in G. destruct G as [G| ->]; auto. split; auto. lra. exists f. split; auto. apply in_or_app; simpl; auto. }
  unfold set_if_less. destruct (bcmp b (Fin q) <? 0)%Z eqn:B.
  - apply bcmp_less in B. destruct b as [|p|]; try tauto; apply NEW; intros g G; specialize (U g G); destruct U as (U1 & U2); split; auto. rewrite U2. simpl. rewrite Rmult_0_r. apply U1; auto. destruct (FP g G) as (_ & GP). apply IZR_le in GP. nra.
  - split; [|apply att_more; auto]. destruct b as [|p|]; simpl; auto. discriminate. intros g G. apply in_snoc in G. destruct G as [G| ->]; auto. split; auto. rewrite E. apply Rmult_le_compat_r; try lra. destruct (Rlt_le_dec (Q2R p) (Q2R q)) as [D|D]; auto. apply (bcmp_less (Fin p) q) in D. congruence.
Qed.
Lemma app_snoc : forall (P : list pvec) f F, P ++ f :: F = (P ++ [f]) ++ F. Proof. intros. rewrite <- app_assoc. auto. Qed.
Lemma q_ratio : forall a b : Z, (0 < b)%Z -> IZR a = Q2R (inject_Z a / inject_Z b) * IZR b.
Proof. intros a b H. rewrite Q2R_div. rewrite !Q2R_inject. field. apply not_0_IZR; lia. intros E. apply Qeq_eqR in E. rewrite Q2R_inject in E. unfold Q2R in E. simpl in E. rewrite Rmult_0_l in E. apply eq_IZR_R0 in E. lia. Qed.
Theorem bound_loop_spec : forall phi val F P a b, (forall f, In f F -> phi (rw f) = IZR (val f)) -> fpos (P ++ F) -> hi phi P b -> hi (fopp phi) P a ->
  hi phi (P ++ F) (sup (bound_loop val F a b)) /\ hi (fopp phi) (P ++ F) (inf (bound_loop val F a b)).
Proof.
  intros phi val. induction F as [|f F IH]; intros P a b V FP H1 H2; simpl. rewrite app_nil_r. auto.
  assert (VF : phi (rw f) = IZR (val f)) by (apply V; left; auto). assert (VO : fopp phi (rw f) = - IZR (val f)) by (unfold fopp; rewrite VF; auto).
  assert (FF : (zn 0 f = 0%Z -> zn 1 f = 0%Z) /\ (0 <= zn 1 f)%Z) by (apply FP; apply in_or_app; simpl; auto). destruct FF as (F0 & F1).
  assert (NX : forall a b, hi phi (P ++ [f]) b -> hi (fopp phi) (P ++ [f]) a -> hi phi (P ++ f :: F) (sup (bound_loop val F a b)) /\ hi (fopp phi) (P ++ f :: F) (inf (bound_loop val F a b))).
  { intros a' b' A B. rewrite app_snoc. apply IH; auto. intros g G. apply V. right; auto. rewrite <- app_snoc. auto. }
  assert (FPP : fpos P) by (intros g G; apply FP; apply in_or_app; auto).
  assert (AP : forall psi, zn 1 f = 0%Z -> (0 < psi (rw f) \/ (zn 0 f = 0%Z /\ psi (rw f) <> 0)) -> att psi (P ++ [f]) PInf). { intros psi Z D. exists f. split; auto. apply in_or_app; simpl; auto. }
  assert (HP : forall psi, att psi (P ++ [f]) PInf -> hi psi (P ++ [f]) PInf). { intros psi A. split; auto. exact Logic.I. }
  destruct (Z.eqb_spec (zn 0 f) 0) as [Z0|Z0].
  - specialize (F0 Z0). destruct (Z.eqb_spec (Z.sgn (val f)) 0) as [S|S].
    + assert (VZ : val f = 0%Z) by (destruct (val f); simpl in S; lia). rewrite VZ in *. apply NX; apply hi_ray; auto; split; intros; lra.
    + assert (VN : IZR (val f) <> 0) by (apply not_0_IZR; intros E; rewrite E in S; auto). simpl. rewrite app_snoc. split; apply hi_pinf; apply AP; auto; right; split; auto; lra.
  - destruct (Z.eqb_spec (zn 1 f) 0) as [Z1|Z1].
    + destruct (Z.ltb_spec 0 (Z.sgn (val f))) as [S|S].
      * assert (VP : 0 < IZR (val f)) by (apply IZR_lt; destruct (val f); simpl in S; lia).
        assert (B1 : att phi (P ++ [f]) PInf) by (apply AP; auto; lra). assert (B2 : hi (fopp phi) (P ++ [f]) a) by (apply hi_ray; auto; split; intros; [tauto|lra]).
        destruct a as [|p|]; try (apply NX; auto). simpl. rewrite app_snoc. split; apply hi_pinf; auto; apply B2.
      * destruct (Z.ltb_spec (Z.sgn (val f)) 0) as [S2|S2].
        -- assert (VP : IZR (val f) < 0) by (apply IZR_lt; destruct (val f); simpl in S2; lia).
           assert (B1 : att (fopp phi) (P ++ [f]) PInf) by (apply AP; auto; lra). assert (B2 : hi phi (P ++ [f]) b) by (apply hi_ray; auto; split; intros; [tauto|lra]).
           destruct b as [|p|]; try (apply NX; auto). simpl. rewrite app_snoc. split; apply hi_pinf; auto; apply B2.
        -- assert (VZ : val f = 0%Z) by (destruct (val f); simpl in S, S2; lia). rewrite VZ in *. apply NX; apply hi_ray; auto; split; intros; try tauto; lra.
    + assert (ZP : (0 < zn 1 f)%Z) by lia. apply NX; apply hi_vertex; auto. rewrite VF. apply q_ratio; auto. rewrite VO, Q2R_opp, (q_ratio _ _ ZP) at 1. ring.
Qed.
Lemma hi_nil : forall phi, hi phi [] MInf. Proof. intros phi. split; simpl; auto. intros f []. Qed.
Lemma coord_lin : forall n d, (d < n)%nat -> flin n (fun x => x d). Proof. intros n d H. split. intros; reflexivity. intros x y V. apply V; auto. Qed.
Theorem bound_dimension_spec : forall n F d x0, fpos F -> (S d < n)%nat -> generated n F (homog x0) -> forall y, in_itv y (matrix_bound_dimension d F) <-> exists x, generated n F (homog x) /\ x d = y.
Proof.
  intros n F d x0 FP D G y. destruct (bound_loop_spec (fun x => x (S d)) (zn (d + 2)) F [] MInf MInf) as (H1 & H2); auto. intros f _. rewrite rv_zn. f_equal. f_equal. lia. apply hi_nil. apply hi_nil. simpl app in *.
  unfold matrix_bound_dimension. destruct (bound_loop (zn (d + 2)) F MInf MInf) as [a b]. simpl in *. apply (range_spec n (fun x => x (S d)) F a b x0); auto; try lia; try apply H1; try apply H2. apply coord_lin; auto.
Qed.
(** the generators of a polyhedron *)
Lemma repr_fpos : forall po i r (P : vec -> Prop) F, repr po i r P -> pF po = Some F -> fpos F.
Proof.
  intros po i r P F R EF f I. pose proof R as ((W & PS) & _). destruct PS as [B|(PS & _)]. apply isbot_CF in B. destruct B; congruence.
  assert (G : forall k, (zn 0 f = 0%Z \/ 0 <= k) -> 0 <= k * IZR (zn 1 f)).
  { intros k K. rewrite <- rw0. change (0 <= (fun x : vec => k * x 0%nat) (rw f)). assert (X := PS (lin2 1 (fun _ => 0) k (rw f))). unfold lin2 in X at 2. replace (1 * 0 + k * rw f 0%nat) with (k * rw f 0%nat) in X by ring. apply X. apply (cK_F po F W EF). apply gen_step with f (fun _ => 0) k; auto. apply gen_zero; auto. intros j _; auto. }
  split. intros Z. apply eq_IZR. pose proof (G 1 (or_introl Z)). pose proof (G (-1) (or_introl Z)). lra. apply le_IZR. specialize (G 1 (or_intror Rle_0_1)). lra.
Qed.
Theorem box_spec : forall po i r (P : vec -> Prop) F d, repr po i r P -> pF po = Some F -> (d < i + r)%nat -> forall y, in_itv y (matrix_bound_dimension d F) <-> exists x, P x /\ x d = y.
Proof.
  intros po i r P F d R EF D y. pose proof (repr_fpos _ _ _ _ _ R EF) as FP. destruct (repr_F_point _ _ _ _ _ R EF) as (x0 & X0). pose proof R as ((W & _) & E1 & E2 & G).
  assert (E : forall x, generated (pn po) F (homog x) <-> P x). { intros x. rewrite <- (cK_F po F W EF). apply G. } rewrite (bound_dimension_spec (pn po) F d x0); auto. setoid_rewrite E. tauto. unfold pn, pdim. lia. apply E; auto.
Qed.

(** * Linear expressions *)
Fixpoint csum (cs : list R) (ts : list iterm) (x : vec) : R := match cs, ts with c :: cs, t :: ts => c * x (S (t_dim t)) + csum cs ts x | _, _ => 0 end.
Definition efun (c0 : R) (cs : list R) (ts : list iterm) (x : vec) : R := c0 * x 0%nat + csum cs ts x.
Lemma csum_lin : forall n cs ts, Forall (fun t => (S (t_dim t) < n)%nat) ts -> flin n (csum cs ts).
Proof.
  intros n. induction cs as [|c cs IH]; intros ts H; [split; intros; destruct ts; simpl; ring|]. destruct ts as [|t ts]; [split; intros; simpl; ring|]. inversion H as [|? ? H1 H2]; subst. destruct (IH ts H2) as (A & B). split.
  - intros. simpl. rewrite A. unfold lin2. ring.
  - intros x y V. simpl. rewrite (B x y V), V by auto. auto.
Qed.
Lemma efun_lin : forall n c0 cs ts, (0 < n)%nat -> Forall (fun t => (S (t_dim t) < n)%nat) ts -> flin n (efun c0 cs ts).
Proof. intros n c0 cs ts N H. destruct (csum_lin n cs ts H) as (A & B). split. intros. unfold efun. rewrite A. unfold lin2. ring. intros x y V. unfold efun. rewrite (B x y V), V by auto. auto. Qed.
Lemma tval_csum : forall v ts r, tval v ts r -> exists cs, Forall2 (fun c t => in_itv c (t_itv t)) cs ts /\ r = csum cs ts (homog v).
Proof. intros v ts r H. induction H as [|c t ts r C T (cs & F & E)]. exists []. split; auto. exists (c :: cs). split; auto. simpl. rewrite E. auto. Qed.
Lemma csum_tval : forall v cs ts, Forall2 (fun c t => in_itv c (t_itv t)) cs ts -> tval v ts (csum cs ts (homog v)).
Proof. intros v cs ts H. induction H; simpl; constructor; auto. Qed.
Definition vfold (ts : list iterm) (f : pvec) (acc : itv) : itv :=
  fold_left (fun acc t => if (zn (t_dim t + 2) f =? 0)%Z then acc else itv_add (N:=exact_num) acc (itv_mul_num (N:=exact_num) (t_itv t) (inject_Z (zn (t_dim t + 2) f)))) ts acc.
Lemma vfold_sound : forall f cs ts acc z, Forall2 (fun c t => in_itv c (t_itv t)) cs ts -> in_itv z acc -> in_itv (z + csum cs ts (rw f)) (vfold ts f acc).
Proof.
  intros f cs ts acc z H. revert acc z. induction H as [|c t cs ts C F IH]; intros acc z Z; simpl. rewrite Rplus_0_r. auto. unfold vfold. simpl. rewrite (rv_zn f). replace (S (S (t_dim t))) with (t_dim t + 2)%nat by lia. destruct (Z.eqb_spec (zn (t_dim t + 2) f) 0) as [E|E].
  - rewrite E. replace (z + (c * IZR 0 + csum cs ts (rw f))) with (z + csum cs ts (rw f)) by (simpl; ring). apply IH; auto.
  - rewrite <- Rplus_assoc. apply IH. apply itv_add_sound; auto. rewrite <- (Q2R_inject (zn (t_dim t + 2) f)). apply itv_mul_bound_sound; auto.
Qed.
Lemma zero_in : in_itv 0 (itv_of_int 0). Proof. split; unfold itv_of_int, itv_of_num; simpl; try rewrite Q2R_opp; unfold Q2R; simpl; lra. Qed.
Lemma vbound_sound : forall e f c0 cs, in_itv c0 (il_cst e) -> Forall2 (fun c t => in_itv c (t_itv t)) cs (il_terms e) -> (0 <= zn 1 f)%Z ->
  exists r, in_itv r (vector_bound_linexpr e f) /\ efun c0 cs (il_terms e) (rw f) = (if (zn 1 f =? 0)%Z then r else r * IZR (zn 1 f)).
Proof.
  intros e f c0 cs C F Z. pose proof (vfold_sound f cs (il_terms e) _ 0 F zero_in) as V. rewrite Rplus_0_l in V. unfold vector_bound_linexpr. fold (vfold (il_terms e) f (itv_of_int 0)). unfold efun. rewrite rw0. destruct (Z.eqb_spec (zn 1 f) 0) as [E|E].
  - rewrite E. exists (csum cs (il_terms e) (rw f)). split; auto. simpl. ring.
  - assert (IZR (zn 1 f) <> 0) by (apply not_0_IZR; auto). exists (csum cs (il_terms e) (rw f) / IZR (zn 1 f) + c0). split; [|field; auto]. apply itv_add_sound; auto. apply (itv_div_bound_sound (N:=exact_num)); auto. rewrite Q2R_inject. auto.
Qed.
Lemma bsgn_neg : forall b x, (bsgn b < 0)%Z -> le_rb x b -> x < 0.
Proof. intros [|q|] x B L; simpl in *; try tauto; try lia. assert (Q2R q < 0); [|lra]. unfold Q2R. apply Rmult_neg_pos || (apply Ropp_lt_cancel; rewrite Ropp_0, Ropp_mult_distr_l; apply Rmult_lt_0_compat; [rewrite <- opp_IZR; apply IZR_lt; destruct (Qnum q); simpl in *; lia|apply Rinv_0_lt_compat; apply IZR_lt; lia]). Qed.
Definition both (phi : vec -> R) (F : list pvec) (i : itv) : Prop := ub phi F (sup i) /\ ub (fopp phi) F (inf i).
Lemma ub_up : forall phi P f b b', ub phi P b -> le_bb b b' -> fpos (P ++ [f]) -> zn 0 f <> 0%Z -> (0 < zn 1 f)%Z -> (exists r, le_rb r b' /\ phi (rw f) = r * IZR (zn 1 f)) -> ub phi (P ++ [f]) b'.
Proof.
  intros phi P f b b' U LE FP Z0 Z (r & R & E). destruct b' as [|q|]; simpl in *; try tauto. intros g G. assert (GP := FP g G). destruct GP as (_ & GP). apply IZR_le in GP. apply in_snoc in G. assert (0 < IZR (zn 1 f)) by (apply IZR_lt; auto). destruct G as [G| ->].
  - destruct b as [|p|]; cbn in LE, U; try tauto; destruct (U g G) as (U1 & U2); split; auto. rewrite U2. rewrite Rmult_0_r. apply U1; auto. apply Qle_Rle in LE. nra.
  - split. split; intros; lia. rewrite E. nra.
Qed.
Lemma join_up : forall phi P f acc p r, both phi P acc -> fpos (P ++ [f]) -> zn 0 f <> 0%Z -> (0 < zn 1 f)%Z -> in_itv r p -> phi (rw f) = r * IZR (zn 1 f) -> both phi (P ++ [f]) (itv_join acc p).
Proof.
  intros phi P f acc p r (U1 & U2) FP Z0 Z (I1 & I2) E. assert (EO : fopp phi (rw f) = (- r) * IZR (zn 1 f)) by (unfold fopp; rewrite E; ring). unfold itv_join. destruct (itv_is_canonical_bottom acc) eqn:CB.
  - apply canonical_bottom_iff in CB. destruct CB as (p1 & p2 & CA & CS & P1 & P2). 
    assert (NV : forall g, In g P -> zn 1 g = 0%Z).
    { intros g G. rewrite CS in U1. rewrite CA in U2. destruct (U1 g G) as (_ & A). destruct (U2 g G) as (_ & B). unfold fopp in B. assert (GP : (0 <= zn 1 g)%Z) by (apply FP; apply in_or_app; auto). destruct (Z.eq_dec (zn 1 g) 0) as [|N]; auto. exfalso. assert (0 < IZR (zn 1 g)) by (apply IZR_lt; lia). nra. }
    split.
    + apply (ub_up phi P f MInf); auto; simpl; eauto. rewrite CS in U1. intros g G. split; auto. apply U1; auto.
    + apply (ub_up (fopp phi) P f MInf); auto; simpl; eauto. rewrite CA in U2. intros g G. split; auto. apply U2; auto.
  - destruct (itv_is_canonical_bottom p) eqn:CP. exfalso. apply (canonical_bottom_empty _ CP r). split; auto. split; simpl.
    + apply (ub_up phi P f (sup acc)); auto. apply bmax_ge_l. exists r. split; auto. apply bmax_spec. auto.
    + apply (ub_up (fopp phi) P f (inf acc)); auto. apply bmax_ge_l. exists (- r). split; auto. apply bmax_spec. auto.
Qed.
Theorem bound_lin_sound : forall e c0 cs F P acc, in_itv c0 (il_cst e) -> Forall2 (fun c t => in_itv c (t_itv t)) cs (il_terms e) -> fpos (P ++ F) -> both (efun c0 cs (il_terms e)) P acc -> both (efun c0 cs (il_terms e)) (P ++ F) (bound_lin_loop e F acc).
Proof.
  intros e c0 cs F P acc C CF. set (phi := efun c0 cs (il_terms e)). revert P acc. induction F as [|f F IH]; intros P acc FP B; simpl. rewrite app_nil_r. auto.
  assert (FF : (zn 0 f = 0%Z -> zn 1 f = 0%Z) /\ (0 <= zn 1 f)%Z) by (apply FP; apply in_or_app; simpl; auto). destruct FF as (F0 & F1).
  assert (FPS : fpos (P ++ [f])) by (intros g G; apply in_snoc in G; apply FP; apply in_or_app; simpl; destruct G; auto).
  assert (NX : forall acc, both phi (P ++ [f]) acc -> both phi (P ++ f :: F) (bound_lin_loop e F acc)). { intros a' A. rewrite app_snoc. apply IH; auto. rewrite <- app_snoc. auto. }
  assert (TOP : both phi (P ++ f :: F) itv_top) by (split; exact Logic.I).
  destruct (vbound_sound e f c0 cs C CF F1) as (r & R & E). fold phi in E. assert (EO : fopp phi (rw f) = - phi (rw f)) by auto. destruct B as (B1 & B2).
  assert (ZR : itv_is_zero (vector_bound_linexpr e f) = true -> zn 1 f = 0%Z -> both phi (P ++ [f]) acc).
  { intros Z Z1. apply is_zero_val with (c:=r) in Z; auto. rewrite Z1 in E. change ((0 =? 0)%Z) with true in E. cbv iota in E. split; apply ub_ray; auto; split; intros; lra. }
  destruct (Z.eqb_spec (zn 0 f) 0) as [Z0|Z0].
  - specialize (F0 Z0). destruct (itv_is_zero _) eqn:Z; auto.
  - destruct (Z.eqb_spec (zn 1 f) 0) as [Z1|Z1].
    + destruct (itv_is_zero _) eqn:Z; auto. destruct (Z.ltb_spec (bsgn (inf (vector_bound_linexpr e f))) 0) as [S|S].
      * assert (RP : 0 < r) by (pose proof (bsgn_neg _ _ S (proj1 R)); lra). assert (U2 : ub (fopp phi) (P ++ [f]) (inf acc)) by (apply ub_ray; auto; split; intros; [tauto|lra]).
        destruct (inf acc); try (apply NX; split; simpl; auto). split; exact Logic.I.
      * destruct (Z.ltb_spec (bsgn (sup (vector_bound_linexpr e f))) 0) as [S2|S2]; auto.
        assert (RP : r < 0) by (apply (bsgn_neg _ _ S2 (proj2 R))). assert (U2 : ub phi (P ++ [f]) (sup acc)) by (apply ub_ray; auto; split; intros; [tauto|lra]).
        destruct (sup acc); try (apply NX; split; simpl; auto). split; exact Logic.I.
    + apply NX. assert (ZP : (0 < zn 1 f)%Z) by lia. apply join_up with r; auto; split; auto.
Qed.
Theorem linexpr_sound : forall n e F x r, (forall t, In t (il_terms e) -> (S (t_dim t) < n)%nat) -> (0 < n)%nat -> fpos F -> generated n F (homog x) -> ival e x r -> in_itv r (matrix_bound_linexpr e F).
Proof.
  intros n e F x r D N FP G (c0 & r1 & C & T & ->). apply tval_csum in T. destruct T as (cs & CF & ->). destruct (bound_lin_sound e c0 cs F [] (mkItv MInf MInf) C CF FP) as (B1 & B2). split; intros f []. simpl in B1, B2.
  assert (L : flin n (efun c0 cs (il_terms e))) by (apply efun_lin; auto; apply Forall_forall; auto). replace (c0 + csum cs (il_terms e) (homog x)) with (efun c0 cs (il_terms e) (homog x)) by (unfold efun; simpl; ring).
  split. apply (ub_le n (fopp (efun c0 cs (il_terms e))) F _ x); auto. apply flin_opp; auto. apply (ub_le n _ F _ x); auto.
Qed.
(** exact for scalar expressions *)
Lemma vfold_point : forall f ts acc, Forall (fun t => itv_is_point (t_itv t) = true) ts -> itv_is_point acc = true -> itv_is_point (vfold ts f acc) = true.
Proof. intros f ts. induction ts as [|t ts IH]; intros acc F A; auto. inversion F; subst. unfold vfold. simpl. destruct (_ =? 0)%Z; apply IH; auto. apply point_add_E; auto. apply point_mul_num_E; auto. Qed.
Lemma bdiv_fin : forall p q, Q2R q <> 0 -> exists r, bdiv (N:=exact_num) (Fin p) (Fin q) = Fin r /\ Q2R r = Q2R p / Q2R q.
Proof.
  intros p q NZ. unfold bdiv. simpl. destruct (Z.eqb_spec (Z.sgn (Qnum p)) 0) as [E|E]; simpl.
  - exists 0%Q. split; auto. rewrite Q2R_0'. apply sgn_Q_zero in E. rewrite E. field. auto.
  - destruct (Z.eqb_spec (Z.sgn (Qnum q)) 0) as [E2|E2]. apply sgn_Q_zero in E2. congruence. exists (p / q)%Q. split; auto. apply Q2R_div. intros X. apply Qeq_eqR in X. rewrite Q2R_0' in X. auto.
Qed.
Lemma point_div_num_E : forall a q, Q2R q <> 0 -> itv_is_point a = true -> itv_is_point (itv_div_num (N:=exact_num) a q) = true.
Proof.
  intros a q NZ A. apply point_iff in A. destruct A as (p & s & E1 & E2 & E3). apply point_iff. unfold itv_div_num, itv_div_bound. rewrite E1, E2.
  destruct (0 <=? bsgn (Fin q))%Z; simpl bneg; simpl inf; simpl sup.
  - destruct (bdiv_fin p q NZ) as (r1 & R1 & R1'), (bdiv_fin s q NZ) as (r2 & R2 & R2'). rewrite R1, R2. exists r1, r2. repeat split; auto. rewrite R1', R2', E3. field. auto.
  - assert (NZ' : Q2R (- q) <> 0) by (rewrite Q2R_opp; lra). destruct (bdiv_fin p (- q) NZ') as (r1 & R1 & R1'), (bdiv_fin s (- q) NZ') as (r2 & R2 & R2'). rewrite R1, R2. exists r2, r1. repeat split; auto. rewrite R1', R2', E3. field. auto.
Qed.
Definition points_e (e : ilin) : Prop := itv_is_point (il_cst e) = true /\ Forall (fun t => itv_is_point (t_itv t) = true) (il_terms e).
Lemma vbound_point : forall e f, points_e e -> (0 <= zn 1 f)%Z -> itv_is_point (vector_bound_linexpr e f) = true.
Proof.
  intros e f (A & B) Z. unfold vector_bound_linexpr. fold (vfold (il_terms e) f (itv_of_int 0)). pose proof (vfold_point f (il_terms e) (itv_of_int 0) B eq_refl) as V. destruct (Z.eqb_spec (zn 1 f) 0); auto. apply point_add_E; auto. apply point_div_num_E; auto. rewrite Q2R_inject. apply not_0_IZR; auto.
Qed.
Definition hib (phi : vec -> R) (F : list pvec) (i : itv) : Prop := hi phi F (sup i) /\ hi (fopp phi) F (inf i).
Lemma att_max : forall phi P f b q, att phi P b -> (0 < zn 1 f)%Z -> phi (rw f) = Q2R q * IZR (zn 1 f) -> att phi (P ++ [f]) (bmax b (Fin q)).
Proof.
  intros phi P f b q A Z E. destruct (bmax_or b (Fin q)) as [-> | ->]. apply att_more; auto. exists f. split. apply in_or_app; simpl; auto. auto.
Qed.
Theorem bound_lin_exact : forall e c0 cs F P acc, points_e e -> in_itv c0 (il_cst e) -> Forall2 (fun c t => in_itv c (t_itv t)) cs (il_terms e) -> fpos (P ++ F) -> hib (efun c0 cs (il_terms e)) P acc -> hib (efun c0 cs (il_terms e)) (P ++ F) (bound_lin_loop e F acc).
Proof.
  intros e c0 cs F P acc PE C CF. set (phi := efun c0 cs (il_terms e)). revert P acc. induction F as [|f F IH]; intros P acc FP B; simpl. rewrite app_nil_r. auto.
  assert (FF : (zn 0 f = 0%Z -> zn 1 f = 0%Z) /\ (0 <= zn 1 f)%Z) by (apply FP; apply in_or_app; simpl; auto). destruct FF as (F0 & F1).
  assert (FPS : fpos (P ++ [f])) by (intros g G; apply in_snoc in G; apply FP; apply in_or_app; simpl; destruct G; auto).
  assert (NX : forall acc, hib phi (P ++ [f]) acc -> hib phi (P ++ f :: F) (bound_lin_loop e F acc)). { intros a' A. rewrite app_snoc. apply IH; auto. rewrite <- app_snoc. auto. }
  destruct (vbound_sound e f c0 cs C CF F1) as (r & R & E). fold phi in E. assert (EO : fopp phi (rw f) = - phi (rw f)) by auto. pose proof (vbound_point e f PE F1) as PT. destruct B as (B1 & B2).
  set (p := vector_bound_linexpr e f) in *. pose proof PT as PT'. apply point_iff in PT'. destruct PT' as (p1 & p2 & I1 & I2 & I3). assert (RV : r = Q2R p2) by (apply (point_val _ _ PT) in R; rewrite I2 in R; auto).
  assert (ZI : itv_is_zero p = true <-> r = 0). { unfold itv_is_zero. rewrite I1, I2. simpl. rewrite andb_true_iff, !Z.eqb_eq, !sgn_Q_zero. lra. }
  assert (AP : forall psi, zn 1 f = 0%Z -> (0 < psi (rw f) \/ (zn 0 f = 0%Z /\ psi (rw f) <> 0)) -> att psi (P ++ [f]) PInf). { intros psi Z D. exists f. split; auto. apply in_or_app; simpl; auto. }
  assert (HP : forall psi, att psi (P ++ [f]) PInf -> hi psi (P ++ [f]) PInf). { intros psi A. split; auto. exact Logic.I. }
  assert (ZR : itv_is_zero p = true -> zn 1 f = 0%Z -> hib phi (P ++ [f]) acc).
  { intros Z Z1. apply ZI in Z. rewrite Z1 in E. change ((0 =? 0)%Z) with true in E. cbv iota in E. split; apply hi_ray; auto; split; intros; lra. }
  destruct (Z.eqb_spec (zn 0 f) 0) as [Z0|Z0].
  - specialize (F0 Z0). destruct (itv_is_zero p) eqn:Z; auto. rewrite F0 in E. change ((0 =? 0)%Z) with true in E. cbv iota in E. assert (r <> 0) by (intros X; apply ZI in X; congruence). rewrite app_snoc. split; apply hi_pinf; apply AP; auto; right; split; auto; lra.
  - destruct (Z.eqb_spec (zn 1 f) 0) as [Z1|Z1].
    + destruct (itv_is_zero p) eqn:Z; auto. assert (RN : r <> 0) by (intros X; apply ZI in X; congruence).
      destruct (Z.ltb_spec (bsgn (inf p)) 0) as [S|S].
      * assert (RP : 0 < r) by (pose proof (bsgn_neg _ _ S (proj1 R)); lra). assert (U2 : hi (fopp phi) (P ++ [f]) (inf acc)) by (apply hi_ray; auto; split; intros; [tauto|lra]). assert (U1 : att phi (P ++ [f]) PInf) by (apply AP; auto; lra).
        destruct (inf acc); try (apply NX; split; simpl; auto). rewrite app_snoc. split; apply hi_pinf; auto; apply U2.
      * destruct (Z.ltb_spec (bsgn (sup p)) 0) as [S2|S2].
        -- assert (RP : r < 0) by (apply (bsgn_neg _ _ S2 (proj2 R))). assert (U2 : hi phi (P ++ [f]) (sup acc)) by (apply hi_ray; auto; split; intros; [tauto|lra]). assert (U1 : att (fopp phi) (P ++ [f]) PInf) by (apply AP; auto; lra).
           destruct (sup acc); try (apply NX; split; simpl; auto). rewrite app_snoc. split; apply hi_pinf; auto; apply U2.
        -- exfalso. rewrite I1 in S. rewrite I2 in S2. simpl in S, S2. assert (A1 : 0 <= Q2R p1). { destruct (Qlt_le_dec p1 0) as [L|L]. unfold Qlt in L. simpl in L. destruct (Qnum p1); simpl in *; lia. apply Qle_Rle in L. rewrite Q2R_0' in L. auto. } assert (A2 : 0 <= Q2R p2). { destruct (Qlt_le_dec p2 0) as [L|L]. unfold Qlt in L. simpl in L. destruct (Qnum p2); simpl in *; lia. apply Qle_Rle in L. rewrite Q2R_0' in L. auto. } lra.
    + apply NX. assert (ZP : (0 < zn 1 f)%Z) by lia. assert (J : both phi (P ++ [f]) (itv_join acc p)) by (apply join_up with r; auto; split; [apply B1|apply B2]). destruct J as (J1 & J2). split; split; auto.
      * unfold itv_join. destruct (itv_is_canonical_bottom acc) eqn:CB. rewrite I2. exists f. rewrite E, RV. split. apply in_or_app; simpl; auto. auto. destruct (itv_is_canonical_bottom p) eqn:CP. exfalso. apply (canonical_bottom_empty _ CP r R). simpl. rewrite I2. apply att_max; auto. apply B1. rewrite E, RV. auto.
      * unfold itv_join. destruct (itv_is_canonical_bottom acc) eqn:CB. rewrite I1. exists f. rewrite EO, E, RV. split. apply in_or_app; simpl; auto. split; auto. rewrite I3. ring. destruct (itv_is_canonical_bottom p) eqn:CP. exfalso. apply (canonical_bottom_empty _ CP r R). simpl. rewrite I1. apply att_max; auto. apply B2. rewrite EO, E, RV, I3. ring.
Qed.
Theorem linexpr_exact : forall n e F x0, (forall t, In t (il_terms e) -> (S (t_dim t) < n)%nat) -> (0 < n)%nat -> points_e e -> fpos F -> generated n F (homog x0) -> forall y, in_itv y (matrix_bound_linexpr e F) <-> exists x, generated n F (homog x) /\ ival e x y.
Proof.
  intros n e F x0 D N PE FP G y. split; [|intros (x & GX & V); eapply linexpr_sound; eauto]. pose proof PE as (PC & PT).
  set (c0 := Q2R (bfinq (sup (il_cst e)))). set (cs := map (fun t => Q2R (bfinq (sup (t_itv t)))) (il_terms e)). assert (C : in_itv c0 (il_cst e)) by (apply point_ex; auto).
  assert (CF : Forall2 (fun c t => in_itv c (t_itv t)) cs (il_terms e)). { unfold cs. clear - PT. induction PT; simpl; constructor; auto. apply point_ex; auto. }
  destruct (bound_lin_exact e c0 cs F [] (mkItv MInf MInf) PE C CF FP) as ((U1 & A1) & (U2 & A2)). split; apply hi_nil. simpl app in *. fold (matrix_bound_linexpr e F) in *.
  assert (L : flin n (efun c0 cs (il_terms e))) by (apply efun_lin; auto; apply Forall_forall; auto).
  intros Y. destruct (matrix_bound_linexpr e F) as [a b]. apply (range_spec n _ F a b x0 N L FP G U1 A1 U2 A2) in Y. destruct Y as (x & GX & <-). exists x. split; auto. exists c0, (csum cs (il_terms e) (homog x)). split; auto. split. apply csum_tval; auto. unfold efun. simpl. ring.
Qed.

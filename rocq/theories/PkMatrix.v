(** Adding rows to the constraints, or to the generators, of a polyhedron: sets of points. *)
From Coq Require Import ZArith Bool List Lia Reals Lra Permutation.
Import ListNotations.
From Verif Require Import PkCone PkVec PkCherni PkCherniFacts PkSpec PkFarkas PkRank PkSimplifyEnd PkMinimize PkPoly PkPolyFacts PkPolyLeq PkPolyMeet PkLin PkRepr.
Open Scope R_scope.

Lemma sort_len : forall n mat, Forall (lenS n) mat -> Forall (lenS n) (matrix_sort_rows mat).
Proof. intros n mat H. eapply Permutation_Forall; [|exact H]. symmetry. apply isort_perm. Qed.
Lemma sort_cone : forall mat x, cone (matrix_sort_rows mat) x <-> cone mat x. Proof. intros. apply cone_perm. apply isort_perm. Qed.
Lemma matrix_con : forall lazy destr pa i r (P : vec -> Prop) A mat, repr pa i r P -> pC pa = Some A -> Forall (lenS (d1 i r)) mat -> (lazy = true \/ (pF pa <> None /\ psatC pa <> None)) ->
  exists po pa', poly_meet_matrix true lazy destr pa mat = Some (po, pa') /\ repr po i r (fun x => P x /\ poly_con mat x) /\ (destr = false -> repr pa' i r P).
Proof.
  intros lazy destr pa i r P A mat HP EC LM HL. assert (PN := repr_pn _ _ _ _ HP). rewrite <- PN in LM. assert (HP' := HP). destruct HP' as ((SW & PO) & I1 & R1 & G).
  assert (PO2 : forall x, cone A x -> 0 <= x 0%nat). { destruct PO as [B|(P1 & _)]. unfold isbot in B. rewrite EC in B. destruct (pF pa); discriminate. intros x X. apply P1. rewrite (cK_C pa A EC). auto. }
  assert (GA : forall x, P x <-> poly_con A x). { intros x. rewrite <- G. unfold gamma, poly_con. apply cK_C; auto. }
  destruct lazy.
  - destruct (matrix_lazy true destr pa A mat SW EC LM) as (po & E & SW' & I2 & R2 & HC & HF & K). eexists po, _. split. exact E. split.
    + split; [split; [auto|]|split; [congruence|split; [congruence|]]]. right. split. intros x X. apply K in X. apply PO2. tauto. congruence. intros x. unfold gamma. rewrite K, GA. tauto.
    + intros ->. apply (sorted_rep true). auto.
  - destruct HL as [HL|(HF & HS)]; [discriminate|]. destruct (pF pa) as [F|] eqn:PF; [|congruence]. destruct (psatC pa) as [s|] eqn:PS; [|congruence]. destruct (matrix_strict true destr pa A F mat s SW EC PF PS LM) as (po & E & SW' & I2 & R2 & H). eexists po, _. split. exact E. split.
    + destruct H as [(M & NE & K)|(B & _ & N)].
      * split; [split; [auto|]|split; [congruence|split; [congruence|]]]. right. split. intros x X. apply K in X. apply PO2. tauto. intros _. destruct (NE eq_refl) as (x & X). exists (homog x). split. auto. simpl. lra. intros x. unfold gamma. rewrite K, GA. tauto.
      * apply repr_bot; try congruence. intros x (X1 & X2). apply (N PO2 x). split; auto. apply GA; auto.
    + intros ->. auto.
Qed.
(** generators *)
Lemma gen_app : forall n F M x, generated n (F ++ M) x <-> exists y z, generated n F y /\ generated n M z /\ veq n x (lin2 1 y 1 z).
Proof.
  intros n F M x. split.
  - revert x. apply (gen_ind' n (F ++ M) (fun x => exists y z, generated n F y /\ generated n M z /\ veq n x (lin2 1 y 1 z))).
    + intros x Z. exists (fun _ => 0), (fun _ => 0). split. apply gen_zero; auto. split. apply gen_zero; auto. intros i Hi. unfold lin2. rewrite Z by auto. ring.
    + intros f x k y I K G (a & b & A & B & E) V. apply in_app_iff in I. destruct I as [I|I].
      * exists (lin2 1 a k (rv (tl f))), b. split. apply gen_step with f a k; auto. intros i _; auto. split; auto. intros i Hi. rewrite V by auto. unfold lin2. rewrite E by auto. unfold lin2. ring.
      * exists a, (lin2 1 b k (rv (tl f))). split; auto. split. apply gen_step with f b k; auto. intros i _; auto. intros i Hi. rewrite V by auto. unfold lin2. rewrite E by auto. unfold lin2. ring.
  - intros (y & z & Y & Z & E). apply generated_ext with (lin2 1 y 1 z); auto.
    assert (IN : forall G H x, (forall f, In f G -> In f H) -> generated n G x -> generated n H x). { intros G H x0 I. revert x0. apply (gen_ind' n G (fun x => generated n H x)). intros; apply gen_zero; auto. intros f x0 k y0 If K _ GH V. apply gen_step with f x0 k; auto. }
    apply generated_lin; try lra. apply (IN F); auto. intros; apply in_app_iff; auto. apply (IN M); auto. intros; apply in_app_iff; auto.
Qed.
Lemma matrix_gen : forall lazy destr pa i r (P : vec -> Prop) F mat, repr pa i r P -> pF pa = Some F -> Forall (lenS (d1 i r)) mat -> Forall (fun q => zn 1 q = 0%Z) mat -> (lazy = true \/ (pC pa <> None /\ psatF pa <> None)) ->
  exists po pa', poly_meet_matrix false lazy destr (poly_dual pa) mat = Some (po, pa') /\ repr (poly_dual po) i r (fun y => exists x z, P x /\ generated (d1 i r) mat z /\ forall j, (j < i + r)%nat -> y j = x j + z (S j)) /\ (destr = false -> repr (poly_dual pa') i r P).
Proof.
  intros lazy destr pa i r P F mat HP EF LM ZM HL. assert (PN := repr_pn _ _ _ _ HP). assert (LM' := LM). rewrite <- PN in LM'. assert (HP' := HP). destruct HP' as ((SW & PO) & I1 & R1 & G).
  assert (SD := swf_dual pa SW). assert (LF := swf_F pa F SW EF). assert (EC : pC (poly_dual pa) = Some F) by auto.
  destruct PO as [B|(P1 & P2)]. { unfold isbot in B. rewrite EF in B. destruct (pC pa); discriminate. }
  assert (Z0 : forall z, generated (d1 i r) mat z -> z 0%nat = 0). { apply (gen_ind' (d1 i r) mat (fun z => z 0%nat = 0)). intros x Z. apply Z. unfold d1; lia. intros f x k y I K GM X V. rewrite V by (unfold d1; lia). unfold lin2. rewrite X. unfold rv. rewrite <- zn_tl. rewrite Forall_forall in ZM. rewrite (ZM f I). ring. }
  assert (MAIN : forall po, swf po -> pint po = i -> preal po = r -> isbot po = false -> (forall x, cK po x <-> cone F x /\ cone mat x) -> repr (poly_dual po) i r (fun y => exists x z, P x /\ generated (d1 i r) mat z /\ forall j, (j < i + r)%nat -> y j = x j + z (S j))).
  { intros po SWo Io Ro NB K. assert (PNo : pn po = d1 i r) by (unfold pn, pdim, d1; congruence).
    assert (KD : forall y, cK (poly_dual po) y <-> exists x z, cK pa x /\ generated (d1 i r) mat z /\ veq (d1 i r) y (lin2 1 x 1 z)).
    { intros y. rewrite cK_dual by auto. assert (Q : (forall x, cK po x -> 0 <= dt (pn po) y x) <-> generated (d1 i r) (F ++ mat) y). { rewrite bidual by (apply Forall_app; split; auto; rewrite <- PN; auto). rewrite PNo. split; intros H x X. apply H. apply K. apply cone_app; auto. apply H. apply cone_app. apply K; auto. }
      rewrite Q, gen_app. split; intros (a & b & A1 & B1 & E); exists a, b; split; auto. rewrite (cK_F pa F), PN; auto. rewrite (cK_F pa F), PN in A1; auto. }
    split; [split; [apply swf_dual; auto|]|split; [auto|split; [auto|]]].
    - right. split. intros y Y. apply KD in Y. destruct Y as (x & z & X & Z & E). rewrite E by (unfold d1; lia). unfold lin2. rewrite (Z0 z Z). specialize (P1 x X). lra.
      intros _. destruct P2 as (x & X & X0). congruence. exists x. split; auto. apply KD. exists x, (fun _ => 0). split; auto. split. apply gen_zero; auto. intros j _. unfold lin2. ring.
    - intros y. unfold gamma. rewrite KD. split; intros (x & z & X & Z & E).
      + exists (fun j => x (S j)), z. assert (x 0%nat = 1). { assert (E0 := E 0%nat ltac:(unfold d1; lia)). unfold lin2 in E0. rewrite (Z0 z Z) in E0. simpl in E0. lra. } split. apply G. unfold gamma. apply cK_ext with x; auto. apply veq_sym. apply homog_eta; auto. split; auto. intros j Hj. assert (E1 := E (S j) ltac:(unfold d1; lia)). unfold lin2 in E1. simpl in E1. lra.
      + exists (homog x), z. split. apply G; auto. split; auto. intros [|j] Hj; unfold lin2; simpl. rewrite (Z0 z Z). ring. rewrite E by (unfold d1 in Hj; lia). ring. }
  destruct lazy.
  - destruct (matrix_lazy false destr (poly_dual pa) F mat SD EC LM') as (po & E & SW' & I2 & R2 & HC & HF & K). eexists po, _. split. exact E. split.
    + apply MAIN; auto. simpl in I2; congruence. simpl in R2; congruence. unfold isbot. destruct (pC po); try discriminate. destruct (pF po); auto.
    + intros ->. apply (sorted_rep false). unfold rep. simpl. rewrite dual_dual. auto.
  - destruct HL as [HL|(HF & HS)]; [discriminate|]. destruct (pC pa) as [C|] eqn:PC; [|congruence]. destruct (psatF pa) as [s|] eqn:PS; [|congruence]. destruct (matrix_strict false destr (poly_dual pa) F C mat s SD EC PC PS LM') as (po & E & SW' & I2 & R2 & H). eexists po, _. split. exact E. split.
    + destruct H as [(M & _ & K)|(B & Q & N)]; [|discriminate]. apply MAIN; auto. simpl in I2; congruence. simpl in R2; congruence. unfold minimal2, isbot in *. destruct (pC po); try discriminate. destruct (pF po); auto.
    + intros ->. rewrite dual_dual. auto.
Qed.

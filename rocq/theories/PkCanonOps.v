(** The other operations keep polyhedra honest: constraints of the user, boxes, projection, removal and permutation of
    dimensions, assignment and substitution. *)
From Coq Require Import ZArith QArith Bool List Lia Reals Lra Permutation Sorted.
Import ListNotations.
From Verif Require Import BoxDims OctResize3 Bound BoundFacts Itv Linexpr LinexprFacts ItvFacts ItvLin ItvLinFacts ItvLinCons ItvLinInt ItvLinExact ItvLinApi PkCone PkVec PkCherni PkCherniFacts PkSimplify PkPoly PkPolyFacts PkPolyLeq PkPolyMeet PkLin Box BoxMeet PkOps PkUserBound PkMatrix PkEmb PkDims PkProj PkRepr PkAssign PkUser PkUserRow PkUserCons PkUserMeet PropPkMinimize PkCanon PkCanonFacts PkCanonNrm PkCanonUniq PkCanonHon PkCanonClos PkSimplifyThm PkSimplifyEnd PkSpec PkMinimize.
Open Scope nat_scope.

Lemma hon_flags : forall i r C F s1 s2 n1 n2, (forall c, C = Some c -> Forall nrm c) -> (forall f, F = Some f -> Forall nrm f) -> hon (mkPoly i r C false F false s1 s2 n1 n2 false false).
Proof. intros i r C F s1 s2 n1 n2 A B. split; [|split]; cbn [pC pF pCs pFs pconsgauss pgengauss]. intros c E. split; auto. intros; discriminate. intros f E. split; auto. intros; discriminate. intros c f E1 E2. split; intros; discriminate. Qed.
Lemma honC : forall p C, hon p -> pC p = Some C -> Forall nrm C. Proof. intros p C H. apply (hU_C true p C H). Qed.
Lemma honF : forall p F, hon p -> pF p = Some F -> Forall nrm F. Proof. intros p F H. apply (hU_F true p F H). Qed.
Lemma map_nrm : forall (f : pvec -> pvec) l, (forall q, In q l -> nrm q -> nrm (f q)) -> Forall nrm l -> Forall nrm (map f l).
Proof. intros f l H F. rewrite Forall_forall in *. intros q I. apply in_map_iff in I. destruct I as (p & <- & I). auto. Qed.
Lemma hon_chern_if : forall (b : bool) p i r S, repr p i r S -> hon p -> hon (if b then poly_chernikova p else p). Proof. intros [] p i r S R H; auto. apply hon_chern; auto. apply R. Qed.
Lemma hon_obtF : forall p i r S, repr p i r S -> hon p -> hon (poly_obtain_F p). Proof. intros p i r S R H. unfold poly_obtain_F. destruct (pF p); auto. apply hon_chern; auto. apply R. Qed.
Lemma hon_obtC : forall p i r S, repr p i r S -> hon p -> hon (poly_obtain_C p). Proof. intros p i r S R H. unfold poly_obtain_C. destruct (pC p); auto. apply hon_chern; auto. apply R. Qed.
Lemma norm_len : forall q, length (vector_normalize q) = length q.
Proof. intros [|s t]; auto. destruct (normalize_spec s t) as (g & _ & t' & -> & L & _). simpl. congruence. Qed.
Lemma hon_chern_gen : forall i r F b, Forall (lenS (S (i + r))) F -> Forall nrm F -> forall n1 n2, hon (poly_chernikova (mkPoly i r None false (Some F) b None None n1 n2 false false)).
Proof. intros i r F b L N n1 n2. apply hon_chern. unfold swf. simpl. split; auto. apply hon_generators; auto. Qed.
Lemma sort_nrm : forall l, Forall nrm l -> Forall nrm (matrix_sort_rows l).
Proof. intros l F. apply (nrm_perm _ l); auto. unfold matrix_sort_rows. apply isort_perm. Qed.
Lemma unit_nrm : forall d c, c < d -> nrm (unit_row d c).
Proof.
  intros d c H. apply nrm_one. unfold unit_row. replace (d + 2) with (S (S d)) by lia. cbn [seq map tl]. right. apply in_map_iff. exists (c + 2). rewrite Nat.eqb_refl. split; auto. apply in_seq. lia.
Qed.
(** ** projection *)
Theorem hon_forget : forall lazy destr pa tdim project i r S po pa', repr pa i r S -> hon pa -> (forall t, In t tdim -> t < i + r) -> pk_forget_array lazy destr pa tdim project = Some (po, pa') -> hon po /\ hon pa'.
Proof.
  intros lazy destr pa0 tdim project i r S po pa' R0 H0 LT E. unfold pk_forget_array in E.
  assert (H : hon (if lazy then poly_obtain_F pa0 else poly_chernikova pa0)) by (destruct lazy; [apply (hon_obtF _ _ _ _ R0)|apply hon_chern; [apply R0|]]; auto).
  assert (R : repr (if lazy then poly_obtain_F pa0 else poly_chernikova pa0) i r S) by (destruct lazy; [apply obtain_F_repr|apply chern_repr]; auto).
  assert (M : lazy = false -> isbot (if lazy then poly_obtain_F pa0 else poly_chernikova pa0) = true \/ minimal2 (if lazy then poly_obtain_F pa0 else poly_chernikova pa0) = true) by (intros ->; apply (chern_repr pa0 i r S R0)).
  set (pa := if lazy then poly_obtain_F pa0 else poly_chernikova pa0) in *. clearbody pa. assert (W : swf pa) by apply R. assert (PD : pint pa = i /\ preal pa = r) by (destruct R as (_ & X & Y & _); auto). destruct PD as [PI PR].
  destruct (pF pa) as [F|] eqn:EF. 2: { injection E as <- <-. split. apply hon_bottom. destruct destr; auto. apply hon_bottom. }
  destruct project.
  - assert (NF : Forall nrm (map (project_row tdim) F)) by (apply map_nrm; [intros; apply nrm_normalize|apply (honF pa); auto]).
    assert (LF : Forall (lenS (Datatypes.S (i + r))) (map (project_row tdim) F)). { assert (L := swf_C (poly_dual pa) F (swf_dual pa W) EF). change (pn (poly_dual pa)) with (pn pa) in L. unfold pn, pdim in L. rewrite PI, PR in L. rewrite Forall_forall in *. intros q I. apply in_map_iff in I. destruct I as (p & <- & I). unfold lenS, project_row. rewrite norm_len, map_length, seq_length. apply (L p I). }
    assert (Q : forall n1 n2, hon (if lazy then mkPoly i r None false (Some (map (project_row tdim) F)) (pFs pa) None None n1 n2 false false else poly_chernikova (mkPoly i r None false (Some (map (project_row tdim) F)) (pFs pa) None None n1 n2 false false))).
    { intros n1 n2. destruct lazy. apply hon_generators; auto. apply hon_chern_gen; auto. }
    rewrite PI, PR in E. injection E as <- <-. split. apply Q. destruct destr; auto.
  - assert (PN : pn pa = Datatypes.S (i + r)) by (unfold pn, pdim; congruence). assert (PDd : pdim pa = i + r) by (unfold pdim; congruence). rewrite PDd in E.
    assert (ND : Forall nrm (matrix_sort_rows (map (unit_row (i + r)) tdim))). { apply sort_nrm. apply Forall_forall. intros q I. apply in_map_iff in I. destruct I as (c & <- & I). apply unit_nrm. auto. }
    assert (LD : Forall (lenS (pn pa)) (matrix_sort_rows (map (unit_row (i + r)) tdim))) by (apply sort_len; rewrite PN; apply units_len).
    destruct (if lazy then Some (poly_dual pa) else poly_obtain_satC (poly_dual pa)) as [da|] eqn:ED; try discriminate. destruct (poly_meet_matrix false lazy destr da (matrix_sort_rows (map (unit_row (i + r)) tdim))) as [[p q]|] eqn:EM; try discriminate. injection E as <- <-.
    assert (Hd : hU false (poly_dual pa)) by (unfold hU; simpl; rewrite dual_dual; auto). assert (X : hU false da /\ swf da /\ pn da = pn pa).
    { destruct lazy. injection ED as <-. split; auto. split; auto. apply swf_dual; auto. split. apply (hU_sat false _ _ Hd ED). destruct (M eq_refl) as [B|B]. { unfold isbot in B. rewrite EF in B. destruct (pC pa); discriminate. }
      destruct (satC_rep false (poly_dual pa) i r S) as (q0 & Q1 & Q2 & _). unfold rep; simpl; rewrite dual_dual; auto. rewrite min_dual; auto. rewrite ED in Q1. injection Q1 as <-. split. apply (rep_swf _ _ _ _ _ Q2). destruct Q2 as (_ & X & Y & _). rewrite U_int in X. rewrite U_real in Y. unfold pn, pdim. congruence. }
    destruct X as (X1 & X2 & X3). rewrite <- X3 in LD. destruct (hU_matrix false lazy destr da _ p q X2 X1 LD ND EM) as [Y Z]. split; auto.
Qed.
(** ** removal of dimensions *)
Theorem hon_remove : forall alg destr pa pos ni i r S, repr pa i r S -> hon pa -> box_rem_ok (i + r) pos -> ni <= length pos -> ni <= i -> length pos - ni <= r -> let (po, pa') := pk_remove_dimensions alg destr pa pos ni in hon po /\ hon pa'.
Proof.
  intros alg destr pa0 pos ni i r S R0 H0 OK N1 N2 N3. unfold pk_remove_dimensions.
  assert (H : hon (if alg then poly_chernikova pa0 else poly_obtain_F pa0)) by (destruct alg; [apply hon_chern; [apply R0|]|apply (hon_obtF _ _ _ _ R0)]; auto).
  assert (R : repr (if alg then poly_chernikova pa0 else poly_obtain_F pa0) i r S) by (destruct alg; [apply chern_repr|apply obtain_F_repr]; auto).
  set (pa := if alg then poly_chernikova pa0 else poly_obtain_F pa0) in *. clearbody pa. assert (W : swf pa) by apply R. assert (PD : pint pa = i /\ preal pa = r) by (destruct R as (_ & X & Y & _); auto). destruct PD as [PI PR]. rewrite PI, PR.
  destruct (pF pa) as [F|] eqn:EF. 2: { split. apply hon_bottom. destruct destr; auto. apply hon_bottom. }
  assert (Q : hon (if alg then poly_chernikova (mkPoly (i - ni) (r - (length pos - ni)) None false (Some (map (fun q => vector_normalize (vector_remove destr pos q)) F)) false None None 0 0 false false) else mkPoly (i - ni) (r - (length pos - ni)) None false (Some (map (fun q => vector_normalize (vector_remove destr pos q)) F)) false None None 0 0 false false)).
  { assert (NF : Forall nrm (map (fun q => vector_normalize (vector_remove destr pos q)) F)) by (apply map_nrm; [intros; apply nrm_normalize|apply (honF pa); auto]). destruct alg. 2: apply hon_generators; auto. apply hon_chern_gen; auto. assert (L := swf_C (poly_dual pa) F (swf_dual pa W) EF). change (pn (poly_dual pa)) with (pn pa) in L. unfold pn, pdim in L. rewrite PI, PR in L. rewrite Forall_forall in *. intros q I. apply in_map_iff in I. destruct I as (p & <- & I). destruct (remove_rimg destr (i + r) pos p OK (L p I)) as [_ X]. replace (i - ni + (r - (length pos - ni))) with (i + r - length pos) by lia. exact X. }
  split; auto. destruct destr; auto.
Qed.
(** ** permutation of dimensions *)
Lemma entries_nrm : forall q q', (forall x, In x (tl q) -> x = 0%Z \/ In x (tl q')) -> (forall x, In x (tl q') -> x = 0%Z \/ In x (tl q)) -> nrm q -> nrm q'.
Proof.
  intros q q' H K N. unfold nrm in *. replace (zgcd (tl q')) with (zgcd (tl q)); auto. apply Z.divide_antisym_nonneg; try apply zgcd_nonneg; apply zgcd_divide; intros x X.
  destruct (K x X) as [->|I]. apply Z.divide_0_r. apply (proj1 (zgcd_divide (tl q) _) (Z.divide_refl _)); auto. destruct (H x X) as [->|I]. apply Z.divide_0_r. apply (proj1 (zgcd_divide (tl q') _) (Z.divide_refl _)); auto.
Qed.
Lemma in_tl : forall (q : pvec) x, In x (tl q) <-> exists j, j + 1 < length q /\ zn (j + 1) q = x.
Proof.
  intros q x. split. intros I. apply (In_nth _ _ 0%Z) in I. destruct I as (j & J & <-). exists j. destruct q as [|a q]; simpl in *. lia. split. lia. rewrite Nat.add_comm. auto.
  intros (j & J & <-). destruct q as [|a q]; simpl in *. lia. rewrite Nat.add_comm. unfold zn. simpl. apply nth_In. lia.
Qed.
Lemma emb_nrm : forall d d' tau new q q', (forall j, j < d -> tau j < d') -> (forall c, c < d' -> (exists j, j < d /\ tau j = c) \/ In c new) -> lenS (S d) q -> emb d d' tau new q q' -> nrm q -> nrm q'.
Proof.
  intros d d' tau new q q' TL CO L (L' & _ & E1 & E2 & E3). unfold lenS in L, L'. apply entries_nrm; intros x X; apply in_tl in X; destruct X as (j & J & <-).
  - right. apply in_tl. destruct j as [|j]. exists 0. split. lia. exact E1. exists (S (tau j)). assert (T := TL j ltac:(lia)). split. lia. replace (S (tau j) + 1) with (tau j + 2) by lia. replace (S j + 1) with (j + 2) by lia. apply E2. lia.
  - destruct j as [|j]. right. apply in_tl. exists 0. split. lia. symmetry. exact E1. replace (S j + 1) with (j + 2) by lia. destruct (CO j ltac:(lia)) as [(k & K & <-)|I]. right. apply in_tl. exists (S k). split. lia. replace (S k + 1) with (k + 2) by lia. symmetry. apply E2; auto. left. apply E3; auto.
Qed.

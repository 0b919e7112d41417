(** Removal, projection, expansion and folding of dimensions of polyhedra, addition of rays: sets of points. *)
From Coq Require Import ZArith Bool List Lia Reals Lra Sorted Permutation.
Import ListNotations.
From Verif Require Import OctResize2 OctResize3 Box BoxDims PkCone PkVec PkCherni PkCherniFacts PkSpec PkFarkas PkRank PkSimplifyEnd PkMinimize PkPoly PkPolyFacts PkPolyLeq PkPolyMeet PkLin PkOps PkRepr PkAssign PkMatrix PkEmb PkDims.
Open Scope R_scope.
Opaque vector_normalize.

(** * Removal *)
Definition rho (d : nat) (pos : list nat) (y : nat) : nat := rem_loop false (fun i => i) pos (d - length pos) 0 0 (fun _ => 0%nat) y.
Lemma rem_gen : forall {A : Type} inplace (src : nat -> A) (z : A) pos d, box_rem_ok d pos -> forall y, (y < d - length pos)%nat ->
  exists x, (x < d)%nat /\ ~ In x pos /\ (x = y + clt pos x)%nat /\ rem_loop inplace src pos (d - length pos) 0 0 (if inplace then src else fun _ => z) y = src x.
Proof.
  intros A inplace src z pos d (S & L) y Y. apply (rem_loop_spec inplace src pos d S L (d - length pos)%nat 0%nat 0%nat); auto; try (intros; lia). intros t T. pose proof (ssorted_lt pos 0 t S ltac:(lia) ltac:(lia)). lia. intros ->. auto.
Qed.
Lemma rho_spec : forall d pos y, box_rem_ok d pos -> (y < d - length pos)%nat -> (rho d pos y < d)%nat /\ ~ In (rho d pos y) pos /\ (rho d pos y = y + clt pos (rho d pos y))%nat.
Proof. intros d pos y OK Y. destruct (rem_gen false (fun i : nat => i) 0%nat pos d OK y Y) as (x & A & B & C & D). unfold rho. rewrite D. auto. Qed.
Lemma rho_inv : forall d pos x, box_rem_ok d pos -> (x < d)%nat -> ~ In x pos -> (x - clt pos x < d - length pos)%nat /\ rho d pos (x - clt pos x) = x.
Proof. intros d pos x OK X N. destruct (rem_back d pos x OK X N) as (A & B). split; auto. destruct (rho_spec d pos _ OK A) as (C & D & E). apply (rem_inj' d pos); auto. lia. Qed.
Lemma rem_gen2 : forall {A : Type} inplace (src : nat -> A) (z : A) pos d, box_rem_ok d pos -> forall y, (y < d - length pos)%nat ->
  rem_loop inplace src pos (d - length pos) 0 0 (if inplace then src else fun _ => z) y = src (rho d pos y).
Proof.
  intros A inplace src z pos d OK y Y. destruct (rem_gen inplace src z pos d OK y Y) as (x & B & C & D & E). rewrite E. f_equal. destruct (rho_spec d pos y OK Y) as (F & G & H). apply (rem_inj' d pos); auto. lia.
Qed.
Definition Sel (sel : nat -> nat) (x : vec) : vec := fun i => match i with O => x O | S i => x (S (sel i)) end.
Lemma Sel_lin : forall n n' sel, (forall i, (i < n')%nat -> (sel i < n)%nat) -> linear (S n) (S n') (Sel sel).
Proof. intros n n' sel H. split. intros a x b y [|i] _; reflexivity. intros x y V [|i] Hi; simpl; apply V. lia. specialize (H i ltac:(lia)). lia. Qed.
Lemma remove_row : forall inplace d pos q, box_rem_ok d pos -> lenS (S d) q -> let w := vector_remove inplace pos q in
  lenS (S (d - length pos)) w /\ zn 0 w = zn 0 q /\ zn 1 w = zn 1 q /\ forall y, (y < d - length pos)%nat -> zn (y + 2) w = zn (rho d pos y + 2) q.
Proof.
  intros inplace d pos q OK LQ. unfold vector_remove. assert (LQ2 : length q = (d + 2)%nat) by (unfold lenS in LQ; unfold pvec in *; lia). rewrite LQ2. replace (d + 2 - 2)%nat with d by lia.
  split. unfold lenS. rewrite fs_len; lia. split. apply fs_01. lia. split. apply fs_01. lia. intros y Y. rewrite fs_zn by (auto; lia). rewrite (rem_gen2 inplace (fun i => zn (i + 2) q) 0%Z pos d); auto.
Qed.
Lemma row_rimg : forall n' A f (w : pvec), lenS n' w -> zn 0 w = zn 0 f -> (forall i, (i < n')%nat -> rv (tl w) i = A (rv (tl f)) i) -> rimg n' A f (vector_normalize w) /\ lenS n' (vector_normalize w).
Proof.
  intros n' A f w L Z E. destruct (norm_row n' w L) as (N1 & N2 & k & K & N3). split; auto. split. rewrite N2, Z. tauto. exists k. split; auto. intros i Hi. rewrite N3, E; auto.
Qed.
Lemma remove_rimg : forall inplace d pos q, box_rem_ok d pos -> lenS (S d) q -> rimg (S (d - length pos)) (Sel (rho d pos)) q (vector_normalize (vector_remove inplace pos q)) /\ lenS (S (d - length pos)) (vector_normalize (vector_remove inplace pos q)).
Proof.
  intros inplace d pos q OK LQ. destruct (remove_row inplace d pos q OK LQ) as (A & B & C & D). apply row_rimg; auto. intros [|i] Hi; simpl; rewrite !rv_zn. congruence. specialize (D i ltac:(lia)). rewrite !(Nat.add_comm _ 2) in D. simpl in D. congruence.
Qed.
Lemma F_in : forall pa i r (P : vec -> Prop) F, repr pa i r P -> pF pa = Some F -> forall q, In q F -> lenS (d1 i r) q.
Proof. intros pa i r P F HR E q Q. assert (PN := repr_pn _ _ _ _ HR). destruct HR as ((SW & _) & _). assert (L := swf_F pa F SW E). rewrite PN, Forall_forall in L. auto. Qed.
Lemma C_in : forall pa i r (P : vec -> Prop) F, repr pa i r P -> pC pa = Some F -> forall q, In q F -> lenS (d1 i r) q.
Proof. intros pa i r P F HR E q Q. assert (PN := repr_pn _ _ _ _ HR). destruct HR as ((SW & _) & _). assert (L := swf_C pa F SW E). rewrite PN, Forall_forall in L. auto. Qed.
Lemma repr_iff : forall po i r (P Q : vec -> Prop), repr po i r P -> (forall x, P x <-> Q x) -> repr po i r Q.
Proof. intros po i r P Q (W & A & B & G) E. split; auto. split; auto. split; auto. intros x. rewrite G. apply E. Qed.
Lemma get_F : forall alg pa i r (P : vec -> Prop), repr pa i r P -> let pa' := if alg : bool then poly_chernikova pa else poly_obtain_F pa in repr pa' i r P /\ (pF pa' = None -> isbot pa' = true).
Proof.
  intros alg pa i r P HR. destruct alg; simpl. destruct (chern_repr _ _ _ _ HR) as (A & _ & B). split; auto. intros E. destruct B as [B|B]; auto. unfold minimal2 in B. rewrite E in B. destruct (pC (poly_chernikova pa)); discriminate. destruct (obtain_F_repr _ _ _ _ HR) as (A & _ & B). auto.
Qed.
Lemma get_C : forall alg pa i r (P : vec -> Prop), repr pa i r P -> let pa' := if alg : bool then poly_obtain_C pa else poly_chernikova pa in repr pa' i r P /\ (pC pa' = None -> isbot pa' = true).
Proof.
  intros alg pa i r P HR. destruct alg; simpl. destruct (obtain_C_repr _ _ _ _ HR) as (A & _ & B). auto. destruct (chern_repr _ _ _ _ HR) as (A & _ & B). split; auto. intros E. destruct B as [B|B]; auto. unfold minimal2 in B. rewrite E in B. discriminate.
Qed.
Lemma chern_opt : forall (alg : bool) po i r (P : vec -> Prop), repr po i r P -> repr (if alg then poly_chernikova po else po) i r P. Proof. intros [] po i r P H; auto. apply chern_repr; auto. Qed.

Theorem remove_spec : forall alg destr pa pos ni i r (P : vec -> Prop), repr pa i r P -> box_rem_ok (i + r) pos -> (ni <= length pos)%nat -> (ni <= i)%nat -> (length pos - ni <= r)%nat ->
  let (po, pa') := pk_remove_dimensions alg destr pa pos ni in
  repr po (i - ni) (r - (length pos - ni)) (fun y => exists x, P x /\ forall j, (j < i + r)%nat -> ~ In j pos -> y (j - clt pos j)%nat = x j) /\ (destr = false -> repr pa' i r P).
Proof.
  intros alg destr pa0 pos ni i r P HR0 OK N1 N2 N3. unfold pk_remove_dimensions. destruct (get_F alg pa0 i r P HR0) as (HR & HF). set (pa := if alg then poly_chernikova pa0 else poly_obtain_F pa0) in *. clearbody pa. destruct (pF pa) as [F|] eqn:EF.
  - assert (HR' := HR). destruct HR' as (_ & HI & HRR & _). rewrite HI, HRR. set (po := mkPoly _ _ _ _ _ _ _ _ _ _ _ _).
    assert (DD : (i - ni + (r - (length pos - ni)) = i + r - length pos)%nat) by lia.
    assert (R1 : repr po (i - ni) (r - (length pos - ni)) (fun y => exists x, P x /\ forall j, (j < i - ni + (r - (length pos - ni)))%nat -> y j = Sel (rho (i + r) pos) (homog x) (S j))).
    { apply image_F with (pa := pa) (i := i) (r := r) (F := F) (g := fun q => vector_normalize (vector_remove destr pos q)); auto. unfold d1. rewrite DD. apply Sel_lin. intros k K. apply rho_spec; auto.
      intros f If. unfold d1. rewrite DD. apply remove_rimg; auto. apply (F_in pa i r P F); auto. }
    rewrite DD in R1. assert (R2 : repr po (i - ni) (r - (length pos - ni)) (fun y => exists x, P x /\ forall j, (j < i + r)%nat -> ~ In j pos -> y (j - clt pos j)%nat = x j)).
    { eapply repr_iff. exact R1. intros y. split; intros (x & X & E); exists x; split; auto.
      - intros j J NJ. destruct (rho_inv (i + r) pos j OK J NJ) as (A & B). rewrite E by auto. simpl. rewrite B. auto.
      - intros j J. destruct (rho_spec (i + r) pos j OK J) as (A & B & C). simpl. rewrite <- (E _ A B). f_equal. lia. }
    split. apply (chern_opt alg); auto. intros ->. auto.
  - specialize (HF eq_refl). assert (HR' := HR). destruct HR' as (_ & HI & HRR & _). rewrite HI, HRR. split. apply repr_bot; auto. intros y (x & X & _). apply (repr_none pa i r P HR HF x X). intros ->. auto.
Qed.

(** * Projection *)
Definition Zero (tdim : list nat) (x : vec) : vec := fun i => match i with O => x O | S j => if existsb (Nat.eqb j) tdim then 0 else x i end.
Lemma existsb_in : forall j l, existsb (Nat.eqb j) l = true <-> In j l.
Proof. intros j l. rewrite existsb_exists. split. intros (x & X & E). apply Nat.eqb_eq in E. subst; auto. intros I. exists j. split; auto. apply Nat.eqb_refl. Qed.
Lemma Zero_lin : forall n n' tdim, (n' <= n)%nat -> linear n n' (Zero tdim).
Proof. intros n n' tdim H. split. intros a x b y [|i] _; simpl. reflexivity. unfold lin2; simpl. destruct (existsb _ _); lra. intros x y V [|i] Hi; simpl. apply V; lia. destruct (existsb _ _); auto. apply V; lia. Qed.
Lemma ex_lt : forall k tdim, (k < 2)%nat -> existsb (fun d => Nat.eqb k (d + 2)) tdim = false.
Proof. intros k tdim K. induction tdim as [|a l IH]; simpl; auto. rewrite IH. destruct (Nat.eqb_spec k (a + 2)); auto; lia. Qed.
Lemma ex_ge : forall k tdim, existsb (fun d => Nat.eqb (S (S k)) (d + 2)) tdim = existsb (Nat.eqb k) tdim.
Proof. intros k tdim. induction tdim as [|a l IH]; auto. cbn [existsb]. rewrite IH. rewrite (Nat.add_comm a 2). auto. Qed.
Lemma project_rimg : forall d tdim q, lenS (S d) q -> rimg (S d) (Zero tdim) q (project_row tdim q) /\ lenS (S d) (project_row tdim q).
Proof.
  intros d tdim q L. unfold project_row. assert (LQ : length q = S (S d)) by exact L. apply row_rimg. unfold lenS in *. rewrite map_length, seq_length. auto.
  - rewrite zn_mapseq by lia. rewrite ex_lt by lia. auto.
  - intros i Hi. rewrite rv_zn, zn_mapseq by lia. destruct i as [|j]. rewrite ex_lt by lia. simpl. rewrite rv_zn. auto. rewrite ex_ge. unfold Zero. destruct (existsb (Nat.eqb j) tdim); auto. rewrite rv_zn. auto.
Qed.
Lemma gen_perm : forall n A B x, Forall (lenS n) A -> Permutation A B -> (generated n A x <-> generated n B x).
Proof. intros n A B x L PM. rewrite (bidual n A x L), (bidual n B x). 2: apply (Permutation_Forall PM); auto. split; intros H y Y; apply H; apply (cone_perm _ _ y PM); auto. Qed.
Lemma units_len : forall d l, Forall (lenS (S d)) (map (unit_row d) l). Proof. intros d l. apply Forall_forall. intros q Q. apply in_map_iff in Q. destruct Q as (c & <- & _). apply len_unit. Qed.
Theorem forget_spec : forall lazy destr pa tdim project i r (P : vec -> Prop), repr pa i r P -> (forall t, In t tdim -> (t < i + r)%nat) ->
  exists po pa', pk_forget_array lazy destr pa tdim project = Some (po, pa') /\
  repr po i r (fun y => exists x, P x /\ forall j, (j < i + r)%nat -> (~ In j tdim -> y j = x j) /\ (In j tdim -> project = true -> y j = 0)) /\ (destr = false -> repr pa' i r P).
Proof.
  intros lazy destr pa0 tdim project i r P HR0 LT. unfold pk_forget_array. assert (GF : let pa' := if lazy then poly_obtain_F pa0 else poly_chernikova pa0 in repr pa' i r P /\ (pF pa' = None -> isbot pa' = true) /\ (lazy = false -> isbot pa' = true \/ minimal2 pa' = true)).
  { destruct lazy; simpl. destruct (obtain_F_repr _ _ _ _ HR0) as (A & _ & B). split; auto. split; auto. discriminate. destruct (get_F true pa0 i r P HR0) as (A & B). split; auto. split; auto. intros _. apply chern_repr with (i := i) (r := r) (S := P); auto. }
  set (pa := if lazy then poly_obtain_F pa0 else poly_chernikova pa0) in *. clearbody pa. destruct GF as (HR & HF & HM). assert (HR' := HR). destruct HR' as (_ & HI & HRR & _). assert (PD : pdim pa = (i + r)%nat) by (unfold pdim; congruence).
  destruct (pF pa) as [F|] eqn:EF.
  - destruct project.
    + rewrite HI, HRR. set (po := mkPoly _ _ _ _ _ _ _ _ _ _ _ _).
      assert (R1 : repr po i r (fun y => exists x, P x /\ forall j, (j < i + r)%nat -> y j = Zero tdim (homog x) (S j))).
      { apply image_F with (pa := pa) (i := i) (r := r) (F := F) (g := project_row tdim); auto. apply Zero_lin; auto. intros f If. apply project_rimg. apply (F_in pa i r P F); auto. }
      assert (R2 : repr po i r (fun y => exists x, P x /\ forall j, (j < i + r)%nat -> (~ In j tdim -> y j = x j) /\ (In j tdim -> true = true -> y j = 0))).
      { eapply repr_iff. exact R1. intros y. split; intros (x & X & E); exists x; split; auto; intros j J.
        - rewrite (E j J). simpl. destruct (existsb (Nat.eqb j) tdim) eqn:EX. apply existsb_in in EX. tauto. split; auto. intros I. apply existsb_in in I. congruence.
        - destruct (E j J) as (A & B). simpl. destruct (existsb (Nat.eqb j) tdim) eqn:EX. apply existsb_in in EX. auto. apply A. intros I. apply existsb_in in I. congruence. }
      eexists _, _. split. reflexivity. split. destruct lazy; auto. apply chern_repr; auto. intros ->; auto.
    + assert (PR : exists da, (if lazy then Some (poly_dual pa) else poly_obtain_satC (poly_dual pa)) = Some da /\ repr (poly_dual da) i r P /\ pF (poly_dual da) = Some F /\ (lazy = true \/ (pC (poly_dual da) <> None /\ psatF (poly_dual da) <> None))).
      { destruct lazy. exists (poly_dual pa). rewrite dual_dual. auto. destruct (HM eq_refl) as [B|M]. { unfold isbot in B. rewrite EF in B. destruct (pC pa); discriminate. }
        destruct (satC_rep false (poly_dual pa) i r P) as (da & E & RD & C1 & F1 & S1). unfold rep, U. rewrite dual_dual. auto. rewrite min_dual; auto. exists da. split; auto. split; auto. split. simpl. rewrite C1. auto. right. split; auto. simpl. rewrite F1. simpl. unfold minimal2 in M. destruct (pC pa); congruence. }
      destruct PR as (da & -> & RD & FD & LD). 
      destruct (matrix_gen lazy destr (poly_dual da) i r P F (matrix_sort_rows (map (unit_row (pdim pa)) tdim)) RD FD) as (po & pa' & E & RP & RA); auto.
      * apply sort_len. rewrite PD. apply units_len.
      * apply Forall_forall. intros q Q. apply (Permutation.Permutation_in _ (isort_perm _ _ _)) in Q. apply in_map_iff in Q. destruct Q as (c & <- & _). rewrite zn_unit by lia. destruct (Nat.eqb_spec 1 (c + 2)); auto; lia.
      * rewrite dual_dual in E. rewrite E. eexists _, _. split. reflexivity. split; auto. eapply repr_iff. exact RP. intros y. rewrite PD. split.
        -- intros (x & z & X & Z & V). exists x. split; auto. intros j J. split; try discriminate. intros NJ. rewrite V by auto. assert (z (S j) = 0); [|lra]. apply (proj1 (gen_units (i + r) tdim z)). 
           apply (gen_perm (S (i + r)) _ (matrix_sort_rows (map (unit_row (i + r)) tdim))). apply units_len. symmetry. apply isort_perm. exact Z. lia. intros c C E2. injection E2 as ->. auto.
        -- intros (x & X & V). exists x, (fun k => match k with O => 0 | S j => if existsb (Nat.eqb j) tdim then y j - x j else 0 end). split; auto. split.
           ++ unfold d1. apply (gen_perm (S (i + r)) (map (unit_row (i + r)) tdim)). apply units_len. symmetry. apply isort_perm. apply gen_units. intros [|k] K NK; auto. destruct (existsb (Nat.eqb k) tdim) eqn:EX; auto. apply existsb_in in EX. exfalso. apply (NK k EX). auto.
           ++ intros j J. destruct (existsb (Nat.eqb j) tdim) eqn:EX. lra. destruct (V j J) as (A & _). rewrite A. lra. intros I. apply existsb_in in I. congruence.
  - specialize (HF eq_refl). rewrite HI, HRR. eexists _, _. split. reflexivity. split. apply repr_bot; auto. intros y (x & X & _). apply (repr_none pa i r P HR HF x X). intros ->. auto.
Qed.

(** Permutation, addition and removal of dimensions of polyhedra: sets of points. *)
From Coq Require Import ZArith Bool List Lia Reals Lra Sorted.
Import ListNotations.
From Verif Require Import OctResize2 OctResize3 Box BoxDims PkCone PkVec PkCherni PkCherniFacts PkSpec PkFarkas PkRank PkSimplifyEnd PkMinimize PkPoly PkPolyFacts PkPolyLeq PkPolyMeet PkLin PkOps PkRepr PkAssign PkMatrix PkEmb.
Open Scope R_scope.
Opaque vector_normalize.

Lemma fs_len : forall (q : pvec) (f : nat -> Z) m, (2 <= length q)%nat -> length (firstn 2 q ++ map f (seq 0 m)) = (m + 2)%nat.
Proof. intros. rewrite app_length, firstn_length, map_length, seq_length. lia. Qed.
Lemma fs_01 : forall (q : pvec) (f : nat -> Z) m, (2 <= length q)%nat -> zn 0 (firstn 2 q ++ map f (seq 0 m)) = zn 0 q /\ zn 1 (firstn 2 q ++ map f (seq 0 m)) = zn 1 q.
Proof. intros [|a [|b q]] f m H; simpl in H; try lia. split; reflexivity. Qed.
Lemma fs_zn : forall (q : pvec) (f : nat -> Z) m j, (2 <= length q)%nat -> (j < m)%nat -> zn (j + 2) (firstn 2 q ++ map f (seq 0 m)) = f j.
Proof. intros [|a [|b q]] f m j H J; simpl in H; try lia. rewrite Nat.add_comm. cbn [firstn app]. unfold zn. simpl nth. change (nth j (map f (seq 0 m)) 0%Z) with (zn j (map f (seq 0 m))). apply zn_mapseq; auto. Qed.

(** * Permutation *)
Lemma perm_emb : forall d perm q, is_perm d perm -> lenS (S d) q -> emb d d (fun j => nth j perm 0%nat) [] q (vector_permute perm q).
Proof.
  intros d perm q (L & P1 & P2) LQ. unfold vector_permute. assert (LQ2 : length q = (d + 2)%nat) by (unfold lenS in LQ; unfold pvec in *; lia). rewrite LQ2. replace (d + 2 - 2)%nat with d by lia.
  split. unfold lenS. rewrite fs_len; lia. split. apply fs_01. lia. split. apply fs_01. lia. split. 2: intros c [].
  intros j J. rewrite fs_zn by (auto; lia). rewrite (perm_fold (fun i => zn (i + 2) q) perm d P2); auto.
Qed.
Theorem permute_spec : forall alg destr pa perm i r (P : vec -> Prop), repr pa i r P -> is_perm (i + r) perm ->
  let (po, pa') := pk_permute_dimensions alg destr pa perm in
  repr po i r (fun y => P (fun j => y (nth j perm 0%nat))) /\ (destr = false -> repr pa' i r P).
Proof.
  intros alg destr pa0 perm i r P HR0 PM. unfold pk_permute_dimensions.
  set (pa := if alg then poly_chernikova pa0 else pa0). assert (HR : repr pa i r P). { unfold pa. destruct alg; auto. apply chern_repr; auto. } clearbody pa.
  set (po := mkPoly _ _ _ _ _ _ _ _ _ _ _ _). split. 2: intros ->; auto. assert (PN := repr_pn _ _ _ _ HR). assert (HR' := HR). destruct HR as ((SW & PO) & HI & HRR & G).
  destruct (isbot pa) eqn:B. { apply repr_bot; auto. apply isbot_CF in B. apply isbot_CF. unfold po; simpl. destruct B as (-> & ->). auto. intros x. apply (repr_none pa i r P); auto. }
  assert (PM' := PM). destruct PM' as (L & P1 & P2). set (tau := fun j => nth j perm 0%nat) in *.
  assert (CV : forall k, (k < i + r)%nat -> (exists j, (j < i + r)%nat /\ tau j = k) \/ In k []). { intros k K. left. destruct (perm_surj _ _ PM k K) as (x & X & E). exists x; auto. }
  assert (Q : swf po /\ forall y, cK po y <-> cK pa (Bm tau y)).
  { apply (emb_swf (i + r) (i + r) tau [] P1 P2 ltac:(constructor) ltac:(intros c []) ltac:(intros c j []) CV pa po (vector_permute perm) (vector_permute perm)); auto.
    - intros; apply perm_emb; auto.
    - intros; apply perm_emb; auto.
    - intros s E. unfold po in E; simpl in E. unfold swf in SW; unfold isbot in B. destruct (pC pa) as [C|], (pF pa) as [F|]; try (destruct SW as (_ & Q1 & _); congruence). exists C, F. split; auto. split; auto. exists s. left. split; auto.
      discriminate.
    - intros s E. unfold po in E; simpl in E. unfold swf in SW; unfold isbot in B. destruct (pC pa) as [C|], (pF pa) as [F|]; try (destruct SW as (_ & Q1 & Q2); congruence). split; [congruence|]. split; [congruence|]. auto. discriminate.
    - intros NC NF. unfold po; simpl. unfold swf in SW; unfold isbot in B. destruct (pC pa) as [C|], (pF pa) as [F|]; try congruence. tauto. }
  destruct Q as (SW' & K). split; [split|split; [auto|split; [auto|]]]; auto.
  - destruct PO as [PO|(Q1 & Q2)]. congruence. right. split. intros y Y. apply K in Y. apply (Q1 _ Y). intros NF. destruct Q2 as (x & X & X0). { intros E. apply NF. unfold po; simpl. rewrite E. auto. }
    exists (Am (i + r) tau x). split. apply K. apply cK_ext with x; auto. rewrite PN. apply veq_sym. apply (Bm_Am (i + r)%nat tau P2). rewrite Am_0. auto.
  - intros y. unfold gamma. rewrite K, <- G. unfold gamma, Bm. split; intros X; (eapply cK_ext; [exact SW| |exact X]); intros [|j] J; simpl; auto.
Qed.

(** * Addition *)
Definition atau (pos : list nat) (x : nat) : nat := (x + cle pos x)%nat.
Definition anew (pos : list nat) : list nat := map (fun j => let k := (length pos - 1 - j)%nat in (nth k pos 0 + k)%nat) (seq 0 (length pos)).
Lemma anew_in : forall pos c, In c (anew pos) <-> exists t, (t < length pos)%nat /\ c = (t + nth t pos 0)%nat.
Proof.
  intros pos c. unfold anew. rewrite in_map_iff. split.
  - intros (j & <- & J). apply in_seq in J. exists (length pos - 1 - j)%nat. split; lia.
  - intros (t & T & ->). exists (length pos - 1 - t)%nat. split. 2: apply in_seq; lia. replace (length pos - 1 - (length pos - 1 - t))%nat with t by lia. lia.
Qed.
Lemma add_gen : forall {A : Type} inplace (src : nat -> A) pos fresh d, box_add_ok d pos -> let res' := add_loop inplace src pos fresh d d (length pos) (if inplace then src else fun _ => fresh) in
  (forall x, (x < d)%nat -> res' (x + cle pos x)%nat = src x) /\ (forall t, (t < length pos)%nat -> res' (t + nth t pos 0)%nat = fresh).
Proof.
  intros A inplace src pos fresh d (S & L). apply add_loop_spec; auto; try lia.
  - intros t T. apply L. apply nth_In. auto.
  - intros ->. auto.
Qed.
Lemma atau_inj : forall d pos, box_add_ok d pos -> forall j k, (j < d)%nat -> (k < d)%nat -> atau pos j = atau pos k -> j = k.
Proof. intros d pos OK j k J K E. destruct (add_gen false (fun i : nat => i) pos 0%nat d OK) as (A & _). assert (A1 := A j J). assert (A2 := A k K). unfold atau in E. rewrite E in A1. congruence. Qed.
Lemma atau_out : forall d pos, box_add_ok d pos -> forall c j, In c (anew pos) -> (j < d)%nat -> atau pos j <> c.
Proof. intros d pos OK c j C J E. apply anew_in in C. destruct C as (t & T & ->). destruct (add_gen false (fun _ : nat => 1%nat) pos 0%nat d OK) as (A & B). assert (A1 := A j J). assert (A2 := B t T). unfold atau in E. rewrite E in A1. congruence. Qed.
Lemma cle_le : forall pos x, (cle pos x <= length pos)%nat. Proof. intros. unfold cle. induction pos; simpl; auto. destruct (_ <=? _); simpl; lia. Qed.
Lemma atau_lt : forall d pos j, (j < d)%nat -> (atau pos j < d + length pos)%nat. Proof. intros. unfold atau. assert (Q := cle_le pos j). lia. Qed.
Lemma anew_lt : forall d pos, box_add_ok d pos -> forall c, In c (anew pos) -> (c < d + length pos)%nat.
Proof. intros d pos (S & L) c C. apply anew_in in C. destruct C as (t & T & ->). assert (Q := L (nth t pos 0%nat) ltac:(apply nth_In; auto)). lia. Qed.
Lemma ssorted_le_nth : forall pos s t, StronglySorted le pos -> (s <= t)%nat -> (t < length pos)%nat -> (nth s pos 0 <= nth t pos 0)%nat.
Proof. induction pos as [|p pos IH]; intros s t S L T; simpl in *. lia. inversion S as [|? ? S2 F]; subst. destruct s, t; try lia. rewrite Forall_forall in F. apply F. apply nth_In. lia. apply IH; auto; lia. Qed.
Lemma anew_nodup : forall d pos, box_add_ok d pos -> NoDup (anew pos).
Proof.
  intros d pos (S & L). unfold anew. assert (I : forall j k, (j < length pos)%nat -> (k < length pos)%nat -> (nth (length pos - 1 - j) pos 0 + (length pos - 1 - j) = nth (length pos - 1 - k) pos 0 + (length pos - 1 - k) -> j = k)%nat).
  { intros j k J K E. destruct (Nat.lt_trichotomy j k) as [Q|[Q|Q]]; auto; exfalso.
    - assert (O := ssorted_le_nth pos (length pos - 1 - k) (length pos - 1 - j) S ltac:(lia) ltac:(lia)). lia.
    - assert (O := ssorted_le_nth pos (length pos - 1 - j) (length pos - 1 - k) S ltac:(lia) ltac:(lia)). lia. }
  assert (N := seq_NoDup (length pos) 0). assert (B : forall j, In j (seq 0 (length pos)) -> (j < length pos)%nat) by (intros j J; apply in_seq in J; lia). revert N B. generalize (seq 0 (length pos)). induction l as [|j l IH]; intros N B; simpl; constructor; inversion N; subst.
  - intros Q. apply in_map_iff in Q. destruct Q as (k & E & K). apply I in E. subst; auto. apply B; right; auto. apply B; left; auto.
  - apply IH; auto. intros; apply B; right; auto.
Qed.
Lemma acover : forall d pos, box_add_ok d pos -> forall i, (i < d + length pos)%nat -> (exists j, (j < d)%nat /\ atau pos j = i) \/ In i (anew pos).
Proof. intros d pos (S & L) i I. destruct (add_cover pos d i S L I) as [(x & X & ->)|(t & T & ->)]. left. exists x; auto. right. apply anew_in. exists t; auto. Qed.
Lemma add_emb : forall inplace d pos q, box_add_ok d pos -> lenS (S d) q -> emb d (d + length pos) (atau pos) (anew pos) q (vector_add inplace pos q).
Proof.
  intros inplace d pos q OK LQ. unfold vector_add. assert (LQ2 : length q = (d + 2)%nat) by (unfold lenS in LQ; unfold pvec in *; lia). rewrite LQ2. replace (d + 2 - 2)%nat with d by lia.
  destruct (add_gen inplace (fun i => zn (i + 2) q) pos 0%Z d OK) as (A & B).
  split. unfold lenS. rewrite fs_len; lia. split. apply fs_01. lia. split. apply fs_01. lia. split.
  - intros j J. rewrite fs_zn by (try apply atau_lt; auto; lia). apply A; auto.
  - intros c C. assert (C' := C). apply anew_in in C. destruct C as (t & T & ->). rewrite fs_zn by (try apply (anew_lt d pos OK); auto; lia). apply B; auto.
Qed.
Lemma new_lines_eq : forall d pos, new_lines d pos = map (unit_row d) (anew pos).
Proof. intros. unfold new_lines, anew. rewrite map_map. reflexivity. Qed.
(** at the level of cones *)
Lemma cherni_add_spec : forall destr pa pos ni, swf pa -> isbot pa = false -> box_add_ok (pdim pa) pos -> (ni <= length pos)%nat ->
  let (po, pa') := cherni_add_dimensions destr pa pos ni in
  swf po /\ isbot po = false /\ pint po = (pint pa + ni)%nat /\ preal po = (preal pa + (length pos - ni))%nat /\ (pF po <> None -> pF pa <> None) /\ (pC po <> None -> pC pa <> None) /\ (forall y, cK po y <-> cK pa (Bm (atau pos) y)) /\
  (destr = false -> swf pa' /\ pint pa' = pint pa /\ preal pa' = preal pa /\ pC pa' = pC pa /\ pF pa' = pF pa).
Proof.
  intros destr pa pos ni SW B OK NI. unfold cherni_add_dimensions.
  set (satC := match psatC pa with Some s => Some s | None => _ end).
  assert (HS : forall s, satC = Some s -> exists C F, pC pa = Some C /\ pF pa = Some F /\ s = satmat F C).
  { intros s E. unfold satC in E. unfold swf in SW. destruct (pC pa) as [C|] eqn:EC, (pF pa) as [F|] eqn:EF.
    - exists C, F. split; auto. split; auto. destruct SW as (M & T1 & T2 & T3). destruct (psatC pa) as [s1|]. injection E as <-. apply T1; auto. destruct (psatF pa) as [s2|]; try discriminate. injection E as <-. rewrite (T2 s2 eq_refl). apply transpose_satmat.
    - destruct SW as (_ & T1 & T2). rewrite T1, T2 in E. discriminate.
    - destruct SW as (_ & T1 & T2). rewrite T1, T2 in E. discriminate.
    - unfold isbot in B. rewrite EC, EF in B. discriminate. }
  assert (HS2 : pC pa <> None -> pF pa <> None -> satC <> None).
  { intros NC NF. unfold satC. unfold swf in SW. destruct (pC pa) as [C|], (pF pa) as [F|]; try congruence. destruct SW as (_ & _ & _ & T3). destruct (psatC pa); try congruence. destruct (psatF pa). congruence. exfalso; apply T3; auto. }
  simpl. set (po := mkPoly _ _ _ _ _ _ _ _ _ _ _ _).
  assert (DD : (pint po + preal po = pdim pa + length pos)%nat) by (unfold po, pdim; simpl; lia).
  assert (Q : swf po /\ forall y, cK po y <-> cK pa (Bm (atau pos) y)).
  { apply (emb_swf (pdim pa) (pdim pa + length pos) (atau pos) (anew pos)) with (gc := vector_add destr pos) (gf := vector_add destr pos).
    - intros; apply atau_lt; auto.
    - apply atau_inj; auto.
    - apply (anew_nodup (pdim pa)); auto.
    - apply anew_lt; auto.
    - apply atau_out; auto.
    - apply acover; auto.
    - auto.
    - auto.
    - reflexivity.
    - unfold pn. f_equal. exact DD.
    - intros; apply add_emb; auto.
    - intros; apply add_emb; auto.
    - reflexivity.
    - unfold po; simpl. destruct (pF pa); auto. rewrite new_lines_eq. replace (pint pa + ni + (preal pa + (length pos - ni)))%nat with (pdim pa + length pos)%nat by (unfold pdim; lia). reflexivity.
    - intros NC NF. unfold po; simpl. destruct (pC pa), (pF pa); try congruence. simpl. split; auto. unfold anew. rewrite map_length, seq_length. lia.
    - intros s E. unfold po in E; simpl in E. destruct satC as [s0|] eqn:ES; try discriminate. destruct (HS s0 eq_refl) as (C & F & EC & EF & ->). exists C, F. split; auto. split; auto. rewrite EC in E. injection E as <-.
      assert (LN : length (anew pos) = length pos) by (unfold anew; rewrite map_length, seq_length; auto). rewrite LN. unfold swf in SW. rewrite EC, EF in SW. destruct SW as (_ & T1 & _). destruct (psatC pa) as [s1|] eqn:E1. exists s1. left. split; auto. rewrite (T1 s1 eq_refl). auto. exists []. right. split; auto.
    - intros s E. unfold po in E; simpl in E. discriminate.
    - intros NC NF. unfold po; simpl. specialize (HS2 NC NF). destruct satC; congruence. }
  destruct Q as (SW' & K). split; auto. split. { unfold isbot in *. unfold po; simpl. destruct (pC pa), (pF pa); auto. } split; auto. split; auto. split. { unfold po; simpl. destruct (pF pa); congruence. } split. { unfold po; simpl. destruct (pC pa); simpl; congruence. } split; auto.
  intros ->. simpl. split; auto. unfold swf in *. change (pn (set_satC pa satC)) with (pn pa). simpl. destruct (pC pa) as [C|] eqn:EC, (pF pa) as [F|] eqn:EF.
  - destruct SW as (M & T1 & T2 & T3). split; auto. split. intros s E. destruct (HS s E) as (C1 & F1 & Q1 & Q2 & ->). congruence. split; auto. intros E. exfalso. apply HS2; auto; congruence.
  - destruct SW as (M & T1 & T2). split; auto. split; auto. destruct satC as [s|]; auto. destruct (HS s eq_refl) as (C1 & F1 & Q1 & Q2 & ->). congruence.
  - destruct SW as (M & T1 & T2). split; auto. split; auto. destruct satC as [s|]; auto. destruct (HS s eq_refl) as (C1 & F1 & Q1 & Q2 & ->). congruence.
  - auto.
Qed.
Lemma swf_dual_iff : forall po, swf (poly_dual po) <-> swf po. Proof. intros. split; intros H. rewrite <- dual_dual. apply swf_dual; auto. apply swf_dual; auto. Qed.
Lemma repr_cK : forall pa pa' i r (P : vec -> Prop), repr pa i r P -> swf pa' -> pint pa' = pint pa -> preal pa' = preal pa -> pC pa' = pC pa -> pF pa' = pF pa -> repr pa' i r P.
Proof.
  intros pa pa' i r P ((SW & PO) & I & R & G) SW' I' R' C' F'. assert (K : forall x, cK pa' x <-> cK pa x). { intros x. unfold cK, pn, pdim. rewrite C', F', I', R'. tauto. }
  split; [split|split; [congruence|split; [congruence|]]]; auto. destruct PO as [B|(A & B)]. left. unfold isbot in *. rewrite C', F'. auto. right. split. intros x X. apply A. apply K; auto. rewrite F'. intros NF. destruct (B NF) as (x & X & X0). exists x. split; auto. apply K; auto. intros x. unfold gamma. rewrite K. apply G.
Qed.
Theorem add_spec : forall alg destr pa pos ni project i r (P : vec -> Prop), repr pa i r P -> box_add_ok (i + r) pos -> (ni <= length pos)%nat ->
  let (po, pa') := pk_add_dimensions alg destr pa pos ni project in
  repr po (i + ni) (r + (length pos - ni)) (fun y => P (fun j => y (j + cle pos j)%nat) /\ (project = true -> forall t, (t < length pos)%nat -> y (t + nth t pos 0)%nat = 0)) /\ (destr = false -> repr pa' i r P).
Proof.
  intros alg destr pa0 pos ni project i r P HR0 OK NI. unfold pk_add_dimensions.
  set (pa := if alg then poly_chernikova pa0 else pa0). assert (HR : repr pa i r P). { unfold pa. destruct alg; auto. apply chern_repr; auto. } clearbody pa.
  assert (PN := repr_pn _ _ _ _ HR). assert (HR' := HR). destruct HR as ((SW & PO) & HI & HRR & G).
  destruct (isbot pa) eqn:B. { split. apply repr_bot; auto. simpl; congruence. simpl; congruence. intros x (X & _). apply (repr_none pa i r P HR' B _ X). intros ->. auto. }
  destruct PO as [PO|(Q1 & Q2)]. congruence.
  assert (PD : pdim pa = (i + r)%nat) by (unfold pdim; congruence).
  assert (CS := cherni_add_spec destr (duals (negb project) pa) pos ni).
  assert (SWd : swf (duals (negb project) pa)) by (destruct project; simpl; auto; apply swf_dual; auto). assert (Bd : isbot (duals (negb project) pa) = false) by (destruct project; simpl; auto; rewrite isbot_dual; auto).
  assert (PDd : pdim (duals (negb project) pa) = (i + r)%nat) by (destruct project; simpl; auto).
  assert (OKd : box_add_ok (pdim (duals (negb project) pa)) pos) by (rewrite PDd; auto).
  specialize (CS SWd Bd OKd NI). destruct (cherni_add_dimensions destr (duals (negb project) pa) pos ni) as [po pa']. destruct CS as (SW' & B' & I' & R' & F' & C' & K & KA).
  assert (PN' : pn po = S (i + r + length pos)). { unfold pn, pdim. rewrite I', R'. destruct project; simpl; rewrite HI, HRR; lia. }
  assert (TL : forall j, (j < i + r)%nat -> (atau pos j < i + r + length pos)%nat) by (intros; apply atau_lt; auto).
  set (X := fun y : vec => cK pa (Bm (atau pos) y) /\ (project = true -> forall c, In c (anew pos) -> y (S c) = 0)).
  assert (KK : forall y, cK (duals (negb project) po) y <-> X y).
  { intros y. unfold X. destruct project; simpl in *. 2: rewrite K; intuition discriminate.
    rewrite (emb_dual (i + r) (i + r + length pos) (atau pos) (anew pos)) with (pa := pa); auto. tauto. apply atau_inj; auto. apply anew_lt; auto. apply atau_out; auto. apply acover; auto. }
  assert (SW2 : swf (duals (negb project) po)) by (destruct project; simpl; auto; apply swf_dual; auto).
  split.
  - split; [split|split; [|split]]; auto.
    + right. split. intros y Y. apply KK in Y. destruct Y as (Y & _). apply (Q1 _ Y). intros NF. destruct Q2 as (x & Y & Y0). { destruct project; simpl in *; auto. }
      exists (Am (i + r) (atau pos) x). split. apply KK. split. apply cK_ext with x; auto. rewrite PN. apply veq_sym. apply (Bm_Am (i + r)%nat (atau pos)). apply atau_inj; auto. intros _ c C. apply Am_new with (new := anew pos); auto. apply atau_out; auto. rewrite Am_0. auto.
    + destruct project; simpl in *; congruence.
    + destruct project; simpl in *; congruence.
    + intros y. unfold gamma. rewrite KK. unfold X. rewrite <- G. unfold gamma. split; intros (Y & Z).
      * split. apply cK_ext with (Bm (atau pos) (homog y)); auto. intros [|j] J; simpl; auto. intros PT t T. apply (Z PT (t + nth t pos 0)%nat). apply anew_in. exists t; auto.
      * split. eapply cK_ext; [exact SW| |exact Y]. intros [|j] J; simpl; auto. intros PT c C. apply anew_in in C. destruct C as (t & T & ->). simpl. apply Z; auto.
  - intros DF. destruct (KA DF) as (S1 & E1 & E2 & E3 & E4). destruct project; simpl in *.
    + apply repr_cK with pa; auto. apply swf_dual; auto. 
    + apply repr_cK with pa; auto.
Qed.

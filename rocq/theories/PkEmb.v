(** Embeddings of coordinates: permutation, addition and removal of dimensions of polyhedra. *)
From Coq Require Import ZArith Bool List Lia Reals Lra Sorted.
Import ListNotations.
From Verif Require Import OctResize2 OctResize3 Box BoxDims PkCone PkVec PkCherni PkCherniFacts PkSpec PkFarkas PkRank PkSimplifyEnd PkMinimize PkPoly PkPolyFacts PkPolyLeq PkPolyMeet PkLin PkOps PkRepr PkAssign PkMatrix.
Open Scope R_scope.
Opaque vector_normalize.

Lemma sm_point : forall n k f, (k < n)%nat -> sm n (fun i => if Nat.eqb i k then f i else 0) = f k.
Proof.
  induction n; intros k f H; simpl. lia. destruct (Nat.eqb_spec n k). subst. rewrite sm_0. lra. intros i Hi. destruct (Nat.eqb_spec i k); auto; lia. rewrite IHn by lia. lra.
Qed.
Lemma sm_embed : forall n n' s f, (forall j, (j < n)%nat -> (s j < n')%nat) -> (forall j k, (j < n)%nat -> (k < n)%nat -> s j = s k -> j = k) -> (forall i, (i < n')%nat -> (forall j, (j < n)%nat -> s j <> i) -> f i = 0) -> sm n' f = sm n (fun j => f (s j)).
Proof.
  induction n; intros n' s f L I Z; simpl.
  - apply sm_0. intros i Hi. apply Z; auto. intros; lia.
  - rewrite (sm_ext n' f (fun i => (if Nat.eqb i (s n) then f i else 0) + (if Nat.eqb i (s n) then 0 else f i))) by (intros i _; destruct (Nat.eqb i (s n)); lra).
    rewrite sm_plus, sm_point by (apply L; lia). rewrite (IHn n' s (fun i => if Nat.eqb i (s n) then 0 else f i)).
    + rewrite (sm_ext n (fun j => if Nat.eqb (s j) (s n) then 0 else f (s j)) (fun j => f (s j))). lra. intros j Hj. destruct (Nat.eqb_spec (s j) (s n)) as [E|]; auto. apply I in E; lia.
    + intros; apply L; lia.
    + intros; apply I; auto; lia.
    + intros i Hi Q. destruct (Nat.eqb_spec i (s n)); auto. apply Z; auto. intros j Hj. destruct (Nat.eq_dec j n). subst; auto. apply Q. lia.
Qed.

(** the unit lines generate the vectors which vanish elsewhere *)
Lemma zn_unit : forall d c j, (j < d + 2)%nat -> zn j (unit_row d c) = if Nat.eqb j (c + 2) then 1%Z else 0%Z.
Proof. intros. unfold unit_row. apply (zn_mapseq (fun j => if Nat.eqb j (c + 2) then 1%Z else 0%Z)). auto. Qed.
Lemma len_unit : forall d c, lenS (S d) (unit_row d c). Proof. intros. unfold lenS, unit_row. rewrite map_length, seq_length. lia. Qed.
Lemma st_unit : forall d c, st 0 (unit_row d c). Proof. intros. unfold st. rewrite zn_unit by lia. destruct (Nat.eqb_spec 0 (c + 2)); auto; lia. Qed.
Lemma rv_unit : forall d c i, (i < S d)%nat -> rv (tl (unit_row d c)) i = if Nat.eqb i (S c) then 1 else 0.
Proof. intros d c i H. rewrite rv_zn, zn_unit by lia. destruct (Nat.eqb_spec (S i) (c + 2)), (Nat.eqb_spec i (S c)); auto; lia. Qed.
Lemma gen_units : forall d l x, generated (S d) (map (unit_row d) l) x <-> forall i, (i < S d)%nat -> (forall c, In c l -> i <> S c) -> x i = 0.
Proof.
  intros d l x. split.
  - apply (gen_ind' (S d) _ (fun x => forall i, (i < S d)%nat -> (forall c, In c l -> i <> S c) -> x i = 0)). intros; auto. clear x. intros f x k y F _ _ IH V i Hi Q. apply in_map_iff in F. destruct F as (c & <- & C). rewrite V by auto. unfold lin2. rewrite IH by auto. rewrite rv_unit by auto. destruct (Nat.eqb_spec i (S c)). exfalso; apply (Q c); auto. lra.
  - revert x. induction l as [|c l IH]; intros x Z; simpl. apply gen_zero. intros i Hi. apply Z; auto.
    apply gen_step with (f := unit_row d c) (x := fun i => if Nat.eqb i (S c) then 0 else x i) (k := x (S c)).
    + apply (gen_app (S d) [unit_row d c]). exists (fun _ => 0), (fun i => if Nat.eqb i (S c) then 0 else x i). split. apply gen_zero; auto. split. apply IH. intros i Hi Q. destruct (Nat.eqb_spec i (S c)); auto. apply Z; auto. intros e [<-|E]; auto. intros i _. unfold lin2. lra.
    + left; auto.
    + left. apply st_unit.
    + intros i Hi. unfold lin2. rewrite rv_unit by auto. destruct (Nat.eqb_spec i (S c)). subst. lra. lra.
Qed.
Lemma lc_units : forall d l ks i, NoDup l -> length ks = length l -> (i < S d)%nat -> (forall c, In c l -> i <> S c) -> lc ks (tls (map (unit_row d) l)) i = 0.
Proof.
  induction l as [|c l IH]; intros [|k ks] i N E Hi Q; simpl in *; try lia; auto. inversion N; subst. rewrite IH; auto. rewrite rv_unit by auto. destruct (Nat.eqb_spec i (S c)). exfalso. apply (Q c); auto. lra.
Qed.
Lemma lc_app : forall k1 k2 L1 L2 i, length k1 = length L1 -> lc (k1 ++ k2) (L1 ++ L2) i = lc k1 L1 i + lc k2 L2 i.
Proof. induction k1 as [|k k1 IH]; intros k2 [|t L1] L2 i E; simpl in *; try lia. lra. rewrite IH by lia. lra. Qed.

Section Emb.
Variables (d d' : nat) (tau : nat -> nat) (new : list nat).
Hypothesis tau_lt : forall j, (j < d)%nat -> (tau j < d')%nat.
Hypothesis tau_inj : forall j k, (j < d)%nat -> (k < d)%nat -> tau j = tau k -> j = k.
Hypothesis new_nodup : NoDup new.
Hypothesis new_lt : forall c, In c new -> (c < d')%nat.
Hypothesis new_out : forall c j, In c new -> (j < d)%nat -> tau j <> c.
Hypothesis cover : forall i, (i < d')%nat -> (exists j, (j < d)%nat /\ tau j = i) \/ In i new.
Definition sg (j : nat) : nat := match j with O => O | S j => S (tau j) end.
Definition Bm (y : vec) : vec := fun j => y (sg j).
Definition Am (x : vec) : vec := fun i => match find (fun j => Nat.eqb (sg j) i) (seq 0 (S d)) with Some j => x j | None => 0 end.
Definition emb (q q' : pvec) : Prop := lenS (S d') q' /\ zn 0 q' = zn 0 q /\ zn 1 q' = zn 1 q /\ (forall j, (j < d)%nat -> zn (tau j + 2) q' = zn (j + 2) q) /\ forall c, In c new -> zn (c + 2) q' = 0%Z.
Lemma sg_lt : forall j, (j < S d)%nat -> (sg j < S d')%nat. Proof. intros [|j] H; simpl. lia. assert (Q := tau_lt j ltac:(lia)). lia. Qed.
Lemma sg_inj : forall j k, (j < S d)%nat -> (k < S d)%nat -> sg j = sg k -> j = k.
Proof. intros [|j] [|k] H K E; simpl in *; try lia. f_equal. apply tau_inj; lia. Qed.
Lemma sg_cover : forall i, (i < S d')%nat -> (exists j, (j < S d)%nat /\ sg j = i) \/ exists c, In c new /\ i = S c.
Proof. intros [|i] H. left. exists 0%nat. split; auto; lia. destruct (cover i ltac:(lia)) as [(j & J & <-)|C]. left. exists (S j). split; auto; lia. right. exists i; auto. Qed.
Lemma sg_new : forall c j, In c new -> (j < S d)%nat -> sg j <> S c. Proof. intros c [|j] C H E; simpl in E. lia. injection E. apply new_out; auto. lia. Qed.
Lemma emb_sg : forall q q', emb q q' -> forall j, (j < S d)%nat -> rv (tl q') (sg j) = rv (tl q) j.
Proof.
  intros q q' (_ & _ & E1 & E2 & _) [|j] H; rewrite !rv_zn; simpl. congruence. f_equal. specialize (E2 j ltac:(lia)). rewrite !(Nat.add_comm _ 2) in E2. exact E2.
Qed.
Lemma emb_new : forall q q', emb q q' -> forall c, In c new -> rv (tl q') (S c) = 0. Proof. intros q q' (_ & _ & _ & _ & E) c C. rewrite rv_zn. specialize (E c C). rewrite (Nat.add_comm _ 2) in E. simpl in E. rewrite E. auto. Qed.
Lemma Am_sg : forall x j, (j < S d)%nat -> Am x (sg j) = x j.
Proof.
  intros x j H. unfold Am. destruct (find _ _) as [k|] eqn:E. apply find_some in E. destruct E as (K & E). apply Nat.eqb_eq in E. apply in_seq in K. apply sg_inj in E; try lia. subst; auto.
  assert (Q := find_none _ _ E j ltac:(apply in_seq; lia)). simpl in Q. rewrite Nat.eqb_refl in Q. discriminate.
Qed.
Lemma Am_new : forall x c, In c new -> Am x (S c) = 0.
Proof. intros x c C. unfold Am. destruct (find _ _) as [k|] eqn:E; auto. apply find_some in E. destruct E as (K & E). apply Nat.eqb_eq in E. apply in_seq in K. exfalso. apply (sg_new c k); auto. lia. Qed.
Lemma Am_lin : linear (S d) (S d') Am.
Proof.
  split. intros a x b y i _. unfold Am, lin2. destruct (find _ _); lra.
  intros x y V i _. unfold Am. destruct (find _ _) eqn:E; auto. apply find_some in E. destruct E as (K & _). apply in_seq in K. apply V. lia.
Qed.
Lemma Am_0 : forall x, Am x 0%nat = x 0%nat. Proof. reflexivity. Qed.
Lemma emb_rimg : forall q q', emb q q' -> rimg (S d') Am q q'.
Proof.
  intros q q' E. split. destruct E as (_ & -> & _); tauto. exists 1. split. lra. intros i Hi. destruct (sg_cover i Hi) as [(j & J & <-)|(c & C & ->)]. rewrite (emb_sg q q' E), Am_sg; auto. lra. rewrite (emb_new q q' E), Am_new; auto. lra.
Qed.
Lemma dt_emb : forall q q' y, emb q q' -> dt (S d') (rv (tl q')) y = dt (S d) (rv (tl q)) (Bm y).
Proof.
  intros q q' y E. unfold dt. rewrite (sm_embed (S d) (S d') sg). apply sm_ext. intros j Hj. rewrite (emb_sg q q' E); auto. apply sg_lt. apply sg_inj.
  intros i Hi Q. destruct (sg_cover i Hi) as [(j & J & <-)|(c & C & ->)]. exfalso; apply (Q j); auto. rewrite (emb_new q q' E); auto. lra.
Qed.
Lemma emb_rpre : forall q q', emb q q' -> rpre (S d) (S d') Bm q q'.
Proof. intros q q' E. split. destruct E as (_ & -> & _); tauto. exists 1. split. lra. intros y. rewrite (dt_emb q q' y E). lra. Qed.
Lemma Bm_Am : forall x, veq (S d) (Bm (Am x)) x. Proof. intros x j J. unfold Bm. apply Am_sg; auto. Qed.
Lemma emb_gen : forall F (gf : pvec -> pvec) y, (forall f, In f F -> emb f (gf f)) -> (generated (S d') (map (unit_row d') new ++ map gf F) y <-> generated (S d) F (Bm y)).
Proof.
  intros F gf y H. rewrite gen_app. split.
  - intros (z & u & Z & U & V). apply (gen_map (S d) (S d') Am) in U. 2: apply Am_lin. 2: intros; apply emb_rimg; auto. destruct U as (x & X & VX). apply generated_ext with x; auto. intros j J. unfold Bm. rewrite V by (apply sg_lt; auto). unfold lin2. rewrite VX by (apply sg_lt; auto). rewrite Am_sg; auto. assert (z (sg j) = 0); [|lra]. apply (proj1 (gen_units d' new z) Z). apply sg_lt; auto. intros c C. apply sg_new; auto.
  - intros X. exists (fun i => y i - Am (Bm y) i), (Am (Bm y)). split; [|split].
    + apply gen_units. intros i Hi Q. destruct (sg_cover i Hi) as [(j & J & <-)|(c & C & ->)]. rewrite Am_sg; auto. unfold Bm. lra. exfalso; apply (Q c); auto.
    + apply (gen_map (S d) (S d') Am). apply Am_lin. intros; apply emb_rimg; auto. exists (Bm y). split; auto. intros i _; auto.
    + intros i _. unfold lin2. lra.
Qed.
Lemma emb_indep : forall L (g : pvec -> pvec), (forall f, In f L -> emb f (g f)) -> indep (S d) (tls L) -> indep (S d') (tls (map g L)).
Proof.
  intros L g H. apply (indep_img (S d) (S d') Am). apply Am_lin. intros x Z j J. rewrite <- (Am_sg x j J). apply Z. apply sg_lt; auto. intros; apply emb_rimg; auto.
Qed.
Lemma tls_len : forall L, length (tls L) = length L. Proof. intros. unfold tls. apply map_length. Qed.
Lemma tls_app : forall L M, tls (L ++ M) = tls L ++ tls M. Proof. intros. unfold tls. apply map_app. Qed.
Lemma emb_indep_new : forall L (g : pvec -> pvec), (forall f, In f L -> emb f (g f)) -> indep (S d) (tls L) -> indep (S d') (tls (map (unit_row d') new ++ map g L)).
Proof.
  intros L g H I ks E Z. rewrite tls_app in *. rewrite app_length, !tls_len, !map_length in E.
  assert (Q : exists k1 k2, ks = k1 ++ k2 /\ length k1 = length new /\ length k2 = length L). { exists (firstn (length new) ks), (skipn (length new) ks). rewrite firstn_skipn. split; auto. rewrite firstn_length, skipn_length. lia. }
  destruct Q as (k1 & k2 & -> & L1 & L2). assert (T1 : length k1 = length (tls (map (unit_row d') new))) by (rewrite tls_len, map_length; auto).
  assert (Z2 : Forall (fun k => k = 0) k2).
  { apply (emb_indep L g H I). rewrite tls_len, map_length; auto. intros i Hi. destruct (sg_cover i Hi) as [(j & J & <-)|(c & C & ->)].
    - specialize (Z _ Hi). rewrite lc_app in Z by auto. rewrite lc_units in Z; auto. lra. intros c C. apply sg_new; auto.
    - clear - H C. revert k2. induction L as [|f L IH]; intros [|k k2]; simpl; auto. fold (tls (map g L)). rewrite IH by (intros; apply H; right; auto). assert (Q := emb_new f (g f) (H f ltac:(left; auto)) c C). rewrite Q. lra. }
  apply Forall_app. split; auto.
  assert (Z1 : forall i, (i < S d')%nat -> lc k1 (tls (map (unit_row d') new)) i = 0). { intros i Hi. specialize (Z i Hi). rewrite lc_app in Z by auto. assert (K : forall k2 M, Forall (fun k => k = 0) k2 -> lc k2 M i = 0). { clear. induction k2 as [|k k2 IH]; intros [|m M] F; simpl; auto. inversion F; subst. rewrite IH; auto. lra. } rewrite (K k2) in Z; auto. lra. }
  clear - Z1 L1 new_nodup new_lt. revert k1 L1 Z1. induction new as [|c l IH]; intros [|k k1] L1 Z; simpl in L1; try lia; constructor.
  - inversion new_nodup; subst. assert (Q := Z (S c) ltac:(specialize (new_lt c ltac:(left; auto)); lia)). cbn [map tls] in Q. simpl in Q. fold (tls (map (unit_row d') l)) in Q. rewrite lc_units in Q; auto. 2: specialize (new_lt c ltac:(left; auto)); lia. 2: intros e Ie Ee; injection Ee as ->; auto.
    assert (U := rv_unit d' c (S c) ltac:(specialize (new_lt c ltac:(left; auto)); lia)). rewrite U in Q. rewrite Nat.eqb_refl in Q. lra.
  - inversion new_nodup; subst. apply IH; auto. intros; apply new_lt; right; auto. intros i Hi. specialize (Z i Hi). cbn [map tls] in Z. simpl in Z. fold (tls (map (unit_row d') l)) in Z.
    destruct (in_dec Nat.eq_dec (i - 1)%nat l) as [J|J].
    + assert (U := rv_unit d' c i Hi). rewrite U in Z. destruct (Nat.eqb_spec i (S c)). subst. replace (S c - 1)%nat with c in J by lia. contradiction. lra.
    + apply lc_units; auto. intros e Ie Ee. apply J. subst. replace (S e - 1)%nat with e by lia. auto.
Qed.
(** both matrices embedded, new lines for the generators *)
Lemma emb_swf : forall pa po (gc gf : pvec -> pvec), swf pa -> isbot pa = false -> pn pa = S d -> pn po = S d' -> (forall q, lenS (S d) q -> emb q (gc q)) -> (forall q, lenS (S d) q -> emb q (gf q)) -> 
  pC po = option_list gc (pC pa) -> pF po = match pF pa with Some F => Some (map (unit_row d') new ++ map gf F) | None => None end ->
  (pC pa <> None -> pF pa <> None -> pnbeq po = pnbeq pa /\ pnbline po = (length new + pnbline pa)%nat) ->
  (forall s, psatC po = Some s -> exists C F, pC pa = Some C /\ pF pa = Some F /\ exists s0, psatC pa = Some s0 /\ s = repeat (repeat false (length C)) (length new) ++ s0 \/ psatC pa = None /\ s = repeat (repeat false (length C)) (length new) ++ satmat F C) ->
  (forall s, psatF po = Some s -> pC pa <> None /\ pF pa <> None /\ new = [] /\ psatF pa = Some s) -> (pC pa <> None -> pF pa <> None -> psatC po = None -> psatF po <> None) ->
  swf po /\ forall y, cK po y <-> cK pa (Bm y).
Proof.
  intros pa po gc gf SW NB PN PN' HC0 HF0 EC' EF' NN S1 S2 S3.
  assert (HC : forall C q, pC pa = Some C -> In q C -> emb q (gc q)). { intros C q EC Q. apply HC0. assert (LC := swf_C pa C SW EC). rewrite PN, Forall_forall in LC. auto. }
  assert (HF : forall C q, pF pa = Some C -> In q C -> emb q (gf q)). { intros C q EC Q. apply HF0. assert (LC := swf_F pa C SW EC). rewrite PN, Forall_forall in LC. auto. }
  destruct (pC pa) as [C|] eqn:EC; destruct (pF pa) as [F|] eqn:EF; simpl in EC'.
  - destruct NN as (N1 & N2); try congruence. apply (both_swf pa po (S d) (S d') Bm C F (map (unit_row d') new) gc gf); auto.
    + intros c I. split. apply emb_rpre; eauto. destruct (HC C c) as (A & B & _); auto.
    + intros f I. destruct (HF F f) as (A & B & _); auto.
    + apply Forall_forall. intros q Q. apply in_map_iff in Q. destruct Q as (e & <- & _). apply len_unit.
    + apply Forall_forall. intros q Q. apply in_map_iff in Q. destruct Q as (e & <- & _). apply st_unit.
    + intros y. apply emb_gen. eauto.
    + intros c f Ic If. rewrite (dt_emb c (gc c)); eauto. rewrite (dt_ext (S d) _ (Bm (rv (tl (gf f)))) (rv (tl f))). tauto. intros j J. unfold Bm. apply emb_sg; eauto.
    + intros E I. apply emb_indep. intros; eapply HC; eauto.
    + intros E I. apply emb_indep_new. intros; eapply HF; eauto.
    + rewrite map_length. auto.
    + rewrite map_length. intros s E. destruct (S1 s E) as (C2 & F2 & Q1 & Q2 & R). injection Q1 as <-. injection Q2 as <-. exact R.
    + intros s E. destruct (S2 s E) as (_ & _ & -> & Q). auto.
    + apply S3; congruence.
  - assert (LC : Forall (lenS (S d)) C) by (rewrite <- PN; apply (swf_C pa); auto). assert (LC' : Forall (lenS (S d')) (map gc C)). { apply Forall_forall. intros q Q. apply in_map_iff in Q. destruct Q as (f & <- & Q). eapply HC; eauto. }
    assert (T1 : psatC po = None). { destruct (psatC po) eqn:E; auto. destruct (S1 _ eq_refl) as (? & ? & _ & Q & _). discriminate. } assert (T2 : psatF po = None). { destruct (psatF po) eqn:E; auto. destruct (S2 _ eq_refl) as (_ & Q & _). congruence. }
    split. unfold swf. rewrite EC', EF', PN'. auto. intros y. rewrite (cK_C po _ EC'), (cK_C pa _ EC). apply (cone_map (S d) (S d')); auto. intros; apply emb_rpre; eauto.
  - assert (LF : Forall (lenS (S d)) F) by (rewrite <- PN; apply (swf_F pa); auto).
    assert (T1 : psatC po = None). { destruct (psatC po) eqn:E; auto. destruct (S1 _ eq_refl) as (? & ? & Q & _). discriminate. } assert (T2 : psatF po = None). { destruct (psatF po) eqn:E; auto. destruct (S2 _ eq_refl) as (Q & _). congruence. }
    assert (SW' : swf po). { unfold swf. rewrite EC', EF', PN'. split; auto. apply Forall_app. split; apply Forall_forall; intros q Q; apply in_map_iff in Q; destruct Q as (e & <- & I). apply len_unit. eapply HF; eauto. } split; auto. intros y. rewrite (cK_F po _ SW' EF'), (cK_F pa _ SW EF), PN, PN'. apply emb_gen; eauto.
  - unfold isbot in NB. rewrite EC, EF in NB. discriminate.
Qed.
Lemma dt_BB : forall x y, (forall c, In c new -> y (S c) = 0) -> dt (S d') y x = dt (S d) (Bm y) (Bm x).
Proof.
  intros x y Z. unfold dt. rewrite (sm_embed (S d) (S d') sg). reflexivity. apply sg_lt. apply sg_inj. intros k Hk Q. destruct (sg_cover k Hk) as [(j & J & <-)|(c & C & ->)]. exfalso; apply (Q j); auto. rewrite Z; auto. lra.
Qed.
(** the dual construction *)
Lemma emb_dual : forall pa po, swf pa -> isbot pa = false -> pn pa = S d -> swf po -> isbot po = false -> pn po = S d' -> (forall y, cK po y <-> cK (poly_dual pa) (Bm y)) ->
  forall y, cK (poly_dual po) y <-> cK pa (Bm y) /\ forall c, In c new -> y (S c) = 0.
Proof.
  intros pa po SW B PN SW' B' PN' K y. assert (KD : forall u, cK pa u <-> forall x, cK (poly_dual pa) x -> 0 <= dt (S d) u x). { intros u. rewrite <- (dual_dual pa) at 1. rewrite cK_dual. 2: apply swf_dual; auto. 2: rewrite isbot_dual; auto. rewrite pn_dual, PN. tauto. }
  rewrite (cK_dual po y SW' B'), PN', KD. split.
  - intros H. assert (Z : forall c, In c new -> y (S c) = 0).
    { intros c C. assert (CL := new_lt c C). assert (U : forall k, 0 <= k * y (S c)).
      { intros k. assert (E : dt (S d') y (fun j => if Nat.eqb j (S c) then k else 0) = k * y (S c)). { unfold dt. rewrite (sm_ext _ _ (fun j => if Nat.eqb j (S c) then k * y j else 0)) by (intros j _; destruct (Nat.eqb j (S c)); lra). rewrite (sm_point _ (S c) (fun j => k * y j)); auto. lia. }
        rewrite <- E. apply H. apply K. apply cK_ext with (fun _ => 0). apply swf_dual; auto.
        - intros j J. unfold Bm. change (pn (poly_dual pa)) with (pn pa) in J. rewrite PN in J. destruct (Nat.eqb_spec (sg j) (S c)) as [E2|]; auto. exfalso. revert E2. apply sg_new; auto.
        - apply (cK_dual pa); auto. intros x _. rewrite dt_sym, dt_zero; auto. lra. }
      assert (U1 := U 1). assert (U2 := U (-1)). lra. }
    split; auto. intros x X. rewrite (dt_ext (S d) _ x (Bm (Am x))) by (intros j J; symmetry; apply Bm_Am; auto). rewrite <- dt_BB; auto. apply H. apply K. apply cK_ext with x; auto. apply swf_dual; auto. rewrite pn_dual, PN. intros j J. symmetry. apply Bm_Am; auto.
  - intros (H & Z) x X. rewrite dt_BB; auto. apply H. apply K; auto.
Qed.
End Emb.

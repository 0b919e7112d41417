(** Folding dimensions. *)
From Coq Require Import Arith Lia List ZArith QArith Qreals Reals Lra Bool Sorted.
From Verif Require Import Bound BoundFacts Util Itv ItvFacts Linexpr OctMat OctIdx OctClose OctWalk OctInc OctStrong OctGeom OctGeom2 Oct OctFacts OctFacts2 OctFacts3 OctForget OctResize OctResize2 OctResize3 OctExpand.
Import ListNotations.
Open Scope nat_scope.
#[local] Arguments Nat.div : simpl never.
#[local] Arguments Nat.modulo : simpl never.
#[local] Arguments Nat.mul : simpl never.
#[local] Arguments Nat.leb : simpl never.
#[local] Arguments Nat.ltb : simpl never.
#[local] Arguments xor1 : simpl never.
#[local] Arguments or1 : simpl never.
#[local] Arguments matpos : simpl never.
#[local] Arguments matpos2 : simpl never.

Definition bmaxs (l : list bound) (b : bound) : bound := fold_left bmax l b.
Lemma bmaxs_le : forall l b x, (le_rb x b \/ exists c, In c l /\ le_rb x c) -> le_rb x (bmaxs l b).
Proof.
  induction l; intros b x H; simpl.
  - destruct H as [?|[c [[] _]]]; auto.
  - apply IHl. destruct H as [H|[c [[->|I0] H]]]; eauto; left; apply bmax_spec; auto.
Qed.
Lemma bmaxs_lub : forall l b c, le_bb b c -> (forall x, In x l -> le_bb x c) -> le_bb (bmaxs l b) c.
Proof.
  induction l; intros b c H1 H2; simpl in *; auto. apply IHl; auto. apply bmax_lub; auto.
Qed.
Lemma bmaxs_fin : forall l b, b <> MInf -> bmaxs l b <> MInf.
Proof.
  induction l; intros b H; simpl; auto. apply IHl. destruct b, a; simpl; try congruence. destruct (Qle_bool _ _); discriminate.
Qed.
Lemma bmaxs_same : forall l b, (forall x, In x l -> x = b) -> bmaxs l b = b.
Proof.
  induction l; intros b H; simpl; auto. rewrite (H a) by (left; auto).
  assert (bmax b b = b) as -> by (destruct b; simpl; auto; destruct (Qle_bool q q); auto). apply IHl. intros; apply H; right; auto.
Qed.

Section Merge.
Variables (dim t0 : nat) (ts : list nat) (m : hmat).
Hypothesis T0 : t0 < dim.
Lemma upd2_fold : forall (f g : nat -> bound) l p q tmp, p <> q ->
  let r := fold_left (fun tmp t => let tmp := bmax_at tmp p (f t) in bmax_at tmp q (g t)) l tmp in
  r p = bmaxs (map f l) (tmp p) /\ r q = bmaxs (map g l) (tmp q) /\ (forall s, s <> p -> s <> q -> r s = tmp s).
Proof.
  intros f g l p q tmp D. revert tmp. induction l; intros tmp; simpl; auto.
  set (t1 := bmax_at (bmax_at tmp p (f a)) q (g a)). destruct (IHl t1) as (A & B & C). cbv zeta in A, B, C. split; [|split].
  - rewrite A. unfold t1, bmax_at at 1. rewrite upd_other by auto. unfold bmax_at. rewrite upd_same. auto.
  - rewrite B. unfold t1, bmax_at at 1. rewrite upd_same. unfold bmax_at. rewrite upd_other by auto. auto.
  - intros s S1 S2. rewrite C by auto. unfold t1, bmax_at. rewrite !upd_other by auto. auto.
Qed.
Definition mx (r c : nat) : bound := bmaxs (map (fun t => m (matpos2 (ren t r) c)) ts) (m (matpos2 r c)).
Definition mxu (r : nat) : bound := bmaxs (map (fun t => m (matpos2 (ren t r) (xor1 (ren t r)))) ts) (m (matpos2 r (xor1 r))).
Definition fst_ (done : nat -> Prop) (tmp : hmat) : Prop :=
  (forall r c, r / 2 = t0 -> c / 2 <> t0 -> done c -> tmp (matpos2 r c) = mx r c) /\
  (forall q, (forall r c, r / 2 = t0 -> c / 2 <> t0 -> done c -> q <> matpos2 r c) -> tmp q = m q).
Definition fline j tmp := fold_left (fun tmp t =>
      let tmp := bmax_at tmp (matpos2 (t0 * 2) j) (m (matpos2 (t * 2) j)) in
      bmax_at tmp (matpos2 (t0 * 2 + 1) j) (m (matpos2 (t * 2 + 1) j))) ts tmp.
Lemma t0r : (t0 * 2) / 2 = t0 /\ (t0 * 2 + 1) / 2 = t0.
Proof. rewrite Nat.mul_comm. split; [apply div2_even|apply div2_odd]. Qed.
Lemma fline_st : forall (P : nat -> Prop) tmp j, fst_ P tmp -> j / 2 <> t0 -> ~ P j -> fst_ (fun c => P c \/ c = j) (fline j tmp).
Proof.
  intros P tmp j [S1 S2] Hj NP. destruct t0r as [R0 R1].
  assert (D : matpos2 (t0 * 2) j <> matpos2 (t0 * 2 + 1) j) by (intros e; apply (xcell t0) in e; auto; lia).
  destruct (upd2_fold (fun t => m (matpos2 (t * 2) j)) (fun t => m (matpos2 (t * 2 + 1) j)) ts _ _ tmp D) as (A & B & C).
  change (fold_left _ ts tmp) with (fline j tmp) in A, B, C.
  assert (U : forall r, r / 2 = t0 -> tmp (matpos2 r j) = m (matpos2 r j)).
  { intros r Hr. apply S2. intros r0 c0 H1 H2 H3 e. apply (xcell t0) in e; auto. destruct e as [_ ->]. auto. }
  split.
  - intros r c Hr Hc Pc. destruct (Nat.eq_dec c j) as [->|Nc].
    + rewrite U in A, B by auto. unfold mx. destruct (lits_of _ _ Hr) as [-> | ->]; rewrite (Nat.mul_comm 2 t0).
      * rewrite A. f_equal. apply map_ext. intros t. rewrite (Nat.mul_comm t0 2), ren_even, Nat.mul_comm. auto.
      * rewrite B. f_equal. apply map_ext. intros t. rewrite (Nat.mul_comm t0 2), ren_odd, Nat.mul_comm. auto.
    + rewrite C by (intros e; apply (xcell t0) in e; auto; tauto). destruct Pc; [|tauto]. apply S1; auto.
  - intros q H. rewrite C by (apply H; auto). apply S2. intros. apply H; auto.
Qed.
Lemma for_fline : forall lo hi (P : nat -> Prop) tmp, lo <= hi -> (forall j, lo <= j < hi -> j / 2 <> t0 /\ ~ P j) -> fst_ P tmp ->
  fst_ (fun c => P c \/ lo <= c < hi) (for_ lo hi fline tmp).
Proof.
  intros lo hi P tmp L D S. 
  assert (EX : forall (P Q : nat -> Prop) tmp, (forall c, P c <-> Q c) -> fst_ P tmp -> fst_ Q tmp).
  { intros P1 Q1 t H [A B]. split; intros; [apply A; auto; apply H; auto|]. apply B. intros. apply H0; auto. apply H; auto. }
  apply (for_ind (fun k t => fst_ (fun c => P c \/ lo <= c < k) t)); auto.
  - eapply EX; [|exact S]. intros c. split; [tauto|]. intros [?|?]; auto. lia.
  - intros i x Hi IH. eapply EX; [|apply fline_st; [exact IH| |]].
    + intros c. cbv beta. split; [intros [[?|?]| ->]; auto; right; lia|]. intros [?|?]; auto. destruct (Nat.eq_dec c i); auto. left. right. lia.
    + apply D; auto.
    + intros [?|?]; [|lia]. apply (proj2 (D i Hi)); auto.
Qed.
Lemma merge_spec : let tmp := fold_merge dim t0 ts m m in
  (forall r c, r / 2 = t0 -> c / 2 <> t0 -> c < 2 * dim -> tmp (matpos2 r c) = mx r c) /\
  (forall r, r / 2 = t0 -> tmp (matpos2 r (xor1 r)) = mxu r) /\
  (forall r c, r / 2 <> t0 -> c / 2 <> t0 -> tmp (matpos2 r c) = m (matpos2 r c)) /\
  (forall r, tmp (matpos2 r r) = m (matpos2 r r)).
Proof.
  destruct t0r as [R0 R1].
  set (t2 := for_ (2 * (t0 + 1)) (2 * dim) fline (for_ 0 (2 * t0) fline m)).
  assert (S : fst_ (fun c => (False \/ 0 <= c < 2 * t0) \/ 2 * (t0 + 1) <= c < 2 * dim) t2).
  { unfold t2. apply for_fline; [lia|intros j Hj; split; [destruct (lit_split j); lia|lia]|].
    apply for_fline; [lia|intros j Hj; split; [destruct (lit_split j); lia|lia]|]. split; intros; [tauto|auto]. }
  assert (D : matpos2 (t0 * 2) (t0 * 2 + 1) <> matpos2 (t0 * 2 + 1) (t0 * 2)) by (intros e; apply (xcell t0) in e; auto; lia).
  destruct (upd2_fold (fun t => m (matpos2 (t * 2) (t * 2 + 1))) (fun t => m (matpos2 (t * 2 + 1) (t * 2))) ts _ _ t2 D) as (A & B & C).
  change (fold_left _ ts t2) with (fold_merge dim t0 ts m m) in A, B, C. intros tmp. fold tmp in A, B, C.
  assert (U : forall r c, r / 2 = t0 -> c / 2 = t0 -> t2 (matpos2 r c) = m (matpos2 r c)).
  { intros r c Hr Hc. apply S. intros r0 c0 H1 H2 H3 e. apply (xcell t0) in e; auto. destruct e as [_ ->]. auto. }
  split; [|split; [|split]].
  - intros r c Hr Hc Lc. rewrite C by (intros e; apply (xcell t0) in e; auto; destruct e as [_ ->]; auto).
    apply S; auto. destruct (lit_split c). lia.
  - intros r Hr. unfold mxu. destruct (lits_of _ _ Hr) as [-> | ->].
    + rewrite xor1_even. rewrite (Nat.mul_comm 2 t0). rewrite A. rewrite U by auto. f_equal. apply map_ext.
      intros t. rewrite (Nat.mul_comm t0 2), ren_even, xor1_even, (Nat.mul_comm t). auto.
    + rewrite xor1_odd. rewrite (Nat.mul_comm 2 t0). rewrite B. rewrite U by auto. f_equal. apply map_ext.
      intros t. rewrite (Nat.mul_comm t0 2), ren_odd, xor1_odd, (Nat.mul_comm t). auto.
  - intros r c Hr Hc. assert (X : forall r0 c0, r0 / 2 = t0 -> matpos2 r c <> matpos2 r0 c0).
    { intros r0 c0 H1 e. apply matpos2_inj in e. destruct e as [[-> ->]|[-> ->]]; auto. rewrite div2_xor1 in Hc. auto. }
    rewrite C by auto. apply S. intros; auto.
  - intros r. destruct (Nat.eq_dec (r / 2) t0) as [Hr|Hr].
    + rewrite C; auto; intros e; apply (xcell t0) in e; auto; lia.
    + assert (X : forall r0 c0, r0 / 2 = t0 -> matpos2 r r <> matpos2 r0 c0).
      { intros r0 c0 H1 e. apply matpos2_inj in e. destruct e as [[e _]|[_ e]]; apply Hr; rewrite e, ?div2_xor1; auto. }
      rewrite C by auto. apply S. intros; auto.
Qed.
(** literal of the folded dimension [t] in place of [t0] *)
Definition sub (t i : nat) : nat := if Nat.eqb (i / 2) t0 then ren t i else i.
Lemma sub_xor : forall t i, sub t (xor1 i) = xor1 (sub t i).
Proof. intros. unfold sub. rewrite div2_xor1. destruct (Nat.eqb_spec (i / 2) t0); auto. apply ren_xor. Qed.
Lemma sub_t0 : forall i, sub t0 i = i.
Proof. clear T0. intros. unfold sub. destruct (Nat.eqb_spec (i / 2) t0); auto. unfold ren. destruct (lit_split i). lia. Qed.
Lemma merge_cells : forall i j, i < 2 * dim -> j < 2 * dim -> i <> j -> (forall t, In t ts -> t <> j / 2 /\ t <> i / 2) ->
  fold_merge dim t0 ts m m (matpos2 i j) = bmaxs (map (fun t => m (matpos2 (sub t i) (sub t j))) ts) (m (matpos2 i j)).
Proof.
  destruct merge_spec as (A & B & C & _). set (tmp := fold_merge dim t0 ts m m) in *.
  assert (K : forall i j, i < 2 * dim -> j < 2 * dim -> i <> j -> (forall t, In t ts -> t <> j / 2 /\ t <> i / 2) -> i / 2 = t0 ->
     tmp (matpos2 i j) = bmaxs (map (fun t => m (matpos2 (sub t i) (sub t j))) ts) (m (matpos2 i j))).
  { intros i j Hi Hj D F Ei. destruct (Nat.eq_dec (j / 2) t0) as [Ej|Ej].
    - assert (j = xor1 i). { destruct (lits_of _ _ Ei) as [-> | ->], (lits_of _ _ Ej) as [-> | ->]; rewrite ?xor1_even, ?xor1_odd; lia. }
      subst j. rewrite B by auto. unfold mxu. f_equal. apply map_ext. intros t. rewrite sub_xor. unfold sub. rewrite Ei, Nat.eqb_refl. auto.
    - rewrite A by auto. unfold mx. f_equal. apply map_ext. intros t. unfold sub. rewrite Ei, Nat.eqb_refl.
      destruct (Nat.eqb_spec (j / 2) t0); tauto. }
  intros i j Hi Hj D F. destruct (Nat.eq_dec (i / 2) t0) as [Ei|Ei]; [apply K; auto|]. destruct (Nat.eq_dec (j / 2) t0) as [Ej|Ej].
  - rewrite (coh tmp), (coh m) by auto. rewrite K; auto using xor1_lt; rewrite ?div2_xor1; auto.
    + f_equal. apply map_ext_in. intros t It. rewrite !sub_xor. rewrite <- coh; auto.
      unfold sub. rewrite Ej, Nat.eqb_refl. destruct (Nat.eqb_spec (i / 2) t0); [tauto|]. intros e. apply (f_equal (fun x => x / 2)) in e.
      rewrite (proj1 (ren_div _ _)) in e. destruct (F t It). congruence.
    + intros e. apply xor1_inj in e. auto.
    + intros t It. destruct (F t It). auto.
  - rewrite C by auto. symmetry. apply bmaxs_same. intros x I0. apply in_map_iff in I0. destruct I0 as [t [<- _]].
    unfold sub. destruct (Nat.eqb_spec (i / 2) t0), (Nat.eqb_spec (j / 2) t0); tauto.
Qed.
End Merge.

Definition fold_ok (n t0 : nat) (ts : list nat) : Prop :=
  ts <> [] /\ StronglySorted lt (t0 :: ts) /\ forall t, In t (t0 :: ts) -> t < n.
Section Fold.
Variables (dim t0 : nat) (ts : list nat) (m : hmat).
Hypothesis OK : fold_ok dim t0 ts.
Lemma fold_NE : ts <> []. Proof. apply OK. Qed.
Lemma fold_S : StronglySorted lt ts. Proof. destruct OK as (_ & S & _). inversion S; auto. Qed.
Lemma fold_B : forall p, In p ts -> p < dim. Proof. intros. apply OK. right; auto. Qed.
Lemma fold_lt : forall p, In p ts -> t0 < p.
Proof. intros p I0. destruct OK as (_ & S & _). inversion S as [|? ? _ F]. rewrite Forall_forall in F. auto. Qed.
Lemma fold_T0 : t0 < dim. Proof. apply OK. left; auto. Qed.
Lemma fold_rem_t0 : t0 - clt ts t0 = t0.
Proof. rewrite clt_none; [lia|]. apply Forall_forall. intros x I0. apply fold_lt in I0. lia. Qed.
Lemma fold_len : t0 < dim - length ts.
Proof.
  destruct (rem_tot dim ts fold_S fold_B (2 * t0)) as [i' [H1 H2]].
  - pose proof fold_T0. lia.
  - rewrite div2_even. intros I0. apply fold_lt in I0. lia.
  - apply lmap_div in H2. destruct H2 as [H2 _]. rewrite div2_even in H2. rewrite rem_V in H2; auto using fold_S.
    + rewrite fold_rem_t0 in H2. inversion H2 as [H3]. apply div2_lt in H1. lia.
    + intros I0. apply fold_lt in I0. lia.
Qed.
Lemma rem_inj : forall x y, ~ In x ts -> ~ In y ts -> x - clt ts x = y - clt ts y -> x = y.
Proof.
  intros x y Nx Ny E0.
  assert (L1 : lmap ts 1 false (2 * x) (2 * (x - clt ts x))).
  { eexists. rewrite div2_even, mod2_even. split; [apply rem_V; auto using fold_S|lia]. }
  assert (L2 : lmap ts 1 false (2 * y) (2 * (x - clt ts x))).
  { rewrite E0. eexists. rewrite div2_even, mod2_even. split; [apply rem_V; auto using fold_S|lia]. }
  assert (2 * x = 2 * y); [|lia]. exact (lmap_inj _ _ _ (K0 _ _ _ _ (rem_ok dim ts fold_S fold_B)) _ _ _ L1 L2).
Qed.
Notation n' := (dim - length ts).
Definition fold_mat : hmat :=
  let tmp := fold_merge dim t0 ts m m in
  let mm := hmat_addrem_dimensions (hmat_top n') tmp ts 1 dim false in
  upd (upd mm (matpos (t0 * 2) (t0 * 2)) (Fin 0)) (matpos (t0 * 2 + 1) (t0 * 2 + 1)) (Fin 0).
(** the cells of the result *)
Lemma fold_cells : forall i' j', i' < 2 * n' -> j' < 2 * n' -> i' <> j' -> exists i j, i < 2 * dim /\ j < 2 * dim /\ i <> j /\
  ~ In (i / 2) ts /\ ~ In (j / 2) ts /\ lmap ts 1 false i i' /\ lmap ts 1 false j j' /\
  fold_mat (matpos2 i' j') = bmaxs (map (fun t => m (matpos2 (sub t0 t i) (sub t0 t j))) ts) (m (matpos2 i j)).
Proof.
  intros i' j' Hi Hj D. pose proof fold_NE. pose proof fold_S. pose proof fold_B.
  destruct (rem_surj dim ts H0 H1 i' Hi) as [i [Hi' Li]], (rem_surj dim ts H0 H1 j' Hj) as [j [Hj' Lj]].
  exists i, j. assert (NI : forall k k', lmap ts 1 false k k' -> ~ In (k / 2) ts).
  { intros k k' L I0. apply lmap_div in L. destruct L as [L _]. rewrite rem_V_in in L by auto. discriminate. }
  assert (Dij : i <> j) by (intros ->; apply D; exact (lmap_fun _ _ _ _ _ _ Li Lj)).
  do 3 (split; auto). split; [eapply NI; eauto|]. split; [eapply NI; eauto|]. do 2 (split; auto).
  unfold fold_mat. rewrite !upd_other.
  - rewrite (copied2 ts 1 false dim (rem_ok dim ts H0 H1) _ _ _ (rem_copied dim ts H H0 H1 _ _) i i' j j') by auto.
    apply merge_cells; auto using fold_T0. intros t It. split; intros ->; [apply (NI j j' Lj)|apply (NI i i' Li)]; auto.
  - rewrite <- matpos2_diag. intros e. apply matpos2_inj in e. destruct e as [[-> ->]|[-> ->]]; auto.
  - rewrite <- matpos2_diag. intros e. apply matpos2_inj in e. destruct e as [[-> ->]|[-> ->]]; auto.
Qed.
Lemma fold_diag : forall i', i' < 2 * n' -> fold_mat (matpos2 i' i') = Fin 0 \/ exists i, i < 2 * dim /\ fold_mat (matpos2 i' i') = m (matpos i i).
Proof.
  intros i' Hi. pose proof fold_NE. pose proof fold_S. pose proof fold_B. unfold fold_mat.
  destruct (Nat.eq_dec (matpos2 i' i') (matpos (t0 * 2 + 1) (t0 * 2 + 1))) as [->|N1]; [rewrite upd_same; auto|].
  rewrite upd_other by auto.
  destruct (Nat.eq_dec (matpos2 i' i') (matpos (t0 * 2) (t0 * 2))) as [->|N2]; [rewrite upd_same; auto|].
  rewrite upd_other by auto. right.
  destruct (rem_surj dim ts H0 H1 i' Hi) as [i [Hi' Li]]. exists i. split; auto.
  rewrite (copied2 ts 1 false dim (rem_ok dim ts H0 H1) _ _ _ (rem_copied dim ts H H0 H1 _ _) i i' i i') by auto.
  rewrite (proj2 (proj2 (proj2 (merge_spec dim t0 ts m fold_T0)))). rewrite matpos2_diag. auto.
Qed.
(** point obtained from [v] by folding with the value of [t] *)
Definition folded (t : nat) (v w : nat -> R) : Prop :=
  w t0 = v t /\ forall x, x < dim -> ~ In x ts -> x <> t0 -> w (x - clt ts x) = v x.
Lemma folded_lit : forall t v w i i', folded t v w -> i < 2 * dim -> lmap ts 1 false i i' -> lit w i' = lit v (sub t0 t i).
Proof.
  intros t v w i i' [F0 F] Hi L. apply lmap_div in L. destruct L as [L1 L2].
  assert (NI : ~ In (i / 2) ts) by (intros I0; rewrite (rem_V_in ts fold_S _ I0) in L1; discriminate).
  rewrite rem_V in L1; auto using fold_S. inversion L1 as [E0]. unfold sub, lit. destruct (Nat.eqb_spec (i / 2) t0) as [e|].
  - destruct (ren_div t i) as [-> ->]. rewrite L2, <- E0, e, fold_rem_t0, F0. auto.
  - rewrite L2, <- E0, F; auto. apply div2_lt; auto.
Qed.
Lemma fold_gam_sound : forall t v w, nndiag dim m -> In t (t0 :: ts) -> folded t v w -> gam dim m v -> gam n' fold_mat w.
Proof.
  intros t v w ND It F G. apply gam_okm. intros i' j' Hi Hj. destruct (Nat.eq_dec i' j') as [<-|D].
  - replace (lit w i' - lit w i')%R with 0%R by ring. destruct (fold_diag i' Hi) as [->|[i [Hi' ->]]].
    + simpl. rewrite Q2R_0'. lra.
    + apply bsgn_ge0. auto.
  - destruct (fold_cells i' j' Hi Hj D) as (i & j & Hi' & Hj' & Dij & Ni & Nj & Li & Lj & ->).
    rewrite (folded_lit t v w i i' F), (folded_lit t v w j j' F) by auto.
    assert (SL : forall k, k < 2 * dim -> sub t0 t k < 2 * dim).
    { intros k Hk. unfold sub. destruct (Nat.eqb_spec (k / 2) t0); auto. apply ren_lt. apply OK. auto. }
    assert (B : le_rb (lit v (sub t0 t j) - lit v (sub t0 t i)) (m (matpos2 (sub t0 t i) (sub t0 t j)))) by (apply gam_full with dim; auto).
    apply bmaxs_le. destruct It as [<-|It].
    + left. rewrite !sub_t0 in B. rewrite !sub_t0. auto.
    + right. eexists. split; [apply in_map_iff; exists t; split; [reflexivity|auto]|auto].
Qed.
Lemma folded_ex : forall t v, exists w, folded t v w.
Proof.
  intros t v.
    pose (w' := fun y => if Nat.eqb y t0 then v t else match find (fun x => negb (memb ts x) && Nat.eqb (x - clt ts x) y) (seq 0 dim) with Some x => v x | None => 0%R end).
    exists w'. split; [unfold w'; rewrite Nat.eqb_refl; auto|]. intros x Hx Nx Dx. unfold w'.
      destruct (Nat.eqb_spec (x - clt ts x) t0) as [e|_].
      { exfalso. apply Dx. apply rem_inj; auto.
        - intros I0. apply fold_lt in I0. lia.
        - rewrite fold_rem_t0. auto. }
      destruct (find _ _) as [x0|] eqn:Fd.
      - apply find_some in Fd. destruct Fd as [I0 Fd]. apply andb_true_iff in Fd. destruct Fd as [F1 F2].
        apply Nat.eqb_eq in F2. apply negb_true_iff in F1. f_equal. apply rem_inj; auto. rewrite <- memb_In. congruence.
      - exfalso. pose proof (find_none _ _ Fd x) as X. cbv beta in X. rewrite Nat.eqb_refl in X. 
        destruct (memb ts x) eqn:M; [apply memb_In in M; tauto|]. simpl in X. specialize (X ltac:(apply in_seq; lia)). discriminate.
Qed.
Lemma fold_gam_best : forall mc, sclosed dim m ->
  (forall t v w, In t (t0 :: ts) -> folded t v w -> gam dim m v -> gam n' mc w) -> nndiag n' mc ->
  forall w, gam n' fold_mat w -> gam n' mc w.
Proof.
  intros mc SC H NDc w G. apply gam_okm. intros i' j' Hi Hj. destruct (Nat.eq_dec i' j') as [<-|D].
  { replace (lit w i' - lit w i')%R with 0%R by ring. rewrite matpos2_diag. apply bsgn_ge0. auto. }
  apply le_rb_mono with (fold_mat (matpos2 i' j')); [apply gam_full with n'; auto|].
  destruct (fold_cells i' j' Hi Hj D) as (i & j & Hi' & Hj' & Dij & Ni & Nj & Li & Lj & ->).
  (* each folded copy *)
  assert (K : forall t, In t (t0 :: ts) -> le_bb (m (matpos2 (sub t0 t i) (sub t0 t j))) (mc (matpos2 i' j'))).
  { intros t It.
    assert (SL : forall k, k < 2 * dim -> sub t0 t k < 2 * dim).
    { intros k Hk. unfold sub. destruct (Nat.eqb_spec (k / 2) t0); auto. apply ren_lt. apply OK. auto. }
    apply (tight_le dim m SC (sub t0 t i) (sub t0 t j)); auto. intros v Gv.
    destruct (folded_ex t v) as [w' FW].
    rewrite <- (folded_lit t v w' i i' FW), <- (folded_lit t v w' j j' FW) by auto.
    apply gam_full with n'; auto. apply (H t v w'); auto. }
  apply bmaxs_lub.
  - specialize (K t0 (or_introl eq_refl)). rewrite !sub_t0 in K. auto.
  - intros x I0. apply in_map_iff in I0. destruct I0 as [t [<- It]]. apply K. right; auto.
Qed.
End Fold.

Section FoldOct.
Context {N : numtype}.
Lemma fold_dim : forall z a t0 ts, odim (oct_fold (N:=N) z a t0 ts) = odim a - length ts /\ oint (oct_fold (N:=N) z a t0 ts) = (if Nat.ltb t0 (oint a) then oint a - length ts else oint a).
Proof. intros. unfold oct_fold. destruct (cached_dim (N:=N) z a) as [D1 D2]. simpl. rewrite D1, D2. auto. Qed.
Lemma fold_unfold : forall (z : Z) (a : oct) (t0 : nat) (ts : list nat), oct_fold (N:=N) z a t0 ts =
  mkOct (match best (cached (N:=N) z a) with None => None | Some m => Some (fold_mat (odim a) t0 ts m) end) None
    (odim a - length ts) (if Nat.ltb t0 (oint a) then oint a - length ts else oint a).
Proof. intros. unfold oct_fold, fold_mat. destruct (cached_dim (N:=N) z a) as [D1 D2]. rewrite D1, D2. auto. Qed.
Lemma fold_sound : forall z a t0 ts t v w, wfo a -> fold_ok (odim a) t0 ts -> In t (t0 :: ts) -> gamo a v ->
  folded (odim a) t0 ts t v w -> gamo (oct_fold (N:=N) z a t0 ts) w.
Proof.
  intros z a t0 ts t v w W OK It G F. rewrite <- (cached_gamo (N:=N) z a v W) in G.
  pose proof (cached_wfo (N:=N) z a W) as W'. rewrite gamo_best in G by auto.
  rewrite (proj1 (cached_dim (N:=N) z a)) in G. rewrite fold_unfold. destruct (best (cached (N:=N) z a)) as [m|] eqn:Bm; [|tauto].
  apply gamo_single_m. destruct (best_wf _ _ W' Bm) as [_ X]. rewrite (proj1 (cached_dim (N:=N) z a)) in X.
  apply (fold_gam_sound (odim a) t0 ts m OK t v w); auto.
Qed.
Lemma fold_wfo : forall z a t0 ts, wfo a -> fold_ok (odim a) t0 ts -> wfo (oct_fold (N:=N) z a t0 ts).
Proof.
  intros z a t0 ts W OK. rewrite fold_unfold. pose proof (cached_wfo (N:=N) z a W) as W'. pose proof (wfo_int _ W) as Wi.
  pose proof (fold_len _ _ _ OK) as FL.
  destruct (best (cached (N:=N) z a)) as [m|] eqn:Bm.
  2: { apply wfo_none. destruct (Nat.ltb_spec t0 (oint a)); lia. }
  destruct (best_wf _ _ W' Bm) as [X1 X2]. rewrite (proj1 (cached_dim (N:=N) z a)) in X1, X2. apply wfo_single_m.
  - intros i' j' Hi Hj. rewrite <- matpos2_half by auto. pose proof (or1_lt2 _ _ _ Hi Hj) as Hj2.
    destruct (Nat.eq_dec i' j') as [<-|D].
    + destruct (fold_diag (odim a) t0 ts m OK i' Hi) as [->|[i [Hi' ->]]]; [discriminate|]. apply X1; auto using or1_ge.
    + destruct (fold_cells (odim a) t0 ts m OK i' j' Hi Hj2 D) as (i & j & Hi' & Hj' & _ & _ & _ & _ & _ & ->).
      apply bmaxs_fin. eapply wfm2; eauto.
  - intros i' Hi. rewrite <- matpos2_diag. destruct (fold_diag (odim a) t0 ts m OK i' Hi) as [->|[i [Hi' ->]]]; [simpl; lia|auto].
  - destruct (Nat.ltb_spec t0 (oint a)); lia.
Qed.
End FoldOct.
Lemma fold_exo : forall z a t0 ts, exo a -> fold_ok (odim a) t0 ts -> exo (oct_fold (N:=E) z a t0 ts).
Proof. intros z a t0 ts X OK. constructor; [apply fold_wfo; auto; apply X|]. rewrite fold_unfold. simpl. discriminate. Qed.
Lemma fold_best : forall z a t0 ts c, (0 <= z)%Z -> exo a -> fold_ok (odim a) t0 ts -> wfo c -> odim c = odim a - length ts ->
  (forall t v w, In t (t0 :: ts) -> gamo a v -> folded (odim a) t0 ts t v w -> gamo c w) ->
  forall w, gamo (oct_fold (N:=E) z a t0 ts) w -> gamo c w.
Proof.
  intros z a t0 ts c Hz X OK Wc Dc H w G. rewrite fold_unfold in G.
  destruct (best (cached (N:=E) z a)) as [m|] eqn:Bm; [|exfalso; eapply gamo_none; eauto].
  rewrite gamo_single_m in G. pose proof (closed_ex z a m Hz X Bm) as SC.
  assert (Ga : forall v, gamo a v <-> gam (odim a) m v).
  { intros v. rewrite <- (cached_gamo (N:=E) z a v) by apply X. rewrite gamo_best by (apply cached_wfo; apply X).
    rewrite Bm, (proj1 (cached_dim (N:=E) z a)). tauto. }
  rewrite gamo_best by auto. destruct (best c) as [mc|] eqn:Bc.
  - destruct (best_wf _ _ Wc Bc) as [_ NDc]. rewrite Dc in *. apply (fold_gam_best (odim a) t0 ts m OK mc); auto.
    intros t v w' It F Gv. specialize (H t v w' It (proj2 (Ga v) Gv) F). rewrite gamo_best, Bc, Dc in H by auto. auto.
  - (* the argument is not empty *)
    destruct (sc_nonempty (odim a) m SC) as [v Gv].
    destruct (folded_ex (odim a) t0 ts OK t0 v) as [w' F].
    specialize (H t0 v w' (or_introl eq_refl) (proj2 (Ga v) Gv) F). rewrite gamo_best, Bc in H by auto. auto.
Qed.

(** Expansion and folding of dimensions of polyhedra: sets of points. *)
From Coq Require Import ZArith Bool List Lia Reals Lra Sorted Permutation.
Import ListNotations.
From Verif Require Import OctResize2 OctResize3 Box BoxDims PkCone PkVec PkCherni PkCherniFacts PkSpec PkFarkas PkRank PkSimplifyEnd PkMinimize PkPoly PkPolyFacts PkPolyLeq PkPolyMeet PkLin PkOps PkRepr PkAssign PkMatrix PkEmb PkDims PkProj.
Open Scope R_scope.
Opaque vector_normalize.

(** * Expansion *)
Lemma refine_C : forall pa po i r i' r' (P : vec -> Prop) B (Bk : nat -> vec -> vec) n C', repr pa i r P -> pC pa <> None -> (forall x, B x 0%nat = x 0%nat) -> (forall k x, Bk k x 0%nat = x 0%nat) ->
  Forall (lenS (d1 i' r')) C' -> (forall y, cone C' y <-> cK pa (B y) /\ forall k, (k < n)%nat -> cK pa (Bk k y)) ->
  pint po = i' -> preal po = r' -> pC po = Some C' -> pF po = None -> psatC po = None -> psatF po = None ->
  repr po i' r' (fun y => P (fun j => B (homog y) (S j)) /\ forall k, (k < n)%nat -> P (fun j => Bk k (homog y) (S j))).
Proof.
  intros pa po i r i' r' P B Bk n C' HR EC B0 Bk0 LC' K I' R' EC' EF' s1 s2. assert (PN := repr_pn _ _ _ _ HR). destruct HR as ((SW & PO) & HI & HR & G). assert (PN' : pn po = d1 i' r') by (unfold pn, pdim, d1; congruence).
  assert (EQ : forall z, z 0%nat = 1 -> (cK pa z <-> P (fun j => z (S j)))). { intros z Z0. rewrite <- G. unfold gamma. split; intros X; eapply cK_ext; eauto; try (apply veq_sym; apply homog_eta; auto); try apply homog_eta; auto. }
  split; [split|split; [auto|split; [auto|]]].
  - unfold swf. rewrite EC', EF', PN'. auto.
  - right. split. 2: congruence. intros y Y. rewrite (cK_C po _ EC') in Y. apply K in Y. destruct Y as (Y & _). rewrite <- B0. destruct PO as [PO|(P1 & _)]. unfold isbot in PO. destruct (pC pa); congruence. apply P1; auto.
  - intros y. unfold gamma. rewrite (cK_C po _ EC'), K, (EQ (B (homog y))) by (rewrite B0; reflexivity). split; intros (X & Y); split; auto; intros k Hk; specialize (Y k Hk); apply (EQ (Bk k (homog y))); auto; rewrite Bk0; reflexivity.
Qed.
Definition upd (x : vec) (d j : nat) : vec := fun i => if Nat.eqb i (S d) then x (S j) else x i.
Lemma dt_upd : forall n (q q' : vec) y d j, (S d < n)%nat -> (S j < n)%nat -> d <> j -> q (S j) = 0 -> (forall i, (i < n)%nat -> q' i = if Nat.eqb i (S d) then 0 else if Nat.eqb i (S j) then q (S d) else q i) -> dt n q' y = dt n q (upd y d j).
Proof.
  intros n q q' y d j D J NE Q0 E. rewrite (dt_split n (S j) q' y J), (dt_split n (S d) q (upd y d j) D). unfold upd at 1. rewrite Nat.eqb_refl. rewrite E by auto. destruct (Nat.eqb_spec (S j) (S d)); [lia|]. rewrite Nat.eqb_refl. f_equal.
  unfold dt. apply sm_ext. intros i Hi. unfold upd. rewrite (E i Hi). destruct (Nat.eqb_spec i (S j)), (Nat.eqb_spec i (S d)); subst; try lia; try rewrite Q0; ring.
Qed.
Lemma exp_add_ok : forall d o n, (o <= d)%nat -> box_add_ok d (repeat o n).
Proof. intros d o n H. split. induction n; simpl; constructor; auto. apply Forall_forall. intros x X. apply repeat_spec in X. lia. intros p X. apply repeat_spec in X. lia. Qed.
Lemma nrep : forall n k (o : nat), (k < n)%nat -> nth k (repeat o n) 0%nat = o. Proof. induction n; intros [|k] o H; simpl; auto; try lia. apply IHn. lia. Qed.
Lemma rep_new : forall o n c, In c (anew (repeat o n)) <-> exists k, (k < n)%nat /\ c = (o + k)%nat.
Proof. intros o n c. rewrite anew_in, repeat_length. split; intros (t & T & E); exists t; split; auto; [rewrite nrep in E by auto|rewrite nrep by auto]; lia. Qed.
Lemma rep_sh : forall o n j, atau (repeat o n) j = if (j <? o)%nat then j else (j + n)%nat.
Proof. intros. unfold atau. rewrite cle_repeat. destruct (j <? o)%nat; lia. Qed.
Lemma expand_cone : forall destr d dim o n C, (dim < o)%nat -> (o <= d)%nat -> Forall (lenS (S d)) C ->
  Forall (lenS (S (d + n))) (expand_rows destr dim o n C) /\
  forall y, cone (expand_rows destr dim o n C) y <-> cone C (Bm (atau (repeat o n)) y) /\ forall k, (k < n)%nat -> cone C (Bm (atau (repeat o n)) (upd y dim (o + k))).
Proof.
  intros destr d dim o n C DO OD L. unfold expand_rows. set (g := vector_add destr (repeat o n)). assert (AE : forall q, lenS (S d) q -> emb d (d + n) (atau (repeat o n)) (anew (repeat o n)) q (g q)). { intros q Q. assert (A := add_emb destr d (repeat o n) q (exp_add_ok d o n OD) Q). rewrite repeat_length in A. exact A. }
  assert (LG : Forall (lenS (S (d + n))) (map g C)). { rewrite Forall_forall in *. intros q Q. apply in_map_iff in Q. destruct Q as (c & <- & Q). apply (AE c); auto. }
  assert (CG : forall y, cone (map g C) y <-> cone C (Bm (atau (repeat o n)) y)). { intros y. apply (cone_map (S d) (S (d + n))); auto. intros c I. rewrite Forall_forall in L. apply emb_rpre with (new := anew (repeat o n)); auto.
    - intros j J. assert (Q := atau_lt d (repeat o n) j J). rewrite repeat_length in Q. auto.
    - apply atau_inj. apply exp_add_ok; auto.
    - intros k K. assert (Q := acover d (repeat o n) (exp_add_ok d o n OD) k). rewrite repeat_length in Q. apply Q; auto. }
  set (h := fun (j : nat) (q : pvec) => map (fun k => if Nat.eqb k (dim + 2) then 0%Z else if Nat.eqb k (j + 2) then zn (dim + 2) q else zn k q) (seq 0 (length q))).
  assert (HL : forall j q, lenS (S (d + n)) q -> lenS (S (d + n)) (h j q)). { intros j q Q. unfold h, lenS in *. rewrite map_length, seq_length. auto. }
  assert (HR : forall j q y, In q (map g C) -> (o <= j < o + n)%nat -> (row_holds (h j q) y <-> row_holds q (upd y dim j))).
  { intros j q y Q J. assert (LQ : lenS (S (d + n)) q) by (rewrite Forall_forall in LG; auto). assert (LN : length q = S (S (d + n))) by exact LQ. rewrite (row_dt (S (d + n)) (h j q) y (HL j q LQ)), (row_dt (S (d + n)) q _ LQ).
    assert (Z0 : zn 0 (h j q) = zn 0 q). { unfold h. rewrite zn_mapseq by lia. destruct (Nat.eqb_spec 0 (dim + 2)); [lia|]. destruct (Nat.eqb_spec 0 (j + 2)); auto; lia. }
    assert (DE : dt (S (d + n)) (rv (tl (h j q))) y = dt (S (d + n)) (rv (tl q)) (upd y dim j)).
    { apply dt_upd; try lia. apply in_map_iff in Q. destruct Q as (c & <- & Q). rewrite Forall_forall in L. assert (N := AE c (L c Q)). apply (emb_new d (d + n) (atau (repeat o n)) (anew (repeat o n)) c); auto. apply rep_new. exists (j - o)%nat. lia.
      intros i Hi. rewrite !rv_zn. unfold h. rewrite zn_mapseq by lia. replace (dim + 2)%nat with (S (S dim)) by lia. replace (j + 2)%nat with (S (S j)) by lia. cbn [Nat.eqb]. destruct i; cbn [Nat.eqb]; auto. destruct (Nat.eqb i dim); auto. destruct (Nat.eqb i j); auto. }
    rewrite Z0, DE. tauto. }
  split.
  - apply Forall_app. split; auto. apply Forall_forall. intros q Q. apply in_flat_map in Q. destruct Q as (c & Ic & Q). destruct (zn (dim + 2) c =? 0)%Z. destruct Q. apply in_map_iff in Q. destruct Q as (j & <- & J). apply HL. rewrite Forall_forall in LG; auto.
  - intros y. rewrite <- CG. split.
    + intros H. rewrite cone_in in H. assert (H1 : cone (map g C) y). { apply cone_in. intros c I. apply H. apply in_app_iff; auto. } split; auto. intros k K. apply CG. apply cone_in. intros c I. assert (LQ : lenS (S (d + n)) c) by (rewrite Forall_forall in LG; auto). destruct (Z.eqb_spec (zn (dim + 2) c) 0) as [Z|Z].
      * rewrite cone_in in H1. specialize (H1 c I). apply (row_dt _ c _ LQ). apply (row_dt _ c _ LQ) in H1. replace (dt (S (d + n)) (rv (tl c)) (upd y dim (o + k))) with (dt (S (d + n)) (rv (tl c)) y); auto. unfold dt. apply sm_ext. intros i Hi. unfold upd. destruct (Nat.eqb_spec i (S dim)); auto. subst. rewrite rv_zn. replace (dim + 2)%nat with (S (S dim)) in Z by lia. rewrite Z. ring.
      * apply HR; auto. lia. apply H. apply in_app_iff. right. apply in_flat_map. exists c. split; auto. destruct (Z.eqb_spec (zn (dim + 2) c) 0); try congruence. apply in_map_iff. exists (o + k)%nat. split; auto. apply in_seq. lia.
    + intros (H1 & H2). apply cone_in. intros q Q. apply in_app_iff in Q. destruct Q as [Q|Q]. rewrite cone_in in H1. auto. apply in_flat_map in Q. destruct Q as (c & Ic & Q). destruct (zn (dim + 2) c =? 0)%Z. destruct Q. apply in_map_iff in Q. destruct Q as (j & <- & J). apply in_seq in J. apply HR; auto.
      specialize (H2 (j - o)%nat ltac:(lia)). apply CG in H2. rewrite cone_in in H2. replace (o + (j - o))%nat with j in H2 by lia. auto.
Qed.
Definition pexp_off (i r dim : nat) : nat := if (dim <? i)%nat then i else (i + r)%nat.
Definition pexp_shift (i r dim n x : nat) : nat := if (x <? pexp_off i r dim)%nat then x else (x + n)%nat.
Definition pexp_i (i dim n : nat) : nat := if (dim <? i)%nat then (i + n)%nat else i.
Definition pexp_r (i r dim n : nat) : nat := if (dim <? i)%nat then r else (r + n)%nat.
Theorem expand_spec : forall alg0 alg1 destr pa dim n i r (P : vec -> Prop), repr pa i r P -> (dim < i + r)%nat ->
  let (po, pa') := pk_expand alg0 alg1 destr pa dim n in
  repr po (pexp_i i dim n) (pexp_r i r dim n) (fun y => P (fun j => y (pexp_shift i r dim n j)) /\ forall k, (k < n)%nat -> P (fun j => if Nat.eqb j dim then y (pexp_off i r dim + k)%nat else y (pexp_shift i r dim n j))) /\ (destr = false -> repr pa' i r P).
Proof.
  intros alg0 alg1 destr pa0 dim n i r P HR0 DM. unfold pk_expand. destruct (Nat.eqb_spec n 0) as [->|NZ].
  - split; [|intros _; exact HR0]. unfold pexp_i, pexp_r. replace (if (dim <? i)%nat then (i + 0)%nat else i) with i by (destruct (dim <? i)%nat; lia). replace (if (dim <? i)%nat then r else (r + 0)%nat) with r by (destruct (dim <? i)%nat; lia).
    eapply repr_iff. exact HR0. intros y. assert (E : forall j, (j < i + r)%nat -> y j = y (pexp_shift i r dim 0 j)). { intros j J. unfold pexp_shift. rewrite Nat.add_0_r. destruct (_ <? _)%nat; auto. }
    split. intros H. split. apply (repr_P_ext pa0 i r P y); auto. intros k K. lia. intros (H & _). apply (repr_P_ext pa0 i r P (fun j => y (pexp_shift i r dim 0 j))); auto. intros; symmetry; auto.
  - assert (HI0 : pint pa0 = i) by (destruct HR0 as (_ & A & _); auto). rewrite HI0. destruct (get_C alg0 pa0 i r P HR0) as (HR & HC). set (pa := if alg0 then poly_obtain_C pa0 else poly_chernikova pa0) in *. clearbody pa. assert (HR' := HR). destruct HR' as (_ & HI & HRR & _). rewrite HI, HRR. fold (pexp_i i dim n). fold (pexp_r i r dim n).
    cbv zeta.
    destruct (pC pa) as [C|] eqn:EC.
    + assert (OF : (if (dim + n <? pexp_i i dim n)%nat then (pexp_i i dim n - n)%nat else (pexp_i i dim n + pexp_r i r dim n - n)%nat) = pexp_off i r dim). { unfold pexp_i, pexp_r, pexp_off. destruct (Nat.ltb_spec dim i). destruct (Nat.ltb_spec (dim + n) (i + n)); lia. destruct (Nat.ltb_spec (dim + n) i); lia. }
      rewrite OF. set (o := pexp_off i r dim) in *. assert (LC : Forall (lenS (S (i + r))) C). { apply Forall_forall. intros q Q. apply (C_in pa i r P C); auto. }
      destruct (expand_cone destr (i + r) dim o n C) as (E1 & E2); auto. unfold o, pexp_off; destruct (Nat.ltb_spec dim i); lia. unfold o, pexp_off; destruct (Nat.ltb_spec dim i); lia.
      assert (DD : d1 (pexp_i i dim n) (pexp_r i r dim n) = S (i + r + n)) by (unfold d1, pexp_i, pexp_r; destruct (dim <? i)%nat; lia).
      assert (BE : forall (y : vec) j, Bm (atau (repeat o n)) (homog y) (S j) = y (pexp_shift i r dim n j)). { intros y j. unfold Bm, sg. rewrite rep_sh. reflexivity. }
      assert (BK : forall (y : vec) k j, (j < i + r)%nat -> Bm (atau (repeat o n)) (upd (homog y) dim (o + k)) (S j) = if Nat.eqb j dim then y (o + k)%nat else y (pexp_shift i r dim n j)).
      { intros y k j J. unfold Bm, sg, upd. rewrite rep_sh. cbn [Nat.eqb]. unfold pexp_shift. fold o. assert (DO : (dim < o)%nat) by (unfold o, pexp_off; destruct (Nat.ltb_spec dim i); lia). destruct (Nat.ltb_spec j o); destruct (Nat.eqb_spec j dim); subst; cbn [homog]; auto; try lia. destruct (Nat.eqb_spec (j + n) dim); [lia|auto]. }
      set (po := mkPoly _ _ _ _ _ _ _ _ _ _ _ _).
      assert (R1 : repr po (pexp_i i dim n) (pexp_r i r dim n) (fun y => P (fun j => Bm (atau (repeat o n)) (homog y) (S j)) /\ forall k, (k < n)%nat -> P (fun j => Bm (atau (repeat o n)) (upd (homog y) dim (o + k)) (S j)))).
      { apply (refine_C pa po i r (pexp_i i dim n) (pexp_r i r dim n) P (Bm (atau (repeat o n))) (fun k y => Bm (atau (repeat o n)) (upd y dim (o + k))) n (expand_rows destr dim o n C)); auto. congruence. rewrite DD. auto. intros y. rewrite E2. split; intros (A & B); split; try (intros k K; specialize (B k K)); try (apply (cK_C pa C EC)); auto; apply (cK_C pa C EC) in A; try (apply (cK_C pa C EC) in B); auto. }
      assert (R2 : repr po (pexp_i i dim n) (pexp_r i r dim n) (fun y => P (fun j => y (pexp_shift i r dim n j)) /\ forall k, (k < n)%nat -> P (fun j => if Nat.eqb j dim then y (o + k)%nat else y (pexp_shift i r dim n j)))).
      { eapply repr_iff. exact R1. intros y. split; intros (A & B); split. eapply repr_P_ext; [exact HR| |exact A]. intros; apply BE. intros k K. eapply repr_P_ext; [exact HR| |exact (B k K)]. intros; apply BK; auto.
        eapply repr_P_ext; [exact HR| |exact A]. intros; symmetry; apply BE. intros k K. eapply repr_P_ext; [exact HR| |exact (B k K)]. intros; symmetry; apply BK; auto. }
      split. apply (chern_opt alg1); auto. intros ->. auto.
    + specialize (HC eq_refl). split. apply repr_bot; auto. intros y (A & _). apply (repr_none pa i r P HR HC _ A). intros ->. auto.
Qed.

(** * Folding *)
Definition selt (d t0 : nat) (ts : list nat) (t y : nat) : nat := if Nat.eqb y t0 then t else rho d ts y.
Lemma hull_F : forall pa po i r i' r' (P : vec -> Prop) (A : nat -> vec -> vec) T F F', repr pa i r P -> pF pa = Some F -> T <> [] -> (forall t, In t T -> linear (d1 i r) (d1 i' r') (A t)) -> (forall t x, A t x 0%nat = x 0%nat) ->
  (forall t f, In t T -> In f F -> exists f', In f' F' /\ rimg (d1 i' r') (A t) f f') -> (forall f', In f' F' -> lenS (d1 i' r') f' /\ exists t f, In t T /\ In f F /\ rimg (d1 i' r') (A t) f f') ->
  pint po = i' -> preal po = r' -> pC po = None -> pF po = Some F' -> psatC po = None -> psatF po = None ->
  repr po i' r' (fun y => forall a, (forall t v w, In t T -> P v -> (forall j, (j < i' + r')%nat -> w j = A t (homog v) (S j)) -> 0 <= dt (d1 i' r') a (homog w)) -> 0 <= dt (d1 i' r') a (homog y)).
Proof.
  intros pa po i r i' r' P A T F F' HR EF TN LA A0 H1 H2 I' R' EC' EF' s1 s2. assert (PN := repr_pn _ _ _ _ HR). destruct HR as ((SW & PO) & HI & HR & G). assert (PN' : pn po = d1 i' r') by (unfold pn, pdim, d1; congruence). set (n' := d1 i' r') in *. set (n := d1 i r) in *.
  assert (LF' : Forall (lenS n') F') by (apply Forall_forall; intros q Q; apply H2; auto).
  assert (Z : (0 < n')%nat) by (unfold n', d1; lia).
  assert (KF : forall x, cK pa x <-> generated n F x) by (intros x; rewrite (cK_F pa F SW EF), PN; tauto).
  assert (KF' : forall y, cK po y <-> generated n' F' y) by (intros y; unfold cK; rewrite EC', EF', PN'; tauto).
  assert (PP : (forall x, cK pa x -> 0 <= x 0%nat) /\ exists x, cK pa x /\ 0 < x 0%nat). { destruct PO as [PO|(P1 & P2)]. unfold isbot in PO. rewrite EF in PO. destruct (pC pa); discriminate. split; auto. apply P2. congruence. } destruct PP as (P1 & p & Kp & P0).
  (* the images are in *)
  assert (IM : forall t x, In t T -> cK pa x -> cK po (A t x)).
  { intros t x It Kx. apply KF'. apply KF in Kx. revert x Kx. apply (gen_ind' n F (fun x => generated n' F' (A t x))).
    - intros x X. apply gen_zero. apply (linear_0 n n' (A t)); auto.
    - intros f x k y If SK Gx IH V. destruct (H1 t f It If) as (f' & If' & S0 & c & C0 & E). apply (gen_step n' F' f' (A t x) (k / c) (A t y) IH If'). rewrite S0. destruct SK; auto. right. apply Rmult_le_pos; auto. left. apply Rinv_0_lt_compat; auto.
      intros j J. rewrite (proj2 (LA t It) y _ V j J), (proj1 (LA t It) 1 x k (rv (tl f)) j J). unfold lin2. rewrite (E j J). field. lra. }
  (* every valid inequality is valid on the result *)
  assert (VA : forall a, (forall t x, In t T -> cK pa x -> 0 <= dt n' a (A t x)) -> forall y, cK po y -> 0 <= dt n' a y).
  { intros a V y Ky. apply KF' in Ky. revert y Ky. apply (gen_ind' n' F' (fun y => 0 <= dt n' a y)).
    - intros x X. rewrite (dt_ext n' a x (fun _ => 0)) by (intros j J; apply X; auto). rewrite dt_sym. unfold dt. rewrite (sm_ext n' _ (fun _ => 0)). clear. induction n'; simpl; lra. intros; ring.
    - intros f' x k y If SK Gx IH E. rewrite (dt_ext n' a y _ E), dt_lin. destruct (H2 f' If) as (_ & t & f & It & Ifo & S0 & c & C0 & EI).
      assert (DI : dt n' a (rv (tl f')) = c * dt n' a (A t (rv (tl f)))). { rewrite (dt_ext n' a _ (lin2 c (A t (rv (tl f))) 0 (rv (tl f)))). rewrite dt_lin. ring. intros j J. unfold lin2. rewrite EI by auto. ring. }
      assert (D0 : 0 <= dt n' a (A t (rv (tl f)))) by (apply V; auto; apply KF; apply in_gen; auto).
      destruct SK as [SK|SK].
      + assert (D1 : 0 <= dt n' a (A t (lin2 (-1) (rv (tl f)) 0 (rv (tl f))))). { apply V; auto. apply KF. apply in_gen_line; auto. apply S0; auto. } rewrite (dt_ext n' a _ _ (proj1 (LA t It) (-1) (rv (tl f)) 0 (rv (tl f)))), dt_lin in D1. assert (dt n' a (A t (rv (tl f))) = 0) by lra. rewrite DI, H. lra.
      + rewrite DI. assert (0 <= k * (c * dt n' a (A t (rv (tl f))))). { apply Rmult_le_pos; auto. apply Rmult_le_pos; lra. } lra. }
  assert (E0 : forall y : vec, dt n' (fun j => if Nat.eqb j 0 then 1 else 0) y = y 0%nat). { intros y. unfold dt. rewrite (sm_ext n' _ (fun j => if Nat.eqb j 0 then y j else 0)). apply sm_point; auto. intros j _. destruct (Nat.eqb j 0); ring. }
  split; [split|split; [auto|split; [auto|]]].
  - unfold swf. rewrite EC', EF', PN'. auto.
  - right. split. intros y Y. rewrite <- E0. apply VA; auto. intros t x It Kx. rewrite E0, A0. auto. intros _. destruct T as [|t T]; [congruence|]. exists (A t p). split. apply IM; simpl; auto. rewrite A0. auto.
  - intros y. split.
    + intros Gy a V. apply VA; auto. intros t x It Kx.
      assert (LL : forall u x v y, dt n' a (A t (lin2 u x v y)) = u * dt n' a (A t x) + v * dt n' a (A t y)). { intros. rewrite (dt_ext n' a _ _ (proj1 (LA t It) u x0 v y0)), dt_lin. auto. }
      assert (HP : forall x, cK pa x -> 0 < x 0%nat -> 0 <= dt n' a (A t x)).
      { intros z Kz Z0. set (v := fun j => z (S j) / z 0%nat). assert (VE : veq n (homog v) (lin2 (/ z 0%nat) z 0 z)). { intros [|j] _; unfold lin2, v; simpl; unfold Rdiv. field. lra. ring. }
        assert (Pv : P v). { apply G. unfold gamma. apply cK_ext with (lin2 (/ z 0%nat) z 0 z); auto. rewrite PN. apply veq_sym; auto. apply cK_lin; auto. left. apply Rinv_0_lt_compat; auto. lra. }
        specialize (V t v (fun j => A t (homog v) (S j)) It Pv (fun _ _ => eq_refl)). rewrite (dt_ext n' a _ (A t (homog v))) in V by (intros [|j] _; simpl; auto; rewrite A0; auto). rewrite (dt_ext n' a _ _ (proj2 (LA t It) _ _ VE)), LL in V.
        replace (dt n' a (A t z)) with (z 0%nat * (/ z 0%nat * dt n' a (A t z) + 0 * dt n' a (A t z))) by (field; lra). apply Rmult_le_pos; lra. }
      destruct (Rlt_le_dec (dt n' a (A t x)) 0) as [NG|]; auto. exfalso. assert (X0 := P1 x Kx). assert (DP := HP p Kp P0). set (s := (1 + dt n' a (A t p)) / - dt n' a (A t x)). assert (S0 : 0 < s) by (apply Rdiv_lt_0_compat; lra).
      assert (Q := HP (lin2 1 p s x)). rewrite LL in Q. assert (Q1 : 0 <= 1 * dt n' a (A t p) + s * dt n' a (A t x)). { apply Q. apply cK_lin; auto; lra. unfold lin2. assert (0 <= s * x 0%nat) by (apply Rmult_le_pos; lra). lra. }
      assert (s * dt n' a (A t x) = - (1 + dt n' a (A t p))) by (unfold s; field; lra). lra.
    + intros V. unfold gamma. apply KF'. apply (bidual n' F' _ LF'). intros a Ca. rewrite dt_sym. apply V. intros t v w It Pv W. rewrite dt_sym. apply (proj1 (bidual n' F' (homog w) LF')); auto. apply KF'. apply cK_ext with (A t (homog v)). unfold swf. rewrite EC', EF', PN'. auto. rewrite PN'. intros [|j] J. rewrite A0. auto. simpl. symmetry. apply W. unfold n', d1 in J. lia. apply IM; auto. apply G; auto.
Qed.
Lemma fold_rem_ok : forall d t0 ts, box_fold_ok d t0 ts -> box_rem_ok d ts. Proof. intros d t0 ts (S & B). inversion S; subst. split; auto. intros p I. apply B. simpl; auto. Qed.
Lemma rho_t0 : forall d t0 ts, box_fold_ok d t0 ts -> (t0 < d - length ts)%nat /\ rho d ts t0 = t0.
Proof. intros d t0 ts OK. destruct (clt_t0 d t0 ts OK) as (A & B). destruct (rho_inv d ts t0 (fold_rem_ok _ _ _ OK)) as (C & D); auto. apply OK; simpl; auto. rewrite A, Nat.sub_0_r in *. auto. Qed.
Lemma selt_lt : forall d t0 ts t y, box_fold_ok d t0 ts -> In t (t0 :: ts) -> (y < d - length ts)%nat -> (selt d t0 ts t y < d)%nat.
Proof. intros d t0 ts t y OK It Y. unfold selt. destruct (Nat.eqb y t0). apply OK; auto. apply rho_spec; auto. apply fold_rem_ok with t0; auto. Qed.
Definition fold_row (t0 : nat) (ts : list nat) (t : nat) (q : pvec) : pvec :=
  let w := vector_remove false ts q in vector_normalize (if Nat.eqb t t0 then w else map (fun k => if Nat.eqb k (t0 + 2) then zn (t + 2) q else zn k w) (seq 0 (length w))).
Lemma fold_rimg : forall d t0 ts t q, box_fold_ok d t0 ts -> In t (t0 :: ts) -> lenS (S d) q -> rimg (S (d - length ts)) (Sel (selt d t0 ts t)) q (fold_row t0 ts t q) /\ lenS (S (d - length ts)) (fold_row t0 ts t q).
Proof.
  intros d t0 ts t q OK It LQ. unfold fold_row. destruct (remove_row false d ts q (fold_rem_ok _ _ _ OK) LQ) as (A & B & C & D). destruct (rho_t0 d t0 ts OK) as (E1 & E2). set (w := vector_remove false ts q) in *. assert (LW : length w = S (S (d - length ts))) by exact A.
  assert (C' : IZR (zn 1 w) = IZR (zn 1 q)) by congruence. assert (D' : forall y, (y < d - length ts)%nat -> zn (S (S y)) w = zn (S (S (rho d ts y))) q). { intros y Y. specialize (D y Y). rewrite !(Nat.add_comm _ 2) in D. exact D. }
  destruct (Nat.eqb_spec t t0) as [->|NE].
  - apply row_rimg; auto. intros [|y] Y; unfold Sel; rewrite !rv_zn; auto. rewrite D' by lia. unfold selt. destruct (Nat.eqb_spec y t0); auto. subst. rewrite E2. auto.
  - apply row_rimg. unfold lenS. rewrite map_length, seq_length. auto. rewrite zn_mapseq by lia. destruct (Nat.eqb_spec 0 (t0 + 2)); auto; lia.
    intros [|y] Y; unfold Sel; rewrite !rv_zn, zn_mapseq by lia. destruct (Nat.eqb_spec 1 (t0 + 2)); auto; lia. rewrite !(Nat.add_comm _ 2). cbn [Nat.add Nat.eqb]. unfold selt. destruct (Nat.eqb y t0); auto. rewrite D' by lia. auto.
Qed.
Lemma fold_rows_in : forall t0 ts F f', ~ In t0 ts -> In f' (fold_rows t0 ts F) -> exists t f, In t (t0 :: ts) /\ In f F /\ f' = fold_row t0 ts t f.
Proof.
  intros t0 ts F f' NI I. unfold fold_rows in I. apply in_flat_map in I. destruct I as (f & If & [E|I]). exists t0, f. simpl. split; auto. split; auto. rewrite <- E. unfold fold_row. rewrite Nat.eqb_refl. auto.
  apply in_flat_map in I. destruct I as (t & It & I). destruct (zn (t0 + 2) f =? zn (t + 2) f)%Z. destruct I. destruct I as [E|[]]. exists t, f. simpl. split; auto. split; auto. rewrite <- E. unfold fold_row. destruct (Nat.eqb_spec t t0); auto. subst. tauto.
Qed.
Lemma rimg_ext : forall n A B f f', (forall i, (i < n)%nat -> A (rv (tl f)) i = B (rv (tl f)) i) -> rimg n A f f' -> rimg n B f f'.
Proof. intros n A B f f' H (S & k & K & E). split; auto. exists k. split; auto. intros i Hi. rewrite <- H; auto. Qed.
Lemma fold_rows_has : forall d t0 ts F t f, box_fold_ok d t0 ts -> In t (t0 :: ts) -> In f F -> lenS (S d) f -> exists f', In f' (fold_rows t0 ts F) /\ rimg (S (d - length ts)) (Sel (selt d t0 ts t)) f f'.
Proof.
  intros d t0 ts F t f OK It If L. destruct (clt_t0 d t0 ts OK) as (_ & NI). assert (I0 : In (fold_row t0 ts t0 f) (fold_rows t0 ts F)). { apply in_flat_map. exists f. split; auto. left. unfold fold_row. rewrite Nat.eqb_refl. auto. }
  destruct (Nat.eq_dec t t0) as [->|NE]. { exists (fold_row t0 ts t0 f). split; auto. apply fold_rimg; auto. }
  destruct (Z.eqb_spec (zn (t0 + 2) f) (zn (t + 2) f)) as [Z|Z].
  - exists (fold_row t0 ts t0 f). split; auto. apply rimg_ext with (Sel (selt d t0 ts t0)). 2: apply fold_rimg; simpl; auto. intros [|y] Y; unfold Sel; auto. unfold selt. destruct (Nat.eqb y t0); auto. rewrite !rv_zn. rewrite !(Nat.add_comm _ 2) in Z. simpl in Z. congruence.
  - exists (fold_row t0 ts t f). split. apply in_flat_map. exists f. split; auto. right. apply in_flat_map. exists t. split. destruct It; congruence. destruct (Z.eqb_spec (zn (t0 + 2) f) (zn (t + 2) f)); try congruence. left. unfold fold_row. destruct (Nat.eqb_spec t t0); congruence. apply fold_rimg; auto.
Qed.
Definition pfold_i (i t0 : nat) (ts : list nat) : nat := if (t0 <? i)%nat then (i - length ts)%nat else i.
Definition pfold_r (i r t0 : nat) (ts : list nat) : nat := if (t0 <? i)%nat then r else (r - length ts)%nat.
Definition same_type (i t0 : nat) (ts : list nat) : Prop := (t0 < i)%nat -> forall t, In t ts -> (t < i)%nat.
Lemma pfold_dim : forall i r t0 ts, box_fold_ok (i + r) t0 ts -> same_type i t0 ts -> (pfold_i i t0 ts + pfold_r i r t0 ts = i + r - length ts)%nat.
Proof.
  intros i r t0 ts (SS & B) T. unfold pfold_i, pfold_r. destruct (Nat.ltb_spec t0 i). assert (Q := sorted_len ts t0 i SS (T H) H). lia. assert (Q := sorted_len ts t0 (i + r) SS (fun t I => B t (or_intror I)) (B t0 (or_introl eq_refl))). lia.
Qed.
Theorem fold_spec : forall alg0 alg1 destr pa t0 ts i r (P : vec -> Prop), repr pa i r P -> box_fold_ok (i + r) t0 ts -> same_type i t0 ts ->
  let (po, pa') := pk_fold alg0 alg1 destr pa t0 ts in
  repr po (pfold_i i t0 ts) (pfold_r i r t0 ts) (fun y => (exists x, P x) /\ forall a, (forall t v w, In t (t0 :: ts) -> P v -> box_folded (i + r) t0 ts t v w -> 0 <= dt (S (i + r - length ts)) a (homog w)) -> 0 <= dt (S (i + r - length ts)) a (homog y)) /\ (destr = false -> repr pa' i r P).
Proof.
  intros alg0 alg1 destr pa0 t0 ts i r P HR0 OK ST. unfold pk_fold. assert (HI0 : pint pa0 = i) by (destruct HR0 as (_ & A & _); auto). rewrite HI0.
  assert (GF : let pa' := if alg0 then poly_obtain_F pa0 else poly_chernikova pa0 in repr pa' i r P /\ (pF pa' = None -> isbot pa' = true)). { assert (Q := get_F (negb alg0) pa0 i r P HR0). destruct alg0; exact Q. }
  destruct GF as (HR & HF). set (pa := if alg0 then poly_obtain_F pa0 else poly_chernikova pa0) in *. clearbody pa. assert (HR' := HR). destruct HR' as (_ & HI & HRR & _). cbv zeta. rewrite HI, HRR. fold (pfold_i i t0 ts). fold (pfold_r i r t0 ts).
  assert (DD : d1 (pfold_i i t0 ts) (pfold_r i r t0 ts) = S (i + r - length ts)) by (unfold d1; rewrite pfold_dim; auto).
  assert (FD : forall t v w, In t (t0 :: ts) -> (box_folded (i + r) t0 ts t v w <-> forall j, (j < i + r - length ts)%nat -> w j = Sel (selt (i + r) t0 ts t) (homog v) (S j))).
  { intros t v w It. destruct (rho_t0 (i + r) t0 ts OK) as (T1 & T2). destruct (clt_t0 _ _ _ OK) as (T3 & T4). assert (RO := fold_rem_ok _ _ _ OK). split.
    - intros (E1 & E2) j J. unfold Sel, selt. destruct (Nat.eqb_spec j t0). subst. auto. cbn [homog]. destruct (rho_spec (i + r) ts j RO J) as (A & B & C). rewrite <- (E2 _ A B). f_equal. lia. intros E. apply n. rewrite E in C. rewrite T3 in C. lia.
    - intros E. split. rewrite E by auto. unfold Sel, selt. rewrite Nat.eqb_refl. auto. intros x X NX N0. destruct (rho_inv (i + r) ts x RO X NX) as (A & B). rewrite E by auto. unfold Sel, selt. rewrite B. destruct (Nat.eqb_spec (x - clt ts x) t0) as [EQ|]; auto. exfalso. apply N0. rewrite EQ, T2 in B. auto. }
  destruct (pF pa) as [F|] eqn:EF.
  - set (po := mkPoly _ _ _ _ _ _ _ _ _ _ _ _). set (F' := match ts with [] => F | _ => fold_rows t0 ts F end) in *.
    assert (LF : forall f, In f F -> lenS (S (i + r)) f) by (apply (F_in pa i r P F); auto).
    assert (ID : forall f, lenS (S (i + r)) f -> ts = [] -> rimg (S (i + r - length ts)) (Sel (selt (i + r) t0 ts t0)) f f).
    { intros f L E. split. tauto. exists 1. split. lra. intros [|j] J; unfold Sel. ring. unfold selt. destruct (Nat.eqb_spec j t0). subst; ring. destruct (rho_spec (i + r) ts j) as (A & B & C). apply fold_rem_ok with t0; auto. lia. rewrite C, E. simpl. rewrite Nat.add_0_r. unfold clt. simpl. replace (rho (i + r) [] j + 0)%nat with j. ring. rewrite E in C. unfold clt in C; simpl in C. lia. }
    assert (R1 : repr po (pfold_i i t0 ts) (pfold_r i r t0 ts) (fun y => forall a, (forall t v w, In t (t0 :: ts) -> P v -> (forall j, (j < pfold_i i t0 ts + pfold_r i r t0 ts)%nat -> w j = Sel (selt (i + r) t0 ts t) (homog v) (S j)) -> 0 <= dt (d1 (pfold_i i t0 ts) (pfold_r i r t0 ts)) a (homog w)) -> 0 <= dt (d1 (pfold_i i t0 ts) (pfold_r i r t0 ts)) a (homog y))).
    { apply (hull_F pa po i r (pfold_i i t0 ts) (pfold_r i r t0 ts) P (fun t => Sel (selt (i + r) t0 ts t)) (t0 :: ts) F F'); auto. discriminate.
      - intros t It. rewrite DD. apply Sel_lin. intros y Y. apply selt_lt; auto.
      - rewrite DD. intros t f It If. unfold F'. destruct ts as [|t1 ts']. destruct It as [<-|[]]. exists f. split; auto. apply fold_rows_has; auto.
      - rewrite DD. intros f' If'. unfold F' in If'. destruct ts as [|t1 ts']. split. simpl. rewrite Nat.sub_0_r. auto. exists t0, f'. split; [left; reflexivity|]. split; [assumption|]. apply ID; auto.
        apply fold_rows_in in If'. 2: apply clt_t0 with (i + r)%nat; auto. destruct If' as (t & f & It & If & ->). destruct (fold_rimg (i + r) t0 (t1 :: ts') t f OK It (LF f If)) as (A & B). split; auto. exists t, f. auto. }
    destruct (repr_F_point pa i r P F HR EF) as (x0 & X0).
    assert (R2 : repr po (pfold_i i t0 ts) (pfold_r i r t0 ts) (fun y => (exists x, P x) /\ forall a, (forall t v w, In t (t0 :: ts) -> P v -> box_folded (i + r) t0 ts t v w -> 0 <= dt (S (i + r - length ts)) a (homog w)) -> 0 <= dt (S (i + r - length ts)) a (homog y))).
    { eapply repr_iff. exact R1. rewrite DD, pfold_dim by auto. intros y. split. intros H. split. eauto. intros a V. apply H. intros t v w It Pv W. apply (V t v w It Pv). apply FD; auto. intros (_ & H) a V. apply H. intros t v w It Pv W. apply (V t v w It Pv). apply FD; auto. }
    split. apply (chern_opt alg1); auto. intros ->. auto.
  - specialize (HF eq_refl). split. apply repr_bot; auto. intros y ((x & X) & _). apply (repr_none pa i r P HR HF x X). intros ->. auto.
Qed.

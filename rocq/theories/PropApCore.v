(** Properties C38 - C42 and C48: dimension changes, permutations, linear expressions as data
    structures, comparison of scalars and intervals. *)
From Coq Require Import Arith ZArith QArith Qround Qreals Reals Lra Lia Bool List Sorted Permutation.
From Verif Require Import Bound BoundFacts Util Itv Linexpr LinexprFacts OctResize2 OctResize3 ItvLin ItvLinFacts Box BoxFacts BoxDims BoxOps PropBox ApCore ApCoreFacts ApCoreEq ApCoreDim.
Import ListNotations.
Open Scope nat_scope.
#[local] Arguments Nat.leb : simpl never.
#[local] Arguments Nat.ltb : simpl never.
#[local] Arguments Nat.eqb : simpl never.
#[local] Arguments Qeq_bool : simpl never.

(** ** C38 *)
(** [ins f pos 0 v] (ApCoreDim) inserts [f] in [v] as the documentation of ap_dimchange_t says:
    once before position [i] for each occurrence of [i] in [pos]; [del rem 0 v] drops the
    positions listed in [rem]. *)
Theorem C38_add_invert : forall (A : Type) (f : A) pos v, StronglySorted le pos -> (forall p, In p pos -> p <= length v) ->
  let inv := dimchange_add_invert pos in let w := ins f pos 0 v in
  length w = length v + length pos /\ length inv = length pos /\ StronglySorted lt inv /\
  (forall y, In y inv -> nth_error w y = Some f) /\ del inv 0 w = v.
Proof.
  intros A f pos v S L inv w. assert (L' : forall p, In p pos -> 0 <= p <= 0 + length v) by (intros p P; specialize (L p P); lia).
  split; [apply ins_length; auto|]. split; [apply add_invert_length|]. split; [apply add_invert_sorted; auto|]. split.
  - intros y Y. apply ins_fresh with (k := 0); auto.
  - apply (del_ins A f v pos 0 0); auto.
Qed.
Print Assumptions C38_add_invert.
Example C38_ex : let pos := [0; 2; 2; 3] in StronglySorted le pos /\ dimchange_add_invert pos = [0; 3; 4; 6] /\
  ins 9 pos 0 [1; 2; 3] = [9; 1; 2; 9; 9; 3; 9] /\ del (dimchange_add_invert pos) 0 (ins 9 pos 0 [1; 2; 3]) = [1; 2; 3].
Proof. cbv zeta. split; [repeat constructor|vm_compute; auto]. Qed.
Lemma clt_invert : forall pos x, StronglySorted le pos -> clt (dimchange_add_invert pos) (shift pos x) = cle pos x /\ ~ In (shift pos x) (dimchange_add_invert pos).
Proof.
  intros pos x S. assert (K : cle pos x <= length pos). { unfold cle. clear. induction pos; simpl; auto. destruct (Nat.leb a x); simpl; lia. }
  assert (CH : forall t, t < length pos -> (nth t pos 0 <= x <-> t < cle pos x)).
  { clear - S. intros t T. revert t T. induction pos as [|p pos IH]; intros t T; simpl in *; [lia|]. inversion S as [|? ? S1 F]; subst. unfold cle in *. simpl. destruct (Nat.leb_spec p x).
    - destruct t as [|t]; simpl. lia. rewrite IH by (auto; lia). lia.
    - rewrite Forall_forall in F. assert (Z : length (filter (fun p => Nat.leb p x) pos) = 0).
      { clear - F H. induction pos as [|q pos IH]; simpl; auto. destruct (Nat.leb_spec q x). specialize (F q (or_introl eq_refl)). lia. apply IH. intros; apply F; simpl; auto. }
      rewrite Z. destruct t as [|t]; [lia|]. assert (TL : t < length pos) by lia. specialize (F (nth t pos 0) (nth_In pos 0 TL)). lia. }
  assert (NT : forall t, t < length pos -> nth t (dimchange_add_invert pos) 0 = nth t pos 0 + t) by (intros; unfold dimchange_add_invert; rewrite add_invert_nth; auto; lia).
  split.
  - apply clt_char. apply add_invert_sorted; auto. unfold dimchange_add_invert. rewrite add_invert_length; auto.
    + intros t T. rewrite NT by lia. pose proof (proj2 (CH t ltac:(lia)) T). unfold shift. lia.
    + intros t T. unfold dimchange_add_invert in T. rewrite add_invert_length in T. rewrite NT by lia. assert (~ nth t pos 0 <= x) by (rewrite CH by lia; lia). unfold shift. lia.
  - intro H. apply In_nth with (d := 0) in H. destruct H as (t & T & E). unfold dimchange_add_invert in T. rewrite add_invert_length in T. rewrite NT in E by auto. unfold shift in E.
    destruct (Nat.lt_ge_cases t (cle pos x)) as [H|H]. apply CH in H; auto. assert (t < cle pos x) by (apply CH; auto). lia. assert (~ nth t pos 0 <= x) by (rewrite CH by lia; lia). lia.
Qed.
Lemma gbox_ext' : forall a v w, (forall x, x < bx_dim a -> w x = v x) -> gbox a v -> gbox a w.
Proof. intros a v w H. unfold gbox. destruct (bx_p a); auto. intros G d D. rewrite H; auto. Qed.
(** adding dimensions to a box, then removing them with the inverted specification *)
Theorem C38_box_roundtrip : forall ip1 ip2 a pos ni pr v, nebox a -> box_add_ok (bx_dim a) pos -> ni <= length pos ->
  (gbox (box_remove_dimensions ip2 (box_add_dimensions ip1 a pos ni pr) (dimchange_add_invert pos) ni) v <-> gbox a v).
Proof.
  intros ip1 ip2 a pos ni pr v NE OK NI. pose proof (box_add_dim ip1 a pos ni pr NI) as DIM. destruct OK as [S B].
  assert (RO : box_rem_ok (bx_dim (box_add_dimensions ip1 a pos ni pr)) (dimchange_add_invert pos)).
  { split. apply add_invert_sorted; auto. intros p P. apply In_nth with (d := 0) in P. destruct P as (t & T & <-). unfold dimchange_add_invert in *. rewrite add_invert_length in T. rewrite add_invert_nth by auto. specialize (B (nth t pos 0) (nth_In _ _ T)). lia. }
  assert (LI : length (dimchange_add_invert pos) = length pos) by apply add_invert_length.
  rewrite box_rem_exact; auto; try (rewrite LI; auto).
  2: { unfold bx_int, box_add_dimensions. simpl. lia. }
  2: { unfold bx_real, box_add_dimensions. simpl. lia. }
  2: { apply box_add_nebox; auto. split; auto. }
  split.
  - intros (w & G & H). rewrite box_add_exact in G by (auto; split; auto). destruct G as (G & _ & _). eapply gbox_ext'; [|exact G]. intros x X. destruct (clt_invert pos x S) as [C1 C2].
    change (x + cle pos x) with (shift pos x). rewrite <- (H (shift pos x)); auto. rewrite C1. unfold shift. f_equal. lia. rewrite DIM. unfold shift. assert (cle pos x <= length pos). { unfold cle. clear. induction pos; simpl; auto. destruct (Nat.leb a x); simpl; lia. } lia.
  - intro G. exists (fun y => if in_dec Nat.eq_dec y (dimchange_add_invert pos) then 0%R else v (y - clt (dimchange_add_invert pos) y)). split.
    + rewrite box_add_exact by (auto; split; auto). split; [|split].
      * eapply gbox_ext'; [|exact G]. intros x X. destruct (clt_invert pos x S) as [C1 C2]. change (x + cle pos x) with (shift pos x). destruct (in_dec Nat.eq_dec (shift pos x) (dimchange_add_invert pos)); [contradiction|]. rewrite C1. unfold shift. f_equal. lia.
      * intros _ t T. destruct (in_dec Nat.eq_dec (t + nth t pos 0) (dimchange_add_invert pos)) as [H|H]; auto. exfalso. apply H. assert (E : nth t (dimchange_add_invert pos) 0 = t + nth t pos 0) by (unfold dimchange_add_invert; rewrite add_invert_nth; auto; lia).
        rewrite <- E. apply nth_In. lia.
      * unfold gbox in G. destruct (bx_p a); congruence.
    + intros x X H. destruct (in_dec Nat.eq_dec x (dimchange_add_invert pos)); [contradiction|auto].
Qed.
Print Assumptions C38_box_roundtrip.

(** ** C39 *)
Theorem C39_group : forall n p q r np, is_perm n p -> is_perm n q -> is_perm n r -> length np = n ->
  is_perm n (dimperm_compose p q) /\ is_perm n (dimperm_invert np p) /\
  dimperm_compose (dimperm_compose p q) r = dimperm_compose p (dimperm_compose q r) /\
  dimperm_compose p (dimperm_id n) = p /\ dimperm_compose (dimperm_id n) p = p /\
  dimperm_compose p (dimperm_invert np p) = dimperm_id n /\ dimperm_compose (dimperm_invert np p) p = dimperm_id n.
Proof.
  intros n p q r np P Q Rr L. destruct (invert_ok n p np P L) as (I1 & I2 & I3). pose proof P as (P1 & P2 & P3). pose proof Q as (Q1 & Q2 & Q3). pose proof I1 as (J1 & J2 & J3).
  assert (IDL : length (dimperm_id n) = n) by apply seq_length. assert (IDN : forall i, i < n -> nth i (dimperm_id n) 0 = i) by (intros; unfold dimperm_id; rewrite seq_nth; auto).
  split; [apply compose_perm; auto|]. split; auto.
  repeat split; apply list_nth_eq; rewrite ?compose_length, ?IDL; auto; intros i H; rewrite ?compose_length, ?IDL in H; rewrite ?P1, ?J1 in H.
  - rewrite !compose_nth; rewrite ?compose_length, ?Q1; auto; try lia; apply P2; lia.
  - rewrite compose_nth by lia. apply IDN. apply P2; lia.
  - rewrite compose_nth by lia. rewrite IDN; auto.
  - rewrite compose_nth by lia. rewrite I2, IDN; auto.
  - rewrite compose_nth by lia. rewrite I3, IDN; auto.
Qed.
Print Assumptions C39_group.
(** [w] is [v] with its dimensions permuted *)
Definition permuted {A : Type} (n : nat) (perm : list nat) (v w : nat -> A) : Prop := forall i, i < n -> w (nth i perm 0) = v i.
Theorem C39_compose_acts : forall (A : Type) n p q (u v w : nat -> A), is_perm n p -> is_perm n q -> permuted n p u v -> permuted n q v w -> permuted n (dimperm_compose p q) u w.
Proof. intros A n p q u v w (P1 & P2 & P3) (Q1 & Q2 & Q3) H K i I. rewrite compose_nth by lia. rewrite K by auto. auto. Qed.
Print Assumptions C39_compose_acts.
Theorem C39_invert_acts : forall (A : Type) n p np (u v : nat -> A), is_perm n p -> length np = n -> permuted n p u v -> permuted n (dimperm_invert np p) v u.
Proof. intros A n p np u v P L H i I. destruct (invert_ok n p np P L) as (I1 & I2 & I3). destruct I1 as (_ & J2 & _). rewrite <- H by (apply J2; auto). rewrite I3; auto. Qed.
Print Assumptions C39_invert_acts.
Example C39_ex : is_perm 3 [1; 2; 0] /\ dimperm_invert [0; 0; 0] [1; 2; 0] = [2; 0; 1] /\ dimperm_compose [1; 2; 0] [0; 2; 1] = [2; 1; 0].
Proof. split; [|vm_compute; auto]. split; auto. split. intros [|[|[|i]]] H; simpl; lia. intros [|[|[|i]]] [|[|[|j]]] H K; simpl; lia. Qed.

(** ** C40 *)
(** reading: the coefficient of the dimension ([coeff_at]: found by a plain scan, 0 when absent);
    an error exactly when the dimension is out of a dense expression *)
Theorem C40_get : forall e d, lin_sorted (le_terms e) ->
  (in_size e d -> linexpr_get_coeff e d = Some (coeff_at e d)) /\ (linexpr_get_coeff e d = None <-> ~ in_size e d).
Proof. intros e d S. split. apply get_coeff_ok; auto. apply get_coeff_none. Qed.
Print Assumptions C40_get.
Theorem C40_set : forall e d c, lin_sorted (le_terms e) ->
  (linexpr_set_coeff e d c = None <-> ~ in_size e d) /\
  (forall e', linexpr_set_coeff e d c = Some e' -> lin_sorted (le_terms e') /\ le_cst e' = le_cst e /\ linexpr_get_coeff e' d = Some c /\
     (forall j, j <> d -> linexpr_get_coeff e' j = linexpr_get_coeff e j) /\ forall j, coeff_at e' j = if Nat.eqb j d then c else coeff_at e j).
Proof.
  intros e d c S. split. apply set_coeff_none. intros e' H. assert (I : in_size e d). { destruct (Nat.eq_dec 0 0) as [_|]; [|lia]. unfold in_size. destruct (le_terms e) as [l|ts] eqn:T; auto. unfold linexpr_set_coeff in H. rewrite T in H. destruct (Nat.ltb_spec d (length l)); auto. discriminate. }
  destruct (set_coeff_ok e d c S I) as (e2 & H2 & S2 & C2 & V2 & Z2). rewrite H2 in H. inversion H; subst e2. clear H.
  assert (CA : forall j, coeff_at e' j = if Nat.eqb j d then c else coeff_at e j). { intro j. unfold coeff_at. rewrite V2. destruct (Nat.eqb j d); auto. }
  split; auto. split; auto. split; [|split; auto].
  - rewrite get_coeff_ok by (auto; apply Z2; auto). rewrite CA, Nat.eqb_refl. auto.
  - intros j J. assert (DEC : in_size e j \/ ~ in_size e j). { unfold in_size. destruct (le_terms e); auto. destruct (Nat.lt_ge_cases j (length l)); auto. right; lia. }
    destruct DEC as [D|D].
    + rewrite !get_coeff_ok by (auto; apply Z2; auto). rewrite CA. rewrite (proj2 (Nat.eqb_neq j d)) by auto. auto.
    + rewrite (proj2 (get_coeff_none e j) D). apply get_coeff_none. rewrite Z2. auto.
Qed.
Print Assumptions C40_set.
(** any sequence of reads and writes: an expression behaves as a map from dimensions to
    coefficients; operations outside a dense expression fail and change nothing *)
Inductive aop := OGet (d : nat) | OSet (d : nat) (c : coeff).
Fixpoint run (e : linexpr) (ops : list aop) : list (option coeff) * linexpr :=
  match ops with
  | [] => ([], e)
  | OGet d :: ops => let '(o, e') := run e ops in (linexpr_get_coeff e d :: o, e')
  | OSet d c :: ops => match linexpr_set_coeff e d c with
                       | Some e1 => let '(o, e') := run e1 ops in (Some c :: o, e')
                       | None => let '(o, e') := run e ops in (None :: o, e')
                       end
  end.
Fixpoint mrun (ok : nat -> bool) (m : nat -> coeff) (ops : list aop) : list (option coeff) * (nat -> coeff) :=
  match ops with
  | [] => ([], m)
  | OGet d :: ops => let '(o, m') := mrun ok m ops in ((if ok d then Some (m d) else None) :: o, m')
  | OSet d c :: ops => if ok d then let '(o, m') := mrun ok (fun j => if Nat.eqb j d then c else m j) ops in (Some c :: o, m')
                       else let '(o, m') := mrun ok m ops in (None :: o, m')
  end.
Definition in_sizeb (e : linexpr) (d : nat) : bool := match le_terms e with Dense l => Nat.ltb d (length l) | Sparse _ => true end.
Lemma in_sizeb_iff : forall e d, in_sizeb e d = true <-> in_size e d.
Proof. intros. unfold in_sizeb, in_size. destruct (le_terms e). apply Nat.ltb_lt. tauto. Qed.
Lemma mrun_ext : forall ops ok ok' m m', (forall d, ok d = ok' d) -> (forall d, m d = m' d) -> fst (mrun ok m ops) = fst (mrun ok' m' ops) /\ forall d, snd (mrun ok m ops) d = snd (mrun ok' m' ops) d.
Proof.
  induction ops as [|[d|d c] ops IH]; intros ok ok' m m' H K; simpl; auto.
  - specialize (IH ok ok' m m' H K). destruct (mrun ok m ops), (mrun ok' m' ops). simpl in *. rewrite H, K. destruct IH as [-> IH]. auto.
  - rewrite <- H. destruct (ok d).
    + specialize (IH ok ok' (fun j => if Nat.eqb j d then c else m j) (fun j => if Nat.eqb j d then c else m' j) H). destruct (mrun ok _ ops), (mrun ok' _ ops). simpl in *. destruct IH as [-> IH]; auto. intro j. rewrite K; auto.
    + specialize (IH ok ok' m m' H K). destruct (mrun ok m ops), (mrun ok' m' ops). simpl in *. destruct IH as [-> IH]. auto.
Qed.
Theorem C40_map : forall ops e, lin_sorted (le_terms e) ->
  fst (run e ops) = fst (mrun (in_sizeb e) (coeff_at e) ops) /\ lin_sorted (le_terms (snd (run e ops))) /\ le_cst (snd (run e ops)) = le_cst e /\
  (forall d, coeff_at (snd (run e ops)) d = snd (mrun (in_sizeb e) (coeff_at e) ops) d).
Proof.
  induction ops as [|[d|d c] ops IH]; intros e S; simpl; auto.
  - destruct (IH e S) as (A & B & C & D). destruct (run e ops), (mrun (in_sizeb e) (coeff_at e) ops). simpl in *. split; auto. rewrite A. f_equal. destruct (in_sizeb e d) eqn:Q.
    + apply in_sizeb_iff in Q. apply get_coeff_ok; auto. + apply get_coeff_none. rewrite <- in_sizeb_iff. congruence.
  - destruct (in_sizeb e d) eqn:Q.
    + apply in_sizeb_iff in Q. destruct (set_coeff_ok e d c S Q) as (e1 & -> & S1 & C1 & V1 & Z1). destruct (IH e1 S1) as (A & B & C & D).
      assert (CA : forall j, coeff_at e1 j = if Nat.eqb j d then c else coeff_at e j). { intro j. unfold coeff_at. rewrite V1. destruct (Nat.eqb j d); auto. }
      assert (OK1 : forall j, in_sizeb e1 j = in_sizeb e j). { intro j. apply eq_true_iff_eq. rewrite !in_sizeb_iff. apply Z1. }
      destruct (mrun_ext ops _ _ _ _ OK1 CA) as [X Y]. destruct (run e1 ops), (mrun (in_sizeb e1) (coeff_at e1) ops), (mrun (in_sizeb e) _ ops). simpl in *. rewrite A, X. split; auto. split; auto. split. congruence. intro j. rewrite D; auto.
    + assert (N : linexpr_set_coeff e d c = None) by (apply set_coeff_none; rewrite <- in_sizeb_iff; congruence). rewrite N. destruct (IH e S) as (A & B & C & D). destruct (run e ops), (mrun (in_sizeb e) (coeff_at e) ops). simpl in *. rewrite A. auto.
Qed.
Print Assumptions C40_map.
(** a sparse expression with a hole and more than ten terms (binary search) *)
Example C40_ex : let e := mkLin czero (Sparse (enc (map (fun i => (2 * i, Scal (Fin (inject_Z (Z.of_nat i))))) (seq 0 15)) [czero])) in
  lin_sorted (le_terms e) /\ fst (run e [OGet 6; OGet 7; OSet 7 (Scal (Fin 5)); OGet 7; OGet 8; OSet 31 (Scal (Fin 2)); OGet 31; OGet 28]) =
    [Some (Scal (Fin 3)); Some czero; Some (Scal (Fin 5)); Some (Scal (Fin 5)); Some (Scal (Fin 4)); Some (Scal (Fin 2)); Some (Scal (Fin 2)); Some (Scal (Fin 14))].
Proof. cbv zeta. split; [|vm_compute; auto]. simpl le_terms. eexists _, _. split; [reflexivity|]. unfold srt. vm_compute. repeat (constructor; try lia). Qed.

(** ** C41 *)
(** equality answers whether all coefficients have the same possible values.  Holes excluded:
    see C41_equal_hole_refuted *)
Theorem C41_equal_partial : forall e1 e2, lin_sorted (le_terms e1) -> lin_sorted (le_terms e2) -> no_holes (le_terms e1) -> no_holes (le_terms e2) -> lin_wf e1 -> lin_wf e2 ->
  exists b, linexpr_equal e1 e2 = Some b /\
    (b = true <-> (forall r, coeff_in r (le_cst e1) <-> coeff_in r (le_cst e2)) /\ forall j r, coeff_in r (coeff_at e1 j) <-> coeff_in r (coeff_at e2 j)).
Proof. intros. apply linexpr_equal_ok; auto. Qed.
Print Assumptions C41_equal_partial.
(** an expression with a hole, as ap_linexpr0_alloc builds it, compared with a shorter one:
    a null pointer is dereferenced *)
Theorem C41_equal_hole_refuted : exists e1 e2, lin_sorted (le_terms e1) /\ lin_sorted (le_terms e2) /\ lin_wf e1 /\ lin_wf e2 /\
  (forall j, coeff_at e1 j = coeff_at e2 j) /\ le_cst e1 = le_cst e2 /\ linexpr_equal e1 e2 = None /\ linexpr_compare e1 e2 = None.
Proof.
  exists (mkLin czero (Sparse [(None, czero)])), (mkLin czero (Sparse [])). split. exists [], [czero]. split; auto. constructor. split. exists [], []. split; auto. constructor.
  split. split. exact I. intros j c H; discriminate. split. split. exact I. intros j c H; discriminate. repeat split.
Qed.
(** comparison: zero exactly on equal expressions (coefficients of the first one not empty) *)
Theorem C41_compare_zero_partial : forall e1 e2, lin_sorted (le_terms e1) -> lin_sorted (le_terms e2) -> no_holes (le_terms e1) -> no_holes (le_terms e2) -> lin_wf e1 -> lin_wf e2 -> lin_ne e1 ->
  exists z, linexpr_compare e1 e2 = Some z /\
    (z = 0%Z <-> (forall r, coeff_in r (le_cst e1) <-> coeff_in r (le_cst e2)) /\ forall j r, coeff_in r (coeff_at e1 j) <-> coeff_in r (coeff_at e2 j)).
Proof. intros. apply linexpr_compare_ok; auto. Qed.
Print Assumptions C41_compare_zero_partial.
(** the result of the comparison is stored in a bool: both orders answer 1 *)
Theorem C41_compare_antisymmetric_refuted : exists e1 e2, lin_sorted (le_terms e1) /\ lin_sorted (le_terms e2) /\ no_holes (le_terms e1) /\ no_holes (le_terms e2) /\ lin_wf e1 /\ lin_wf e2 /\
  linexpr_compare e1 e2 = Some 1%Z /\ linexpr_compare e2 e1 = Some 1%Z.
Proof.
  exists (mkLin czero (Dense [Scal (Fin 1)])), (mkLin czero (Dense [Scal (Fin 2)])). simpl. split; auto. split; auto. split; auto. split; auto.
  split. split. exact I. intros [|[|j]] c H; inversion H; exact I. split. split. exact I. intros [|[|j]] c H; inversion H; exact I. vm_compute. auto.
Qed.
(** equal expressions, different hashes (whatever the hash of coefficients, with 0 on zero) *)
Theorem C41_hash_refuted : forall hc : coeff -> Z, hc czero = 0%Z -> exists e1 e2, no_holes (le_terms e1) /\ no_holes (le_terms e2) /\
  linexpr_equal e1 e2 = Some true /\ fst (linexpr_hash hc 10 e1) <> fst (linexpr_hash hc 10 e2).
Proof.
  intros hc H. exists (mkLin czero (Dense [Scal (Fin 1); czero])), (mkLin czero (Dense [Scal (Fin 1)])). split; [exact I|]. split; [exact I|]. split; [reflexivity|].
  assert (E1 : fst (linexpr_hash hc 10 (mkLin czero (Dense [Scal (Fin 1); czero]))) = (512 + Z.shiftl (hc (Scal (Fin 1))) 0 + Z.shiftl (hc czero) 1)%Z) by reflexivity.
  assert (E2 : fst (linexpr_hash hc 10 (mkLin czero (Dense [Scal (Fin 1)]))) = (256 + Z.shiftl (hc (Scal (Fin 1))) 0)%Z) by reflexivity.
  rewrite E1, E2, H, !Z.shiftl_0_r, Z.shiftl_0_l. lia.
Qed.
(** hashing modifies the expression: it inserts terms *)
Theorem C41_hash_modifies_refuted : exists e, lin_sorted (le_terms e) /\ no_holes (le_terms e) /\ forall hc, snd (linexpr_hash hc 10 e) <> e.
Proof. exists (mkLin czero (Sparse [(Some 1, Scal (Fin 1))])). split. exists [(1, Scal (Fin 1))], []. split; auto. repeat constructor. split. repeat constructor. discriminate. intros hc H. vm_compute in H. discriminate. Qed.
(** but the coefficients keep their values, provided the holes hold 0 *)
Definition zero_holes (t : linterms) : Prop := match t with Dense _ => True | Sparse ts => forall c, In (None, c) ts -> c = czero end.
Lemma zero_holes_enc : forall l h, zero_holes (Sparse (enc l h)) <-> forall c, In c h -> c = czero.
Proof.
  intros l h. simpl. unfold enc. split; intros H c C.
  - apply H. apply in_or_app. right. apply in_map_iff. eauto.
  - apply in_app_or in C. destruct C as [C|C]; apply in_map_iff in C; destruct C as (x & E & X). discriminate. inversion E; subst; auto.
Qed.
Lemma coeffref_keeps : forall e d, lin_sorted (le_terms e) -> zero_holes (le_terms e) ->
  let e' := fst (linexpr_coeffref e d) in lin_sorted (le_terms e') /\ zero_holes (le_terms e') /\ le_cst e' = le_cst e /\ forall j, coeff_at e' j = coeff_at e j.
Proof.
  intros [k [l|ts]] d S Z e'; unfold e', linexpr_coeffref; cbn [le_terms le_cst] in *. simpl. auto. destruct S as (l & h & -> & S). rewrite zero_holes_enc in Z.
  destruct (srt_split d l S) as (la & lb & -> & A & [(c0 & lb' & -> & B)|B]).
  - rewrite coeffref_found by auto. cbn [fst le_terms le_cst]. split. exists (la ++ (d, c0) :: lb'), h. auto. split. rewrite zero_holes_enc; auto. auto.
  - destruct (coeffref_new d la lb h A B) as (c0 & h' & -> & HH). cbn [fst le_terms le_cst]. split. exists (la ++ (d, c0) :: lb), h'. split; auto. apply srt_mid; auto. split. rewrite zero_holes_enc. intros c C. destruct (HH c) as [X|X]; simpl; auto.
    split; auto. intro j. unfold coeff_at, lin_coeff. cbn [le_terms]. rewrite sp_coeff_mid by auto. destruct (Nat.eqb_spec j d) as [->|D].
    + assert (c0 = czero) by (destruct (HH c0) as [X|X]; simpl; auto). subst c0. rewrite sp_coeff_none; auto.
      rewrite enc_dims, map_app, in_app_iff. rewrite Forall_forall in A, B. intros [H|H]; apply in_map_iff in H; destruct H as (p & E & I); [apply A in I|apply B in I]; lia.
    + rewrite (sp_coeff_enc_h _ h' h). auto.
Qed.
Theorem C41_hash_keeps_values : forall hc fuel e, lin_sorted (le_terms e) -> zero_holes (le_terms e) ->
  let e' := snd (linexpr_hash hc fuel e) in lin_sorted (le_terms e') /\ le_cst e' = le_cst e /\ forall j, coeff_at e' j = coeff_at e j.
Proof.
  intros hc fuel e S Z. unfold linexpr_hash. destruct (Nat.eqb (terms_size (le_terms e)) 0). simpl; auto.
  generalize 0 as i, 0%Z as dec, (Z.shiftl (Z.of_nat (terms_size (le_terms e))) 8) as res. revert e S Z. induction fuel as [|fuel IH]; intros e S Z i dec res; simpl. auto.
  destruct (Nat.ltb i (terms_size (le_terms e))); simpl; auto. destruct (coeffref_keeps e i S Z) as (A & B & C & D). destruct (linexpr_coeffref e i) as [e1 pc]. cbn [fst] in *.
  split; [apply IH; auto|]. split; [rewrite <- C; apply IH; auto|]. intro j. rewrite <- D. apply IH; auto.
Qed.
Print Assumptions C41_hash_keeps_values.
Example C41_ex : linexpr_equal (mkLin (Intv (Fin 1) (Fin 1)) (Dense [Scal (Fin 0); Intv (Fin 2) (Fin 2)])) (mkLin (Scal (Fin 1)) (Sparse [(Some 1, Scal (Fin 2)); (Some 4, czero)])) = Some true /\
  linexpr_equal (mkLin czero (Dense [Scal (Fin 1)])) (mkLin czero (Sparse [(Some 1, Scal (Fin 1))])) = Some false.
Proof. vm_compute. auto. Qed.

(** ** C42, linear expressions *)
Theorem C42_add_dimensions_partial : forall n e pos w r, wf_terms n (le_terms e) -> lin_sorted (le_terms e) -> StronglySorted le pos ->
  (forall l, le_terms e = Dense l -> forall p, In p pos -> p <= length l) ->
  (expr_val (linexpr_add_dimensions e pos) w r <-> expr_val e (fun x => w (x + cle pos x)) r) /\ lin_sorted (le_terms (linexpr_add_dimensions e pos)).
Proof.
  intros n e pos w r W S SP F. split. apply (add_dimensions_ok n); auto. unfold add_fits. destruct (le_terms e) eqn:T; auto. apply add_dimensions_sorted; auto.
Qed.
Print Assumptions C42_add_dimensions_partial.
(** a dense expression may be shorter than the number of dimensions; then a coefficient is
    duplicated: 5 x0 becomes 5 x0 + 5 x1 when a dimension is added at the end of (x0, x1) *)
Theorem C42_add_dimensions_refuted : exists e pos w r, wf_linexpr 2 e /\ lin_sorted (le_terms e) /\ StronglySorted le pos /\ (forall p, In p pos -> p <= 2) /\
  expr_val e (fun x => w (x + cle pos x)) r /\ ~ expr_val (linexpr_add_dimensions e pos) w r.
Proof.
  exists (mkLin czero (Dense [Scal (Fin 5)])), [2], (fun _ => 1%R), 5%R. split. split. exact I. simpl. split. lia. repeat constructor. split. exact I. split. repeat constructor. split. intros p [<-|[]]; lia. split.
  - exists (Q2R 0), 5%R. split. reflexivity. split. exists [5%R]. split. repeat constructor. simpl. unfold Q2R; simpl; lra. simpl; lra. unfold Q2R; simpl; lra.
  - intros (c0 & r1 & A & (cs & F & ->) & E). vm_compute in F. inversion F as [|? ? ? ? F1 F2]; subst. inversion F2 as [|? ? ? ? F3 F4]; subst. inversion F4; subst. simpl in *. unfold Q2R in *; simpl in *. lra.
Qed.
Theorem C42_permute_dimensions_partial : forall n e perm, wf_terms n (le_terms e) -> is_perm n perm -> (forall l, le_terms e = Dense l -> length l = n) ->
  exists e', linexpr_permute_dimensions e perm = Some e' /\ lin_sorted (le_terms e') /\ forall w r, expr_val e' w r <-> expr_val e (fun x => w (nth x perm 0)) r.
Proof.
  intros n e perm W P F. destruct (permute_dimensions_ok n e perm W P) as (e' & A & B & C & D). unfold perm_fits. destruct (le_terms e) eqn:T; auto. eauto.
Qed.
Print Assumptions C42_permute_dimensions_partial.
(** a short dense expression: the permuted coefficient is written outside the array *)
Theorem C42_permute_dimensions_refuted : exists e perm, wf_linexpr 2 e /\ is_perm 2 perm /\ linexpr_permute_dimensions e perm = None.
Proof.
  exists (mkLin czero (Dense [Scal (Fin 5)])), [1; 0]. split. split. exact I. simpl. split. lia. repeat constructor. split; [|reflexivity]. split; auto. split.
  intros [|[|i]] H; simpl; lia. intros [|[|i]] [|[|j]] H K; simpl; lia.
Qed.
Example C42_ex : linexpr_add_dimensions (mkLin czero (Sparse [(Some 0, Scal (Fin 3)); (Some 2, Scal (Fin 7)); (None, czero)])) [0; 2; 2] = mkLin czero (Sparse [(Some 1, Scal (Fin 3)); (Some 5, Scal (Fin 7)); (None, czero)]) /\
  linexpr_add_dimensions (mkLin czero (Dense [Scal (Fin 3); Scal (Fin 4); Scal (Fin 7)])) [0; 2; 2; 3] = mkLin czero (Dense [czero; Scal (Fin 3); Scal (Fin 4); czero; czero; Scal (Fin 7); czero]) /\
  linexpr_permute_dimensions (mkLin czero (Sparse [(Some 0, Scal (Fin 3)); (Some 2, Scal (Fin 7)); (None, czero)])) [2; 0; 1] = Some (mkLin czero (Sparse [(Some 1, Scal (Fin 7)); (Some 2, Scal (Fin 3)); (None, czero)])).
Proof. vm_compute. auto. Qed.

(** ** C48 *)
(** scalars: [a <= b] iff every real below [a] is below [b] *)
Theorem C48_scalar_order : forall a b c,
  ((scalar_cmp a b <= 0)%Z <-> forall r, le_rb r a -> le_rb r b) /\ scalar_cmp b a = (- scalar_cmp a b)%Z /\
  ((scalar_cmp a b <= 0)%Z -> (scalar_cmp b c <= 0)%Z -> (scalar_cmp a c <= 0)%Z) /\
  (scalar_cmp a b = 0%Z <-> forall r, le_rb r a <-> le_rb r b) /\ (scalar_equal a b = true <-> scalar_cmp a b = 0%Z).
Proof.
  intros. split. apply scalar_cmp_le. split. apply scalar_cmp_anti. split. rewrite !scalar_cmp_le. auto. split. apply scalar_cmp_eq. apply scalar_equal_cmp.
Qed.
Print Assumptions C48_scalar_order.
Theorem C48_interval_sets : forall i j, fst i <> PInf /\ snd i <> MInf -> fst j <> PInf /\ snd j <> MInf ->
  (interval_is_bottom i = true <-> forall r, ~ (ge_rb r (fst i) /\ le_rb r (snd i))) /\
  (interval_is_leq i j = true <-> forall r, ge_rb r (fst i) /\ le_rb r (snd i) -> ge_rb r (fst j) /\ le_rb r (snd j)) /\
  (interval_equal i j = true <-> forall r, (ge_rb r (fst i) /\ le_rb r (snd i)) <-> (ge_rb r (fst j) /\ le_rb r (snd j))).
Proof. intros i j Pi Pj. split. apply is_bottom_iff; auto. split. apply is_leq_iff; auto. apply equal_iff; auto. Qed.
Print Assumptions C48_interval_sets.
(** the comparison: opposite signs when the arguments are swapped; -1: included; 2: both
    non-empty, both bounds larger; 0 only on equal intervals, and on all equal non-empty ones *)
Theorem C48_interval_cmp_partial : forall i j,
  interval_cmp j i = (- interval_cmp i j)%Z /\ (interval_cmp i j = 0%Z -> interval_equal i j = true) /\ (interval_cmp i j = (-1)%Z -> interval_is_leq i j = true) /\
  (interval_cmp i j = 2%Z -> interval_is_bottom i = false /\ interval_is_bottom j = false /\ (0 < scalar_cmp (fst i) (fst j))%Z /\ (0 < scalar_cmp (snd i) (snd j))%Z) /\
  (interval_is_bottom i = false \/ interval_is_bottom j = false -> interval_equal i j = true -> interval_cmp i j = 0%Z).
Proof. intros. split. apply interval_cmp_anti. split. apply interval_cmp_0. split. apply interval_cmp_m1. split. apply interval_cmp_2. apply interval_equal_0. Qed.
Print Assumptions C48_interval_cmp_partial.
(** two empty intervals are equal but compare as 1 *)
Theorem C48_interval_cmp_empty_refuted : exists i j, interval_equal i j = true /\ interval_cmp i j = 1%Z.
Proof. exists (Fin 1, Fin (-1)), (Fin 3, Fin (-5)). vm_compute. auto. Qed.
(** equal scalars, different hashes: 1/2 as a rational and as a multi-precision float *)
Theorem C48_scalar_hash_refuted : exists q, scalar_hash SMpq q <> scalar_hash SMpfr q.
Proof. exists (1 # 2). vm_compute. discriminate. Qed.
Example C48_ex : interval_cmp (Fin 1, Fin 2) (Fin 0, PInf) = (-1)%Z /\ interval_cmp (Fin 1, Fin 3) (Fin 0, Fin 2) = 2%Z /\ interval_is_leq (Fin 4, Fin 1) (Fin 0, Fin 0) = true /\ scalar_cmp MInf (Fin 0) = (-1)%Z.
Proof. vm_compute. auto. Qed.

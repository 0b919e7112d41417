(** Facts about the generic operations (Generic.v). *)
From Coq Require Import Arith ZArith QArith Qreals Reals Lra Lia Bool List Sorted Permutation.
From Verif Require Import Bound BoundFacts Linexpr LinexprFacts OctResize2 OctResize3 BoxDims ItvLin ItvLinFacts ApCore ApCoreFacts ApCoreDim PropApCore Generic.
Import ListNotations.
Open Scope nat_scope.
#[local] Arguments Nat.leb : simpl never.
#[local] Arguments Nat.ltb : simpl never.
#[local] Arguments Nat.eqb : simpl never.
#[local] Arguments Nat.sub : simpl never.

(** ** The exchange of primed and unprimed dimensions *)
Lemma swap_length : forall ps perm, length (swap_pairs ps perm) = length perm.
Proof. induction ps as [|p ps IH]; intros; simpl; auto. unfold swap_pairs in *. simpl. rewrite IH, !set_nth_length. auto. Qed.
Lemma swap_out : forall ps perm x, (forall p, In p ps -> fst p < length perm /\ snd p < length perm) -> ~ In x (map fst ps) -> ~ In x (map snd ps) -> nth x (swap_pairs ps perm) 0 = nth x perm 0.
Proof.
  induction ps as [|[a b] ps IH]; intros perm x R A B; auto. change (swap_pairs ((a, b) :: ps) perm) with (swap_pairs ps (set_nth b a (set_nth a b perm))). simpl in A, B.
  destruct (R (a, b)) as [R1 R2]; [simpl; auto|]. simpl in R1, R2. rewrite IH; try tauto.
  - rewrite !set_nth_nth; rewrite ?set_nth_length; auto. destruct (Nat.eqb_spec x b); [subst; tauto|]. destruct (Nat.eqb_spec x a); [subst; tauto|]. auto.
  - intros p P. rewrite !set_nth_length. apply R. simpl; auto.
Qed.
Lemma swap_in : forall ps perm a b, (forall p, In p ps -> fst p < length perm /\ snd p < length perm) -> NoDup (map fst ps) -> NoDup (map snd ps) ->
  (forall x, In x (map fst ps) -> ~ In x (map snd ps)) -> In (a, b) ps -> nth a (swap_pairs ps perm) 0 = b /\ nth b (swap_pairs ps perm) 0 = a.
Proof.
  induction ps as [|[a b] ps IH]; intros perm x y R NA NB D H; [destruct H|]. change (swap_pairs ((a, b) :: ps) perm) with (swap_pairs ps (set_nth b a (set_nth a b perm))).
  simpl in NA, NB. apply NoDup_cons_iff in NA. apply NoDup_cons_iff in NB. destruct NA as [NA1 NA2], NB as [NB1 NB2].
  assert (R' : forall p, In p ps -> fst p < length (set_nth b a (set_nth a b perm)) /\ snd p < length (set_nth b a (set_nth a b perm))) by (intros p P; rewrite !set_nth_length; apply R; simpl; auto).
  destruct (R (a, b)) as [R1 R2]; [simpl; auto|]. simpl in R1, R2.
  assert (AB : ~ In a (map snd ps)) by (intro X; apply (D a); simpl; auto). assert (BA : ~ In b (map fst ps)) by (intro X; apply (D b); simpl; auto).
  assert (NE : a <> b) by (intro X; subst; apply (D b); simpl; auto).
  destruct H as [H|H].
  - inversion H; subst x y. split.
    + rewrite swap_out; auto. rewrite !set_nth_nth; rewrite ?set_nth_length; auto. destruct (Nat.eqb_spec a b); [contradiction|]. rewrite Nat.eqb_refl. auto.
    + rewrite swap_out; auto. rewrite set_nth_nth; rewrite ?set_nth_length; auto. rewrite Nat.eqb_refl. auto.
  - apply IH; auto. intros z Z W. apply (D z); simpl; auto.
Qed.

Section Primed.
Variables (ni nr : nat) (tdim : list nat).
Let n := ni + nr.
Let si := count_int ni tdim.
Let pos := primed_positions ni nr tdim.
Let perm := primed_perm ni nr tdim.
Let inv := dimchange_add_invert pos.
Let n' := n + length tdim.
Hypothesis ND : NoDup tdim.
Hypothesis RG : forall d, In d tdim -> d < n.

Lemma si_le : si <= length tdim.
Proof. unfold si, count_int. clear. induction tdim as [|d l IH]; simpl; auto. destruct (Nat.ltb d ni); simpl; lia. Qed.
Lemma pos_length : length pos = length tdim.
Proof. unfold pos, primed_positions. rewrite app_length, !repeat_length. fold si. pose proof si_le. lia. Qed.
Lemma repeat_sorted : forall x k, StronglySorted le (repeat x k).
Proof. intros x. induction k; simpl; constructor; auto. apply Forall_forall. intros y Y. apply repeat_spec in Y. lia. Qed.
Lemma pos_ok : box_add_ok n pos.
Proof.
  split.
  - unfold pos, primed_positions. fold si. generalize (length tdim - si). intro k. induction si; simpl. apply repeat_sorted. constructor; auto. apply Forall_forall. intros y Y. apply in_app_or in Y.
    destruct Y as [Y|Y]; apply repeat_spec in Y; lia.
  - intros p P. apply in_app_or in P. unfold n. destruct P as [P|P]; apply repeat_spec in P; lia.
Qed.
Lemma inv_eq : inv = seq ni si ++ seq (n + si) (length tdim - si).
Proof.
  unfold inv, dimchange_add_invert, pos, primed_positions. fold si. rewrite add_invert_app, !add_invert_repeat, repeat_length. f_equal; f_equal; unfold n; lia.
Qed.
Lemma inv_length : length inv = length tdim.
Proof. unfold inv, dimchange_add_invert. rewrite add_invert_length. apply pos_length. Qed.
Lemma inv_ok : box_rem_ok n' inv.
Proof.
  split. apply add_invert_sorted, pos_ok. intros p P. rewrite inv_eq in P. apply in_app_or in P. rewrite !in_seq in P. pose proof si_le. unfold n', n in *. lia.
Qed.
Lemma cle_pos : forall x, x < n -> cle pos x = if Nat.ltb x ni then 0 else si.
Proof.
  intros x X. assert (R : forall v k, cle (repeat v k) x = if Nat.leb v x then k else 0).
  { intros v k. induction k; simpl. destruct (Nat.leb v x); auto. unfold cle in *. simpl. destruct (Nat.leb v x); simpl; auto. }
  assert (A : forall l1 l2, cle (l1 ++ l2) x = cle l1 x + cle l2 x). { intros. unfold cle. rewrite filter_app, app_length. auto. }
  unfold pos, primed_positions. fold si. rewrite A, !R. unfold n in X. destruct (Nat.ltb_spec x ni), (Nat.leb_spec ni x), (Nat.leb_spec (ni + nr) x); lia.
Qed.
Lemma shift_pos : forall x, x < n -> shift pos x = if Nat.ltb x ni then x else x + si.
Proof. intros x X. unfold shift. rewrite cle_pos; auto. destruct (Nat.ltb x ni); lia. Qed.
Lemma shift_lt : forall x, x < n -> shift pos x < n'.
Proof. intros x X. rewrite shift_pos; auto. pose proof si_le. unfold n'. destruct (Nat.ltb x ni); lia. Qed.

(** the pairs built by the loop *)
Lemma pairs_spec : forall l ii ir, (forall d, In d l -> d < n) -> ii + count_int ni l <= si -> ir + (length l - count_int ni l) <= length tdim - si ->
  map fst (primed_pairs ni nr si ii ir l) = map (shift pos) l /\
  (forall b, In b (map snd (primed_pairs ni nr si ii ir l)) -> (ni + ii <= b < ni + si) \/ (n + si + ir <= b < n')) /\ NoDup (map snd (primed_pairs ni nr si ii ir l)).
Proof.
  induction l as [|d l IH]; intros ii ir R H1 H2; simpl. { split; auto. split. tauto. constructor. }
  assert (CL : count_int ni l <= length l). { unfold count_int. clear. induction l as [|d l IH]; simpl; auto. destruct (Nat.ltb d ni); simpl; lia. }
  pose proof si_le. unfold count_int in H1, H2. simpl in H1, H2.
  assert (SD := shift_pos d (R d (or_introl eq_refl))). destruct (Nat.ltb_spec d ni) as [L|L]; simpl in H1, H2; fold (count_int ni l) in H1, H2.
  - destruct (IH (S ii) ir) as (A & B & C). intros; apply R; simpl; auto. lia. lia. simpl. split; [f_equal; auto|]. split.
    + intros b [<-|H']; [left; lia|]. apply B in H'. lia.
    + constructor; auto. intro H'. apply B in H'. unfold n in *. lia.
  - destruct (IH ii (S ir)) as (A & B & C). intros; apply R; simpl; auto. lia. lia. simpl. split; [f_equal; auto|]. split.
    + intros b [<-|H']; [right; unfold n', n; lia|]. apply B in H'. lia.
    + constructor; auto. intro H'. apply B in H'. unfold n in *. lia.
Qed.
Let ps := primed_pairs ni nr si 0 0 tdim.
Lemma ps_spec : map fst ps = map (shift pos) tdim /\ (forall b, In b (map snd ps) -> In b inv) /\ NoDup (map snd ps).
Proof.
  destruct (pairs_spec tdim 0 0) as (A & B & C); auto; try (fold si; lia). split; auto. split; auto. intros b H. apply B in H. rewrite inv_eq. apply in_or_app. rewrite !in_seq. pose proof si_le. unfold n' in H. lia.
Qed.
Lemma shift_out : forall x, ~ In (shift pos x) inv.
Proof. intro x. apply (clt_invert pos x). apply pos_ok. Qed.
Lemma ps_fst_nodup : NoDup (map fst ps).
Proof. rewrite (proj1 ps_spec). apply FinFun.Injective_map_NoDup; auto. intros x y. apply shift_inj. Qed.
Lemma ps_range : forall p, In p ps -> fst p < length (dimperm_id n') /\ snd p < length (dimperm_id n').
Proof.
  intros p P. unfold dimperm_id. rewrite seq_length. split.
  - assert (X : In (fst p) (map (shift pos) tdim)) by (rewrite <- (proj1 ps_spec); apply in_map; auto). apply in_map_iff in X. destruct X as (x & <- & X). apply shift_lt; auto.
  - apply inv_ok. apply (proj1 (proj2 ps_spec)). apply in_map; auto.
Qed.
Lemma ps_disj : forall x, In x (map fst ps) -> ~ In x (map snd ps).
Proof. intros x H K. rewrite (proj1 ps_spec) in H. apply in_map_iff in H. destruct H as (y & <- & H). apply (proj1 (proj2 ps_spec)) in K. revert K. apply shift_out. Qed.
Lemma ps_snd_all : forall b, In b inv -> In b (map snd ps).
Proof.
  assert (I : incl inv (map snd ps)). 2: auto. apply NoDup_length_incl. apply ps_spec. rewrite inv_length, map_length. rewrite <- (map_length fst), (proj1 ps_spec), map_length. lia.
  intros b H. apply (proj1 (proj2 ps_spec)); auto.
Qed.
Lemma perm_eq : perm = swap_pairs ps (dimperm_id n').
Proof. reflexivity. Qed.
Lemma perm_length : length perm = n'.
Proof. rewrite perm_eq, swap_length. unfold dimperm_id. apply seq_length. Qed.
Lemma perm_pair : forall a b, In (a, b) ps -> nth a perm 0 = b /\ nth b perm 0 = a.
Proof. intros a b H. rewrite perm_eq. apply swap_in; auto. apply ps_range. apply ps_fst_nodup. apply ps_spec. apply ps_disj. Qed.
Lemma perm_fix : forall x, x < n -> ~ In x tdim -> nth (shift pos x) perm 0 = shift pos x.
Proof.
  intros x X H. rewrite perm_eq, swap_out. unfold dimperm_id. rewrite seq_nth; auto. apply shift_lt; auto. apply ps_range.
  - rewrite (proj1 ps_spec). intro K. apply in_map_iff in K. destruct K as (y & E & K). apply shift_inj in E. subst; auto.
  - intro K. apply (proj1 (proj2 ps_spec)) in K. revert K. apply shift_out.
Qed.
Lemma perm_prime : forall d, In d tdim -> exists b, nth (shift pos d) perm 0 = b /\ In b inv /\ nth b perm 0 = shift pos d.
Proof.
  intros d D. assert (X : In (shift pos d) (map fst ps)) by (rewrite (proj1 ps_spec); apply in_map; auto). apply in_map_iff in X. destruct X as ([a b] & E & X). simpl in E. subst a.
  exists b. destruct (perm_pair _ _ X). split; auto. split; auto. apply (proj1 (proj2 ps_spec)). apply (in_map snd) in X. auto.
Qed.
Lemma perm_unprime : forall b, In b inv -> exists d, In d tdim /\ nth b perm 0 = shift pos d /\ nth (shift pos d) perm 0 = b.
Proof.
  intros b B. apply ps_snd_all in B. apply in_map_iff in B. destruct B as ([a b'] & E & X). simpl in E. subst b'. destruct (perm_pair _ _ X). apply (in_map fst) in X.
  rewrite (proj1 ps_spec) in X. apply in_map_iff in X. destruct X as (d & E & D). simpl in E. subst a. exists d. auto.
Qed.
Lemma cover : forall y, y < n' -> (exists x, x < n /\ y = shift pos x) \/ In y inv.
Proof.
  intros y Y. destruct pos_ok as [S B]. destruct (add_cover pos n y S B) as [(x & X & E)|(t & T & E)]. rewrite pos_length; auto. left; exists x; auto.
  right. subst y. replace (t + nth t pos 0) with (nth t inv 0). apply nth_In. rewrite inv_length, <- pos_length; auto. unfold inv, dimchange_add_invert. rewrite add_invert_nth; auto. lia.
Qed.
Lemma perm_inv : forall y, y < n' -> nth y perm 0 < n' /\ nth (nth y perm 0) perm 0 = y.
Proof.
  intros y Y. destruct (cover y Y) as [(x & X & ->)|I].
  - destruct (in_dec Nat.eq_dec x tdim) as [D|D].
    + destruct (perm_prime x D) as (b & E & B & E'). rewrite E. split; auto. apply inv_ok; auto.
    + rewrite !perm_fix; auto.
  - destruct (perm_unprime y I) as (d & D & E & E'). rewrite E. split; auto. apply shift_lt; auto.
Qed.
Lemma perm_ok : is_perm n' perm.
Proof.
  split. apply perm_length. split. intros; apply perm_inv; auto. intros i j I J E. destruct (perm_inv i I) as [_ A], (perm_inv j J) as [_ B]. congruence.
Qed.
Definition unshift (y : nat) : nat := y - clt inv y.
Lemma unshift_shift : forall x, unshift (shift pos x) = x.
Proof. intro x. unfold unshift. destruct (clt_invert pos x) as [E _]. apply pos_ok. fold inv in E. rewrite E. unfold shift. lia. Qed.
End Primed.

(** ** The equation of a primed dimension *)
Lemma lsum_set : forall n c c' v j, j < n -> (forall k, k < n -> k <> j -> c' k = c k) -> lsum n c' v = (lsum n c v + (c' j - c j) * v j)%R.
Proof.
  intros n c c' v j J H. rewrite (lsum_out n c v j J), (lsum_out n c' v j J). rewrite (lsum_ext n (fun k => if Nat.eqb k j then 0 else c' k)%R (fun k => if Nat.eqb k j then 0 else c k)%R v v). lra.
  intros k K. destruct (Nat.eqb_spec k j); auto. rewrite H; auto.
Qed.
Lemma set_val : forall n e e' j q v r, wf_terms n (le_terms e) -> wf_terms n (le_terms e') -> j < n -> (forall x, ocoeff_in x (lin_coeff e j) <-> x = 0%R) -> le_cst e' = le_cst e ->
  (forall k, lin_coeff e' k = if Nat.eqb k j then Some (Scal (Fin q)) else lin_coeff e k) -> (expr_val e' v (r + Q2R q * v j) <-> expr_val e v r).
Proof.
  intros n e e' j q v r W W' J Z K L. rewrite (expr_val_lin n e), (expr_val_lin n e'); auto. split; intros (c0 & c & A & B & C).
  - exists c0, (fun k => if Nat.eqb k j then 0 else c k)%R. rewrite <- K. split; auto. split.
    + intros k Hk. destruct (Nat.eqb_spec k j) as [->|N]. apply Z; auto. specialize (B k Hk). rewrite L in B. destruct (Nat.eqb_spec k j); [contradiction|auto].
    + assert (cj : c j = Q2R q). { specialize (B j J). rewrite L, Nat.eqb_refl in B. simpl in B. auto. }
      rewrite (lsum_set n c _ v j J). 2: { intros k Hk N. destruct (Nat.eqb_spec k j); [contradiction|auto]. } rewrite Nat.eqb_refl, cj. lra.
  - exists c0, (fun k => if Nat.eqb k j then Q2R q else c k)%R. rewrite K. split; auto. split.
    + intros k Hk. rewrite L. destruct (Nat.eqb_spec k j) as [->|N]. simpl; auto. auto.
    + assert (cj : c j = 0%R) by (apply Z, B; auto). rewrite (lsum_set n c _ v j J). 2: { intros k Hk N. destruct (Nat.eqb_spec k j); [contradiction|auto]. } rewrite Nat.eqb_refl, cj, C. lra.
Qed.
Definition dense_full (n : nat) (e : linexpr) : Prop := forall l, le_terms e = Dense l -> length l = n.
Lemma sorted_wf : forall n e, lin_sorted (le_terms e) -> (forall l, le_terms e = Dense l -> length l <= n) -> (forall j c, lin_coeff e j = Some c -> wf_coeff c /\ j < n) -> wf_terms n (le_terms e).
Proof.
  intros n [k [l|ts]] S D H; simpl in *.
  - split; [apply D; auto|]. apply Forall_forall. intros c C. apply In_nth_error in C. destruct C as (j & J). unfold lin_coeff in H. simpl in H. apply (H j c J).
  - destruct S as (l & h & -> & S). unfold lin_coeff in H; simpl in H.
    assert (M : forall d c, In (d, c) l -> sp_coeff (enc l h) d = Some c).
    { clear H D. unfold srt in S. induction l as [|[x y] l IH]; intros d c I; [destruct I|]. simpl in S. apply StronglySorted_inv in S. destruct S as [S1 S2]. rewrite Forall_map, Forall_forall in S2.
      change (enc ((x, y) :: l) h) with ((Some x, y) :: enc l h). simpl. destruct I as [E|I]. inversion E; subst. rewrite Nat.eqb_refl; auto.
      specialize (S2 _ I). simpl in S2. destruct (Nat.eqb_spec x d); [lia|]. auto. }
    split; [|split].
    + unfold enc. apply Forall_app. split. rewrite Forall_map. apply Forall_forall. intros [d c] I _. simpl. apply (H d), M; auto. rewrite Forall_map. apply Forall_forall. intros c I X. simpl in X. tauto.
    + rewrite enc_dims. unfold srt in S. clear - S. induction S as [|d l0 S IH F]; constructor; auto. intro I. rewrite Forall_forall in F. specialize (F _ I). lia.
    + intros d I. rewrite enc_dims in I. apply in_map_iff in I. destruct I as ([x c] & E & I). simpl in E. subst x. apply (H d c), M; auto.
Qed.
Lemma sp_shift : forall f l h x, (forall a b, f a = f b -> a = b) -> sp_coeff (enc (map (fun p : nat * coeff => (f (fst p), snd p)) l) h) (f x) = sp_coeff (enc l h) x.
Proof.
  intros f l h x I. induction l as [|[d c] l IH]. unfold enc. simpl. rewrite !sp_coeff_holes. auto.
  change (enc (map (fun p => (f (fst p), snd p)) ((d, c) :: l)) h) with ((Some (f d), c) :: enc (map (fun p => (f (fst p), snd p)) l) h). change (enc ((d, c) :: l) h) with ((Some d, c) :: enc l h).
  simpl. rewrite IH. destruct (Nat.eqb_spec d x) as [->|N]. rewrite Nat.eqb_refl; auto. destruct (Nat.eqb_spec (f d) (f x)) as [E|E]; auto. apply I in E. contradiction.
Qed.
Lemma sp_shift_in : forall f l h j c, sp_coeff (enc (map (fun p : nat * coeff => (f (fst p), snd p)) l) h) j = Some c -> exists x, j = f x.
Proof.
  intros f l h j c. induction l as [|[d k] l IH]. unfold enc. simpl. rewrite sp_coeff_holes. discriminate.
  change (enc (map (fun p => (f (fst p), snd p)) ((d, k) :: l)) h) with ((Some (f d), k) :: enc (map (fun p => (f (fst p), snd p)) l) h). simpl. destruct (Nat.eqb_spec (f d) j); eauto.
Qed.
Lemma add_coeffs : forall n e pos, wf_terms n (le_terms e) -> lin_sorted (le_terms e) -> box_add_ok n pos -> dense_full n e ->
  let e' := linexpr_add_dimensions e pos in
  (forall x, x < n -> lin_coeff e' (shift pos x) = lin_coeff e x) /\
  (forall b, In b (dimchange_add_invert pos) -> lin_coeff e' b = None \/ lin_coeff e' b = Some czero) /\
  (forall j c, lin_coeff e' j = Some c -> (c = czero \/ exists x, x < n /\ lin_coeff e x = Some c) /\ j < n + length pos) /\
  wf_terms (n + length pos) (le_terms e') /\ dense_full (n + length pos) e'.
Proof.
  intros n e pos W S [SP SB] F e'.
  assert (SL : forall x, x < n -> shift pos x < n + length pos). { intros x X. unfold shift. assert (cle pos x <= length pos). { unfold cle. clear. induction pos; simpl; auto. destruct (Nat.leb a x); simpl; lia. } lia. }
  assert (A : (forall x, x < n -> lin_coeff e' (shift pos x) = lin_coeff e x) /\ (forall b, In b (dimchange_add_invert pos) -> lin_coeff e' b = None \/ lin_coeff e' b = Some czero) /\
    (forall j c, lin_coeff e' j = Some c -> (c = czero \/ exists x, x < n /\ lin_coeff e x = Some c) /\ j < n + length pos) /\ dense_full (n + length pos) e').
  { unfold e', dense_full in *. destruct e as [k [l|ts]]; simpl in *.
    - specialize (F l eq_refl). destruct (add_dense_ok pos l) as (L1 & L2 & L3). split; auto. rewrite F; auto. unfold lin_coeff, linexpr_add_dimensions; simpl.
      assert (NV : forall b, In b (dimchange_add_invert pos) -> exists t, t < length pos /\ b = t + nth t pos 0).
      { intros b B. apply (In_nth _ _ 0) in B. destruct B as (t & T & E). unfold dimchange_add_invert in *. rewrite add_invert_length in T. rewrite add_invert_nth in E; auto. exists t. split; auto. lia. }
      split. intros; apply L2; lia. split. intros b B. destruct (NV b B) as (t & T & ->). right; apply L3; auto. split.
      + intros j c H. assert (J : j < n + length pos). { rewrite <- F, <- L1. apply nth_error_Some. congruence. } split; auto. destruct (add_cover pos n j SP SB J) as [(x & X & E)|(t & T & E)].
        * right. exists x. split; auto. subst j. change (x + cle pos x) with (shift pos x) in H. rewrite L2 in H; auto; lia.
        * left. subst j. rewrite L3 in H; congruence.
      + intros l0 E. inversion E. rewrite L1. lia.
    - destruct S as (l & h & -> & S). unfold lin_coeff, linexpr_add_dimensions; simpl. rewrite add_sparse_enc; auto; try (intros; lia).
      split. intros; apply sp_shift, shift_inj. split.
      + intros b B. left. apply sp_coeff_none. rewrite enc_dims, map_map. simpl. intro H. apply in_map_iff in H. destruct H as (p & E & _). destruct (clt_invert pos (fst p) SP) as [_ C]. apply C. rewrite E; auto.
      + split; [|intros; discriminate]. intros j c H. destruct (sp_shift_in _ _ _ _ _ H) as (x & ->). rewrite sp_shift in H by (apply shift_inj).
        assert (X : x < n). { destruct W as (_ & _ & W). apply W. destruct (in_dec Nat.eq_dec x (term_dims (enc l h))); auto. rewrite sp_coeff_none in H; auto; discriminate. }
        split; eauto. }
  destruct A as (A1 & A2 & A3 & A4). repeat (split; [assumption|]). split; auto. apply sorted_wf.
  - apply add_dimensions_sorted; auto.
  - intros l E. rewrite (A4 l E). auto.
  - intros j c H. destruct (A3 j c H) as [[->|(x & X & C)] J]; split; auto. exact I. eapply wf_lin_coeff; eauto.
Qed.

(** an expression the generic functions accept *)
Definition gexpr_ok (n : nat) (cok : coeff -> Prop) (e : linexpr) : Prop :=
  wf_linexpr n e /\ lin_sorted (le_terms e) /\ dense_full n e /\ (forall j c, lin_coeff e j = Some c -> cok c).
Lemma primed_cons_ok : forall ni nr tdim d e (cok : coeff -> Prop), NoDup tdim -> (forall d, In d tdim -> d < ni + nr) -> In d tdim -> gexpr_ok (ni + nr) cok e -> cok czero -> cok (Scal (Fin (-1))) ->
  let pos := primed_positions ni nr tdim in let perm := primed_perm ni nr tdim in
  let c := primed_cons ni pos perm tdim (d, e) in
  lc_typ c = CEq /\ lc_mod c = None /\ gexpr_ok (ni + nr + length tdim) cok (lc_expr c) /\
  forall V, sat_cons c V <-> expr_val e (fun x => V (shift pos x)) (V (nth (shift pos d) perm 0)).
Proof.
  intros ni nr tdim d e cok ND RG D ((WC & WT) & S & F & CK) C0 C1 pos perm c.
  pose proof (pos_ok ni nr tdim) as PO. pose proof (pos_length ni nr tdim) as PL. fold pos in PO, PL.
  destruct (add_coeffs (ni + nr) e pos WT S PO F) as (A1 & A2 & A3 & A4 & A5). set (e1 := linexpr_add_dimensions e pos) in *.
  assert (DS : (if Nat.leb ni d then d + count_int ni tdim else d) = shift pos d). { unfold pos. rewrite shift_pos; auto. destruct (Nat.leb_spec ni d), (Nat.ltb_spec d ni); auto; lia. }
  destruct (perm_prime ni nr tdim ND RG d D) as (b & E & B & _). fold pos perm in E, B.
  assert (BL : b < ni + nr + length pos). { rewrite PL. apply (inv_ok ni nr tdim). exact B. }
  assert (S1 : lin_sorted (le_terms e1)) by (apply add_dimensions_sorted; auto; apply PO).
  assert (IS : in_size e1 b). { unfold in_size. destruct (le_terms e1) eqn:T; auto. rewrite (A5 _ T). auto. }
  destruct (set_coeff_ok e1 b (Scal (Fin (-1))) S1 IS) as (e2 & X1 & X2 & X3 & X4 & X5).
  assert (CE : lc_expr c = e2). { unfold c, primed_cons. simpl. rewrite DS, E. fold e1. rewrite X1. auto. }
  assert (DF : dense_full (ni + nr + length pos) e2).
  { intros l T. destruct (le_terms e1) as [l1|ts] eqn:T1. 2: { unfold linexpr_set_coeff in X1. rewrite T1 in X1. destruct (coeffref_sparse b ts). inversion X1 as [X6]; rewrite <- X6 in T; discriminate. }
    unfold linexpr_set_coeff in X1. rewrite T1 in X1. destruct (Nat.ltb b (length l1)); inversion X1 as [X6]; rewrite <- X6 in T; simpl in T; inversion T; rewrite set_nth_length. apply A5; auto. }
  assert (W2 : wf_terms (ni + nr + length pos) (le_terms e2)).
  { apply sorted_wf; auto. intros l T. rewrite (DF l T). auto. intros j k H. rewrite X4 in H. destruct (Nat.eqb_spec j b) as [->|N]. inversion H; subst; split; auto. exact I.
    destruct (A3 j k H). split; auto. eapply wf_lin_coeff; [exact A4|exact H]. }
  split; auto. split; auto. rewrite CE. split.
  - rewrite <- PL. split; [|split; [|split]]; auto. split; auto. rewrite X3. exact WC. intros j k H. rewrite X4 in H. destruct (Nat.eqb j b). inversion H; subst; auto. destruct (A3 j k H) as [[->|(x & X & Q)] _]; eauto.
  - intro V. rewrite E. unfold sat_cons. rewrite CE. simpl.
    assert (AD : forall r, expr_val e1 V r <-> expr_val e (fun x => V (shift pos x)) r).
    { intro r. apply (add_dimensions_ok (ni + nr)); auto. apply PO. unfold add_fits. destruct (le_terms e) eqn:T; auto. rewrite (F _ T). apply PO. }
    assert (SV : forall r, expr_val e2 V (r + Q2R (-1) * V b) <-> expr_val e1 V r).
    { intro r. apply (set_val (ni + nr + length pos)); auto. intro x. destruct (A2 b B) as [-> | ->]; simpl; [tauto|]. unfold czero. simpl. split; intros; subst; unfold Q2R; simpl; lra. }
    rewrite <- AD. rewrite <- (SV (V b)). replace (V b + Q2R (-1) * V b)%R with 0%R by (unfold Q2R; simpl; lra). split. intros (r & H1 & H2). subst r. auto. intro H. exists 0%R. auto.
Qed.

(** ** What the generic functions ask of a domain *)
Definition add_contract (ni nr : nat) (pos : list nat) (k : nat) : Prop :=
  box_add_ok (ni + nr) pos /\ k <= length pos /\ (forall t, t < k -> nth t pos 0 <= ni) /\ (forall t, k <= t < length pos -> ni <= nth t pos 0).
Definition rem_contract (ni nr : nat) (pos : list nat) (k : nat) : Prop :=
  box_rem_ok (ni + nr) pos /\ k <= length pos /\ k <= ni /\ length pos - k <= nr /\ (forall t, t < k -> nth t pos 0 < ni) /\ (forall t, k <= t < length pos -> ni <= nth t pos 0).
Definition ipoint (ni : nat) (v : nat -> R) : Prop := forall d, d < ni -> exists z, v d = IZR z.
(** [g_inv]: invariant of the representation; [g_gam]: meaning; [g_cok]: coefficients of the
    constraints for which the meet is sound. *)
Record gsound (G : gdom) (inv : gd G -> Prop) (gam : gd G -> (nat -> R) -> Prop) (cok : coeff -> Prop) : Prop := mkGsound {
  gs_ext : forall a v w, (forall x, x < gd_int G a + gd_real G a -> w x = v x) -> gam a v -> gam a w;
  gs_bottom : forall a, inv a -> gd_is_bottom G a = true -> forall v, ~ gam a v;
  gs_add : forall a pos k, inv a -> add_contract (gd_int G a) (gd_real G a) pos k -> let r := fst (gd_add G a pos k) in
    inv r /\ gd_int G r = gd_int G a + k /\ gd_real G r = gd_real G a + (length pos - k) /\ forall w, gam a (fun x => w (shift pos x)) -> gam r w;
  gs_permute : forall a perm, inv a -> is_perm (gd_int G a + gd_real G a) perm -> let r := fst (gd_permute G a perm) in
    inv r /\ gd_int G r = gd_int G a /\ gd_real G r = gd_real G a /\
    forall v w, (forall x, x < gd_int G a + gd_real G a -> w (nth x perm 0) = v x) -> gam a v -> gam r w;
  gs_remove : forall a pos k, inv a -> rem_contract (gd_int G a) (gd_real G a) pos k -> let r := fst (gd_remove G a pos k) in
    inv r /\ gd_int G r = gd_int G a - k /\ gd_real G r = gd_real G a - (length pos - k) /\
    forall v w, gam a v -> (forall x, x < gd_int G a + gd_real G a -> ~ In x pos -> w (x - clt pos x) = v x) -> gam r w;
  gs_meet : forall a b, inv a -> inv b -> gd_int G a = gd_int G b -> gd_real G a = gd_real G b -> let r := fst (gd_meet G a b) in
    inv r /\ gd_int G r = gd_int G a /\ gd_real G r = gd_real G a /\ forall v, gam a v -> gam b v -> gam r v;
  gs_cons : forall a l r x, inv a -> Forall (fun c => lc_mod c = None /\ lc_typ c = CEq /\ gexpr_ok (gd_int G a + gd_real G a) cok (lc_expr c)) l -> gd_meet_lincons G a l = Some (r, x) ->
    inv r /\ gd_int G r = gd_int G a /\ gd_real G r = gd_real G a /\ forall v, ipoint (gd_int G a) v -> gam a v -> Forall (fun c => sat_cons c v) l -> gam r v;
  gs_cok : cok czero /\ cok (Scal (Fin (-1)))
}.
(** the flag "exact" of each operation is only set when its result is exact *)
Record gexact (G : gdom) (inv : gd G -> Prop) (gam : gd G -> (nat -> R) -> Prop) (cok : coeff -> Prop) : Prop := mkGexact {
  ge_add : forall a pos k, inv a -> add_contract (gd_int G a) (gd_real G a) pos k -> snd (gd_add G a pos k) = true -> forall w, gam (fst (gd_add G a pos k)) w -> gam a (fun x => w (shift pos x));
  ge_permute : forall a perm, inv a -> is_perm (gd_int G a + gd_real G a) perm -> snd (gd_permute G a perm) = true -> forall w, gam (fst (gd_permute G a perm)) w -> gam a (fun x => w (nth x perm 0));
  ge_remove : forall a pos k, inv a -> rem_contract (gd_int G a) (gd_real G a) pos k -> snd (gd_remove G a pos k) = true -> forall w, gam (fst (gd_remove G a pos k)) w ->
    exists v, gam a v /\ forall x, x < gd_int G a + gd_real G a -> ~ In x pos -> w (x - clt pos x) = v x;
  ge_meet : forall a b, inv a -> inv b -> gd_int G a = gd_int G b -> gd_real G a = gd_real G b -> snd (gd_meet G a b) = true -> forall v, gam (fst (gd_meet G a b)) v -> gam a v /\ gam b v;
  ge_cons : forall a l r, inv a -> Forall (fun c => lc_mod c = None /\ lc_typ c = CEq /\ gexpr_ok (gd_int G a + gd_real G a) cok (lc_expr c)) l -> gd_meet_lincons G a l = Some (r, true) ->
    forall v, gam r v -> gam a v /\ Forall (fun c => sat_cons c v) l
}.
(** [w] is obtained from [v] by the simultaneous assignments [asn] *)
Definition updated (n : nat) (asn : list (nat * linexpr)) (v w : nat -> R) : Prop :=
  (forall d e, In (d, e) asn -> expr_val e v (w d)) /\ (forall d, d < n -> ~ In d (map fst asn) -> w d = v d).

Section Asssub.
Variables (G : gdom) (inv : gd G -> Prop) (gam : gd G -> (nat -> R) -> Prop) (cok : coeff -> Prop).
Hypothesis GS : gsound G inv gam cok.
Variables (abs : gd G) (asn : list (nat * linexpr)) (dest : option (gd G)).
Let ni := gd_int G abs.
Let nr := gd_real G abs.
Let n := ni + nr.
Let tdim := map fst asn.
Let si := count_int ni tdim.
Let pos := primed_positions ni nr tdim.
Let perm := primed_perm ni nr tdim.
Let ivt := dimchange_add_invert pos.
Let n' := n + length tdim.
Let cs := map (primed_cons ni pos perm tdim) asn.
Hypothesis IA : inv abs.
Hypothesis ND : NoDup tdim.
Hypothesis RG : forall d, In d tdim -> d < n.
Hypothesis EO : forall d e, In (d, e) asn -> gexpr_ok n cok e.
Hypothesis DO : forall b, dest = Some b -> inv b /\ gd_int G b = ni /\ gd_real G b = nr.

Lemma count_split : forall l, count_int ni l <= length l. Proof. intro l. unfold count_int. induction l as [|d l IH]; simpl; auto. destruct (Nat.ltb d ni); simpl; lia. Qed.
Lemma a_contract : add_contract ni nr pos si.
Proof.
  split. apply pos_ok. pose proof (pos_length ni nr tdim) as PL. fold pos in PL. split. rewrite PL. apply count_split. unfold pos, primed_positions. fold si. split.
  - intros t T. rewrite app_nth1 by (rewrite repeat_length; auto). pose proof (nth_In (repeat ni si) 0 (ltac:(rewrite repeat_length; auto) : t < length (repeat ni si))) as X. apply repeat_spec in X. lia.
  - intros t [T1 T]. assert (X : In (nth t (repeat ni si ++ repeat (ni + nr) (length tdim - si)) 0) (repeat ni si ++ repeat (ni + nr) (length tdim - si))) by (apply nth_In; exact T).
    apply in_app_or in X. destruct X as [X|X]; apply repeat_spec in X; lia.
Qed.
Lemma tdim_int_real : si <= length tdim. Proof. apply count_split. Qed.
Lemma r_contract : rem_contract (ni + si) (nr + (length tdim - si)) ivt si.
Proof.
  pose proof tdim_int_real as L. assert (IL : length ivt = length tdim) by apply inv_length. pose proof (inv_ok ni nr tdim) as [IS IR]. fold pos ivt in IS, IR.
  split. { split; auto. intros p P. apply IR in P. lia. } rewrite IL. split; auto. split; [lia|]. split; [lia|].
  assert (E : ivt = seq ni si ++ seq (n + si) (length tdim - si)) by apply inv_eq. rewrite E. split.
  - intros t T. rewrite app_nth1 by (rewrite seq_length; auto). rewrite seq_nth; lia.
  - intros t T. rewrite app_nth2 by (rewrite seq_length; lia). rewrite seq_length, seq_nth by lia. unfold n. lia.
Qed.
Lemma cs_ok : Forall (fun c => lc_mod c = None /\ lc_typ c = CEq /\ gexpr_ok n' cok (lc_expr c)) cs.
Proof.
  apply Forall_forall. intros c C. apply in_map_iff in C. destruct C as ([d e] & <- & I). destruct (gs_cok _ _ _ _ GS) as [K0 K1].
  destruct (primed_cons_ok ni nr tdim d e cok ND RG) as (A & B & C & _); auto. unfold tdim. apply (in_map fst) in I. auto. apply (EO d e I).
Qed.
Lemma cs_sat : forall V, Forall (fun c => sat_cons c V) cs <-> forall d e, In (d, e) asn -> expr_val e (fun x => V (shift pos x)) (V (nth (shift pos d) perm 0)).
Proof.
  intro V. destruct (gs_cok _ _ _ _ GS) as [K0 K1]. unfold cs. rewrite Forall_map, Forall_forall. split.
  - intros H d e I. specialize (H _ I). destruct (primed_cons_ok ni nr tdim d e cok ND RG) as (_ & _ & _ & A); auto. unfold tdim. apply (in_map fst) in I. auto. apply (EO d e I). apply A; auto.
  - intros H [d e] I. destruct (primed_cons_ok ni nr tdim d e cok ND RG) as (_ & _ & _ & A); auto. unfold tdim. apply (in_map fst) in I. auto. apply (EO d e I). apply A; auto.
Qed.
(** the point over unprimed and primed dimensions *)
Definition big (v w : nat -> R) (y : nat) : R := if in_dec Nat.eq_dec y ivt then w (unshift ni nr tdim (nth y perm 0)) else v (unshift ni nr tdim y).
Lemma big_shift : forall v w x, big v w (shift pos x) = v x.
Proof. intros v w x. unfold big. destruct (in_dec Nat.eq_dec (shift pos x) ivt) as [I|I]. exfalso. revert I. apply (shift_out ni nr tdim). rewrite (unshift_shift ni nr tdim). auto. Qed.
Lemma big_prime : forall v w d, In d tdim -> big v w (nth (shift pos d) perm 0) = w d.
Proof.
  intros v w d D. destruct (perm_prime ni nr tdim ND RG d D) as (b & E & B & E'). fold pos perm in E, E', B. rewrite E. unfold big. destruct (in_dec Nat.eq_dec b ivt) as [I|I]; [|contradiction].
  rewrite E'. rewrite (unshift_shift ni nr tdim). auto.
Qed.
Lemma big_perm : forall v w x, x < n -> updated n asn v w -> big v w (nth (shift pos x) perm 0) = w x.
Proof.
  intros v w x X [U1 U2]. destruct (in_dec Nat.eq_dec x tdim) as [D|D]. apply big_prime; auto.
  pose proof (perm_fix ni nr tdim RG x X D) as PF. fold pos perm in PF. rewrite PF, big_shift. symmetry. apply U2; auto.
Qed.
Lemma big_int : forall v w, updated n asn v w -> ipoint ni v -> ipoint ni w -> ipoint (ni + si) (big v w).
Proof.
  intros v w U V W y Y. pose proof tdim_int_real. destruct (cover ni nr tdim y) as [(x & X & E)|I]. lia.
  - fold pos in E. subst y. rewrite big_shift. apply V. pose proof (shift_pos ni nr tdim x X) as SP. fold pos si in SP. rewrite SP in Y. destruct (Nat.ltb_spec x ni); lia.
  - destruct (perm_unprime ni nr tdim ND RG y I) as (d & D & E & E'). fold perm pos in E, E'. rewrite <- E'. rewrite big_prime; auto. apply W.
    destruct (Nat.lt_ge_cases d ni) as [L|L]; auto. exfalso.
    (* y is a primed real dimension otherwise *)
    assert (Q : forall l ii ir a b, In (a, b) (primed_pairs ni nr si ii ir l) -> (forall z, In z l -> z < n) -> (a < ni /\ ni + ii <= b) \/ (ni <= a /\ n + si <= b)).
    { clear. induction l as [|z l IH]; intros ii ir a b H R; [destruct H|]. simpl in H. destruct (Nat.ltb_spec z ni); destruct H as [H|H].
      - inversion H; subst. left. lia.
      - apply IH in H; [|intros; apply R; simpl; auto]. lia.
      - inversion H; subst. right. unfold n. lia.
      - apply IH in H; [|intros; apply R; simpl; auto]. lia. }
    assert (PI : In (shift pos d) (map fst (primed_pairs ni nr si 0 0 tdim))) by (pose proof (proj1 (ps_spec ni nr tdim RG)) as PE; fold pos si in PE; rewrite PE; apply in_map; auto).
    apply in_map_iff in PI. destruct PI as ([a b] & E1 & PI). simpl in E1. subst a. destruct (perm_pair ni nr tdim ND RG _ _ PI) as [E2 _]. fold perm pos in E2. rewrite E' in E2. subst b.
    apply Q in PI; auto. pose proof (shift_pos ni nr tdim d (RG d D)) as SP. fold pos si in SP. rewrite SP in PI. destruct (Nat.ltb_spec d ni); lia.
Qed.
Lemma big_sat : forall v w, updated n asn v w -> Forall (fun c => sat_cons c (big v w)) cs.
Proof.
  intros v w U. apply cs_sat. intros d e I. assert (D : In d tdim) by (unfold tdim; apply (in_map fst) in I; auto). rewrite big_prime; auto.
  destruct U as [U _]. specialize (U d e I). destruct (EO d e I) as ((_ & W) & _). revert U. rewrite !(expr_val_lin n); auto. intros (c0 & c & A & B & C). exists c0, c. split; auto. split; auto.
  rewrite C. f_equal. apply lsum_ext. intros j J. rewrite big_shift. auto.
Qed.
Lemma perm_ok' : is_perm n' perm. Proof. apply (perm_ok ni nr tdim ND RG). Qed.
Lemma back_point : forall x, x < n' -> ~ In x ivt -> x = shift pos (x - clt ivt x) /\ x - clt ivt x < n.
Proof.
  intros x X I. destruct (cover ni nr tdim x X) as [(y & Y & E)|J]; [|contradiction]. fold pos in E. pose proof (unshift_shift ni nr tdim y) as U. unfold unshift in U. fold pos ivt in U. rewrite <- E in U. rewrite U. auto.
Qed.

(** *** Soundness *)
Lemma asssub_sound : forall assign r x v w, asssub_linexpr_array G assign abs asn dest = Some (r, x) -> updated n asn v w -> ipoint ni v -> ipoint ni w ->
  gam abs (if assign then v else w) -> (forall b, dest = Some b -> gam b (if assign then w else v)) -> inv r /\ gd_int G r = ni /\ gd_real G r = nr /\ gam r (if assign then w else v).
Proof.
  intros assign r x v w H U VI WI GA GD. unfold asssub_linexpr_array in H. destruct (gd_is_bottom G abs) eqn:BT. { exfalso. eapply (gs_bottom _ _ _ _ GS); eauto. }
  fold ni nr tdim si pos perm cs in H. pose proof tdim_int_real as TI. pose proof (pos_length ni nr tdim) as PL. fold pos in PL.
  set (V := big v w) in *.
  (* [w] on the unprimed dimensions, exchanged *)
  assert (SW : forall x, x < n -> V (nth (shift pos x) perm 0) = w x) by (intros; apply big_perm; auto).
  assert (SV : forall x, x < n -> V (shift pos x) = v x) by (intros; apply big_shift).
  assert (ADD : forall a, inv a -> gd_int G a = ni -> gd_real G a = nr -> forall u, gam a (fun x => u (shift pos x)) -> inv (fst (gd_add G a pos si)) /\ gd_int G (fst (gd_add G a pos si)) = ni + si /\
     gd_real G (fst (gd_add G a pos si)) = nr + (length tdim - si) /\ gam (fst (gd_add G a pos si)) u).
  { intros a A1 A2 A3 u GU. destruct (gs_add _ _ _ _ GS a pos si A1) as (B1 & B2 & B3 & B4). rewrite A2, A3. apply a_contract. rewrite A2, A3, PL in *. auto. }
  assert (N' : ni + si + (nr + (length tdim - si)) = n') by (unfold n', n; lia).
  assert (PRM : forall a, inv a -> gd_int G a = ni + si -> gd_real G a = nr + (length tdim - si) -> forall u, gam a (fun x => u (nth x perm 0)) -> inv (fst (gd_permute G a perm)) /\
     gd_int G (fst (gd_permute G a perm)) = ni + si /\ gd_real G (fst (gd_permute G a perm)) = nr + (length tdim - si) /\ gam (fst (gd_permute G a perm)) u).
  { intros a A1 A2 A3 u GU. destruct (gs_permute _ _ _ _ GS a perm A1) as (B1 & B2 & B3 & B4). rewrite A2, A3, N'. apply perm_ok'. rewrite A2, A3 in *. split; auto. split; auto. split; auto. apply (B4 (fun x => u (nth x perm 0))); auto. }
  (* steps 4 and 6 *)
  destruct (gd_add G abs pos si) as [a1 x1] eqn:E1.
  assert (S6 : exists a2 x2, (if assign then (a1, x1) else let '(a, x0) := gd_permute G a1 perm in (a, x1 && x0)) = (a2, x2) /\ inv a2 /\ gd_int G a2 = ni + si /\ gd_real G a2 = nr + (length tdim - si) /\ gam a2 V).
  { destruct assign.
    - exists a1, x1. split; auto. specialize (ADD abs IA eq_refl eq_refl V). rewrite E1 in ADD. apply ADD. eapply (gs_ext _ _ _ _ GS); [|exact GA]. intros y Y. simpl. apply SV; auto.
    - specialize (ADD abs IA eq_refl eq_refl (fun x => V (nth x perm 0))). rewrite E1 in ADD. destruct ADD as (B1 & B2 & B3 & B4). eapply (gs_ext _ _ _ _ GS); [|exact GA]. intros y Y; simpl; apply SW; auto.
      simpl in B1, B2, B3, B4. destruct (PRM a1 B1 B2 B3 V B4) as (C1 & C2 & C3 & C4). destruct (gd_permute G a1 perm) as [a2 x2]. simpl in *. exists a2, (x1 && x2). auto. }
  destruct S6 as (a2 & x2 & E2 & I2 & D2 & R2 & G2). rewrite E2 in H. clear E2.
  (* step 7 *)
  assert (S7 : exists a3 x3, match dest with None => (a2, x2) | Some dest => let '(dest2, y1) := gd_add G dest pos si in let '(dest2, y2) := if assign then gd_permute G dest2 perm else (dest2, true) in
      let '(a, y3) := gd_meet G a2 dest2 in (a, x2 && y1 && y2 && y3) end = (a3, x3) /\ inv a3 /\ gd_int G a3 = ni + si /\ gd_real G a3 = nr + (length tdim - si) /\ gam a3 V).
  { destruct dest as [b|]. 2: exists a2, x2; auto. destruct (DO b eq_refl) as (BI & BD & BR). specialize (GD b eq_refl).
    assert (SD : exists d2 y2, (let '(dest2, y1) := gd_add G b pos si in if assign then gd_permute G dest2 perm else (dest2, true)) = (d2, y2) /\ inv d2 /\ gd_int G d2 = ni + si /\ gd_real G d2 = nr + (length tdim - si) /\ gam d2 V).
    { destruct assign.
      - specialize (ADD b BI BD BR (fun x => V (nth x perm 0))). destruct ADD as (B1 & B2 & B3 & B4). eapply (gs_ext _ _ _ _ GS); [|exact GD]. intros y Y; simpl; apply SW. unfold n. rewrite BD, BR in Y. auto.
        destruct (gd_add G b pos si) as [d1 y1]. simpl in *. destruct (PRM d1 B1 B2 B3 V B4) as (C1 & C2 & C3 & C4). destruct (gd_permute G d1 perm) as [d2 y2]. simpl in *. exists d2, y2; auto.
      - specialize (ADD b BI BD BR V). destruct ADD as (B1 & B2 & B3 & B4). eapply (gs_ext _ _ _ _ GS); [|exact GD]. intros y Y; simpl; apply SV. unfold n. rewrite BD, BR in Y. auto.
        destruct (gd_add G b pos si) as [d1 y1]. simpl in *. exists d1, true; auto. }
    destruct SD as (d2 & y2 & E & C1 & C2 & C3 & C4). destruct (gd_add G b pos si) as [d1 y1]. rewrite E. destruct (gs_meet _ _ _ _ GS a2 d2) as (F1 & F2 & F3 & F4); auto; try congruence. destruct (gd_meet G a2 d2) as [a3 y3]. simpl in *.
    exists a3, (x2 && y1 && y2 && y3). split; auto. split; auto. split; [congruence|]. split; [congruence|]. auto. }
  destruct S7 as (a3 & x3 & E3 & I3 & D3 & R3 & G3). rewrite E3 in H. clear E3.
  destruct (gd_meet_lincons G a3 cs) as [[a4 x4]|] eqn:E4; [|discriminate].
  destruct (gs_cons _ _ _ _ GS a3 cs a4 x4 I3) as (I4 & D4 & R4 & G4); auto. { rewrite D3, R3, N'. apply cs_ok. }
  assert (GV : gam a4 V). { apply G4; auto. rewrite D3. apply big_int; auto. apply big_sat; auto. }
  assert (S9 : exists a5 x5 u, (if assign then let '(a, x0) := gd_permute G a4 perm in (a, x3 && x4 && x0) else (a4, x3 && x4)) = (a5, x5) /\ inv a5 /\ gd_int G a5 = ni + si /\ gd_real G a5 = nr + (length tdim - si) /\ gam a5 u /\
     forall x, x < n -> u (shift pos x) = (if assign then w else v) x).
  { rewrite D3 in D4. rewrite R3 in R4. destruct assign.
    - destruct (PRM a4 I4 D4 R4 (fun x => V (nth x perm 0))) as (C1 & C2 & C3 & C4). { eapply (gs_ext _ _ _ _ GS); [|exact GV]. rewrite D4, R4, N'. intros y Y. simpl. f_equal. apply (perm_inv ni nr tdim ND RG y Y). }
      destruct (gd_permute G a4 perm) as [a5 x5]. simpl in *. exists a5, (x3 && x4 && x5), (fun x => V (nth x perm 0)). auto 10.
    - exists a4, (x3 && x4), V. auto 10. }
  destruct S9 as (a5 & x5 & u & E5 & I5 & D5 & R5 & G5 & HU). rewrite E5 in H. clear E5.
  destruct (gs_remove _ _ _ _ GS a5 ivt si I5) as (I6 & D6 & R6 & G6). { rewrite D5, R5. apply r_contract. }
  fold ivt in H. destruct (gd_remove G a5 ivt si) as [a6 x6]. simpl in *. inversion H; subst a6 x. split; auto. split. rewrite D6, D5. lia. split. { rewrite R6, R5. rewrite (inv_length ni nr tdim : length ivt = length tdim). lia. }
  apply (G6 u); auto. rewrite D5, R5, N'. intros y Y NI. destruct (back_point y Y NI) as [E L]. rewrite <- HU; auto; f_equal; auto.
Qed.

(** *** Exactness *)
Hypothesis GE : gexact G inv gam cok.
Lemma asssub_exact : forall assign r u, asssub_linexpr_array G assign abs asn dest = Some (r, true) -> gam r u -> gd_is_bottom G abs = false ->
  exists v w, updated n asn v w /\ (forall x, x < n -> u x = (if assign then w else v) x) /\ gam abs (if assign then v else w) /\ (forall b, dest = Some b -> gam b (if assign then w else v)).
Proof.
  intros assign r u H GU BT. unfold asssub_linexpr_array in H. rewrite BT in H. 
  fold ni nr tdim si pos perm cs in H. pose proof tdim_int_real as TI. pose proof (pos_length ni nr tdim) as PL. fold pos in PL.
  assert (N' : ni + si + (nr + (length tdim - si)) = n') by (unfold n', n; lia).
  assert (ADD : forall a, inv a -> gd_int G a = ni -> gd_real G a = nr -> inv (fst (gd_add G a pos si)) /\ gd_int G (fst (gd_add G a pos si)) = ni + si /\
     gd_real G (fst (gd_add G a pos si)) = nr + (length tdim - si) /\ (snd (gd_add G a pos si) = true -> forall u, gam (fst (gd_add G a pos si)) u -> gam a (fun x => u (shift pos x)))).
  { intros a A1 A2 A3. destruct (gs_add _ _ _ _ GS a pos si A1) as (B1 & B2 & B3 & B4). rewrite A2, A3. apply a_contract. split; auto. split; [congruence|]. split; [congruence|]. apply (ge_add _ _ _ _ GE); auto. rewrite A2, A3. apply a_contract. }
  assert (PRM : forall a, inv a -> gd_int G a = ni + si -> gd_real G a = nr + (length tdim - si) -> inv (fst (gd_permute G a perm)) /\
     gd_int G (fst (gd_permute G a perm)) = ni + si /\ gd_real G (fst (gd_permute G a perm)) = nr + (length tdim - si) /\ (snd (gd_permute G a perm) = true -> forall u, gam (fst (gd_permute G a perm)) u -> gam a (fun x => u (nth x perm 0)))).
  { intros a A1 A2 A3. destruct (gs_permute _ _ _ _ GS a perm A1) as (B1 & B2 & B3 & B4). rewrite A2, A3, N'. apply perm_ok'. split; auto. split; [congruence|]. split; [congruence|]. apply (ge_permute _ _ _ _ GE); auto. rewrite A2, A3, N'. apply perm_ok'. }
  destruct (gd_add G abs pos si) as [a1 x1] eqn:E1. pose proof (ADD abs IA eq_refl eq_refl) as A1. rewrite E1 in A1. simpl in A1. destruct A1 as (I1 & D1 & R1 & G1).
  assert (S6 : exists a2 x2, (if assign then (a1, x1) else let '(a, x0) := gd_permute G a1 perm in (a, x1 && x0)) = (a2, x2) /\ inv a2 /\ gd_int G a2 = ni + si /\ gd_real G a2 = nr + (length tdim - si) /\
     (x2 = true -> forall V, gam a2 V -> gam abs (fun x => V (if assign then shift pos x else nth (shift pos x) perm 0)))).
  { destruct assign. exists a1, x1. auto. destruct (PRM a1 I1 D1 R1) as (C1 & C2 & C3 & C4). destruct (gd_permute G a1 perm) as [a2 x2]. simpl in *. exists a2, (x1 && x2). split; auto. split; auto. split; auto. split; auto.
    intros X V GV. apply andb_true_iff in X. destruct X as [X1 X2]. apply (G1 X1 (fun x => V (nth x perm 0))). apply C4; auto. }
  destruct S6 as (a2 & x2 & E2 & I2 & D2 & R2 & G2). rewrite E2 in H. clear E2.
  assert (S7 : exists a3 x3, match dest with None => (a2, x2) | Some dest => let '(dest2, y1) := gd_add G dest pos si in let '(dest2, y2) := if assign then gd_permute G dest2 perm else (dest2, true) in
      let '(a, y3) := gd_meet G a2 dest2 in (a, x2 && y1 && y2 && y3) end = (a3, x3) /\ inv a3 /\ gd_int G a3 = ni + si /\ gd_real G a3 = nr + (length tdim - si) /\
      (x3 = true -> x2 = true /\ forall V, gam a3 V -> gam a2 V /\ forall b, dest = Some b -> gam b (fun x => V (if assign then nth (shift pos x) perm 0 else shift pos x)))).
  { destruct dest as [b|]. 2: { exists a2, x2. repeat (split; auto). intros; discriminate. } destruct (DO b eq_refl) as (BI & BD & BR).
    assert (SD : exists d2 y1 y2, (let '(dest2, y1) := gd_add G b pos si in let '(dest2, y2) := if assign then gd_permute G dest2 perm else (dest2, true) in (dest2, y1, y2)) = (d2, y1, y2) /\ inv d2 /\ gd_int G d2 = ni + si /\ gd_real G d2 = nr + (length tdim - si) /\
       (y1 = true -> y2 = true -> forall V, gam d2 V -> gam b (fun x => V (if assign then nth (shift pos x) perm 0 else shift pos x)))).
    { destruct (ADD b BI BD BR) as (B1 & B2 & B3 & B4). destruct (gd_add G b pos si) as [d1 y1]. simpl in *. destruct assign.
      - destruct (PRM d1 B1 B2 B3) as (C1 & C2 & C3 & C4). destruct (gd_permute G d1 perm) as [d2 y2]. simpl in *. exists d2, y1, y2. repeat (split; auto). intros Y1 Y2 V GV. apply (B4 Y1 (fun x => V (nth x perm 0))). apply C4; auto.
      - exists d1, y1, true. auto 10. }
    destruct SD as (d2 & y1 & y2 & E & C1 & C2 & C3 & C4). destruct (gd_add G b pos si) as [d1 y1']. destruct (if assign then gd_permute G d1 perm else (d1, true)) as [d2' y2'] eqn:E'. inversion E; subst d2' y1' y2'.
    destruct (gs_meet _ _ _ _ GS a2 d2) as (F1 & F2 & F3 & F4); auto; try congruence. pose proof (ge_meet _ _ _ _ GE a2 d2 I2 C1 ltac:(congruence) ltac:(congruence)) as F5. destruct (gd_meet G a2 d2) as [a3 y3]. simpl in *.
    exists a3, (x2 && y1 && y2 && y3). split; auto. split; auto. split; [congruence|]. split; [congruence|]. intro X. rewrite !andb_true_iff in X. destruct X as (((X1 & X2) & X3) & X4). split; auto. intros V GV. destruct (F5 X4 V GV). split; auto.
    intros b' Eb. inversion Eb; subst b'. apply C4; auto. }
  destruct S7 as (a3 & x3 & E3 & I3 & D3 & R3 & G3). rewrite E3 in H. clear E3.
  destruct (gd_meet_lincons G a3 cs) as [[a4 x4]|] eqn:E4; [|discriminate].
  assert (CK : Forall (fun c => lc_mod c = None /\ lc_typ c = CEq /\ gexpr_ok (gd_int G a3 + gd_real G a3) cok (lc_expr c)) cs) by (rewrite D3, R3, N'; apply cs_ok).
  destruct (gs_cons _ _ _ _ GS a3 cs a4 x4 I3 CK E4) as (I4 & D4 & R4 & _). rewrite D3 in D4. rewrite R3 in R4.
  assert (S9 : exists a5 x5, (if assign then let '(a, x0) := gd_permute G a4 perm in (a, x3 && x4 && x0) else (a4, x3 && x4)) = (a5, x5) /\ inv a5 /\ gd_int G a5 = ni + si /\ gd_real G a5 = nr + (length tdim - si) /\
     (x5 = true -> x3 = true /\ x4 = true /\ forall V, gam a5 V -> exists V', gam a4 V' /\ forall x, x < n -> V (shift pos x) = V' (if assign then nth (shift pos x) perm 0 else shift pos x))).
  { destruct assign.
    - destruct (PRM a4 I4 D4 R4) as (C1 & C2 & C3 & C4). destruct (gd_permute G a4 perm) as [a5 x5]. simpl in *. exists a5, (x3 && x4 && x5). split; auto. split; auto. split; auto. split; auto. intro X. rewrite !andb_true_iff in X. destruct X as ((X1 & X2) & X3).
      split; auto. split; auto. intros V GV. exists (fun x => V (nth x perm 0)). split; auto. intros x X. f_equal. symmetry. apply (perm_inv ni nr tdim ND RG). apply (shift_lt ni nr tdim x X).
    - exists a4, (x3 && x4). split; auto. split; auto. split; auto. split; auto. intro X. apply andb_true_iff in X. destruct X. split; auto. split; auto. intros V GV. exists V. auto. }
  destruct S9 as (a5 & x5 & E5 & I5 & D5 & R5 & G5). rewrite E5 in H. clear E5.
  assert (RC : rem_contract (gd_int G a5) (gd_real G a5) ivt si) by (rewrite D5, R5; apply r_contract).
  pose proof (ge_remove _ _ _ _ GE a5 ivt si I5 RC) as G6. fold ivt in H. destruct (gd_remove G a5 ivt si) as [a6 x6]. simpl in *. inversion H; subst a6. apply andb_true_iff in H2. destruct H2 as [X5 X6].
  destruct (G6 X6 u GU) as (V & GV & HV). destruct (G5 X5) as (X3 & X4 & G5'). destruct (G5' V GV) as (V' & GV' & HV'). subst x4. destruct (ge_cons _ _ _ _ GE a3 cs a4 I3 CK E4 V' GV') as [GV3 SAT].
  destruct (G3 X3) as (X2 & G3'). destruct (G3' V' GV3) as (GV2 & GD). specialize (G2 X2 V' GV2). rewrite cs_sat in SAT.
  assert (HU : forall x, x < n -> u x = V' (if assign then nth (shift pos x) perm 0 else shift pos x)).
  { intros x X. rewrite <- HV'; auto. rewrite <- (HV (shift pos x)). f_equal. symmetry. apply (unshift_shift ni nr tdim x). rewrite D5, R5, N'. apply (shift_lt ni nr tdim x X). apply (shift_out ni nr tdim). }
  exists (fun x => V' (shift pos x)), (fun x => V' (nth (shift pos x) perm 0)). split; [|split; [|split]].
  - split. intros d e I. apply SAT; auto. intros d D NI. f_equal. pose proof (perm_fix ni nr tdim RG d D NI) as PF. fold pos perm in PF. auto.
  - intros x X. rewrite HU; auto. destruct assign; auto.
  - destruct assign; auto.
  - intros b B. specialize (GD b B). destruct assign; auto.
Qed.
End Asssub.

(** ** Arrays of values *)
Lemma meetjoin_sound : forall (D : Type) (gam : D -> (nat -> R) -> Prop) (P : D -> Prop) (op : D -> D -> D * bool) cx tab r x, Forall P tab ->
  (forall a b, P a -> P b -> P (fst (op a b)) /\ forall v, gam a v -> gam b v -> gam (fst (op a b)) v) -> meetjoin_array op cx tab = Some (r, x) -> P r /\ forall v, Forall (fun a => gam a v) tab -> gam r v.
Proof.
  intros D gam P op cx [|a [|b tab]] r x F H E; simpl in E; try discriminate.
  - inversion E; subst. inversion F; subst. split; auto. intros v V. inversion V; auto.
  - inversion F as [|? ? Pa F1]; subst. inversion F1 as [|? ? Pb F2]; subst. destruct (H a b Pa Pb) as [A B]. inversion E as [E']. clear E.
    assert (X : forall tab s, Forall P tab -> P (fst s) -> fold_left (fun s c => let '(res, exact) := s in let '(r, x) := op res c in (r, exact && x)) tab s = (r, x) ->
       P r /\ forall v, gam (fst s) v -> Forall (fun a => gam a v) tab -> gam r v).
    { clear - H. induction tab as [|c tab IH]; intros [res ex] F P0 E; simpl in E. inversion E; subst; auto. inversion F as [|? ? Pc F']; subst. simpl in P0. destruct (H res c P0 Pc) as [A B]. destruct (op res c) as [r1 x1]. simpl in *.
      destruct (IH (r1, ex && x1) F' A E) as [C K]. split; auto. intros v V1 V2. inversion V2; subst. apply K; auto. }
    destruct (X _ _ F2 A E') as [C K]. split; auto. intros v V. inversion V as [|? ? V1 V2]; subst. inversion V2; subst. apply K; auto.
Qed.
Lemma meetjoin_upper : forall (D : Type) (le : D -> D -> Prop) (P : D -> Prop) (op : D -> D -> D * bool) cx tab r x, (forall a, le a a) -> (forall a b c, le a b -> le b c -> le a c) -> Forall P tab ->
  (forall a b, P a -> P b -> P (fst (op a b)) /\ le a (fst (op a b)) /\ le b (fst (op a b))) -> meetjoin_array op cx tab = Some (r, x) -> P r /\ Forall (fun a => le a r) tab.
Proof.
  intros D le P op cx [|a [|b tab]] r x RF TR F H E; simpl in E; try discriminate.
  - inversion E; subst. inversion F; subst. auto.
  - inversion F as [|? ? Pa F1]; subst. inversion F1 as [|? ? Pb F2]; subst. destruct (H a b Pa Pb) as (A & B1 & B2). inversion E as [E']. clear E.
    assert (X : forall tab s, Forall P tab -> P (fst s) -> fold_left (fun s c => let '(res, exact) := s in let '(r, x) := op res c in (r, exact && x)) tab s = (r, x) ->
       P r /\ le (fst s) r /\ Forall (fun a => le a r) tab).
    { clear - H RF TR. induction tab as [|c tab IH]; intros [res ex] F P0 E; simpl in E. inversion E; subst; auto. inversion F as [|? ? Pc F']; subst. simpl in P0. destruct (H res c P0 Pc) as (A & B1 & B2). destruct (op res c) as [r1 x1]. simpl in *.
      destruct (IH (r1, ex && x1) F' A E) as (C & K1 & K2). simpl in K1. split; auto. split. eauto. constructor; eauto. }
    destruct (X _ _ F2 A E') as (C & K1 & K2). split; auto. constructor. eauto. constructor; eauto.
Qed.

(** ** Widening with thresholds *)
Lemma swap_permutation : forall (A : Type) (p : list A) i k d, i <= k -> k < length p -> Permutation p (set_nth k (nth i p d) (set_nth i (nth k p d) p)).
Proof.
  intros A p i k d I K. destruct (Nat.eq_dec i k) as [->|N].
  - replace (set_nth k (nth k p d) (set_nth k (nth k p d) p)) with p; auto. apply nth_ext with (d := d) (d' := d). rewrite !set_nth_length; auto.
    intros j J. rewrite !set_nth_nth; rewrite ?set_nth_length; auto. destruct (Nat.eqb_spec j k); subst; auto.
  - destruct (nth_split p d K) as (l1 & l2 & E & L). assert (I' : i < length l1) by lia. destruct (nth_split l1 d I') as (l3 & l4 & E' & L').
    set (x := nth k p d) in *. assert (Y : nth i p d = nth i l1 d) by (rewrite E; apply app_nth1; auto). rewrite Y. set (y := nth i l1 d) in *. rewrite E, E'.
    replace (set_nth i x ((l3 ++ y :: l4) ++ x :: l2)) with ((l3 ++ x :: l4) ++ x :: l2). 2: { rewrite <- L'. rewrite <- !app_assoc. simpl. rewrite set_nth_app. auto. }
    replace (set_nth k y ((l3 ++ x :: l4) ++ x :: l2)) with ((l3 ++ x :: l4) ++ y :: l2). 2: { replace k with (length (l3 ++ x :: l4)). rewrite set_nth_app. auto. rewrite <- L, E', !app_length. simpl. auto. }
    rewrite <- !app_assoc. simpl. apply Permutation_app_head. rewrite (Permutation_app_comm l4 (x :: l2)), (Permutation_app_comm l4 (y :: l2)). simpl. apply perm_swap.
Qed.
Lemma threshold_spec : forall sat fuel p i j, i + j <= length p -> length p - j <= i + fuel -> (forall t d, t < i -> sat (nth t p d) = true) -> (forall t d, length p - j <= t < length p -> sat (nth t p d) = false) ->
  let '(p', i') := threshold_loop sat fuel p i j in Permutation p p' /\ i' <= length p /\ (forall t d, t < i' -> sat (nth t p' d) = true) /\ (forall t d, i' <= t < length p -> sat (nth t p' d) = false).
Proof.
  intros sat. set (c0 := mkCons CEq (mkLin czero (Sparse [])) None). induction fuel as [|fuel IH]; intros p i j H1 H2 A B; simpl.
  - split; auto. split. lia. split; auto. intros t d T. apply B. lia.
  - fold c0. destruct (Nat.ltb_spec i (length p - j)) as [L|L].
    2: { split; auto. split. lia. split; auto. intros t d T. apply B. lia. }
    destruct (sat (nth i p c0)) eqn:SC.
    + apply IH; auto. lia. lia. intros t d T. destruct (Nat.eq_dec t i) as [->|N]. rewrite (nth_indep p d c0); auto; lia. apply A; lia.
    + set (k := length p - S j). assert (K : k < length p) by lia. assert (IK : i <= k) by lia.
      pose proof (swap_permutation _ p i k c0 IK K) as PM. set (q := set_nth k (nth i p c0) (set_nth i (nth k p c0) p)) in *.
      assert (LQ : length q = length p) by (unfold q; rewrite !set_nth_length; auto).
      assert (NQ : forall t d, nth t q d = if Nat.eqb t k then nth i p c0 else if Nat.eqb t i then nth k p c0 else nth t p d).
      { intros t d. unfold q. rewrite set_nth_nth by (rewrite set_nth_length; auto). destruct (Nat.eqb t k); auto. rewrite set_nth_nth by lia. auto. }
      specialize (IH q i (S j)). rewrite LQ in IH. specialize (IH ltac:(lia) ltac:(lia)). assert (H : let '(p', i') := threshold_loop sat fuel q i (S j) in Permutation q p' /\ i' <= length p /\ (forall t d, t < i' -> sat (nth t p' d) = true) /\ (forall t d, i' <= t < length p -> sat (nth t p' d) = false)).
      { apply IH. intros t d T. rewrite NQ. destruct (Nat.eqb_spec t k); [lia|]. destruct (Nat.eqb_spec t i); [lia|]. auto. intros t d T. rewrite NQ. destruct (Nat.eqb_spec t k); auto. destruct (Nat.eqb_spec t i); [lia|]. apply B; lia. }
      destruct (threshold_loop sat fuel q i (S j)) as [p' i']. destruct H as (C1 & C2 & C3 & C4). split; auto. rewrite PM. auto.
Qed.
Lemma threshold_sel : forall sat p, let '(p', i) := threshold_loop sat (length p) p 0 0 in Permutation p p' /\ (forall c, In c (firstn i p') <-> In c p /\ sat c = true).
Proof.
  intros sat p. pose proof (threshold_spec sat (length p) p 0 0 ltac:(lia) ltac:(lia) ltac:(intros; lia) ltac:(intros; lia)) as H. destruct (threshold_loop sat (length p) p 0 0) as [p' i]. destruct H as (A & B & C & D).
  split; auto. pose proof (Permutation_length A) as L. intro c. split.
  - intro I. apply (In_nth _ _ c) in I. destruct I as (t & T & E). rewrite firstn_length in T. assert (X : nth t p' c = c). { rewrite <- E at 2. rewrite <- (firstn_skipn i p') at 1. apply app_nth1. rewrite firstn_length; lia. }
    split. apply Permutation_sym in A. apply (Permutation_in _ A). rewrite <- X. apply nth_In. lia. rewrite <- X. apply C. lia.
  - intros [I S]. apply (Permutation_in _ A) in I. apply (In_nth _ _ c) in I. destruct I as (t & T & E). destruct (Nat.lt_ge_cases t i) as [Q|Q].
    + replace c with (nth t (firstn i p') c). apply nth_In. rewrite firstn_length; lia. rewrite <- E at 2. rewrite <- (firstn_skipn i p') at 2. rewrite app_nth1; auto. rewrite firstn_length; lia.
    + specialize (D t c). rewrite E in D. rewrite D in S; [discriminate|lia].
Qed.

(** Adding dimensions keeps polyhedra honest: the sorted matrices stay sorted and the Gauss forms stay Gauss forms. *)
From Coq Require Import ZArith QArith Bool List Lia Reals Lra Permutation Sorted.
Import ListNotations.
From Verif Require Import BoxDims OctResize2 OctResize3 Bound BoundFacts Itv Linexpr LinexprFacts ItvFacts ItvLin ItvLinFacts ItvLinCons ItvLinInt ItvLinExact ItvLinApi PkCone PkVec PkCherni PkCherniFacts PkSimplify PkPoly PkPolyFacts PkPolyLeq PkPolyMeet PkLin Box BoxMeet PkOps PkUserBound PkMatrix PkEmb PkDims PkProj PkRepr PkAssign PkUser PkUserRow PkUserCons PkUserMeet PropPkMinimize PkCanon PkCanonFacts PkCanonNrm PkCanonUniq PkCanonHon PkCanonClos PkSimplifyThm PkSimplifyEnd PkSpec PkMinimize PkCanonOps PkAssignA PkUserGen PkFold PkWiden PkWidenTop PkCanonOps2.
Open Scope nat_scope.
Lemma lcmp_lt_inv : forall a b, length a = length b -> lcmp a b = Lt -> exists k, k < length a /\ (forall j, j < k -> nth j a 0%Z = nth j b 0%Z) /\ (nth k a 0 < nth k b 0)%Z.
Proof.
  induction a as [|x a IH]; intros [|y b] L H; simpl in *; try lia; try discriminate. destruct (Z.compare_spec x y) as [E|E|E]; try discriminate.
  - destruct (IH b ltac:(lia) H) as (k & K & P & X). exists (S k). split. lia. split; auto. intros [|j] J; auto. apply P. lia.
  - exists 0. split. lia. split; auto. intros; lia.
Qed.
Lemma sk2 : forall (q : pvec) j, nth j (skipn 2 q) 0%Z = zn (j + 2) q. Proof. intros. rewrite nth_skip. unfold zn. f_equal. lia. Qed.
Section Emb.
Variables (d d' : nat) (tau : nat -> nat) (new : list nat).
Hypothesis tau_lt : forall j, j < d -> tau j < d'.
Hypothesis tau_mono : forall j k, j < k -> k < d -> tau j < tau k.
Hypothesis cover : forall c, c < d' -> (exists j, j < d /\ tau j = c) \/ In c new.
Hypothesis new_lt : forall c, In c new -> c < d'.
Hypothesis new_out : forall c j, In c new -> j < d -> tau j <> c.
Lemma tau_mono_inv : forall j k, j < d -> k < d -> tau j < tau k -> j < k.
Proof. intros j k J K H. destruct (Nat.lt_trichotomy j k) as [|[->|X]]; auto. lia. assert (Q := tau_mono k j X J). lia. Qed.
Lemma lcmp_emb : forall q1 q2 q1' q2', lenS (S d) q1 -> lenS (S d) q2 -> emb d d' tau new q1 q1' -> emb d d' tau new q2 q2' -> lcmp (skipn 2 q1') (skipn 2 q2') = Lt -> lcmp (skipn 2 q1) (skipn 2 q2) = Lt.
Proof.
  intros q1 q2 q1' q2' L1 L2 (L1' & _ & _ & A1 & B1) (L2' & _ & _ & A2 & B2) H. unfold lenS in *. apply lcmp_lt_inv in H. 2: rewrite !skipn_length; lia. destruct H as (k & K & P & X). rewrite skipn_length in K. rewrite !sk2 in X.
  destruct (cover k ltac:(lia)) as [(j & J & E)|I]. 2: rewrite (B1 k I), (B2 k I) in X; lia. rewrite <- E, A1, A2 in X by auto.
  apply (lcmp_first j); try (rewrite skipn_length; lia). 2: rewrite !sk2; auto. intros i I. rewrite !sk2. assert (T := tau_mono i j I J). assert (Q := P (tau i) ltac:(lia)). rewrite !sk2, A1, A2 in Q by lia. auto.
Qed.
Lemma vle_emb : forall q1 q2 q1' q2', lenS (S d) q1 -> lenS (S d) q2 -> emb d d' tau new q1 q1' -> emb d d' tau new q2 q2' -> vle q1 q2 -> vle q1' q2'.
Proof.
  intros q1 q2 q1' q2' L1 L2 E1 E2 V. unfold vle in *. intros G. apply V. clear V. unfold vector_compare in *. assert (Z1 : zn 0 q1' = zn 0 q1) by apply E1. assert (Z2 : zn 0 q2' = zn 0 q2) by apply E2. assert (O1 : zn 1 q1' = zn 1 q1) by apply E1. assert (O2 : zn 1 q2' = zn 1 q2) by apply E2.
  rewrite Z1, Z2, O1, O2 in G. destruct (zn 0 q1 ?= zn 0 q2)%Z; auto. destruct (lcmp (skipn 2 q1') (skipn 2 q2')) eqn:C; try discriminate.
  - assert (EQ : lcmp (skipn 2 q1) (skipn 2 q2) = Eq).
    { apply lcmp_eq in C. 2: { destruct E1 as (L1' & _), E2 as (L2' & _). unfold lenS in *. rewrite !skipn_length. lia. }
      replace (skipn 2 q1) with (skipn 2 q2). assert (O := lcmp_opp (skipn 2 q2) (skipn 2 q2)). destruct (lcmp (skipn 2 q2) (skipn 2 q2)); auto; discriminate.
      unfold lenS in *. apply nth_ext with 0%Z 0%Z. rewrite !skipn_length. lia. intros j J. rewrite skipn_length in J. rewrite !sk2. destruct E1 as (_ & _ & _ & A1 & _), E2 as (_ & _ & _ & A2 & _). rewrite <- A1, <- A2 by lia. rewrite <- !sk2. rewrite C. auto. }
    rewrite EQ. auto.
  - assert (C' : lcmp (skipn 2 q2') (skipn 2 q1') = Lt) by (rewrite lcmp_opp, C; auto). apply (lcmp_emb q2 q1) in C'; auto. rewrite lcmp_opp, C'. auto.
Qed.
Variable f : pvec -> pvec.
Hypothesis f_emb : forall q, lenS (S d) q -> emb d d' tau new q (f q).
Lemma sorted_emb : forall l, Forall (lenS (S d)) l -> vsorted l -> vsorted (map f l).
Proof.
  intros l L S. induction S as [|q l S IH H]; simpl. constructor. apply Forall_cons_iff in L. destruct L as [Lq L]. constructor. apply IH; auto. rewrite Forall_forall in *. intros x X. apply in_map_iff in X. destruct X as (y & <- & Y). apply (vle_emb q y); auto.
Qed.
Lemma pvat_emb : forall C q j, lenS (S d) q -> Forall (lenS (S d)) C -> pvat C q j -> exists j', pvat (map f C) (f q) j' /\ forall c, In c new -> j' <> c + 2.
Proof.
  intros C q j L LC (J1 & JP & JZ & JO). unfold lenS in L. destruct (f_emb q L) as (L' & Z0 & Z1 & A & B). unfold lenS in L'. rewrite Forall_forall in LC.
  assert (ZL : forall (p : pvec) k, length p <= k -> zn k p = 0%Z) by (intros; unfold zn; apply nth_overflow; auto).
  assert (OV : forall c, d' + 2 <= c -> zn c (f q) = 0%Z) by (intros c H; apply ZL; lia).
  destruct j as [|[|j]]. lia.
  - exists 1. split. split; auto. split. rewrite Z1; auto. split.
    + intros c Hc. destruct (Nat.le_gt_cases (d' + 2) c); auto. replace c with (c - 2 + 2) by lia. destruct (cover (c - 2) ltac:(lia)) as [(k & K & <-)|I]. rewrite A by auto. apply JZ. lia. apply B; auto.
    + intros r I. apply in_map_iff in I. destruct I as (p & <- & I). destruct (JO p I) as [->|Zp]; auto. right. destruct (f_emb p (LC _ I)) as (_ & _ & Y & _). rewrite Y; auto.
    + intros; lia.
  - assert (JD : j < d). { destruct (Nat.le_gt_cases d j); auto. rewrite (ZL q (S (S j))) in JP by lia. lia. }
    exists (tau j + 2). split. split. lia. split. rewrite A by auto. replace (j + 2) with (S (S j)) by lia. auto. split.
    + intros c Hc. destruct (Nat.le_gt_cases (d' + 2) c); auto. replace c with (c - 2 + 2) in Hc |- * by lia. destruct (cover (c - 2) ltac:(lia)) as [(k & K & E)|I]. 2: apply B; auto. rewrite <- E in *. rewrite A by auto. apply JZ. assert (Q := tau_mono_inv j k JD K ltac:(lia)). lia.
    + intros r I. apply in_map_iff in I. destruct I as (p & <- & I). destruct (JO p I) as [->|Zp]; auto. right. destruct (f_emb p (LC _ I)) as (_ & _ & _ & Y & _). rewrite Y by auto. replace (j + 2) with (S (S j)) by lia. auto.
    + intros c I E. apply (new_out c j I JD). lia.
Qed.
Lemma rdc_emb : forall C, Forall (lenS (S d)) C -> rdc C -> rdc (map f C).
Proof.
  intros C L R q I Z. apply in_map_iff in I. destruct I as (p & <- & I). assert (Lp : lenS (S d) p) by (rewrite Forall_forall in L; auto). destruct (R p I) as (j & J). rewrite <- Z. symmetry. apply f_emb; auto. destruct (pvat_emb C p j Lp L J) as (j' & J' & _). exists j'. exact J'.
Qed.
Lemma unit_zn : forall n c j, zn j (unit_row n c) = if Nat.ltb j (n + 2) then if Nat.eqb j (c + 2) then 1%Z else 0%Z else 0%Z. Proof. intros. unfold unit_row. apply (znmap (fun j => if Nat.eqb j (c + 2) then 1%Z else 0%Z)). Qed.
Lemma rdc_emb_new : forall F, Forall (lenS (S d)) F -> rdc F -> rdc (map (unit_row d') new ++ map f F).
Proof.
  intros F L R q I Z. apply in_app_iff in I. destruct I as [I|I].
  - apply in_map_iff in I. destruct I as (c & <- & I). assert (CL := new_lt c I). exists (c + 2). split. lia. split. rewrite unit_zn, Nat.eqb_refl. destruct (Nat.ltb_spec (c + 2) (d' + 2)); lia. split.
    + intros col H. rewrite unit_zn. destruct (Nat.ltb col (d' + 2)); auto. destruct (Nat.eqb_spec col (c + 2)); auto. lia.
    + intros r J. apply in_app_iff in J. destruct J as [J|J]; apply in_map_iff in J.
      * destruct J as (e & <- & J). destruct (Nat.eq_dec e c) as [->|N]; auto. right. rewrite unit_zn. destruct (Nat.ltb _ _); auto. destruct (Nat.eqb_spec (c + 2) (e + 2)); auto. lia.
      * destruct J as (p & <- & J). right. apply f_emb; auto. rewrite Forall_forall in L; auto.
  - apply in_map_iff in I. destruct I as (p & <- & I). assert (Lp : lenS (S d) p) by (rewrite Forall_forall in L; auto). destruct (R p I) as (j & J). rewrite <- Z. symmetry. apply f_emb; auto. destruct (pvat_emb F p j Lp L J) as (j' & (J1 & J2 & J3 & J4) & JN). exists j'. split; auto. split; auto. split; auto.
    intros r K. apply in_app_iff in K. destruct K as [K|K]; auto. apply in_map_iff in K. destruct K as (c & <- & K). right. rewrite unit_zn. destruct (Nat.ltb _ _); auto. destruct (Nat.eqb_spec j' (c + 2)); auto. exfalso. apply (JN c K); auto.
Qed.
End Emb.
Lemma unit_lt : forall d c c', c' < c -> c < d -> vle (unit_row d c) (unit_row d c').
Proof.
  intros d c c' H K. unfold vle. assert (E : vector_compare (unit_row d c) (unit_row d c') = Lt); [|rewrite E; discriminate]. unfold vector_compare.
  replace (zn 0 (unit_row d c) ?= zn 0 (unit_row d c'))%Z with Eq. 2: { rewrite !unit_zn. destruct (Nat.eqb_spec 0 (c + 2)); try lia. destruct (Nat.eqb_spec 0 (c' + 2)); try lia. destruct (0 <? d + 2); reflexivity. }
  rewrite (lcmp_first c'); auto; try (rewrite skipn_length; unfold unit_row; rewrite map_length, seq_length; lia).
  - intros j J. rewrite !sk2, !unit_zn. destruct (Nat.eqb_spec (j + 2) (c + 2)); try lia. destruct (Nat.eqb_spec (j + 2) (c' + 2)); try lia; auto.
  - rewrite !sk2, !unit_zn. destruct (Nat.ltb_spec (c' + 2) (d + 2)); try lia. destruct (Nat.eqb_spec (c' + 2) (c + 2)); try lia. rewrite Nat.eqb_refl. lia.
Qed.
Lemma app_sorted : forall a b, vsorted a -> vsorted b -> (forall x y, In x a -> In y b -> vle x y) -> vsorted (a ++ b).
Proof. intros a b SA SB H. induction SA as [|x a SA IH F]; simpl; auto. constructor. apply IH. intros; apply H; simpl; auto. apply Forall_app. split; auto. apply Forall_forall. intros y Y. apply H; simpl; auto. Qed.
Lemma vle_refl : forall q, vle q q. Proof. intros q. unfold vle. assert (O := vcmp_opp q q). destruct (vector_compare q q); simpl in O; congruence. Qed.
Lemma rev_case : forall (l : list pvec), l = [] \/ exists a z, l = a ++ [z]. Proof. intros l. destruct l using rev_ind; eauto. Qed.
Lemma sorted_last : forall a z x, vsorted (a ++ [z]) -> In x a -> vle x z.
Proof. induction a as [|y a IH]; intros z x S I; simpl in *. contradiction. apply StronglySorted_inv in S. destruct S as [S F]. destruct I as [->|I]. rewrite Forall_forall in F. apply F. apply in_app_iff. simpl; auto. apply (IH z x); auto. Qed.
Lemma atau_mono : forall pos j k, j < k -> atau pos j < atau pos k.
Proof. intros pos j k H. unfold atau. assert (cle pos j <= cle pos k). { unfold cle. induction pos as [|p pos IH]; simpl; auto. destruct (Nat.leb_spec p j), (Nat.leb_spec p k); simpl; lia. } lia. Qed.
Lemma new_sorted : forall d pos, box_add_ok d pos -> vsorted (new_lines (d + length pos) pos).
Proof.
  intros d pos OK. rewrite new_lines_eq. assert (LT := anew_lt d pos OK). assert (DEC : forall i j, i < j -> j < length pos -> nth (length pos - 1 - j) pos 0 + (length pos - 1 - j) < nth (length pos - 1 - i) pos 0 + (length pos - 1 - i)).
  { intros i j I J. destruct OK as (S & _). assert (Q := ssorted_le_nth pos (length pos - 1 - j) (length pos - 1 - i) S ltac:(lia) ltac:(lia)). lia. }
  unfold anew in *. set (f := fun j => nth (length pos - 1 - j) pos 0 + (length pos - 1 - j)) in *.
  assert (G : forall m a, a + m <= length pos -> vsorted (map (unit_row (d + length pos)) (map f (seq a m)))).
  { induction m as [|m IH]; intros a A; cbn [seq map]. constructor. constructor. apply IH. lia. apply Forall_forall. intros x X. apply in_map_iff in X. destruct X as (c & <- & X). apply in_map_iff in X. destruct X as (j & <- & J). apply in_seq in J. apply unit_lt. apply DEC; lia. apply LT. apply in_map. apply in_seq. lia. }
  apply (G (length pos) 0). lia.
Qed.
Lemma hU_cherni_add : forall m destr pa pos ni, swf pa -> hU m pa -> box_add_ok (pdim pa) pos -> ni <= length pos -> let (po, pa') := cherni_add_dimensions destr pa pos ni in hU m po /\ hU m pa'.
Proof.
  intros m destr pa pos ni W H OK NI. unfold cherni_add_dimensions. set (sat := match psatC pa, psatF pa, pF pa with Some s, _, _ => Some s | None, Some s, Some F => Some (transpose (length F) s) | _, _, _ => None end). clearbody sat.
  assert (H' : hU m (set_satC pa sat)) by (destruct m; exact H). cbv zeta. cbn [set_satC pC pF pint preal pnbeq pnbline pconsgauss pgengauss pCs pFs].
  replace (pint pa + ni + (preal pa + (length pos - ni))) with (pdim pa + length pos) by (unfold pdim; lia).
  match goal with |- hU m ?p /\ _ => assert (Q : hU m p) end. 2: split; auto; destruct destr; auto.
  assert (FE : forall q, lenS (S (pdim pa)) q -> emb (pdim pa) (pdim pa + length pos) (atau pos) (anew pos) q (vector_add destr pos q)) by (intros; apply add_emb; auto).
  assert (TL : forall j, j < pdim pa -> atau pos j < pdim pa + length pos) by (intros; apply atau_lt; auto). assert (CV := acover (pdim pa) pos OK). assert (TM : forall j k, j < k -> k < pdim pa -> atau pos j < atau pos k) by (intros; apply atau_mono; auto).
  assert (NL := anew_lt (pdim pa) pos OK). assert (NO := atau_out (pdim pa) pos OK).
  assert (NM : forall l, Forall (lenS (S (pdim pa))) l -> Forall nrm l -> Forall nrm (map (vector_add destr pos) l)).
  { intros l L N. rewrite Forall_forall in *. intros x X. apply in_map_iff in X. destruct X as (q & <- & I). apply (emb_nrm (pdim pa) (pdim pa + length pos) (atau pos) (anew pos) q); auto. }
  assert (LC : forall C, pC pa = Some C -> Forall (lenS (S (pdim pa))) C) by (intros C E; apply (swf_C _ _ W E)). assert (LF : forall F, pF pa = Some F -> Forall (lenS (S (pdim pa))) F) by (intros F E; apply (swf_C _ _ (swf_dual _ W) E)).
  assert (PC : forall C', option_list (vector_add destr pos) (pC pa) = Some C' -> exists C, pC pa = Some C /\ C' = map (vector_add destr pos) C) by (intros C' E; destruct (pC pa) as [C|]; inversion E; subst; eauto).
  assert (PF : forall F', match pF pa with Some F => Some (new_lines (pdim pa + length pos) pos ++ map (vector_add destr pos) F) | None => None end = Some F' -> exists F, pF pa = Some F /\ F' = new_lines (pdim pa + length pos) pos ++ map (vector_add destr pos) F) by (intros F' E; destruct (pF pa) as [F|]; inversion E; subst; eauto).
  assert (N1 : forall C', option_list (vector_add destr pos) (pC pa) = Some C' -> Forall nrm C') by (intros C' E; destruct (PC _ E) as (C & EC & ->); apply NM; auto; apply (hU_C m pa); auto).
  assert (NN : Forall nrm (new_lines (pdim pa + length pos) pos)). { rewrite new_lines_eq. apply Forall_forall. intros x X. apply in_map_iff in X. destruct X as (c & <- & X). apply unit_nrm; auto. }
  assert (LNL : Forall (lenS (S (pdim pa + length pos))) (new_lines (pdim pa + length pos) pos)). { rewrite new_lines_eq. apply Forall_forall. intros x X. apply in_map_iff in X. destruct X as (c & <- & X). unfold lenS, unit_row. rewrite map_length, seq_length. lia. }
  assert (N2 : forall F', match pF pa with Some F => Some (new_lines (pdim pa + length pos) pos ++ map (vector_add destr pos) F) | None => None end = Some F' -> Forall nrm F') by (intros F' E; destruct (PF _ E) as (F & EF & ->); apply Forall_app; split; auto; apply NM; auto; apply (hU_F m pa); auto).
  assert (SF : forall F, pF pa = Some F -> vsorted F -> vector_compare (nth (length pos - 1) (new_lines (pdim pa + length pos) pos ++ map (vector_add destr pos) F) []) (nth (length pos) (new_lines (pdim pa + length pos) pos ++ map (vector_add destr pos) F) []) = Lt -> vsorted (new_lines (pdim pa + length pos) pos ++ map (vector_add destr pos) F)).
  { intros F EF SO CMP. assert (SA := sorted_emb (pdim pa) (pdim pa + length pos) (atau pos) (anew pos) TM CV (vector_add destr pos) FE F (LF _ EF) SO). assert (SN := new_sorted (pdim pa) pos OK). apply app_sorted; auto. intros x y X Y.
    assert (LA : Forall (lenS (S (pdim pa + length pos))) (map (vector_add destr pos) F)). { apply Forall_forall. intros z Z. apply in_map_iff in Z. destruct Z as (w & <- & Z). apply FE. assert (L := LF _ EF). rewrite Forall_forall in L; auto. }
    assert (LL : length (new_lines (pdim pa + length pos) pos) = length pos) by (unfold new_lines; rewrite map_length, seq_length; auto). set (NL' := new_lines (pdim pa + length pos) pos) in *. set (FA := map (vector_add destr pos) F) in *. clearbody NL' FA.
    destruct (rev_case NL') as [->|(n0 & z & ->)]. destruct X. destruct FA as [|w FA]. destruct Y. rewrite app_length in LL. simpl in LL. unfold pvec in *. rewrite <- app_assoc in CMP. rewrite app_nth2 in CMP by lia. replace (length pos - 1 - length n0) with 0 in CMP by lia. cbn [app nth] in CMP. rewrite app_nth2 in CMP by lia. replace (length pos - length n0) with 1 in CMP by lia. cbn [app nth] in CMP.
    rewrite Forall_forall in LNL, LA. unfold lenS in LNL, LA. assert (Lz := LNL z ltac:(apply in_app_iff; right; simpl; auto)). assert (Lw := LA w ltac:(simpl; auto)). assert (Lx := LNL x X). assert (Ly := LA y Y).
    assert (V1 : vle x z). { apply in_app_iff in X. destruct X as [X|[->|[]]]. 2: apply vle_refl. apply (sorted_last n0 z x); auto. }
    assert (V2 : vle w y). { destruct Y as [->|Y]. apply vle_refl. apply StronglySorted_inv in SA. destruct SA as [_ SA]. rewrite Forall_forall in SA; auto. }
    assert (V3 : vle z w) by (unfold vle; rewrite CMP; discriminate). apply vle_trans with z; try congruence. apply vle_trans with w; try congruence. }
  assert (RC : forall C, pC pa = Some C -> rdc C -> rdc (map (vector_add destr pos) C)) by (intros C E R; apply (rdc_emb (pdim pa) (pdim pa + length pos) (atau pos) (anew pos)); auto).
  assert (RF : forall F, pF pa = Some F -> rdc F -> rdc (new_lines (pdim pa + length pos) pos ++ map (vector_add destr pos) F)) by (intros F E R; rewrite new_lines_eq; apply (rdc_emb_new (pdim pa) (pdim pa + length pos) (atau pos) (anew pos)); auto).
  assert (SS : forall F', match pF pa with Some F => Some (new_lines (pdim pa + length pos) pos ++ map (vector_add destr pos) F) | None => None end = Some F' -> pC pa <> None ->
     match match pF pa with Some F => Some (new_lines (pdim pa + length pos) pos ++ map (vector_add destr pos) F) | None => None end with Some F => pFs pa && match vector_compare (nth (length pos - 1) F []) (nth (length pos) F []) with Lt => true | _ => false end | None => false end = true -> vsorted F').
  { intros F' E NC Hs. destruct (PF _ E) as (F & EF & ->). rewrite EF in Hs. apply andb_true_iff in Hs. destruct Hs as [Hs Hv]. apply SF; auto. destruct m. destruct H as (_ & H & _). apply (H F EF); auto. destruct H as (H & _). apply (H F EF); auto. destruct (vector_compare _ _); auto; discriminate. }
  assert (NCC : option_list (vector_add destr pos) (pC pa) <> None -> pC pa <> None) by (destruct (pC pa); simpl; congruence).
  destruct m; unfold hU, U in *; [|unfold poly_dual]; (split; [|split]); cbn [pC pF pCs pFs pconsgauss pgengauss].
  - intros C E. split; auto. intros _ X. discriminate.
  - intros F E. split; auto.
  - intros C' F' E1 E2. destruct (PC _ E1) as (C & EC & ->). destruct (PF _ E2) as (F & EF & ->). destruct H as (_ & _ & H). destruct (H C F EC EF). split; auto.
  - intros F E. split; auto.
  - intros C E. split; auto. intros _ X. discriminate.
  - intros F' C' E2 E1. destruct (PC _ E1) as (C & EC & ->). destruct (PF _ E2) as (F & EF & ->). destruct H as (_ & _ & H). destruct (H F C EF EC). split; auto.
Qed.
Theorem hon_add : forall alg destr pa pos ni project i r S, repr pa i r S -> hon pa -> box_add_ok (i + r) pos -> ni <= length pos -> let (po, pa') := pk_add_dimensions alg destr pa pos ni project in hon po /\ hon pa'.
Proof.
  intros alg destr pa0 pos ni project i r S R0 H0 OK NI. unfold pk_add_dimensions. assert (R : repr (if alg then poly_chernikova pa0 else pa0) i r S) by (destruct alg; auto; apply chern_repr; auto). assert (H := hon_chern_if alg _ _ _ _ R0 H0).
  set (pa := if alg then poly_chernikova pa0 else pa0) in *. clearbody pa. cbv zeta. destruct (isbot pa). split. apply hon_bottom. destruct destr; auto. apply hon_bottom.
  assert (W : swf (duals (negb project) pa)) by (apply (proj2 (U_swf (negb project) pa)); apply R).
  assert (HU : hU (negb project) (duals (negb project) pa)) by (change (hon (U (negb project) (U (negb project) pa))); rewrite U_U; auto).
  assert (PD : pdim (duals (negb project) pa) = i + r). { destruct R as (_ & A & B & _). unfold pdim. destruct project; simpl; congruence. }
  assert (Q := hU_cherni_add (negb project) destr (duals (negb project) pa) pos ni W HU ltac:(rewrite PD; auto) NI). destruct (cherni_add_dimensions destr (duals (negb project) pa) pos ni) as [po pa']. exact Q.
Qed.

(** Meet and join of arrays keep polyhedra honest. *)
From Coq Require Import ZArith QArith Bool List Lia Reals Lra Permutation Sorted.
Import ListNotations.
From Verif Require Import BoxDims OctResize2 OctResize3 Bound BoundFacts Itv Linexpr LinexprFacts ItvFacts ItvLin ItvLinFacts ItvLinCons ItvLinInt ItvLinExact ItvLinApi PkCone PkVec PkCherni PkCherniFacts PkSimplify PkPoly PkPolyFacts PkPolyLeq PkPolyMeet PkLin Box BoxMeet PkOps PkUserBound PkMatrix PkEmb PkDims PkProj PkRepr PkAssign PkUser PkUserRow PkUserCons PkUserMeet PropPkMinimize PkCanon PkCanonFacts PkCanonNrm PkCanonUniq PkCanonHon PkCanonClos PkSimplifyThm PkSimplifyEnd PkSpec PkMinimize PkCanonOps PkAssignA PkUserGen PkFold PkWiden PkWidenTop PkCanonOps2 PkCanonAdd PkArray PkArrayFacts.
Open Scope nat_scope.
Definition Ok (m : bool) (i r : nat) (p : poly) : Prop := (exists S, rep m p i r S) /\ hU m p.
Definition HI (m : bool) (i r : nat) (h : heap) (l : list nat) : Prop := forall a, In a l -> Ok m i r (h a).
Lemma HI_upd : forall m i r h l a p, HI m i r h l -> (In a l -> Ok m i r p) -> HI m i r (PkArray.upd h a p) l.
Proof. intros m i r h l a p H P b B. unfold PkArray.upd. destruct (Nat.eqb_spec b a) as [->|]; auto. Qed.
Lemma Ok_swf : forall m i r p, Ok m i r p -> swf p /\ pn p = S (i + r).
Proof. intros m i r p ((S & R) & _). split. eapply PkCanonClos.rep_swf; eauto. unfold rep in R. assert (Q := repr_pn _ _ _ _ R). destruct m; auto. Qed.
Lemma Ok_conv : forall m lazy i r p, Ok m i r p -> Ok m i r (conv m lazy p).
Proof. intros m lazy i r p ((S & R) & H). destruct (Ok_swf m i r p) as [W _]. split; eauto. split. exists S. apply conv_rep; auto. unfold conv. destruct lazy. apply hU_obtain; auto. apply hU_chern; auto. Qed.
Lemma scan_hon : forall m lazy i r l fuel h done todo, incl todo l -> HI m i r h l -> HI m i r (snd (scan fuel m lazy h done todo)) l.
Proof.
  intros m lazy i r l. induction fuel; intros h done todo It H; simpl; auto. destruct todo as [|a q]; auto. assert (H' : HI m i r (PkArray.upd h a (conv m lazy (h a))) l) by (apply HI_upd; auto; intros A; apply Ok_conv; auto).
  rewrite upd_eq. destruct (has _). apply IHfuel; auto. intros b B. apply It. simpl; auto. destruct m; auto. apply IHfuel; auto. intros b B. apply It. right. eapply Permutation_in; [apply last_first_perm|]; auto.
Qed.
Lemma merge_hon : forall m i r l todo h C, incl todo l -> HI m i r h l -> Forall nrm C -> Forall (lenS (S (i + r))) C -> let (C', h') := merge_all h C todo in Forall nrm C' /\ HI m i r h' l.
Proof.
  intros m i r l. induction todo as [|a todo IH]; intros h C It H N LC; simpl; auto. assert (Al : In a l) by (apply It; simpl; auto). assert (Oa := H a Al). assert (Os : Ok m i r (poly_obtain_sorted_C (h a))). { destruct (Ok_swf _ _ _ _ Oa) as [W _]. destruct Oa as ((S & R) & K). split. exists S. apply sorted_rep; auto. apply hU_sorted; auto. }
  rewrite upd_eq. destruct (pC (poly_obtain_sorted_C (h a))) as [B|] eqn:E.
  - assert (NB := hU_C m _ B (proj2 Os) E). destruct (Ok_swf _ _ _ _ Os) as [W2 PN]. assert (LB := swf_C _ _ W2 E). rewrite PN in LB. apply IH. intros b Bb; apply It; simpl; auto. apply HI_upd; auto. 2: apply merge_len; auto.
    apply Forall_forall. intros x X. apply (merge_in _ _ _ LC LB) in X. rewrite Forall_forall in *. destruct X; auto.
  - apply IH; auto. intros b Bb; apply It; simpl; auto. apply HI_upd; auto.
Qed.
Lemma same_hon : forall m lazy i r p, Ok m i r p -> hU m (poly_meet_same m lazy p).
Proof. intros m lazy i r p O. destruct (Ok_swf _ _ _ _ O) as [W _]. unfold poly_meet_same. destruct lazy. apply O. apply hU_chern; auto. apply O. Qed.
Lemma meet2_hon : forall m lazy exw algleq i r h l a b po h', HI m i r h l -> In a l -> In b l -> meet2 m lazy exw algleq h a b = Some (po, h') -> hU m po /\ forall c, In c l -> hU m (h' c).
Proof.
  intros m lazy exw algleq i r h l a b po h' H A B E. unfold meet2 in E. destruct (Nat.eqb a b).
  - injection E as <- <-. assert (S := same_hon m lazy i r (h a) (H a A)). split; auto. intros c Cc. unfold PkArray.upd. destruct (Nat.eqb c a); auto. apply H; auto.
  - destruct (H a A) as ((Sa & Ra) & Ha), (H b B) as ((Sb & Rb) & Hb). destruct (poly_meet m lazy exw algleq false (h a) (h b)) as [[[p pa] pb]|] eqn:EM; try discriminate. injection E as <- <-. destruct (hU_meet m lazy exw algleq false (h a) (h b) i r Sa Sb p pa pb Ra Rb Ha Hb EM) as (A1 & A2 & A3).
    split; auto. intros c Cc. unfold PkArray.upd. destruct (Nat.eqb c b); auto. destruct (Nat.eqb c a); auto. apply H; auto.
Qed.
Theorem hU_meet_array : forall m lazy exw algleq h l i r Q po h', Inv m h l i r Q -> (forall a, In a l -> hU m (h a)) -> l <> [] -> poly_meet_array m lazy exw algleq h l = Some (po, h') -> hU m po /\ forall a, In a l -> hU m (h' a).
Proof.
  intros m lazy exw algleq h l i r Q po h' I HH NE E. assert (H : HI m i r h l) by (intros a A; split; auto; exists (Q a); auto). destruct l as [|a [|b [|c l0]]]. congruence.
  - simpl in E. injection E as <- <-. destruct (Ok_swf _ _ _ _ (H a (or_introl eq_refl))) as [W _]. assert (K : hU m (if lazy then h a else poly_chernikova_dual m (h a))) by (destruct lazy; [|apply hU_chern]; auto; apply HH; simpl; auto). split; auto. intros b B. unfold PkArray.upd. destruct (Nat.eqb b a); auto.
  - apply (meet2_hon m lazy exw algleq i r h [a; b] a b); simpl; auto.
  - set (l := a :: b :: c :: l0) in *. assert (S := scan_spec m lazy i r Q l (length l) h [] l (le_n _) (incl_refl _) ltac:(intros z []) I ltac:(intros z []) ltac:(auto)). assert (SH := scan_hon m lazy i r l (length l) h [] l (incl_refl _) H).
    assert (E' : match scan (length l) m lazy h [] l with
    | (None, h1) => Some (pbottom (pint (h a)) (preal (h a)), h1) | (Some [], h1) => Some (poly_dual (pbottom (pint (h a)) (preal (h a))), h1) | (Some [a], h1) => Some (h1 a, h1) | (Some [a; b], h1) => meet2 m lazy exw algleq h1 a b | (Some l, h1) => general m lazy (pint (h a)) (preal (h a)) h1 l end = Some (po, h')) by exact E. clear E.
    destruct (scan (length l) m lazy h [] l) as [[l'|] h1]; destruct S as (I' & S); cbn [snd] in SH.
    2: { injection E' as <- <-. split. destruct m; apply hon_bottom. intros z Z. apply SH; auto. }
    destruct S as (IN & Rd & _). destruct l' as [|a' [|b' [|c' l1]]].
    + injection E' as <- <-. split. destruct m; apply hon_bottom. intros z Z. apply SH; auto.
    + injection E' as <- <-. split; intros; apply SH; auto. apply IN; simpl; auto.
    + apply (meet2_hon m lazy exw algleq i r h1 l a' b'); auto; apply IN; simpl; auto.
    + set (l2 := a' :: b' :: c' :: l1) in *. clearbody l. assert (NE2 : 2 <= length l2) by (simpl; lia). clearbody l2. unfold general in E'. assert (Ra := I a). destruct lazy.
      * assert (M := merge_hon m i r l l2 h1 [] IN SH ltac:(constructor) ltac:(constructor)). destruct (merge_all h1 [] l2) as [C h2]. injection E' as <- <-. destruct M as [M1 M2]. split. 2: intros z Z; apply M2; auto. destruct m; [apply hon_constraints; auto|]. unfold hU, U, poly_dual. cbn [pC pF pCs pFs psatC psatF pnbeq pnbline pint preal pconsgauss pgengauss]. apply hon_generators; auto.
      * set (j := select h1 (tl l2) 1 0 (hd 0 l2)) in *. assert (J : j < length l2). { unfold j. destruct l2 as [|x l2]; simpl in *. lia. apply (select_bound h1 l2 1 0 x); lia. }
        set (oth := firstn j l2 ++ skipn (S j) l2) in *. assert (P := split_nth l2 j J). fold oth in P. set (e := nth j l2 0) in *. assert (Al : In e l2) by (apply nth_In; auto). assert (IO : incl oth l2) by (intros z Z; eapply Permutation_in; [exact P|simpl; auto]).
        assert (M := merge_hon m i r l oth h1 [] ltac:(intros z Z; apply IN; auto) SH ltac:(constructor) ltac:(constructor)). assert (S := merge_spec m i r Q l l2 false oth h1 [] [] I' IN IO Rd (or_introl (conj eq_refl eq_refl))). destruct (merge_all h1 [] oth) as [C h2]. destruct M as [M1 M2], S as (S1 & S2 & S3).
        assert (NO : oth <> []). { intros E0. apply Permutation_length in P. rewrite E0 in P. simpl in P. lia. } specialize (S3 NO). cbn [app] in S3.
        destruct (poly_obtain_satC (h2 e)) as [pa|] eqn:ES; try discriminate. destruct (poly_meet_matrix m false false pa C) as [[p pa']|] eqn:EM; try discriminate. injection E' as <- <-.
        assert (He : hU m (h2 e)) by (apply M2; auto). assert (Hp := hU_sat m _ _ He ES). destruct (S2 e Al) as [HC HM]. specialize (HM eq_refl). destruct (satC_rep m (h2 e) i r (Q e) (S1 e (IN e Al)) HM) as (pa2 & E2 & Rp & _). rewrite ES in E2. injection E2 as <-.
        assert (LC : Forall (lenS (S (i + r))) C). { assert (W := PkCanonClos.rep_swf _ _ _ _ _ S3). assert (L := swf_C _ C W eq_refl). unfold pn, pdim in L. exact L. }
        destruct (Ok_swf m i r pa) as [Wp PNp]. split; eauto. rewrite <- PNp in LC. destruct (hU_matrix m false false pa C p pa' Wp Hp LC M1 EM) as [A1 A2]. split; auto. intros z Z. unfold PkArray.upd. destruct (Nat.eqb z e); auto. apply M2; auto.
Qed.

(** The polyhedra built by the library are honest (PkCanonHon.v): top, bottom, constraints, meet and join. *)
From Coq Require Import ZArith Bool List Lia Reals Lra Permutation Sorted.
Import ListNotations.
From Verif Require Import PkCone PkVec PkCherni PkCherniFacts PkRank PkSimplify PkSimplifyThm PkSimplifyEnd PkSpec PkMinimize PkPoly PkPolyFacts PkPolyLeq PkPolyMeet PropPkMinimize PkCanon PkCanonFacts PkCanonNrm PkCanonUniq PkCanonHon.
Open Scope nat_scope.

Lemma nrm_one : forall q, In 1%Z (tl q) -> nrm q.
Proof. intros q I. unfold nrm. assert (D := proj1 (zgcd_divide (tl q) _) (Z.divide_refl _) _ I). assert (P := zgcd_nonneg (tl q)). apply Z.divide_pos_le in D; lia. Qed.
Lemma hon_bottom : forall i r, hon (pbottom i r). Proof. intros i r. split; [|split]; simpl; intros; discriminate. Qed.
Lemma hon_constraints : forall i r C b s1 s2 n1 n2 b1 b2, Forall nrm C -> hon (mkPoly i r (Some C) b None false s1 s2 n1 n2 b1 b2).
Proof. intros. split; [|split]; simpl; intros; try discriminate. injection H0 as <-. split; auto. congruence. Qed.
Lemma hon_generators : forall i r F b s1 s2 n1 n2 b1 b2, Forall nrm F -> hon (mkPoly i r None false (Some F) b s1 s2 n1 n2 b1 b2).
Proof. intros. split; [|split]; simpl; intros; try discriminate. injection H0 as <-. split; auto. congruence. Qed.
Lemma hon_none : forall i r b1 b2 s1 s2 n1 n2 b3 b4, hon (mkPoly i r None b1 None b2 s1 s2 n1 n2 b3 b4).
Proof. intros. split; [|split]; simpl; intros; discriminate. Qed.

(** ** top *)
Lemma nth_skip : forall k (l : list Z) j, nth j (skipn k l) 0%Z = nth (k + j) l 0%Z.
Proof. induction k; intros [|x l] j; simpl; auto. destruct j; auto. Qed.
Lemma znmap : forall (f : nat -> Z) m j, zn j (map f (seq 0 m)) = if Nat.ltb j m then f j else 0%Z.
Proof.
  intros f m j. unfold zn. destruct (Nat.ltb_spec j m). rewrite (nth_indep _ 0%Z (f 0)) by (rewrite map_length, seq_length; auto). rewrite map_nth, seq_nth by auto. auto. apply nth_overflow. rewrite map_length, seq_length. auto.
Qed.
Definition tline (d k : nat) : pvec := map (fun j => if Nat.eqb j (S d - k) then 1%Z else 0%Z) (seq 0 (d + 2)).
Lemma tline_zn : forall d k j, zn j (tline d k) = if Nat.ltb j (d + 2) then if Nat.eqb j (S d - k) then 1%Z else 0%Z else 0%Z. Proof. intros. unfold tline. apply (znmap (fun j => if Nat.eqb j (S d - k) then 1%Z else 0%Z)). Qed.
Lemma tline_len : forall d k, length (tline d k) = d + 2. Proof. intros. unfold tline. rewrite map_length, seq_length. auto. Qed.
Lemma pos_zn : forall d j, zn j (positivity d) = match j with 0 | 1 => 1%Z | _ => 0%Z end.
Proof. intros d [|[|j]]; auto. unfold zn, positivity. cbn [nth]. destruct (Nat.lt_ge_cases j d). apply nth_repeat. apply nth_overflow. rewrite repeat_length. auto. Qed.
Lemma lcmp_first : forall k a b, (forall j, j < k -> nth j a 0%Z = nth j b 0%Z) -> k < length a -> k < length b -> (nth k a 0 < nth k b 0)%Z -> lcmp a b = Lt.
Proof.
  induction k; intros [|x a] [|y b] H L1 L2 X; simpl in *; try lia. rewrite (proj2 (Z.compare_lt_iff x y)); auto. rewrite (H 0 ltac:(lia)), Z.compare_refl. apply IHk; try lia. intros j J. apply (H (S j)). lia.
Qed.
Lemma tline_lt : forall d k k', k < k' -> k' < d -> vle (tline d k) (tline d k').
Proof.
  intros d k k' H1 H2. unfold vle, vector_compare. rewrite !tline_zn. destruct (Nat.ltb_spec 0 (d + 2)); try lia. destruct (Nat.eqb_spec 0 (S d - k)); try lia. destruct (Nat.eqb_spec 0 (S d - k')); try lia. simpl (0 ?= 0)%Z. cbv iota.
  rewrite (lcmp_first (d - 1 - k')). discriminate.
  - intros j J. rewrite !nth_skip. change (zn (2 + j) (tline d k) = zn (2 + j) (tline d k')). rewrite !tline_zn. destruct (Nat.ltb_spec (2 + j) (d + 2)); auto. destruct (Nat.eqb_spec (2 + j) (S d - k)), (Nat.eqb_spec (2 + j) (S d - k')); auto; lia.
  - rewrite skipn_length, tline_len. lia.
  - rewrite skipn_length, tline_len. lia.
  - rewrite !nth_skip. change (zn (2 + (d - 1 - k')) (tline d k) < zn (2 + (d - 1 - k')) (tline d k'))%Z. rewrite !tline_zn. destruct (Nat.ltb_spec (2 + (d - 1 - k')) (d + 2)); try lia. destruct (Nat.eqb_spec (2 + (d - 1 - k')) (S d - k)), (Nat.eqb_spec (2 + (d - 1 - k')) (S d - k')); lia.
Qed.
Lemma top_shape : forall d, top_lines d = map (tline d) (seq 0 d). Proof. reflexivity. Qed.
Lemma top_sorted : forall d, vsorted (top_lines d ++ [positivity d]).
Proof.
  intros d. rewrite top_shape. assert (Q : forall m s, s + m = d -> vsorted (map (tline d) (seq s m) ++ [positivity d])); [|apply (Q d 0); lia].
  induction m; intros s E; simpl. constructor; constructor. constructor. apply IHm. lia. apply Forall_app. split.
  - apply Forall_forall. intros q I. apply in_map_iff in I. destruct I as (k & <- & I). apply in_seq in I. apply tline_lt; lia.
  - constructor; auto. unfold vle, vector_compare. rewrite tline_zn, pos_zn. destruct (Nat.ltb_spec 0 (d + 2)); try lia. destruct (Nat.eqb_spec 0 (S d - s)); try lia. simpl. discriminate.
Qed.
Lemma hon_top : forall i r, hon (poly_top i r).
Proof.
  intros i r. unfold poly_top. set (d := i + r). clearbody d. assert (NP : nrm (positivity d)) by (apply nrm_one; unfold positivity; simpl; auto).
  split; [|split]; cbn [pC pF pCs pFs pconsgauss pgengauss].
  - intros C E. injection E as <-. split. auto. intros _ _. constructor; constructor.
  - intros F E. injection E as <-. split. 2: intros _ _; apply top_sorted. apply Forall_app. split; auto. rewrite top_shape. apply Forall_forall. intros q I. apply in_map_iff in I. destruct I as (k & <- & I). apply in_seq in I. apply nrm_one. assert (Z1 := tline_zn d k (S d - k)). rewrite Nat.eqb_refl in Z1. destruct (Nat.ltb_spec (S d - k) (d + 2)); try lia. rewrite <- Z1. replace (S d - k) with (S (d - k)) at 1 by lia. rewrite zn_tl. apply nth_In. assert (L := tline_len d k). destruct (tline d k); simpl in *; lia.
  - intros C F EC EF. injection EC as <-. injection EF as <-. split; intros _ q I Z.
    + destruct I as [<-|[]]. discriminate.
    + apply in_app_iff in I. destruct I as [I|[<-|[]]]. 2: discriminate. rewrite top_shape in I. apply in_map_iff in I. destruct I as (k & <- & I). apply in_seq in I. exists (S d - k). split. lia. split. rewrite tline_zn, Nat.eqb_refl. destruct (Nat.ltb_spec (S d - k) (d + 2)); lia. split. intros col Hc. rewrite tline_zn. destruct (Nat.ltb col (d + 2)); auto. destruct (Nat.eqb_spec col (S d - k)); auto; lia.
      intros q Iq. apply in_app_iff in Iq. destruct Iq as [Iq|[<-|[]]]. 2: { right. rewrite pos_zn. destruct (S d - k) as [|[|]] eqn:E; auto; lia. } rewrite top_shape in Iq. apply in_map_iff in Iq. destruct Iq as (k' & <- & Iq). apply in_seq in Iq. destruct (Nat.eq_dec k k') as [->|NE]; auto. right. rewrite tline_zn. destruct (Nat.ltb (S d - k) (d + 2)); auto. destruct (Nat.eqb_spec (S d - k) (S d - k')); auto; lia.
Qed.

(** ** meet and join *)
Definition hU (m : bool) (po : poly) : Prop := hon (U m po).
Lemma hU_chern : forall m p, swf p -> hU m p -> hU m (poly_chernikova_dual m p). Proof. intros m p W H. unfold hU. rewrite U_chern. apply hon_chern; auto. apply U_swf; auto. Qed.
Lemma hU_obtain : forall m p, swf p -> hU m p -> hU m (poly_obtain_C_dual m p). Proof. intros m p W H. unfold poly_obtain_C_dual. destruct (pC p); auto. apply hU_chern; auto. Qed.
Lemma hU_sorted : forall m p, swf p -> hU m p -> hU m (poly_obtain_sorted_C p).
Proof. intros [] p W H; unfold hU in *; simpl in *. apply hon_sorted_C; auto. replace (poly_dual (poly_obtain_sorted_C p)) with (poly_obtain_sorted_F (poly_dual p)) by (unfold poly_obtain_sorted_F; rewrite dual_dual; auto). apply hon_sorted_F; auto. apply swf_dual; auto. Qed.
Lemma hU_sat : forall m p q, hU m p -> poly_obtain_satC p = Some q -> hU m q.
Proof. intros m p q H E. unfold poly_obtain_satC in E. destruct (psatC p). injection E as <-; auto. destruct (pF p) eqn:EF; try discriminate. destruct (psatF p); try discriminate. injection E as <-. destruct m; exact H. Qed.
Lemma hU_C : forall m p C, hU m p -> pC p = Some C -> Forall nrm C.
Proof. intros [] p C (H1 & H2 & _) E. apply (H1 C E). apply (H2 C E). Qed.
Lemma hU_F : forall m p F, hU m p -> pF p = Some F -> Forall nrm F.
Proof. intros [] p F (H1 & H2 & _) E. apply (H2 F E). apply (H1 F E). Qed.
Lemma hU_matrix : forall meet lazy destr pa B po pa', swf pa -> hU meet pa -> Forall (lenS (pn pa)) B -> Forall nrm B -> poly_meet_matrix meet lazy destr pa B = Some (po, pa') -> hU meet po /\ hU meet pa'.
Proof.
  intros meet lazy destr pa B po pa' W H LB NB E. unfold poly_meet_matrix in E. destruct lazy.
  - assert (Hs := hU_sorted meet pa W H). destruct (sorted_C_spec pa W) as (Ws & _). destruct (pC (poly_obtain_sorted_C pa)) as [A|] eqn:EA; try discriminate. assert (NA := hU_C meet _ A Hs EA).
    assert (PN : pn (poly_obtain_sorted_C pa) = pn pa). { unfold poly_obtain_sorted_C. destruct (pC pa); auto. destruct (pCs pa); auto. destruct (psatF pa), (psatC pa); auto; destruct (matrix_sort_rows_with_sat _ _); auto. }
    assert (LA := swf_C _ A Ws EA). rewrite PN in LA. assert (R : hU meet (mkPoly (pint (poly_obtain_sorted_C pa)) (preal (poly_obtain_sorted_C pa)) (Some (matrix_merge A B)) true None false None None 0 0 false false)).
    { assert (NM : Forall nrm (matrix_merge A B)). { rewrite Forall_forall in *. intros q I. apply (merge_in (pn pa)) in I. destruct I; auto. apply Forall_forall; auto. apply Forall_forall; auto. }
      destruct meet; unfold hU; cbn [U poly_dual pint preal pC pF pCs pFs psatC psatF pnbeq pnbline pconsgauss pgengauss]. apply hon_constraints; auto. apply hon_generators; auto. }
    injection E as <- <-. split; auto. destruct destr; auto.
  - destruct (pC pa) as [C|] eqn:EC; try discriminate. destruct (pF pa) as [F|] eqn:EF; try discriminate. destruct (psatC pa) as [sC|] eqn:ES; try discriminate. assert (NC := hU_C meet _ C H EC). assert (NF := hU_F meet _ F H EF).
    assert (W' := W). unfold swf in W'. rewrite EC, EF, ES in W'. destruct W' as (M & SC & _). assert (SE : sC = satmat F C) by (first [apply SC; auto | injection SC; auto | exact SC]).
    assert (N := add_minimize_n meet (pcols pa) (C ++ B) F sC (pnbline pa) (length C) ltac:(apply Forall_app; auto) NF). assert (Q := add_and_minimize_spec meet (pn pa) C F _ _ B M LB). rewrite <- SE in Q. replace (S (pn pa)) with (pcols pa) in Q by (unfold pcols, pn, pdim; lia).
    destruct (cherni_add_and_minimize meet (pcols pa) (C ++ B) F sC (pnbline pa) (length C)) as [[[[[C' F'] sF] ne] nl]|].
    + destruct Q as (_ & _ & _ & _ & RD). destruct N as [N1 N2]. assert (R : hU meet (mkPoly (pint pa) (preal pa) (Some C') false (Some F') false None (Some sF) ne nl meet (negb meet))).
      { destruct meet; unfold hU; (split; [|split]); simpl; intros X; try (intros Y); try (intros E1; try intros E2); try discriminate; repeat match goal with K : Some _ = Some _ |- _ => injection K as <- end; auto; try (split; auto; discriminate); split; auto; intros; discriminate. }
      injection E as <- <-. split; auto. destruct destr; auto.
    + assert (R : hU meet (mkPoly (pint pa) (preal pa) None false None false None None 0 0 meet (negb meet))) by (destruct meet; unfold hU; (split; [|split]); simpl; intros; discriminate). injection E as <- <-. split; auto. destruct destr; auto.
Qed.
Lemma hon_leq : forall alg pa pb b pa' pb', swf pa -> swf pb -> hon pa -> hon pb -> pk_is_leq alg pa pb = (b, pa', pb') -> hon pa' /\ hon pb'.
Proof.
  intros alg pa pb b pa' pb' Wa Wb Ha Hb E. unfold pk_is_leq in E. assert (A : hon (if alg then poly_chernikova pa else poly_obtain_F pa)) by (destruct alg; [apply hon_chern|unfold poly_obtain_F; destruct (pF pa); auto; apply hon_chern]; auto). assert (B : hon (if alg then poly_chernikova pb else poly_obtain_C pb)) by (destruct alg; [apply hon_chern|unfold poly_obtain_C; destruct (pC pb); auto; apply hon_chern]; auto).
  set (qa := if alg then poly_chernikova pa else poly_obtain_F pa) in *. set (qb := if alg then poly_chernikova pb else poly_obtain_C pb) in *. clearbody qa qb. destruct (pF qa). 2: injection E as <- <- <-; auto. destruct (pC qb). 2: injection E as <- <- <-; auto. destruct (_ && _); injection E as <- <- <-; auto.
Qed.
Lemma rep_swf : forall m p i r S, rep m p i r S -> swf p. Proof. intros m p i r S R. apply (U_swf m). apply R. Qed.
Lemma hU_partic : forall meet lazy exw algleq pa pb i r Sa Sb o pa' pb', rep meet pa i r Sa -> rep meet pb i r Sb -> hU meet pa -> hU meet pb -> poly_meet_particularcases meet lazy exw algleq pa pb = (o, pa', pb') ->
  hU meet pa' /\ hU meet pb' /\ forall po, o = Some po -> hU meet po.
Proof.
  intros meet lazy exw algleq pa pb i r Sa Sb o pa' pb' Ra Rb Ha Hb E. assert (Wa := rep_swf _ _ _ _ _ Ra). assert (Wb := rep_swf _ _ _ _ _ Rb). unfold poly_meet_particularcases in E. destruct meet.
  - injection E as <- <- <-. split; auto. split; auto. intros po Q. destruct (isbot pa || isbot pb); try discriminate. injection Q as <-. apply hon_bottom.
  - destruct (isbot pa). { assert (H : hU false (if lazy then pb else poly_chernikova_dual false pb)) by (destruct lazy; auto; apply hU_chern; auto). injection E as <- <- <-. split; auto. split; auto. intros po Q. injection Q as <-; auto. }
    destruct (isbot pb). { assert (H : hU false (if lazy then pa else poly_chernikova_dual false pa)) by (destruct lazy; auto; apply hU_chern; auto). injection E as <- <- <-. split; auto. split; auto. intros po Q. injection Q as <-; auto. }
    destruct exw. 2: { injection E as <- <- <-. split; auto. split; auto. discriminate. }
    destruct (pk_is_leq algleq (poly_dual pa) (poly_dual pb)) as [[r1 da] db] eqn:E1. assert (SP := is_leq_spec algleq _ _ _ _ _ _ Ra Rb). unfold U in SP. rewrite E1 in SP. destruct SP as (R1 & _ & R2 & _). destruct (hon_leq _ _ _ _ _ _ (swf_dual _ Wa) (swf_dual _ Wb) Ha Hb E1) as [H1 H2]. assert (DD : forall p, hon p -> hU false (poly_dual p)) by (intros p H; unfold hU; simpl; rewrite dual_dual; auto).
    destruct r1. { injection E as <- <- <-. split; auto. split; auto. intros po Q. injection Q as <-; auto. }
    destruct (pk_is_leq algleq db da) as [[r2 db'] da'] eqn:E2. destruct (hon_leq _ _ _ _ _ _ (proj1 (proj1 R2)) (proj1 (proj1 R1)) H2 H1 E2) as [H3 H4]. injection E as <- <- <-. split; auto. split; auto. intros po Q. destruct r2; try discriminate. injection Q as <-; auto.
Qed.
Lemma sorted_len : forall p, swf p -> pn (poly_obtain_sorted_C p) = pn p.
Proof. intros p W. unfold poly_obtain_sorted_C. destruct (pC p); auto. destruct (pCs p); auto. destruct (psatF p), (psatC p); auto; destruct (matrix_sort_rows_with_sat _ _); auto. Qed.
Lemma hU_step : forall meet lazy destr pa pb i r Sa Sb B po pa', rep meet pa i r Sa -> rep meet pb i r Sb -> hU meet pa -> hU meet pb -> pC (poly_obtain_sorted_C pb) = Some B -> poly_meet_matrix meet lazy destr pa B = Some (po, pa') -> hU meet po /\ hU meet pa' /\ hU meet (poly_obtain_sorted_C pb).
Proof.
  intros meet lazy destr pa pb i r Sa Sb B po pa' Ra Rb Ha Hb EB E. assert (Wa := rep_swf _ _ _ _ _ Ra). assert (Wb := rep_swf _ _ _ _ _ Rb). assert (Hs := hU_sorted meet pb Wb Hb). assert (NB := hU_C meet _ B Hs EB). destruct (sorted_C_spec pb Wb) as (Ws & _). assert (LB := swf_C _ B Ws EB). rewrite sorted_len in LB by auto.
  assert (PN : pn pa = pn pb). { destruct Ra as (_ & A1 & A2 & _), Rb as (_ & B1 & B2 & _). rewrite U_int in A1, B1. rewrite U_real in A2, B2. unfold pn, pdim. congruence. } rewrite <- PN in LB. destruct (hU_matrix meet lazy destr pa B po pa' Wa Ha LB NB E). auto.
Qed.
Lemma hU_finish : forall meet destr pa pb i r Sa Sb po pa' pb', rep meet pa i r Sa -> rep meet pb i r Sb -> hU meet pa -> hU meet pb ->
  match poly_obtain_satC pa with None => None | Some pa => match pC (poly_obtain_sorted_C pb) with None => None | Some B => match poly_meet_matrix meet false destr pa B with None => None | Some (po, pa) => Some (po, pa, poly_obtain_sorted_C pb) end end end = Some (po, pa', pb') ->
  hU meet po /\ hU meet pa' /\ hU meet pb'.
Proof.
  intros meet destr pa pb i r Sa Sb po pa' pb' Ra Rb Ha Hb E. destruct (poly_obtain_satC pa) as [qa|] eqn:ES; try discriminate. assert (Hq := hU_sat meet pa qa Ha ES). destruct (pC (poly_obtain_sorted_C pb)) as [B|] eqn:EB; try discriminate. destruct (poly_meet_matrix meet false destr qa B) as [[po1 pa1]|] eqn:EM; try discriminate.
  assert (MI : minimal2 pa = true). { assert (X : minimal2 qa = true) by (unfold poly_meet_matrix in EM; unfold minimal2; destruct (pC qa); try discriminate; destruct (pF qa); try discriminate; auto). unfold poly_obtain_satC in ES. destruct (psatC pa). injection ES as <-; auto. destruct (pF pa) eqn:EF; try discriminate. destruct (psatF pa); try discriminate. injection ES as <-. unfold minimal2 in *. simpl in X. rewrite EF in *. auto. }
  destruct (satC_rep meet pa i r Sa Ra MI) as (q & Q1 & Q2 & _). rewrite ES in Q1. injection Q1 as <-. destruct (hU_step meet false destr qa pb i r Sa Sb B po1 pa1 Q2 Rb Hq Hb EB EM) as (X & Y & Z). injection E as <- <- <-. auto.
Qed.
Lemma hU_finish_swap : forall meet destr swap pa pb i r Sa Sb po pa' pb', rep meet pa i r Sa -> rep meet pb i r Sb -> hU meet pa -> hU meet pb ->
  match poly_obtain_satC pa with None => None | Some pa => match pC (poly_obtain_sorted_C pb) with None => None | Some B => match poly_meet_matrix meet false destr pa B with None => None | Some (po, pa) => Some (if swap : bool then (po, poly_obtain_sorted_C pb, pa) else (po, pa, poly_obtain_sorted_C pb)) end end end = Some (po, pa', pb') ->
  hU meet po /\ hU meet pa' /\ hU meet pb'.
Proof.
  intros meet destr swap pa pb i r Sa Sb po pa' pb' Ra Rb Ha Hb E. assert (Q := fun po pa' pb' => hU_finish meet destr pa pb i r Sa Sb po pa' pb' Ra Rb Ha Hb). destruct (poly_obtain_satC pa) as [qa|]; try discriminate. destruct (pC (poly_obtain_sorted_C pb)) as [B|]; try discriminate. destruct (poly_meet_matrix meet false destr qa B) as [[po1 pa1]|]; try discriminate. destruct (Q _ _ _ eq_refl) as (X & Y & Z). destruct swap; injection E as <- <- <-; auto.
Qed.
Theorem hU_meet : forall meet lazy exw algleq destr pa pb i r Sa Sb po pa' pb', rep meet pa i r Sa -> rep meet pb i r Sb -> hU meet pa -> hU meet pb -> poly_meet meet lazy exw algleq destr pa pb = Some (po, pa', pb') ->
  hU meet po /\ hU meet pa' /\ hU meet pb'.
Proof.
  intros meet lazy exw algleq destr pa pb i r Sa Sb po pa' pb' Ra Rb Ha Hb E. unfold poly_meet in E. assert (P1 := partic_rep meet lazy exw algleq pa pb i r Sa Sb Ra Rb). destruct (poly_meet_particularcases meet lazy exw algleq pa pb) as [[o1 pa1] pb1] eqn:E1. destruct (hU_partic _ _ _ _ _ _ _ _ _ _ _ _ _ Ra Rb Ha Hb E1) as (Ha1 & Hb1 & O1). destruct P1 as (Ra1 & _ & Rb1 & _). destruct o1 as [p|]. { injection E as <- <- <-. auto. } clear O1 E1.
  destruct (obtain_C_rep meet pa1 i r Sa Ra1) as (Ra2 & _ & _). destruct (obtain_C_rep meet pb1 i r Sb Rb1) as (Rb2 & _ & _). assert (Ha2 := hU_obtain meet pa1 (rep_swf _ _ _ _ _ Ra1) Ha1). assert (Hb2 := hU_obtain meet pb1 (rep_swf _ _ _ _ _ Rb1) Hb1). set (pa2 := poly_obtain_C_dual meet pa1) in *. set (pb2 := poly_obtain_C_dual meet pb1) in *. clearbody pa2 pb2.
  assert (P2 := partic_rep meet lazy exw algleq pa2 pb2 i r Sa Sb Ra2 Rb2). destruct (poly_meet_particularcases meet lazy exw algleq pa2 pb2) as [[o2 pa3] pb3] eqn:E2. destruct (hU_partic _ _ _ _ _ _ _ _ _ _ _ _ _ Ra2 Rb2 Ha2 Hb2 E2) as (Ha3 & Hb3 & O2). destruct P2 as (Ra3 & _ & Rb3 & _). destruct o2 as [p|]. { injection E as <- <- <-. auto. } clear O2 E2.
  destruct lazy.
  - destruct (pC (poly_obtain_sorted_C pb3)) as [B|] eqn:EB; try discriminate. destruct (poly_meet_matrix meet true destr (poly_obtain_sorted_C pa3) B) as [[p q]|] eqn:EM; try discriminate. injection E as <- <- <-. destruct (hU_step meet true destr _ pb3 i r Sa Sb B p q (sorted_rep _ _ _ _ _ Ra3) Rb3 (hU_sorted meet pa3 (rep_swf _ _ _ _ _ Ra3) Ha3) Hb3 EB EM) as (X & Y & Z). auto.
  - cbv zeta in E. destruct (chern_rep meet pa3 i r Sa Ra3) as (Ra4 & _ & _). destruct (chern_rep meet pb3 i r Sb Rb3) as (Rb4 & _ & _). assert (Ha4 := hU_chern meet pa3 (rep_swf _ _ _ _ _ Ra3) Ha3). assert (Hb4 := hU_chern meet pb3 (rep_swf _ _ _ _ _ Rb3) Hb3).
    destruct destr. { apply (hU_finish_swap meet true false _ _ i r Sa Sb po pa' pb' Ra4 Rb3 Ha4 Hb3 E). }
    destruct (has (pF pa3) && negb (has (pF pb3))). { apply (hU_finish_swap meet false false _ _ i r Sa Sb po pa' pb' Ra3 Rb3 Ha3 Hb3 E). }
    destruct (has (pF pb3) && negb (has (pF pa3))). { apply (hU_finish_swap meet false true _ _ i r Sb Sa po pa' pb' Rb3 Ra3 Hb3 Ha3 E). }
    destruct (negb (has (pF pa3)) && negb (has (pF pb3))).
    + set (pa4 := poly_chernikova_dual meet pa3) in *. set (pb4 := poly_chernikova_dual meet pb3) in *. clearbody pa4 pb4. assert (P3 := partic_rep meet false exw algleq pa4 pb4 i r Sa Sb Ra4 Rb4). destruct (poly_meet_particularcases meet false exw algleq pa4 pb4) as [[o5 pa5] pb5] eqn:E5. destruct (hU_partic _ _ _ _ _ _ _ _ _ _ _ _ _ Ra4 Rb4 Ha4 Hb4 E5) as (Ha5 & Hb5 & O5). destruct P3 as (Ra5 & _ & Rb5 & _). destruct o5 as [p|]. { injection E as <- <- <-. auto. }
      destruct (start_first pa5 pb5). apply (hU_finish_swap meet false false _ _ i r Sa Sb po pa' pb' Ra5 Rb5 Ha5 Hb5 E). apply (hU_finish_swap meet false true _ _ i r Sb Sa po pa' pb' Rb5 Ra5 Hb5 Ha5 E).
    + destruct (start_first pa3 pb3). apply (hU_finish_swap meet false false _ _ i r Sa Sb po pa' pb' Ra3 Rb3 Ha3 Hb3 E). apply (hU_finish_swap meet false true _ _ i r Sb Sa po pa' pb' Rb3 Ra3 Hb3 Ha3 E).
Qed.

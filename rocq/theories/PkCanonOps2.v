(** The other operations keep polyhedra honest (continued): assignment and substitution, constraints of the user, boxes,
    rays, expansion, folding, widening. *)
From Coq Require Import ZArith QArith Bool List Lia Reals Lra Permutation Sorted.
Import ListNotations.
From Verif Require Import BoxDims OctResize3 Bound BoundFacts Itv Linexpr LinexprFacts ItvFacts ItvLin ItvLinFacts ItvLinCons ItvLinInt ItvLinExact ItvLinApi PkCone PkVec PkCherni PkCherniFacts PkSimplify PkPoly PkPolyFacts PkPolyLeq PkPolyMeet PkLin Box BoxMeet PkOps PkUserBound PkMatrix PkEmb PkDims PkProj PkRepr PkAssign PkUser PkUserRow PkUserCons PkUserMeet PropPkMinimize PkCanon PkCanonFacts PkCanonNrm PkCanonUniq PkCanonHon PkCanonClos PkSimplifyThm PkSimplifyEnd PkSpec PkMinimize PkCanonOps PkAssignA PkUserGen PkFold PkWiden PkWidenTop.
Open Scope nat_scope.

Lemma opt_nrm : forall (f : pvec -> pvec) o l, (forall m, o = Some m -> Forall nrm (map f m)) -> option_list f o = Some l -> Forall nrm l.
Proof. intros f [m|] l H E; simpl in E; inversion E; subst. auto. Qed.
Theorem hon_permute : forall alg destr pa perm i r S, repr pa i r S -> hon pa -> is_perm (i + r) perm -> let (po, pa') := pk_permute_dimensions alg destr pa perm in hon po /\ hon pa'.
Proof.
  intros alg destr pa0 perm i r S R0 H0 PM. unfold pk_permute_dimensions. assert (R : repr (if alg then poly_chernikova pa0 else pa0) i r S) by (destruct alg; auto; apply chern_repr; auto). assert (H := hon_chern_if alg _ _ _ _ R0 H0).
  set (pa := if alg then poly_chernikova pa0 else pa0) in *. clearbody pa. assert (PN := repr_pn _ _ _ _ R). assert (W : swf pa) by apply R.
  assert (K : forall q, lenS (Datatypes.S (i + r)) q -> nrm q -> nrm (vector_permute perm q)).
  { intros q L N. assert (PM' := PM). destruct PM' as (_ & P1 & P2). apply (emb_nrm (i + r) (i + r) (fun j => nth j perm 0) [] q); auto. intros c Hc. left. destruct (perm_surj _ _ PM c Hc) as (x & X & E). exists x; auto. apply perm_emb; auto. }
  assert (Q : hon (mkPoly (pint pa) (preal pa) (option_list (vector_permute perm) (pC pa)) false (option_list (vector_permute perm) (pF pa)) false (psatC pa) (psatF pa) (pnbeq pa) (pnbline pa) false false)).
  { apply hon_flags; intros l E.
    - refine (opt_nrm _ _ l _ E). intros m Em. apply map_nrm; [|apply (honC pa); auto]. intros q I. apply K. assert (L := swf_C _ _ W Em). rewrite PN in L. rewrite Forall_forall in L. apply L; auto.
    - refine (opt_nrm _ _ l _ E). intros m Em. apply map_nrm; [|apply (honF pa); auto]. intros q I. apply K. assert (L := swf_C _ _ (swf_dual _ W) Em). change (pn (poly_dual pa)) with (pn pa) in L. rewrite PN in L. rewrite Forall_forall in L. apply L; auto. }
  split; auto. destruct destr; auto.
Qed.

(** ** assignment and substitution *)
Lemma subst_row_nrm : forall v tab q, nrm q -> nrm (subst_row v tab q). Proof. intros v tab q N. unfold subst_row. destruct (_ =? _)%Z; auto. apply nrm_normalize. Qed.
Lemma assign_row_nrm : forall d v tab q, nrm (assign_row d v tab q). Proof. intros. apply nrm_normalize. Qed.
Lemma flags_dual : forall m i r C F s1 s2 n1 n2, (forall c, C = Some c -> Forall nrm c) -> (forall f, F = Some f -> Forall nrm f) -> hon (duals m (mkPoly i r C false F false s1 s2 n1 n2 false false)).
Proof. intros [] i r C F s1 s2 n1 n2 A B; unfold duals, poly_dual; cbn [pint preal pC pF pCs pFs psatC psatF pnbeq pnbline pconsgauss pgengauss]; apply hon_flags; auto. Qed.
Lemma hon_obtFd : forall m pa, swf pa -> hon pa -> hon (duals m (poly_obtain_F_dual m (duals m pa))).
Proof.
  intros m pa W H. assert (E : duals m (duals m pa) = pa) by apply U_U. unfold poly_obtain_F_dual. destruct (pF (duals m pa)). rewrite E; auto.
  change (duals m (poly_chernikova_dual m (duals m pa))) with (U m (poly_chernikova_dual m (duals m pa))). rewrite U_chern. change (U m (duals m pa)) with (duals m (duals m pa)). rewrite E. apply hon_chern; auto.
Qed.
Lemma dualsC : forall m p C, hon (duals m p) -> pC p = Some C -> Forall nrm C. Proof. intros [] p C H E. apply (honC _ _ H E). apply (honF _ _ H E). Qed.
Lemma dualsF : forall m p F, hon (duals m p) -> pF p = Some F -> Forall nrm F. Proof. intros [] p F H E. apply (honF _ _ H E). apply (honC _ _ H E). Qed.
Lemma hon_det : forall assign destr pa v tab, swf pa -> hon pa -> let (po, pa') := poly_asssub_linexpr_det assign destr pa v tab in hon po /\ hon pa'.
Proof.
  intros assign destr pa v tab W H. unfold poly_asssub_linexpr_det. set (p1 := if (zn (v + 2) tab =? 0)%Z then poly_obtain_F_dual assign (duals assign pa) else duals assign pa).
  assert (H1 : hon (duals assign p1)). { unfold p1. destruct (_ =? _)%Z. apply hon_obtFd; auto. change (hon (U assign (U assign pa))). rewrite U_U. auto. } clearbody p1.
  assert (OP : forall a t l, Forall nrm l -> Forall nrm (map ((if a : bool then assign_row destr v else subst_row v) t) l)). { intros a t l F. apply map_nrm; auto. intros q _ N. destruct a. apply assign_row_nrm. apply subst_row_nrm; auto. }
  match goal with |- hon ?p /\ _ => assert (Q : hon p) end.
  { apply flags_dual. intros c E. destruct (_ =? _)%Z. discriminate. apply opt_nrm in E; auto. intros m Em. apply OP. apply (dualsC assign p1); auto. intros f E. apply opt_nrm in E; auto. intros m Em. apply OP. apply (dualsF assign p1); auto. }
  split; auto. destruct destr; auto.
Qed.
Lemma hon_det_array : forall assign destr pa eqs, swf pa -> hon pa -> let (po, pa') := poly_asssub_linexpr_array_det assign destr pa eqs in hon po /\ (pF (poly_obtain_F_dual assign (duals assign pa)) <> None -> hon pa').
Proof.
  intros assign destr pa eqs W H. unfold poly_asssub_linexpr_array_det. assert (H1 := hon_obtFd assign pa W H). set (p1 := poly_obtain_F_dual assign (duals assign pa)) in *. clearbody p1.
  destruct (pF p1) as [F|] eqn:EF. 2: { split. apply hon_bottom. congruence. }
  match goal with |- hon ?p /\ _ => assert (Q : hon p) end.
  { apply flags_dual. intros c E. discriminate. intros f E. inversion E; subst. apply map_nrm. 2: apply (dualsF assign p1); auto. intros q _ _. destruct assign; apply nrm_normalize. }
  split; auto. intros _. destruct destr; auto.
Qed.
Theorem hon_asssub : forall (assign lazy destr : bool) pa v tab i r P, repr pa i r P -> hon pa -> lenS (d1 i r) tab -> (0 < zn 0 tab)%Z -> (v < i + r)%nat -> den_ok assign destr (if lazy then pa else poly_chernikova pa) v tab ->
  forall (dest : option poly) (Q : vec -> Prop) po pa' dest', (forall pb, dest = Some pb -> repr pb i r Q /\ hon pb) -> poly_asssub_linexpr assign lazy destr pa v tab dest = Some (po, pa', dest') -> hon po /\ hon pa' /\ (forall pb, dest' = Some pb -> hon pb).
Proof.
  intros assign lazy destr pa0 v tab i r P R0 H0 LT ZT V DO dest Q po pa' dest' HD E. unfold poly_asssub_linexpr in E. assert (R := chern_if lazy pa0 i r P R0). assert (H : hon (if lazy then pa0 else poly_chernikova pa0)) by (destruct lazy; auto; apply hon_chern; auto; apply R0).
  set (pa := if lazy then pa0 else poly_chernikova pa0) in *. clearbody pa. destruct (isbot pa) eqn:B.
  { injection E as <- <- <-. split. destruct destr; auto. apply hon_bottom. split; auto. intros pb Eb. apply (HD pb Eb). }
  assert (D := hon_det assign destr pa v tab ltac:(apply R) H). assert (S := det_spec assign destr pa v tab i r P R B LT ZT V DO). destruct (poly_asssub_linexpr_det assign destr pa v tab) as [p p']. destruct D as [D1 D2], S as (S1 & _ & _).
  destruct dest as [pb|].
  - destruct (HD pb eq_refl) as [RB HB]. destruct (poly_meet true lazy false false true p pb) as [[[q q'] pb']|] eqn:EM; try discriminate. injection E as <- <- <-.
    destruct (hU_meet true lazy false false true p pb i r _ _ q q' pb' S1 RB D1 HB EM) as (A1 & A2 & A3). split. 2: split; auto; intros x Ex; inversion Ex; subst; auto.
    destruct lazy; auto. apply hon_chern; auto. assert (M := poly_meet_spec true false false false true p pb i r _ _ S1 RB). rewrite EM in M. destruct M as (M & _). apply M.
  - injection E as <- <- <-. split. 2: split; auto; intros; discriminate. destruct lazy; auto. apply hon_chern; auto. apply S1.
Qed.
Theorem hon_asssub_array : forall (assign lazy destr : bool) pa eqs i r P, repr pa i r P -> hon pa -> eok (d1 i r) eqs -> NoDup (map fst eqs) ->
  forall (dest : option poly) (Q : vec -> Prop) po pa' dest', (forall pb, dest = Some pb -> repr pb i r Q /\ hon pb) -> poly_asssub_linexpr_array assign lazy destr pa eqs dest = Some (po, pa', dest') -> hon po /\ hon pa' /\ (forall pb, dest' = Some pb -> hon pb).
Proof.
  intros assign lazy destr pa0 eqs i r P R0 H0 OK ND dest Q po pa' dest' HD E. unfold poly_asssub_linexpr_array in E. assert (R := chern_if lazy pa0 i r P R0). assert (H : hon (if lazy then pa0 else poly_chernikova pa0)) by (destruct lazy; auto; apply hon_chern; auto; apply R0).
  set (pa := if lazy then pa0 else poly_chernikova pa0) in *. clearbody pa. destruct (isbot pa) eqn:B.
  { injection E as <- <- <-. split. destruct destr; auto. apply hon_bottom. split; auto. intros pb Eb. apply (HD pb Eb). }
  assert (D := hon_det_array assign destr pa eqs ltac:(apply R) H). assert (S := array_det_spec assign destr pa eqs i r P R B OK ND).
  assert (D' : let (p, p') := poly_asssub_linexpr_array_det assign destr pa eqs in hon p').
  { destruct (obtain_Fd assign pa i r P R) as (_ & N1). unfold poly_asssub_linexpr_array_det in *. set (p1 := poly_obtain_F_dual assign (duals assign pa)) in *. destruct (pF p1) as [F|] eqn:EF. apply D; congruence.
    destruct destr. apply hon_bottom. assert (BB : isbot (duals assign p1) = true). { apply N1. destruct assign; auto. } apply isbot_CF in BB. split; [|split]; intros; destruct assign; unfold duals, poly_dual in BB; cbn [pC pF] in BB; destruct BB; congruence. }
  destruct (poly_asssub_linexpr_array_det assign destr pa eqs) as [p p']. destruct D as [D1 _], S as (S1 & _ & _).
  destruct dest as [pb|].
  - destruct (HD pb eq_refl) as [RB HB]. destruct (poly_meet true lazy false false true p pb) as [[[q q'] pb']|] eqn:EM; try discriminate. injection E as <- <- <-.
    destruct (hU_meet true lazy false false true p pb i r _ _ q q' pb' S1 RB D1 HB EM) as (A1 & A2 & A3). split. 2: split; auto; intros x Ex; inversion Ex; subst; auto.
    destruct lazy; auto. apply hon_chern; auto. assert (M := poly_meet_spec true false false false true p pb i r _ _ S1 RB). rewrite EM in M. destruct M as (M & _). apply M.
  - injection E as <- <- <-. split. 2: split; auto; intros; discriminate. destruct lazy; auto. apply hon_chern; auto. apply S1.
Qed.

(** ** constraints of the user *)
Lemma tl_set0 : forall x q, tl (set_at 0 x q) = tl q.
Proof.
  intros x [|s t]. reflexivity. unfold set_at. cbn [length seq map tl]. apply nth_ext with 0%Z 0%Z. rewrite map_length, seq_length; auto. intros j J. rewrite map_length, seq_length in J.
  rewrite <- seq_shift, map_map. change (nth j (map (fun k => if Nat.eqb (S k) 0 then x else zn (S k) (s :: t)) (seq 0 (length t))) 0%Z) with (zn j (map (fun k => if Nat.eqb (S k) 0 then x else zn (S k) (s :: t)) (seq 0 (length t)))).
  rewrite zn_mapseq by auto. reflexivity.
Qed.
Lemma set_at_zn0 : forall x q, q <> [] -> zn 0 (set_at 0 x q) = x. Proof. intros x [|s t] N. congruence. reflexivity. Qed.
Lemma skip2_tl : forall (q : pvec), skipn 2 q = tl (tl q). Proof. intros [|a [|b q]]; reflexivity. Qed.
Lemma nrm_gcd2 : forall q : pvec, 1 < length q -> zgcd (skipn 2 q) = 1%Z -> nrm q.
Proof. intros [|a [|b q]] L G; simpl in *; try lia. unfold nrm. simpl. rewrite G. rewrite Z.gcd_1_r. lia. Qed.
Lemma div_gcd : forall t : list Z, (zgcd t > 1)%Z -> zgcd (map (fun x => (x / zgcd t)%Z) t) = 1%Z.
Proof.
  intros t G. assert (N := nrm_normalize (0%Z :: t)). unfold vector_normalize, nrm in N. rewrite vector_gcd_spec in N. destruct (Z.gtb_spec (zgcd t) 1); try lia. cbn [tl] in N. set (t' := map _ t) in *. assert (P := zgcd_nonneg t').
  destruct (Z.eq_dec (zgcd t') 0) as [Z|Z]; try lia. exfalso. assert (A : forall x, In x t -> x = 0%Z).
  { intros x X. assert (D : (zgcd t' | x / zgcd t)%Z) by (apply (proj1 (zgcd_divide t' _) (Z.divide_refl _)); unfold t'; apply in_map_iff; exists x; auto). rewrite Z in D. apply Z.divide_0_l in D. assert (Dx : (zgcd t | x)%Z) by (apply (proj1 (zgcd_divide t _) (Z.divide_refl _)); auto). destruct Dx as [y ->]. rewrite Z.div_mul in D by lia. subst; auto. }
  assert (D : (0 | zgcd t)%Z) by (apply zgcd_divide; intros x X; rewrite (A x X); apply Z.divide_refl). apply Z.divide_0_l in D. lia.
Qed.
Lemma int_nrm : forall i q, 1 < length q -> (zn 0 q = 0%Z -> nrm q) -> (0 <= zn 0 q)%Z -> nrm (vector_normalize_constraint_int i q).
Proof.
  intros i q L N0 P0. unfold vector_normalize_constraint_int. destruct (_ && _) eqn:B. 2: apply nrm_normalize. apply andb_true_iff in B. destruct B as [_ NP]. apply negb_true_iff in NP. rewrite vector_gcd_spec. set (g := zgcd (skipn 2 q)).
  destruct (Z.gtb_spec g 1) as [G|G].
  - assert (DG := div_gcd (skipn 2 q) ltac:(fold g; lia)). fold g in DG. assert (K : forall a b, nrm (a :: b :: map (fun x => (x / g)%Z) (skipn 2 q))) by (intros a b; apply nrm_gcd2; [simpl; lia|exact DG]). destruct (_ =? _)%Z. destruct (_ =? _)%Z. apply K. apply nrm_one. simpl; auto. apply K.
  - destruct (Z.eq_dec (zn 0 q) 0) as [Z|Z]; auto. apply nrm_gcd2; auto. fold g. assert (PG : (0 <= g)%Z) by apply zgcd_nonneg. destruct (Z.eq_dec g 0) as [G0|]; try lia. exfalso. unfold is_positivity in NP.
    replace (forallb (fun c => (c =? 0)%Z) (skipn 2 q)) with true in NP. rewrite andb_true_r in NP. apply Z.ltb_ge in NP. lia. symmetry. apply forallb_forall. intros x X. apply Z.eqb_eq. assert (D : (g | x)%Z) by (apply (proj1 (zgcd_divide (skipn 2 q) _) (Z.divide_refl _)); auto). rewrite G0 in D. apply Z.divide_0_l in D. auto.
Qed.
Lemma set_len : forall j x q, length (set_at j x q) = length q. Proof. intros. unfold set_at. rewrite map_length, seq_length. auto. Qed.
Lemma finish_nrm : forall ty i q, 1 < length q -> nrm (finish_lincons ty i q).
Proof.
  intros ty i q L. unfold finish_lincons. assert (L1 : 1 < length (vector_normalize q)) by (rewrite norm_len; auto). assert (N1 := nrm_normalize q). set (q1 := vector_normalize q) in *. clearbody q1. assert (NN : q1 <> []) by (intros ->; simpl in L1; lia).
  set (s := match ty with CEq => 0%Z | _ => 1%Z end). assert (N2 : nrm (set_at 0 s q1)) by (unfold nrm; rewrite tl_set0; auto). assert (Z2 := set_at_zn0 s q1 NN). assert (L2 : 1 < length (set_at 0 s q1)) by (rewrite set_len; auto). set (q2 := set_at 0 s q1) in *. clearbody q2. clear N1 L1 NN q1.
  apply int_nrm.
  - destruct ty; auto. destruct (vector_is_integer i q2); auto. rewrite set_len; auto.
  - destruct ty; auto. destruct (vector_is_integer i q2) eqn:V; auto. intros Z. exfalso. assert (E : zn 0 (set_at 1 (zn 1 q2 - 1)%Z q2) = zn 0 q2). { unfold set_at. rewrite zn_mapseq by lia. reflexivity. } rewrite E, Z2 in Z. unfold s in Z. lia.
  - destruct ty; try (rewrite Z2; unfold s; lia). destruct (vector_is_integer i q2) eqn:V; [|rewrite Z2; unfold s; lia]. assert (E : zn 0 (set_at 1 (zn 1 q2 - 1)%Z q2) = zn 0 q2). { unfold set_at. rewrite zn_mapseq by lia. reflexivity. } rewrite E, Z2. unfold s. lia.
Qed.
Lemma sat_swf : forall pa p2 i r P, repr pa i r P -> poly_obtain_satC pa = Some p2 -> swf p2 /\ pn p2 = pn pa.
Proof.
  intros pa p2 i r P R E. assert (E' := E). unfold poly_obtain_satC in E'. destruct (psatC pa) eqn:ES. injection E' as <-. split; auto. apply R. destruct (pF pa) as [F|] eqn:EF; try discriminate. destruct (psatF pa) eqn:ESF; try discriminate.
  assert (M : minimal2 pa = true). { destruct R as ((W & _) & _). unfold swf in W. unfold minimal2. rewrite EF in *. destruct (pC pa); auto. destruct W as (_ & _ & W). congruence. }
  destruct (satC_rep true pa i r P R M) as (q & Eq & Rq & _). rewrite E in Eq. injection Eq as <-. change (repr p2 i r P) in Rq. split. apply Rq. rewrite (repr_pn _ _ _ _ R), (repr_pn _ _ _ _ Rq). auto.
Qed.
Lemma linexpr_len : forall up d e, 1 < length (vector_set_linexpr up d e). Proof. intros. unfold vector_set_linexpr. cbn [length]. lia. Qed.
Theorem hon_meet_lincons : forall lazy destr pa l i r P po pa' ex, repr pa i r P -> hon pa -> pk_meet_lincons_array lazy destr pa l = Some (po, pa', ex) -> hon po /\ hon pa'.
Proof.
  intros lazy destr pa0 l0 i r P po pa' ex R0 H0 E. unfold pk_meet_lincons_array in E. set (l := map (icons_of_lincons (N:=exact_num)) l0) in *. set (ql := forallb (fun c => is_quasilinear (ic_expr c)) l) in *.
  assert (H : hon (if lazy && ql then poly_obtain_C pa0 else poly_chernikova pa0)) by (destruct (lazy && ql); [apply (hon_obtC _ _ _ _ R0)|apply hon_chern; [apply R0|]]; auto).
  assert (R : repr (if lazy && ql then poly_obtain_C pa0 else poly_chernikova pa0) i r P) by (destruct (lazy && ql); [apply obtain_C_repr|apply chern_repr]; auto).
  set (pa := if lazy && ql then poly_obtain_C pa0 else poly_chernikova pa0) in *. clearbody pa. destruct (isbot pa) eqn:B. injection E as <- <- <-. auto.
  destruct (if ql then _ else _) as [l1|]; try discriminate. destruct (linearize_array true l1) as [l2|]; try discriminate. destruct (array_reduce_integer (pint pa) l2) as [[l3 t]|]; try discriminate.
  destruct (if lazy then Some pa else poly_obtain_satC pa) as [p2|] eqn:E2; try discriminate. assert (PD := repr_pn _ _ _ _ R). unfold pn in PD.
  assert (H2 : hon p2 /\ swf p2 /\ pn p2 = pn pa).
  { destruct lazy. injection E2 as <-. split; auto. split; auto. apply R. split. apply (hU_sat true pa p2 H E2). apply (sat_swf pa p2 i r P); auto. }
  destruct H2 as (H2 & W2 & PN2). destruct (poly_meet_matrix true lazy destr p2 _) as [[q q']|] eqn:EM; try discriminate. injection E as <- <- <-.
  apply (hU_matrix true lazy destr p2 _ q q' W2 H2) in EM; auto.
  - apply sort_len. rewrite PN2. unfold pn. apply matrix_len.
  - apply sort_nrm. unfold matrix_of_lincons. apply Forall_forall. intros x X. apply in_map_iff in X. destruct X as (c & <- & _). apply finish_nrm. apply linexpr_len.
Qed.
(** ** boxes *)
Lemma dim_row_in : forall n d s c k, d < n -> In k (tl (dim_row n d s c k)). Proof. intros n d s c k H. right. apply in_map_iff. exists d. rewrite Nat.eqb_refl. split; auto. apply in_seq. lia. Qed.
Lemma dim_row_nrm : forall n d s c k, d < n -> Z.gcd c k = 1%Z -> nrm (dim_row n d s c k).
Proof.
  intros n d s c k H G. unfold nrm. assert (P := zgcd_nonneg (tl (dim_row n d s c k))). assert (D : (zgcd (tl (dim_row n d s c k)) | 1)%Z). { rewrite <- G. apply Z.gcd_greatest; apply (proj1 (zgcd_divide (tl (dim_row n d s c k)) _) (Z.divide_refl _)). left; auto. apply dim_row_in; auto. }
  apply Z.divide_1_r_nonneg in D; auto. lia.
Qed.
Lemma coprime : forall q, Z.gcd (rnum q) (rden q) = 1%Z.
Proof.
  intros [n d]. unfold rnum, rden, Qred. assert (G := Z.ggcd_correct_divisors n (Zpos d)). assert (K := Z.ggcd_gcd n (Zpos d)). destruct (Z.ggcd n (Zpos d)) as [g [a b]]. cbn [fst snd] in *. destruct G as [G1 G2]. cbn [Qnum Qden].
  assert (GP : (0 < g)%Z). { assert (0 <= g)%Z by (rewrite K; apply Z.gcd_nonneg). destruct (Z.eq_dec g 0); nia. } assert (BP : (0 < b)%Z) by nia. rewrite Z2Pos.id by auto.
  assert (E : (g * Z.gcd a b = g)%Z). { rewrite <- (Z.gcd_mul_mono_l_nonneg a b g) by lia. rewrite <- G1, <- G2. auto. } nia.
Qed.
Lemma bound_nrm : forall mode i n d q row, d < n -> vector_set_dim_bound mode i n d q = Some row -> nrm row.
Proof.
  intros mode i n d q row H E. assert (C := coprime q). assert (C' : Z.gcd (rnum q) (- rden q) = 1%Z) by (rewrite Z.gcd_opp_r; auto). unfold vector_set_dim_bound in E. destruct (Nat.ltb d i).
  - destruct mode. destruct (rden q =? 1)%Z; inversion E; subst. apply dim_row_nrm; auto. inversion E; subst. apply dim_row_nrm; auto. apply Z.gcd_1_r. inversion E; subst. apply dim_row_nrm; auto.
    change (-1)%Z with (- (1))%Z. rewrite Z.gcd_opp_r. apply Z.gcd_1_r.
  - destruct mode; inversion E; subst; apply dim_row_nrm; auto.
Qed.
Lemma fill_nrm : forall i n d it m, d < n -> fill_itv i n d it = Some m -> Forall nrm m.
Proof.
  intros i n d it m H E. unfold fill_itv in E. destruct (itv_is_point it). destruct (vector_set_dim_bound Eq i n d _) eqn:V; inversion E; subst. constructor; auto. eapply bound_nrm; eauto.
  inversion E; subst. apply Forall_app. split.
  destruct (inf it); auto. destruct (vector_set_dim_bound Lt i n d _) eqn:V; auto. constructor; auto. eapply bound_nrm; eauto. destruct (sup it); auto. destruct (vector_set_dim_bound Gt i n d _) eqn:V; auto. constructor; auto. eapply bound_nrm; eauto.
Qed.
Theorem hon_of_box : forall i r l, length l = i + r -> hon (pk_of_box i r l).
Proof.
  intros i r l L. unfold pk_of_box. destruct (fill_box i (i + r) 0 l) as [m|] eqn:E. 2: apply hon_bottom. apply hon_constraints. constructor. apply nrm_one. simpl; auto.
  assert (K : forall l d m, d + length l <= i + r -> fill_box i (i + r) d l = Some m -> Forall nrm m).
  { clear. induction l as [|it l IH]; intros d m H E; simpl in *. inversion E; auto. destruct (fill_itv i (i + r) d it) eqn:V; try discriminate. destruct (fill_box i (i + r) (S d) l) eqn:W; try discriminate. inversion E; subst. apply Forall_app. split. apply (fill_nrm i (i + r) d it); auto. lia. apply (IH (S d)); auto. lia. }
  apply (K l 0 m); auto. lia.
Qed.
(** ** rays *)
Lemma gen_nrm : forall n g, fst g <> GVertex -> nrm (vector_set_generator n g). Proof. intros n [[] e] H; simpl in H; try congruence; apply nrm_normalize. Qed.
Theorem hon_add_ray : forall lazy destr pa rows i r P po pa', repr pa i r P -> hon pa -> Forall (lenS (d1 i r)) rows -> Forall nrm rows -> pk_add_ray_array lazy destr pa rows = Some (po, pa') -> hon po /\ hon pa'.
Proof.
  intros lazy destr pa0 rows i r P po pa' R0 H0 LR NR E. unfold pk_add_ray_array in E.
  assert (H : hon (if lazy then poly_obtain_F pa0 else poly_chernikova pa0)) by (destruct lazy; [apply (hon_obtF _ _ _ _ R0)|apply hon_chern; [apply R0|]]; auto).
  assert (R : repr (if lazy then poly_obtain_F pa0 else poly_chernikova pa0) i r P) by (destruct lazy; [apply obtain_F_repr|apply chern_repr]; auto).
  assert (M : lazy = false -> isbot (if lazy then poly_obtain_F pa0 else poly_chernikova pa0) = true \/ minimal2 (if lazy then poly_obtain_F pa0 else poly_chernikova pa0) = true) by (intros ->; apply (chern_repr pa0 i r P R0)).
  set (pa := if lazy then poly_obtain_F pa0 else poly_chernikova pa0) in *. clearbody pa. destruct (isbot pa) eqn:B. injection E as <- <-. auto.
  assert (Q : exists p2, (if lazy then Some pa else poly_obtain_satF pa) = Some p2 /\ repr p2 i r P /\ hon p2).
  { destruct lazy. exists pa; auto. destruct (M eq_refl) as [|M2]; try congruence. destruct (satF_rep pa i r P R M2) as (p2 & E2 & R2 & _). exists p2. split; auto. split; auto. unfold poly_obtain_satF in E2. destruct (psatF pa). injection E2 as <-; auto. destruct (pC pa); try discriminate. destruct (psatC pa); try discriminate. injection E2 as <-. exact H. }
  destruct Q as (p2 & E2 & R2 & H2). rewrite E2 in E. destruct (poly_meet_matrix false lazy destr (poly_dual p2) (matrix_sort_rows rows)) as [[q q']|] eqn:EM; try discriminate. injection E as <- <-.
  apply (hU_matrix false lazy destr (poly_dual p2) _ q q') in EM; auto.
  - apply swf_dual. apply R2.
  - rewrite pn_dual, (repr_pn _ _ _ _ R2). apply sort_len; auto.
  - apply sort_nrm; auto.
Qed.
(** ** expansion and folding *)
Lemma copy_nrm : forall (q : pvec) a b, 0 < a -> 0 < b -> a < length q -> b < length q -> a <> b -> zn b q = 0%Z -> nrm q -> nrm (map (fun k => if Nat.eqb k a then 0%Z else if Nat.eqb k b then zn a q else zn k q) (seq 0 (length q))).
Proof.
  intros q a b A0 B0 A B AB Z N. set (f := fun k => if Nat.eqb k a then 0%Z else if Nat.eqb k b then zn a q else zn k q). assert (L : length (map f (seq 0 (length q))) = length q) by (rewrite map_length, seq_length; auto).
  apply (entries_nrm q); auto; intros x X; apply in_tl in X; destruct X as (j & J & <-).
  - destruct (Nat.eq_dec (j + 1) a) as [E|E]. right. apply in_tl. exists (b - 1). rewrite L. split. lia. replace (b - 1 + 1) with b by lia. rewrite zn_mapseq by lia. unfold f. destruct (Nat.eqb_spec b a); try lia. rewrite Nat.eqb_refl. congruence.
    destruct (Nat.eq_dec (j + 1) b) as [E'|E']. left. rewrite E'. auto. right. apply in_tl. exists j. rewrite L. split; auto. rewrite zn_mapseq by lia. unfold f. destruct (Nat.eqb_spec (j + 1) a); try lia. destruct (Nat.eqb_spec (j + 1) b); try lia.
  - rewrite L in J. rewrite zn_mapseq by lia. unfold f. destruct (Nat.eqb_spec (j + 1) a). auto. right. apply in_tl. destruct (Nat.eqb_spec (j + 1) b). exists (a - 1). split. lia. f_equal. lia. exists j; auto.
Qed.
Theorem hon_expand : forall alg0 alg1 destr pa dim n i r P, repr pa i r P -> hon pa -> dim < i + r -> let (po, pa') := pk_expand alg0 alg1 destr pa dim n in hon po /\ hon pa'.
Proof.
  intros alg0 alg1 destr pa0 dim n i r P R0 H0 DM. assert (S := expand_spec alg0 false destr pa0 dim n i r P R0 DM). unfold pk_expand in *. destruct (Nat.eqb_spec n 0) as [->|NZ]. auto.
  assert (H : hon (if alg0 then poly_obtain_C pa0 else poly_chernikova pa0)) by (destruct alg0; [apply (hon_obtC _ _ _ _ R0)|apply hon_chern; [apply R0|]]; auto).
  assert (R : repr (if alg0 then poly_obtain_C pa0 else poly_chernikova pa0) i r P) by (destruct alg0; [apply obtain_C_repr|apply chern_repr]; auto).
  assert (HI0 : pint pa0 = i) by (destruct R0 as (_ & A & _); auto). rewrite HI0 in *.
  set (pa := if alg0 then poly_obtain_C pa0 else poly_chernikova pa0) in *. clearbody pa. assert (HI : pint pa = i) by (destruct R as (_ & A & _); auto). assert (HR : preal pa = r) by (destruct R as (_ & _ & A & _); auto). rewrite HI, HR in *. cbv zeta in *.
  set (i' := if Nat.ltb dim i then i + n else i) in *. set (r' := if Nat.ltb dim i then r else r + n) in *. set (o := if Nat.ltb (dim + n) i' then i' - n else i' + r' - n) in *.
  assert (OO : dim < o /\ o <= i + r). { unfold o, i', r'. destruct (Nat.ltb_spec dim i). destruct (Nat.ltb_spec (dim + n) (i + n)); lia. destruct (Nat.ltb_spec (dim + n) i); lia. }
  destruct (pC pa) as [C|] eqn:EC. 2: { split. apply hon_bottom. destruct destr; auto. apply hon_bottom. }
  assert (L := swf_C _ _ ltac:(apply R) EC). rewrite (repr_pn _ _ _ _ R) in L. unfold d1 in L. rewrite Forall_forall in L. assert (NC := honC _ _ H EC). rewrite Forall_forall in NC.
  assert (AO := exp_add_ok (i + r) o n ltac:(lia)).
  assert (NE : Forall nrm (expand_rows destr dim o n C)).
  { assert (N1 : Forall nrm (map (vector_add destr (repeat o n)) C)). { apply Forall_forall. intros x X. apply in_map_iff in X. destruct X as (q & <- & I). apply (emb_nrm (i + r) (i + r + length (repeat o n)) (atau (repeat o n)) (anew (repeat o n)) q).
      - intros j J. apply atau_lt; auto.
      - intros c Hc. apply (acover (i + r)); auto.
      - apply L; auto.
      - apply add_emb; auto.
      - auto. }
    unfold expand_rows. apply Forall_app. split; auto. apply Forall_forall. intros x X. apply in_flat_map in X. destruct X as (q & I & X). destruct (_ =? _)%Z; [destruct X|]. apply in_map_iff in X. destruct X as (j & <- & J). apply in_seq in J. rewrite Forall_forall in N1. assert (NQ := N1 q I).
    apply in_map_iff in I. destruct I as (q0 & Eq & I). assert (EM := add_emb destr (i + r) (repeat o n) q0 AO (L _ I)). rewrite Eq in EM. destruct EM as (L' & _ & _ & _ & Z). unfold lenS in L'. rewrite repeat_length in L'.
    apply copy_nrm; auto; try lia. apply Z. apply rep_new. exists (j - o). lia. }
  assert (Q : hon (mkPoly i' r' (Some (expand_rows destr dim o n C)) (pCs pa && negb (existsb (fun q => negb (zn (dim + 2) q =? 0)%Z) C)) None false None None 0 0 false false)) by (apply hon_constraints; auto).
  assert (Q2 : hon (if alg1 then poly_chernikova (mkPoly i' r' (Some (expand_rows destr dim o n C)) (pCs pa && negb (existsb (fun q => negb (zn (dim + 2) q =? 0)%Z) C)) None false None None 0 0 false false) else (mkPoly i' r' (Some (expand_rows destr dim o n C)) (pCs pa && negb (existsb (fun q => negb (zn (dim + 2) q =? 0)%Z) C)) None false None None 0 0 false false))).
  { destruct alg1; auto. apply hon_chern; auto. destruct S as (S & _). apply S. }
  split; auto. destruct destr; auto.
Qed.

Theorem hon_fold : forall alg0 alg1 destr pa t0 ts i r P, repr pa i r P -> hon pa -> box_fold_ok (i + r) t0 ts -> same_type i t0 ts -> let (po, pa') := pk_fold alg0 alg1 destr pa t0 ts in hon po /\ hon pa'.
Proof.
  intros alg0 alg1 destr pa0 t0 ts i r P R0 H0 OK ST. assert (S := fold_spec alg0 false destr pa0 t0 ts i r P R0 OK ST). unfold pk_fold in *.
  assert (H : hon (if alg0 then poly_obtain_F pa0 else poly_chernikova pa0)) by (destruct alg0; [apply (hon_obtF _ _ _ _ R0)|apply hon_chern; [apply R0|]]; auto).
  set (pa := if alg0 then poly_obtain_F pa0 else poly_chernikova pa0) in *. clearbody pa. cbv zeta in *.
  destruct (pF pa) as [F|] eqn:EF. 2: { split. apply hon_bottom. destruct destr; auto. apply hon_bottom. }
  set (po := mkPoly _ _ _ _ _ _ _ _ _ _ _ _) in *. assert (Q : hon po).
  { apply hon_generators. destruct ts as [|t ts]. apply (honF pa); auto. unfold fold_rows. apply Forall_forall. intros x X. apply in_flat_map in X. destruct X as (q & _ & [<-|X]). apply nrm_normalize. apply in_flat_map in X. destruct X as (u & _ & X). destruct (_ =? _)%Z; [destruct X|]. destruct X as [<-|[]]. apply nrm_normalize. }
  assert (W : swf po) by (destruct S as (S & _); apply S). clearbody po. assert (Q2 : hon (if alg1 then poly_chernikova po else po)) by (destruct alg1; auto; apply hon_chern; auto). split; auto. destruct destr; auto.
Qed.
(** ** widening *)
Theorem hon_widening : forall affine pa pb i r P Q po pa' pb', repr pa i r P -> repr pb i r Q -> hon pa -> hon pb -> pk_widening affine pa pb = Some (po, pa', pb') -> hon po /\ hon pa' /\ hon pb'.
Proof.
  intros affine pa0 pb0 i r P Q po pa' pb' RA RB HA HB E. unfold pk_widening in E. assert (H1 : hon (poly_chernikova pa0)) by (apply hon_chern; auto; apply RA). assert (H2 : hon (poly_chernikova pb0)) by (apply hon_chern; auto; apply RB).
  set (pa := poly_chernikova pa0) in *. set (pb := poly_chernikova pb0) in *. clearbody pa pb. destruct (isbot pa). injection E as <- <- <-. auto.
  destruct (poly_obtain_satF pa) as [p2|] eqn:E2; try discriminate. assert (H3 : hon p2). { unfold poly_obtain_satF in E2. destruct (psatF pa). injection E2 as <-; auto. destruct (pC pa); try discriminate. destruct (psatC pa); try discriminate. injection E2 as <-. exact H1. }
  destruct (pC p2) as [C|]; try discriminate. destruct (pF p2) as [F|]; try discriminate. destruct (psatF p2) as [sat|]; try discriminate. destruct (pC pb) as [B|] eqn:EB; try discriminate. injection E as <- <- <-. split; auto.
  apply hon_constraints. constructor. apply nrm_one. simpl; auto. assert (N := honC _ _ H2 EB). rewrite Forall_forall in *. intros x X. apply filter_In in X. apply N. apply X.
Qed.

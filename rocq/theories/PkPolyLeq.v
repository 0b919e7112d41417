(** Polyhedra of PkPoly.v: sorting, saturation matrices, inclusion test. *)
From Coq Require Import ZArith Bool List Lia Reals Lra Permutation.
Import ListNotations.
From Verif Require Import PkCone PkVec PkCherni PkCherniFacts PkRank PkCherniRay PkSpec PkFarkas PkSimplify PkSimplifyFacts PkSimplifyThm PkSimplifyEnd PkMinimize PropPkCherni PropPkMinimize PkPoly PkPolyFacts.
Open Scope R_scope.

Lemma perm_filter : forall A (f : A -> bool) l l', Permutation l l' -> Permutation (filter f l) (filter f l').
Proof. induction 1; simpl; auto. destruct (f x); auto. destruct (f x), (f y); auto. constructor. eapply Permutation_trans; eauto. Qed.
Lemma filter_all : forall A (f : A -> bool) l, Forall (fun x => f x = true) l -> filter f l = l. Proof. induction 1; simpl; auto. rewrite H, IHForall. auto. Qed.
Lemma filter_none : forall A (f : A -> bool) l, Forall (fun x => f x = false) l -> filter f l = []. Proof. induction 1; simpl; auto. rewrite H. auto. Qed.
Lemma st_split : forall E I : list pvec, Forall (st 0) E -> Forall (st 1) I -> filter (fun q => (zn 0 q =? 0)%Z) (E ++ I) = E /\ filter (fun q => negb (zn 0 q =? 0)%Z) (E ++ I) = I.
Proof.
  intros E I FE FI. rewrite !filter_app. split.
  - rewrite filter_all, filter_none. apply app_nil_r. eapply Forall_impl; [|exact FI]. intros q Q. unfold st in Q. rewrite Q. auto. eapply Forall_impl; [|exact FE]. intros q Q. unfold st in Q. rewrite Q. auto.
  - rewrite filter_none, filter_all. auto. eapply Forall_impl; [|exact FI]. intros q Q. unfold st in Q. rewrite Q. auto. eapply Forall_impl; [|exact FE]. intros q Q. unfold st in Q. rewrite Q. auto.
Qed.
Lemma mini_sort : forall n C F a b C', mini n C F a b -> Permutation C' C -> (exists E I, C' = E ++ I /\ Forall (fun q : pvec => zn 0 q = 0%Z) E /\ Forall (fun q : pvec => zn 0 q = 1%Z) I) -> mini n C' F a b.
Proof.
  intros n C F a b C' (E & I & L & R & EC & EF & H3 & H4 & H5 & H6 & H7 & H8 & H9 & H10 & H11) P (E' & I' & EC' & FE & FI).
  apply Forall_app in H5, H6, H7. destruct H5 as [H5 H5'], H6 as [H6 H6'], H7 as [H7 H7'].
  assert (PE : Permutation E' E). { rewrite <- (proj1 (st_split E' I' FE FI)), <- (proj1 (st_split E I H6 H7)). apply perm_filter. subst; auto. }
  assert (PI : Permutation I' I). { rewrite <- (proj2 (st_split E' I' FE FI)), <- (proj2 (st_split E I H6 H7)). apply perm_filter. subst; auto. }
  assert (FL : Forall (lenS n) C') by (apply (Permutation_Forall (Permutation_sym P)); auto).
  exists E', I', L, R. split; auto. split; auto. split. rewrite (Permutation_length PE); auto. split; auto. split. apply Forall_app; auto. split. apply Forall_app; auto. split. apply Forall_app; auto.
  split. { rewrite EC'. apply dd_change with (map kc C); auto. rewrite <- EC'; auto. intros x. rewrite <- EC'. unfold inC. split; intros A c J; apply A; apply in_map_iff in J; destruct J as (q & <- & J); apply in_map. apply (Permutation_in q P J). apply (Permutation_in q (Permutation_sym P) J). }
  split. { apply dd_ext with (tls E) (tls I); auto. intros l. unfold tls. split; intros J; apply in_map_iff in J; destruct J as (q & <- & J); apply in_map. apply (Permutation_in q (Permutation_sym PE) J). apply (Permutation_in q PE J). apply Permutation_map, Permutation_sym; auto. }
  split; auto. apply indep_perm with (tls E); auto. apply Permutation_map, Permutation_sym; auto.
Qed.
Lemma mini_st : forall n C F a b, mini n C F a b -> Forall (fun y : pvec => zn 0 y = 1%Z \/ zn 0 y = 0%Z) C.
Proof. intros n C F a b (E & I & L & R & -> & _ & _ & _ & _ & H6 & H7 & _). apply Forall_app in H6, H7. destruct H6 as [H6 _], H7 as [H7 _]. apply Forall_app. split. eapply Forall_impl; [|exact H6]; auto. eapply Forall_impl; [|exact H7]; auto. Qed.
Lemma satmat_sort : forall C F, let l := isort (fun r : row => fst r) (combine C (satmat C F)) in Permutation (map fst l) C /\ map snd l = satmat (map fst l) F.
Proof.
  intros C F l. assert (CB : combine C (satmat C F) = map (fun c : pvec => (c, satbits (tls F) (tl c))) C). { clear. induction C as [|c C IH]; simpl; auto. f_equal. exact IH. }
  assert (P : Permutation l (map (fun c : pvec => (c, satbits (tls F) (tl c))) C)) by (rewrite <- CB; apply isort_perm). split.
  - apply (Permutation_map fst) in P. rewrite map_map in P. simpl in P. rewrite map_id in P. exact P.
  - assert (FA : Forall (fun r : row => snd r = satbits (tls F) (tl (fst r))) l). { apply (Permutation_Forall (Permutation_sym P)). apply Forall_forall. intros r J. apply in_map_iff in J. destruct J as (c & <- & _). reflexivity. }
    unfold satmat. rewrite map_map. apply map_ext_in. intros r J. rewrite Forall_forall in FA. apply FA; auto.
Qed.
Lemma transpose_satmat : forall A B, transpose (length B) (satmat A B) = satmat B A.
Proof.
  intros A B. unfold transpose, satmat. assert (G : forall B0 A0, map (fun j => map (fun b => nth j b false) (map (fun a : pvec => satbits (map (fun b : pvec => tl b) B0) (tl a)) A0)) (seq 0 (length B0)) = map (fun b : pvec => satbits (map (fun a : pvec => tl a) A0) (tl b)) B0).
  { clear. induction B0 as [|b B0 IH]; intros A0; auto. cbn [length]. rewrite <- cons_seq. cbn [map]. f_equal.
    - rewrite map_map. unfold satbits. rewrite map_map. apply map_ext. intros a. cbn [map nth]. rewrite prod_sym. reflexivity.
    - rewrite <- seq_shift, map_map. rewrite <- (IH A0). apply map_ext. intros j. rewrite !map_map. apply map_ext. intros a. reflexivity. }
  apply G.
Qed.
Lemma len_satmat : forall A B, length (satmat A B) = length A. Proof. intros. unfold satmat. apply map_length. Qed.
(** poly_obtain_sorted_C *)
Theorem sorted_C_spec : forall po, swf po -> let po' := poly_obtain_sorted_C po in
  swf po' /\ pint po' = pint po /\ preal po' = preal po /\ (forall x, cK po' x <-> cK po x) /\ pF po' = pF po /\ has (pC po') = has (pC po).
Proof.
  intros po H. unfold poly_obtain_sorted_C. destruct (pC po) as [C|] eqn:EC. 2: { cbv zeta. rewrite EC. intuition. } destruct (pCs po) eqn:ES. { cbv zeta. rewrite EC. intuition. }
  assert (H' := H). unfold swf in H'. rewrite EC in H'. destruct (pF po) as [F|] eqn:EF.
  - destruct H' as (M & A & B & D).
    assert (WS : forall s, s = satmat C F -> let po' := (let (C', s') := matrix_sort_rows_with_sat C s in mkPoly (pint po) (preal po) (Some C') true (Some F) (pFs po) None (Some s') (pnbeq po) (pnbline po) (pconsgauss po) (pgengauss po)) in
      swf po' /\ pint po' = pint po /\ preal po' = preal po /\ (forall x, cK po' x <-> cK po x) /\ pF po' = Some F /\ has (pC po') = has (Some C)).
    { intros s ->. unfold matrix_sort_rows_with_sat. destruct (satmat_sort C F) as [P Q]. set (l := isort (fun r : row => fst r) (combine C (satmat C F))) in *. cbv zeta. split.
      - unfold swf. cbn [pC pF psatC psatF pnbeq pnbline]. unfold pn, pdim. cbn [pint preal]. split. 2: { split. discriminate. split. intros s E. rewrite <- Q. congruence. discriminate. }
        apply mini_sort with C; auto. destruct (isort_st row (fun r => fst r) (combine C (satmat C F))) as (E & I & EQ & FE & FI).
        { apply Forall_forall. intros r J. assert (J2 := in_combine_l C (satmat C F) (fst r) (snd r)). destruct r as [rc rb]. specialize (J2 J). assert (ST := mini_st _ _ _ _ _ M). rewrite Forall_forall in ST. apply ST. exact J2. }
        exists (map fst E), (map fst I). split. fold l in EQ. rewrite EQ, map_app. auto. split; apply Forall_forall; intros q J; apply in_map_iff in J; destruct J as (r & <- & J). rewrite Forall_forall in FE; apply FE; auto. rewrite Forall_forall in FI; apply FI; auto.
      - split; auto. split; auto. split. 2: split; auto. intros x. rewrite (cK_C po C EC). unfold cK. cbn [pC]. apply cone_perm; auto. }
    destruct (psatF po) as [s|] eqn:SF. apply WS. apply B; auto. destruct (psatC po) as [s|] eqn:SC. apply WS. rewrite (A s eq_refl). apply transpose_satmat. exfalso. apply D; auto.
  - destruct H' as (FL & -> & ->). cbv zeta. split. { unfold swf. cbn [pC pF psatC psatF]. split; auto. apply (Permutation_Forall (Permutation_sym (isort_perm _ (fun q => q) C))). exact FL. } split; auto. split; auto. split. 2: auto. intros x. rewrite (cK_C po C EC). unfold cK. cbn [pC]. apply cone_perm. apply isort_perm.
Qed.
(** poly_obtain_satC *)
Theorem satC_spec : forall po C F, swf po -> pC po = Some C -> pF po = Some F -> exists po', poly_obtain_satC po = Some po' /\ swf po' /\ pint po' = pint po /\ preal po' = preal po /\ pC po' = Some C /\ pF po' = Some F /\ psatC po' = Some (satmat F C) /\ pnbline po' = pnbline po /\ pnbeq po' = pnbeq po.
Proof.
  intros po C F H EC EF. assert (H' := H). unfold swf in H'. rewrite EC, EF in H'. destruct H' as (M & A & B & D). unfold poly_obtain_satC. destruct (psatC po) as [s|] eqn:SC.
  - exists po. repeat (split; auto). rewrite SC. f_equal. auto.
  - rewrite EF. destruct (psatF po) as [s|] eqn:SF. 2: exfalso; apply D; auto. eexists. split. reflexivity. assert (T : transpose (length F) s = satmat F C) by (rewrite (B s eq_refl); apply transpose_satmat). split. { unfold swf, set_satC. cbn [pC pF psatC psatF pnbeq pnbline]. rewrite EC, EF. split. exact M. split. intros s0 E. congruence. split. intros s0 E. apply B. congruence. discriminate. }
    simpl. repeat (split; auto). rewrite T. auto.
Qed.

(** * The inclusion test *)
Lemma prod_dtn : forall n (c f : pvec), lenS n c -> lenS n f -> IZR (vector_product f c) = dt n (rv (tl c)) (rv (tl f)).
Proof. intros n c f Lc Lf. unfold vector_product. rewrite prod_sym. unfold lenS in *. rewrite prod_dt. f_equal. destruct c; simpl in *; lia. destruct c, f; simpl in *; lia. Qed.
Lemma gens_sat : forall n F c, Forall (lenS n) F -> lenS n c -> (do_generators_sat_vector F c false = true <-> forall x, generated n F x -> row_holds c x).
Proof.
  intros n F c FL Lc. rewrite Forall_forall in FL. assert (RD := fun x => row_dt n c x Lc). unfold do_generators_sat_vector. destruct (zn 0 c =? 0)%Z.
  - rewrite forallb_forall. split.
    + intros H x G. apply RD. apply gen_split in G. assert (K : holds n (rv (tl c), true) x). { apply (gen_holds n rv _ (eqs F) (ineqs F)); auto; unfold eqs, ineqs; intros l J; apply in_map_iff in J; destruct J as (f & <- & J); apply filter_In in J; destruct J as [J _]; specialize (H f J); apply Z.eqb_eq in H; unfold holds; cbn [fst snd]; rewrite <- (prod_dtn n c f) by auto; rewrite H; auto. } exact K.
    + intros H f J. apply Z.eqb_eq. apply eq_IZR. rewrite (prod_dtn n) by auto. apply RD. apply H, in_gen; auto.
  - rewrite forallb_forall. cbn [andb negb]. split.
    + intros H x G. apply RD. apply gen_split in G. assert (K : holds n (rv (tl c), false) x). { apply (gen_holds n rv _ (eqs F) (ineqs F)); auto; unfold eqs, ineqs; intros l J; apply in_map_iff in J; destruct J as (f & <- & J); apply filter_In in J; destruct J as [J Z]; specialize (H f J); apply andb_prop in H; destruct H as [H1 H2]; unfold holds; cbn [fst snd]; rewrite <- (prod_dtn n c f) by auto.
        rewrite Z in H2. apply Z.eqb_eq in H2. rewrite H2; auto. apply Z.leb_le in H1. apply IZR_le; auto. } exact K.
    + intros H f J. assert (A := proj1 (RD _) (H _ (in_gen n F f J))). rewrite <- (prod_dtn n c f) in A by auto. apply le_IZR in A. apply andb_true_intro. split. apply Z.leb_le; auto. destruct (Z.eqb_spec (zn 0 f) 0) as [Z|Z]; auto. assert (B := proj1 (RD _) (H _ (in_gen_line n F f (-1) J Z))). rewrite dt_lin in B. rewrite <- (prod_dtn n c f) in B by auto. apply Z.eqb_eq. assert (vector_product f c <= 0)%Z by (apply le_IZR; lra). lia.
Qed.
(** the lines are a basis of the largest vector space in the cone *)
Lemma lin_space : forall n cs (L R : list (list Z)) x, ddn n cs L R -> inC n cs x -> inC n cs (lin2 (-1) x 0 x) -> gen n rv L [] x.
Proof.
  intros n cs L R x D A B. destruct (line_part n rv cs L R x (dd_gen _ _ _ _ _ D) (dd_ray _ _ _ _ _ D) A) as [G|(r & J & S)]; auto. destruct (dd_ray _ _ _ _ _ D r J) as (c & Ic & NS). exfalso. apply NS. apply S; auto. specialize (A c Ic). specialize (B c Ic). apply holds_ge in A. apply holds_ge in B. rewrite dt_lin in B. lra.
Qed.
Lemma lines_le : forall n C F a b C2 F2 a2 b2, mini n C F a b -> mini n C2 F2 a2 b2 -> (forall x, cone C x -> cone C2 x) -> (b <= b2)%nat.
Proof.
  intros n C F a b C2 F2 a2 b2 M M2 H. assert (FC := proj1 (mini_lens _ _ _ _ _ M)). assert (FC2 := proj1 (mini_lens _ _ _ _ _ M2)). destruct M as (E & I & L & R & EC & EF & H3 & H4 & H5 & H6 & H7 & H8 & H9 & H10 & H11). destruct M2 as (E2 & I2 & L2 & R2 & EC2 & EF2 & K3 & K4 & K5 & K6 & K7 & K8 & K9 & K10 & K11).
  replace b with (length (tls L)) by (unfold tls; rewrite map_length; auto). replace b2 with (length (tls L2)) by (unfold tls; rewrite map_length; auto). apply (steinitz n); auto. intros l J.
  assert (Q : forall k, inC n (map kc C2) (lin2 k (rv l) 0 (rv l))). { intros k. apply (cone_inC n C2 _ FC2). apply H. apply (cone_inC n C _ FC). apply (dd_line_in n rv (map kc C) (tls L) (tls R)); auto. }
  apply lin_space with (map kc C2) (tls R2); auto. apply inC_ext with (lin2 1 (rv l) 0 (rv l)); auto. intros i _. unfold lin2. ring.
Qed.
Lemma mini_dual_incl : forall n C F a b C2 F2 a2 b2, mini n C F a b -> mini n C2 F2 a2 b2 -> (forall x, cone C x -> cone C2 x) -> forall y, cone F2 y -> cone F y.
Proof.
  intros n C F a b C2 F2 a2 b2 M M2 H y K. apply (cone_dual n F y (proj2 (mini_lens _ _ _ _ _ M))). intros x X. apply (cone_dual n F2 y (proj2 (mini_lens _ _ _ _ _ M2)) ); auto. apply (mini_points _ _ _ _ _ M2). apply H. apply (mini_points _ _ _ _ _ M). auto.
Qed.
(** an inequality valid on the points of positive first coordinate is valid on the whole cone *)
Lemma valid_ext : forall (K : vec -> Prop) n (a p : vec), (forall u x v y, 0 <= u -> 0 <= v -> K x -> K y -> K (lin2 u x v y)) -> (forall x, K x -> 0 <= x 0%nat) -> K p -> 0 < p 0%nat ->
  (forall x, K x -> 0 < x 0%nat -> 0 <= dt n a x) -> forall x, K x -> 0 <= dt n a x.
Proof.
  intros K n a p KL KP Kp P0 H x Kx. destruct (Rlt_le_dec (dt n a x) 0) as [N|]; auto. exfalso. assert (X0 := KP x Kx). assert (DP := H p Kp P0). set (t := (1 + dt n a p) / - dt n a x). assert (T : 0 < t) by (apply Rdiv_lt_0_compat; lra).
  assert (Q := H (lin2 1 p t x)). assert (A1 : 0 <= dt n a (lin2 1 p t x)). { apply Q. apply KL; auto; lra. unfold lin2. assert (0 <= t * x 0%nat) by (apply Rmult_le_pos; lra). lra. } rewrite dt_lin in A1. assert (t * dt n a x = - (1 + dt n a p)) by (unfold t; field; lra). lra.
Qed.
Lemma row_valid_ext : forall (K : vec -> Prop) n c p, lenS n c -> (forall u x v y, 0 <= u -> 0 <= v -> K x -> K y -> K (lin2 u x v y)) -> (forall x, K x -> 0 <= x 0%nat) -> K p -> 0 < p 0%nat ->
  (forall x, K x -> 0 < x 0%nat -> row_holds c x) -> forall x, K x -> row_holds c x.
Proof.
  intros K n c p Lc KL KP Kp P0 H x Kx. assert (RD := fun x => row_dt n c x Lc). apply RD. assert (H' := fun x A B => proj1 (RD x) (H x A B)). destruct (zn 0 c =? 0)%Z.
  - assert (A : 0 <= dt n (rv (tl c)) x) by (apply (valid_ext K n _ p); auto; intros y A B; rewrite H' by auto; lra). assert (B : 0 <= dt n (lin2 (-1) (rv (tl c)) 0 (rv (tl c))) x). { apply (valid_ext K n _ p); auto. intros y A1 B1. rewrite dt_sym, dt_lin, dt_sym. rewrite H' by auto. lra. } rewrite dt_sym, dt_lin, dt_sym in B. lra.
  - apply (valid_ext K n _ p); auto.
Qed.
Lemma leq_cone : forall pa C, swf pa -> pos pa -> pF pa <> None -> Forall (lenS (pn pa)) C -> ((forall x, gamma pa x -> poly_con C x) <-> forall x, cK pa x -> cone C x).
Proof.
  intros pa C W P EF FL. split. 2: intros H x G; apply H; exact G. intros H. assert (P' : (forall x, cK pa x -> 0 <= x 0%nat) /\ exists x, cK pa x /\ 0 < x 0%nat). { destruct P as [P|[P1 P2]]. unfold isbot in P. destruct (pC pa), (pF pa); congruence. auto. } destruct P' as (P1 & p & Kp & P0). intros x Kx. apply cone_in. intros c J. rewrite Forall_forall in FL. apply (row_valid_ext (cK pa) (pn pa) c p); auto. intros; apply cK_lin; auto.
  intros y Ky Y0. assert (G : gamma pa (fun i => y (S i) / y 0%nat)). { unfold gamma. apply cK_ext with (lin2 (/ y 0%nat) y 0 y); auto. 2: apply cK_lin; auto; [left; apply Rinv_0_lt_compat; auto|lra]. intros [|i] _; unfold lin2; simpl; unfold Rdiv. field. lra. ring. }
  specialize (H _ G). unfold poly_con in H. rewrite cone_in in H. specialize (H c J). apply (row_dt (pn pa) c y (FL c J)). apply (row_dt (pn pa) c _ (FL c J)) in H. assert (E : dt (pn pa) (rv (tl c)) y = y 0%nat * dt (pn pa) (rv (tl c)) (homog (fun i => y (S i) / y 0%nat))). { rewrite (dt_ext (pn pa) _ y (lin2 (y 0%nat) (homog (fun i => y (S i) / y 0%nat)) 0 y)). rewrite dt_lin. ring. intros [|i] _; unfold lin2; simpl. ring. unfold Rdiv. field. lra. }
  rewrite E. destruct (_ =? _)%Z. rewrite H; ring. apply Rmult_le_pos; lra.
Qed.
Lemma repr_bot : forall po i r S, repr po i r S -> isbot po = true -> forall x, ~ S x.
Proof. intros po i r S (_ & _ & _ & G) B x Sx. apply G in Sx. apply (bot_gamma po x B Sx). Qed.
Lemma repr_F : forall po i r S, repr po i r S -> pF po <> None -> exists x, S x.
Proof. intros po i r S ((W & P) & _ & _ & G) E. destruct P as [P|[_ P]]. unfold isbot in P. destruct (pC po), (pF po); congruence. destruct (proj2 (gamma_pos po W) (P E)) as (x & X). exists x. apply G; auto. Qed.
Theorem obtain_F_repr : forall po i r S, repr po i r S -> repr (poly_obtain_F po) i r S /\ ev po (poly_obtain_F po) /\ (pF (poly_obtain_F po) = None -> isbot (poly_obtain_F po) = true).
Proof.
  intros po i r S H. unfold poly_obtain_F. destruct (pF po) eqn:E. split; auto. split. apply ev_refl. congruence. destruct (chern_repr po i r S H) as (A & B & C). split; auto. split; auto. intros N. destruct C as [C|C]; auto. unfold minimal2 in C. rewrite N in C. destruct (pC (poly_chernikova po)); discriminate.
Qed.
Theorem obtain_C_repr : forall po i r S, repr po i r S -> repr (poly_obtain_C po) i r S /\ ev po (poly_obtain_C po) /\ (pC (poly_obtain_C po) = None -> isbot (poly_obtain_C po) = true).
Proof.
  intros po i r S H. unfold poly_obtain_C. destruct (pC po) eqn:E. split; auto. split. apply ev_refl. congruence. destruct (chern_repr po i r S H) as (A & B & C). split; auto. split; auto. intros N. destruct C as [C|C]; auto. unfold minimal2 in C. rewrite N in C. discriminate.
Qed.
Theorem is_leq_spec : forall alg pa pb i r Sa Sb, repr pa i r Sa -> repr pb i r Sb -> let '(b, pa', pb') := pk_is_leq alg pa pb in
  repr pa' i r Sa /\ ev pa pa' /\ repr pb' i r Sb /\ ev pb pb' /\ (b = true <-> forall x, Sa x -> Sb x).
Proof.
  intros alg pa pb i r Sa Sb Ha Hb. unfold pk_is_leq. set (pa' := if alg then poly_chernikova pa else poly_obtain_F pa).
  assert (A : repr pa' i r Sa /\ ev pa pa' /\ (pF pa' = None -> isbot pa' = true)). { unfold pa'. destruct alg. 2: apply obtain_F_repr; auto. destruct (chern_repr pa i r Sa Ha) as (A & B & C). split; auto. split; auto. intros N. destruct C as [C|C]; auto. unfold minimal2 in C. rewrite N in C. destruct (pC (poly_chernikova pa)); discriminate. }
  destruct A as (Ra & Ea & Fa). destruct (pF pa') as [F|] eqn:EF. 2: { split; auto. split; auto. split; auto. split. apply ev_refl. split; auto. intros _ x Sx. exfalso. apply (repr_bot _ _ _ _ Ra (Fa eq_refl) x Sx). }
  set (pb' := if alg then poly_chernikova pb else poly_obtain_C pb).
  assert (B : repr pb' i r Sb /\ ev pb pb' /\ (pC pb' = None -> isbot pb' = true)). { unfold pb'. destruct alg. 2: apply obtain_C_repr; auto. destruct (chern_repr pb i r Sb Hb) as (A & B & C). split; auto. split; auto. intros N. destruct C as [C|C]; auto. unfold minimal2 in C. rewrite N in C. discriminate. }
  destruct B as (Rb & Eb & Fb). destruct (pC pb') as [C|] eqn:EC. 2: { split; auto. split; auto. split; auto. split; auto. split. discriminate. intros Q. exfalso. destruct (repr_F _ _ _ _ Ra) as (x & X). congruence. apply (repr_bot _ _ _ _ Rb (Fb eq_refl) x). auto. }
  assert (Ra' := Ra). assert (Rb' := Rb). destruct Ra' as ((Wa & Pa) & Ia & Ja & Ga). destruct Rb' as ((Wb & Pb) & Ib & Jb & Gb). assert (NE : pn pb' = pn pa') by (unfold pn, pdim; congruence). assert (LC := swf_C pb' C Wb EC). rewrite NE in LC. assert (LF := swf_F pa' F Wa EF).
  assert (K : (forall x, Sa x -> Sb x) <-> forall x, cK pa' x -> cone C x). { rewrite <- (leq_cone pa' C Wa Pa ltac:(congruence) LC). split; intros H x X. specialize (H x). rewrite <- Ga, <- Gb in H. apply (cK_C pb' C EC). apply H; auto. apply Gb. unfold gamma. apply (cK_C pb' C EC). apply H. apply Ga; auto. }
  assert (T : forallb (fun c => do_generators_sat_vector F c false) C = true <-> forall x, Sa x -> Sb x).
  { rewrite K, forallb_forall. rewrite Forall_forall in LC. split. intros H x X. apply cone_in. intros c J. apply (gens_sat (pn pa') F c LF (LC c J)); auto. apply (cK_F pa' F Wa EF); auto. intros H c J. apply (gens_sat (pn pa') F c LF (LC c J)). intros x X. apply (cK_F pa' F Wa EF) in X. specialize (H x X). rewrite cone_in in H. auto. }
  destruct (minimal2 pa' && minimal2 pb' && _) eqn:SC. 2: { split; auto. }
  split; auto. split; auto. split; auto. split; auto. split. discriminate. intros Q. exfalso. apply andb_prop in SC. destruct SC as [SC LT]. apply andb_prop in SC. destruct SC as [M1 M2]. unfold minimal2 in M1, M2. rewrite EF in M1. rewrite EC in M2. destruct (pC pa') as [Ca|] eqn:ECa; try discriminate. destruct (pF pb') as [Fb'|] eqn:EFb; try discriminate.
  unfold swf in Wa, Wb. rewrite ECa, EF in Wa. rewrite EC, EFb in Wb. destruct Wa as [MA _]. destruct Wb as [MB _]. rewrite NE in MB. assert (IN : forall x, cone Ca x -> cone C x). { intros x X. apply (proj1 K Q). apply (cK_C pa' Ca ECa); auto. } assert (L1 := lines_le _ _ _ _ _ _ _ _ _ MA MB IN). assert (L2 := lines_le _ _ _ _ _ _ _ _ _ (mini_dual _ _ _ _ _ MB) (mini_dual _ _ _ _ _ MA) (mini_dual_incl _ _ _ _ _ _ _ _ _ MA MB IN)).
  apply orb_prop in LT. destruct LT as [LT|LT]; apply Nat.ltb_lt in LT; lia.
Qed.
Theorem is_bottom_spec : forall alg po i r S, repr po i r S -> let '(b, po') := pk_is_bottom alg po in repr po' i r S /\ (b = true -> forall x, ~ S x) /\ (alg = true -> (b = true <-> forall x, ~ S x)).
Proof.
  intros alg po i r S H. unfold pk_is_bottom. destruct (pC po) as [C|] eqn:EC, (pF po) as [F|] eqn:EF.
  - split; auto. destruct (repr_F _ _ _ _ H) as (x & X). congruence. split. discriminate. intros _. split. discriminate. intros Q. destruct (Q x X).
  - destruct alg. 2: split; auto; split; discriminate. destruct (chern_repr po i r S H) as (A & _ & B). cbv zeta. split; auto. assert (Q : match pF (poly_chernikova po) with None => true | Some _ => false end = true <-> forall x, ~ S x). { destruct (pF (poly_chernikova po)) eqn:E. split. discriminate. intros Q. destruct (repr_F _ _ _ _ A) as (x & X). congruence. destruct (Q x X). split; auto. intros _. apply (repr_bot _ _ _ _ A). destruct B as [B|B]; auto. unfold minimal2 in B. rewrite E in B. destruct (pC (poly_chernikova po)); discriminate. } split; tauto.
  - split; auto. destruct (repr_F _ _ _ _ H) as (x & X). congruence. split. discriminate. intros _. split. discriminate. intros Q. destruct (Q x X).
  - split; auto. assert (B : forall x, ~ S x). { apply (repr_bot _ _ _ _ H). unfold isbot. rewrite EC, EF. auto. } tauto.
Qed.

(** Polyhedra of PkPoly.v: meet and join. *)
From Coq Require Import ZArith Bool List Lia Reals Lra Permutation Classical.
Import ListNotations.
From Verif Require Import PkCone PkVec PkCherni PkCherniFacts PkRank PkCherniRay PkSpec PkFarkas PkSimplify PkSimplifyFacts PkSimplifyThm PkSimplifyEnd PkMinimize PropPkCherni PropPkMinimize PkPoly PkPolyFacts PkPolyLeq.
Open Scope R_scope.

(** the closed convex hull: the affine inequalities valid on both sets *)
Definition hull (n : nat) (Sa Sb : vec -> Prop) (x : vec) : Prop := forall a : vec, (forall y, Sa y \/ Sb y -> 0 <= dt n a (homog y)) -> 0 <= dt n a (homog x).
Definition U (meet : bool) (po : poly) : poly := if meet then po else poly_dual po.
Definition T (meet : bool) (n : nat) (Sa Sb : vec -> Prop) (x : vec) : Prop := if meet then Sa x /\ Sb x else hull n Sa Sb x.
Definition rep (meet : bool) (po : poly) (i r : nat) (S : vec -> Prop) : Prop := repr (U meet po) i r S.
Lemma U_U : forall m po, U m (U m po) = po. Proof. intros [] po; simpl; auto. apply dual_dual. Qed.
Lemma U_chern : forall m po, U m (poly_chernikova_dual m po) = poly_chernikova (U m po). Proof. intros [] po; simpl; auto. apply dual_dual. Qed.
Lemma U_bot : forall m po, isbot (U m po) = isbot po. Proof. intros [] po; simpl; auto. apply isbot_dual. Qed.
Lemma U_min : forall m po, minimal2 (U m po) = minimal2 po. Proof. intros [] po; simpl; auto. apply min_dual. Qed.
Lemma U_pn : forall m po, pn (U m po) = pn po. Proof. intros [] po; simpl; auto. Qed.
Lemma U_ev : forall m a b, ev (U m a) (U m b) <-> ev a b.
Proof. intros m a b. unfold ev. rewrite U_min, U_bot. split; intros [H|H]; auto; left. rewrite <- (U_U m b), H. apply U_U. subst; auto. Qed.
Lemma U_swf : forall m po, swf (U m po) <-> swf po.
Proof. intros [] po; simpl. tauto. split. intros H. rewrite <- (dual_dual po). apply swf_dual; auto. apply swf_dual. Qed.
Lemma U_int : forall m po, pint (U m po) = pint po. Proof. intros [] po; auto. Qed.
Lemma U_real : forall m po, preal (U m po) = preal po. Proof. intros [] po; auto. Qed.
Lemma repr_ext : forall po i r S S', (forall x, S x <-> S' x) -> repr po i r S -> repr po i r S'.
Proof. intros po i r S S' H (A & B & C & D). split; auto. split; auto. split; auto. intros x. rewrite D. auto. Qed.
Lemma T_sym : forall m n Sa Sb x, T m n Sa Sb x <-> T m n Sb Sa x.
Proof. intros [] n Sa Sb x; unfold T, hull. tauto. split; intros H a A; apply H; intros y [Y|Y]; apply A; auto. Qed.
Lemma chern_rep : forall m po i r S, rep m po i r S -> rep m (poly_chernikova_dual m po) i r S /\ ev po (poly_chernikova_dual m po) /\ (isbot (poly_chernikova_dual m po) = true \/ minimal2 (poly_chernikova_dual m po) = true).
Proof.
  intros m po i r S H. unfold rep in *. destruct (chern_repr _ _ _ _ H) as (A & B & C). rewrite <- U_chern in A, B, C. rewrite U_bot, U_min in C. apply U_ev in B. auto.
Qed.
Lemma obtain_C_rep : forall m po i r S, rep m po i r S -> rep m (poly_obtain_C_dual m po) i r S /\ ev po (poly_obtain_C_dual m po) /\ (pC (poly_obtain_C_dual m po) = None -> isbot (poly_obtain_C_dual m po) = true).
Proof.
  intros m po i r S H. unfold poly_obtain_C_dual. destruct (pC po) eqn:E. split; auto. split. apply ev_refl. congruence. destruct (chern_rep m po i r S H) as (A & B & C). split; auto. split; auto. intros N. destruct C as [C|C]; auto. unfold minimal2 in C. rewrite N in C. discriminate.
Qed.
(** operations which keep the cone *)
Lemma keep_rep : forall m po po' i r S, rep m po i r S -> swf po' -> pint po' = pint po -> preal po' = preal po -> (forall x, cK po' x <-> cK po x) -> has (pC po') = has (pC po) -> has (pF po') = has (pF po) -> rep m po' i r S.
Proof.
  intros m po po' i r S ((W & P) & E1 & E2 & G) W' D1 D2 K HC HF. rewrite U_int in E1. rewrite U_real in E2. apply U_swf in W. assert (NE : pn po' = pn po) by (unfold pn, pdim; congruence). assert (BE : isbot po' = isbot po) by (unfold isbot; destruct (pC po), (pC po'), (pF po), (pF po'); simpl in *; congruence).
  assert (KU : forall x, cK (U m po') x <-> cK (U m po) x). { intros x. destruct m; simpl; auto. destruct (isbot po) eqn:B. unfold isbot in B, BE. unfold cK. simpl. destruct (pC po), (pF po), (pC po'), (pF po'); try discriminate; tauto. rewrite (cK_dual po' x W' BE), (cK_dual po x W B). rewrite NE. split; intros H y Y; apply H; apply K; auto. }
  assert (FU : pF (U m po') <> None -> pF (U m po) <> None). { destruct m; simpl. destruct (pF po), (pF po'); simpl in *; congruence. destruct (pC po), (pC po'); simpl in *; congruence. }
  split. { split. apply U_swf; auto. destruct P as [P|[P1 P2]]. left. rewrite U_bot in *. congruence. right. split. intros x X. apply P1, KU; auto. intros Q. destruct (P2 (FU Q)) as (x & X & X0). exists x. split; auto. apply KU; auto. }
  split. rewrite U_int; congruence. split. rewrite U_real; congruence. intros x. rewrite <- G. unfold gamma. apply KU.
Qed.
Lemma sorted_rep : forall m po i r S, rep m po i r S -> rep m (poly_obtain_sorted_C po) i r S.
Proof.
  intros m po i r S H. destruct (sorted_C_spec po) as (A & B & C & D & E & F). apply (U_swf m). apply H. apply keep_rep with po; auto. rewrite E; auto.
Qed.
(** the set of a polyhedron is closed *)
Lemma bipolar : forall po x, swf po -> isbot po = false -> (forall a, (forall y, cK po y -> 0 <= dt (pn po) a y) -> 0 <= dt (pn po) a x) -> cK po x.
Proof.
  intros po x W B H. rewrite <- (dual_dual po). apply cK_dual. apply swf_dual; auto. rewrite isbot_dual; auto. rewrite pn_dual. intros y Y. rewrite dt_sym. apply H. apply (cK_dual po y W B). auto.
Qed.
Lemma valid_cK : forall po a, wfp po -> (exists x, gamma po x) -> (forall y, gamma po y -> 0 <= dt (pn po) a (homog y)) -> forall y, cK po y -> 0 <= dt (pn po) a y.
Proof.
  intros po a (W & P) (x & G) H. assert (B : isbot po = false). { destruct (isbot po) eqn:B; auto. destruct (bot_gamma po x B G). } destruct P as [P|[P _]]. congruence.
  intros y Y. apply (valid_ext (cK po) (pn po) a (homog x)); auto. intros; apply cK_lin; auto. simpl; lra.
  intros z Z Z0. assert (Gz : gamma po (fun i => z (S i) / z 0%nat)). { unfold gamma. apply cK_ext with (lin2 (/ z 0%nat) z 0 z); auto. 2: apply cK_lin; auto; [left; apply Rinv_0_lt_compat; auto|lra]. intros [|i] _; unfold lin2; simpl; unfold Rdiv. field. lra. ring. } apply H in Gz.
  rewrite (dt_ext (pn po) _ z (lin2 (z 0%nat) (homog (fun i => z (S i) / z 0%nat)) 0 z)). rewrite dt_lin. assert (0 <= z 0%nat * dt (pn po) a (homog (fun i => z (S i) / z 0%nat))) by (apply Rmult_le_pos; lra). lra. intros [|i] _; unfold lin2; simpl. ring. unfold Rdiv. field. lra.
Qed.
Definition d1 (i r : nat) : nat := S (i + r).
Lemma repr_pn : forall po i r S, repr po i r S -> pn po = d1 i r. Proof. intros po i r S (_ & A & B & _). unfold pn, pdim, d1. congruence. Qed.
Lemma e0_dt : forall n y, (0 < n)%nat -> dt n (fun i => match i with O => 1 | _ => 0 end) y = y 0%nat.
Proof. intros [|n] y H. lia. unfold dt. rewrite sm_shift. replace (sm n _) with 0. ring. clear. induction n; simpl; auto. rewrite <- IHn. ring. Qed.
Lemma hull_closed : forall po i r S x, repr po i r S -> (forall a, (forall y, S y -> 0 <= dt (d1 i r) a (homog y)) -> 0 <= dt (d1 i r) a (homog x)) -> S x.
Proof.
  intros po i r S x R H. assert (NE := repr_pn _ _ _ _ R). destruct R as (W & _ & _ & G). destruct (classic (exists y, S y)) as [(y & Y)|N].
  - assert (B : isbot po = false). { destruct (isbot po) eqn:B; auto. apply G in Y. destruct (bot_gamma po y B Y). } apply G. unfold gamma. apply bipolar; auto. apply W. intros a A. rewrite NE. apply H. intros z Z. rewrite <- NE. apply A. apply G in Z. exact Z.
  - exfalso. assert (Q := H (lin2 (-1) (fun i => match i with O => 1 | _ => 0 end) 0 (fun _ => 0))). rewrite dt_sym, dt_lin, dt_sym in Q. rewrite e0_dt in Q by (unfold d1; lia). rewrite dt_zero in Q by auto. simpl in Q. assert (0 <= -1 * 1 + 0 * 0) by (apply Q; intros y Y; destruct N; eauto). lra.
Qed.
Lemma hull_left : forall po i r (Sa Sb : vec -> Prop) x, repr po i r Sb -> (forall y, Sa y -> Sb y) -> (hull (d1 i r) Sa Sb x <-> Sb x).
Proof.
  intros po i r Sa Sb x R I. split. intros H. apply (hull_closed po i r Sb x R). intros a A. apply H. intros y [Y|Y]; apply A; auto. intros H a A. apply A; auto.
Qed.

(** poly_meet_matrix *)
Lemma matrix_lazy : forall meet destr pa A mat, swf pa -> pC pa = Some A -> Forall (lenS (pn pa)) mat -> exists po, poly_meet_matrix meet true destr pa mat = Some (po, if destr then po else poly_obtain_sorted_C pa) /\
  swf po /\ pint po = pint pa /\ preal po = preal pa /\ has (pC po) = true /\ pF po = None /\ forall x, cK po x <-> cone A x /\ cone mat x.
Proof.
  intros meet destr pa A mat W E FM. unfold poly_meet_matrix. destruct (sorted_C_spec pa W) as (W' & D1 & D2 & K & HF & HC). rewrite E in HC. set (p := poly_obtain_sorted_C pa) in *. destruct (pC p) as [C|] eqn:EC; try discriminate. eexists. split. reflexivity. assert (NE : pn p = pn pa) by (unfold pn, pdim; congruence). assert (FC := swf_C p C W' EC). rewrite NE in FC.
  split. { unfold swf. cbn [pC pF psatC psatF]. unfold pn, pdim. cbn [pint preal]. rewrite D1, D2. split; auto. apply merge_len; auto. } split; auto. split; auto. split; auto. split; auto. intros x. unfold cK at 1. cbn [pC]. rewrite <- (cK_C pa A E), <- K, (cK_C p C EC). rewrite !cone_in. split.
  - intros H. split; intros c J; apply H; apply (merge_in (pn pa)); auto.
  - intros [H1 H2] c J. apply (merge_in (pn pa)) in J; auto. destruct J; auto.
Qed.
Lemma matrix_strict : forall meet destr pa A F mat s, swf pa -> pC pa = Some A -> pF pa = Some F -> psatC pa = Some s -> Forall (lenS (pn pa)) mat -> exists po, poly_meet_matrix meet false destr pa mat = Some (po, if destr then po else pa) /\
  swf po /\ pint po = pint pa /\ preal po = preal pa /\
  ((minimal2 po = true /\ (meet = true -> exists x, gamma po x) /\ forall x, cK po x <-> cone A x /\ cone mat x) \/
   (isbot po = true /\ meet = true /\ ((forall x, cone A x -> 0 <= x 0%nat) -> forall x, ~ (poly_con A x /\ poly_con mat x)))).
Proof.
  intros meet destr pa A F mat s W EA EF ES FM. unfold poly_meet_matrix. rewrite EA, EF, ES. assert (W' := W). unfold swf in W'. rewrite EA, EF in W'. destruct W' as (M & SC & _). rewrite (SC s ES). rewrite pcols_pn. assert (FA := swf_C pa A W EA).
  assert (SP := add_and_minimize_spec meet (pn pa) A F (pnbeq pa) (pnbline pa) mat M FM). assert (FAM : Forall (lenS (pn pa)) (A ++ mat)) by (apply Forall_app; auto).
  destruct (cherni_add_and_minimize meet (S (pn pa)) (A ++ mat) F (satmat F A) (pnbline pa) (length A)) as [[[[[C' F'] satF] nbeq] nbline]|].
  - destruct SP as (M' & SF & Q & PR & RDC). eexists. split. reflexivity. split. { unfold swf. cbn [pC pF psatC psatF pnbeq pnbline]. unfold pn, pdim. cbn [pint preal]. split. exact M'. split. discriminate. split. intros s0 E0. congruence. discriminate. } split; auto. split; auto. left. split; auto. split.
    + intros ->. destruct (pos_ray_point (pn pa) C' F' nbeq nbline ltac:(unfold pn; lia) M' (PR eq_refl)) as (x & X). exists x. exact X.
    + intros x. unfold cK. cbn [pC]. rewrite (cone_inC _ C' x (proj1 (mini_lens _ _ _ _ _ M'))). rewrite <- Q. rewrite <- (cone_inC _ (A ++ mat) x FAM). apply cone_app.
  - destruct SP as (-> & L & R & G & N). eexists. split. reflexivity. split. exact I. split; auto. split; auto. right. split; auto. split; auto. intros PO x [X1 X2]. apply (no_pos_empty (pn pa) (A ++ mat) L R) with (x := x); auto. unfold pn; lia. intros z Z. apply PO. apply cone_app in Z. apply Z. unfold poly_con. apply cone_app; auto.
Qed.
Lemma matrix_rep : forall meet lazy destr pa pb i r (Sa Sb : vec -> Prop) A B, rep meet pa i r Sa -> rep meet pb i r Sb -> pC pa = Some A -> pC pb = Some B -> (lazy = true \/ (pF pa <> None /\ psatC pa <> None)) ->
  exists po pa', poly_meet_matrix meet lazy destr pa B = Some (po, pa') /\ rep meet po i r (T meet (d1 i r) Sa Sb) /\ (destr = false -> rep meet pa' i r Sa).
Proof.
  intros meet lazy destr pa pb i r Sa Sb A B Ra Rb EA EB LZ. assert (Wa : swf pa) by (apply (U_swf meet); apply Ra). assert (Wb : swf pb) by (apply (U_swf meet); apply Rb). assert (NA : pn pa = d1 i r) by (rewrite <- (U_pn meet); apply (repr_pn _ _ _ _ Ra)). assert (NB : pn pb = d1 i r) by (rewrite <- (U_pn meet); apply (repr_pn _ _ _ _ Rb)).
  assert (FB := swf_C pb B Wb EB). rewrite NB, <- NA in FB.
  assert (ND : pint pa = i /\ preal pa = r). { destruct Ra as (_ & E1 & E2 & _). rewrite U_int in E1. rewrite U_real in E2. auto. } destruct ND as [NI NR].
  assert (G : exists po pa', poly_meet_matrix meet lazy destr pa B = Some (po, pa') /\ swf po /\ pint po = i /\ preal po = r /\ (destr = false -> rep meet pa' i r Sa) /\
    ((has (pC po) = true /\ (meet = true -> pF po <> None -> exists x, gamma po x) /\ forall x, cK po x <-> cone A x /\ cone B x) \/ (isbot po = true /\ meet = true /\ ((forall x, cone A x -> 0 <= x 0%nat) -> forall x, ~ (poly_con A x /\ poly_con B x))))).
  { destruct lazy.
    - destruct (matrix_lazy meet destr pa A B Wa EA FB) as (po & E & W & D1 & D2 & HC & HF & K). exists po. eexists. split. exact E. split; auto. split. congruence. split. congruence. split. intros ->. apply sorted_rep; auto. left. split; auto. split; auto. congruence.
    - destruct LZ as [LZ|[HF HS]]; try discriminate. destruct (pF pa) as [F|] eqn:EF; [|congruence]. destruct (psatC pa) as [s|] eqn:ES; [|congruence]. destruct (matrix_strict meet destr pa A F B s Wa EA EF ES FB) as (po & E & W & D1 & D2 & CS). exists po. eexists. split. exact E. split; auto. split. congruence. split. congruence. split. intros ->. auto. destruct CS as [(M & PX & K)|CS]; auto. left. split. unfold minimal2 in M. destruct (pC po); auto. split; auto. }
  destruct G as (po & pa' & E & W & D1 & D2 & KA & CS). exists po, pa'. split; auto. split; auto. clear E KA pa' LZ. assert (NP : pn po = d1 i r) by (unfold pn, pdim, d1; congruence).
  destruct CS as [(HC & PX & K)|(B0 & -> & NO)].
  - assert (BO : isbot po = false) by (unfold isbot; destruct (pC po); auto; discriminate). destruct meet.
    + (* meet *) unfold rep, U, T in *. destruct Ra as ((_ & Pa) & _ & _ & Ga). destruct Rb as ((_ & Pb) & _ & _ & Gb). split. split; auto. { right. split. intros x X. apply K in X. destruct Pa as [Pa|[Pa _]]. unfold isbot in Pa. rewrite EA in Pa. discriminate. apply Pa. apply (cK_C pa A EA). tauto. intros Q. apply (gamma_pos po W). apply PX; auto. } split; auto. split; auto. intros x. rewrite <- Ga, <- Gb. unfold gamma. rewrite K, (cK_C pa A EA), (cK_C pb B EB). tauto.
    + (* join *) unfold rep, U, T in *. clear PX. assert (NEa : exists x, Sa x) by (apply (repr_F _ _ _ _ Ra); simpl; congruence). assert (NEb : exists x, Sb x) by (apply (repr_F _ _ _ _ Rb); simpl; congruence).
      assert (VA : forall q Q Sq, repr (poly_dual q) i r Sq -> pC q = Some Q -> (exists x, Sq x) -> forall y, cone Q y <-> forall x, Sq x -> 0 <= dt (d1 i r) y (homog x)).
      { clear. intros q Q Sq R E (x0 & X0) y. assert (N := repr_pn _ _ _ _ R). assert (R' := R). destruct R' as (Wq & _ & _ & G). assert (EF : pF (poly_dual q) = Some Q) by exact E. rewrite (cone_dual (d1 i r) Q y). 2: { rewrite <- N. apply (swf_F _ _ (proj1 Wq) EF). } split.
        - intros H x X. apply G in X. apply H. rewrite <- N. apply (cK_F _ Q (proj1 Wq) EF). exact X.
        - intros H x X. rewrite <- N. apply (valid_cK (poly_dual q)); auto. exists x0. apply G; auto. intros z Z. rewrite N. apply H. apply G; auto. rewrite <- N in X. apply (cK_F _ Q (proj1 Wq) EF). exact X. }
      assert (VA' := VA pa A Sa Ra EA NEa). assert (VB' := VA pb B Sb Rb EB NEb). assert (KD : forall x, cK (poly_dual po) x <-> forall y, cone A y -> cone B y -> 0 <= dt (d1 i r) x y). { intros x. rewrite (cK_dual po x W BO). rewrite NP. split; intros H y. intros Y1 Y2. apply H, K; auto. intros Y. apply K in Y. apply H; tauto. }
      assert (GH : forall x, gamma (poly_dual po) x <-> hull (d1 i r) Sa Sb x). { intros x. unfold gamma. rewrite KD. unfold hull. split.
        - intros H a V. rewrite dt_sym. apply H. apply VA'. intros y Y; apply V; auto. apply VB'. intros y Y; apply V; auto.
        - intros H y Y1 Y2. rewrite dt_sym. apply H. intros z [Z|Z]. apply (proj1 (VA' y)); auto. apply (proj1 (VB' y)); auto. }
      split; [|split; auto]. split. apply swf_dual; auto. right. split.
      * intros x X. rewrite <- (e0_dt (d1 i r) x) by (unfold d1; lia). rewrite dt_sym. apply KD; auto. apply VA'. intros z Z. rewrite e0_dt by (unfold d1; lia). simpl; lra. apply VB'. intros z Z. rewrite e0_dt by (unfold d1; lia). simpl; lra.
      * intros _. apply gamma_pos. apply swf_dual; auto. destruct NEa as (x & X). exists x. apply GH. intros a V. apply V; auto.
  - unfold rep, U, T in *. split. split; auto. left; auto. split; auto. split; auto. intros x. split. intros X. destruct (bot_gamma po x B0 X). intros [X1 X2]. exfalso. destruct Ra as ((_ & Pa) & _ & _ & Ga). destruct Rb as (_ & _ & _ & Gb). apply Ga in X1. apply Gb in X2. apply (NO ltac:(destruct Pa as [Pa|[Pa _]]; [unfold isbot in Pa; rewrite EA in Pa; discriminate|intros y Y; apply Pa, (cK_C pa A EA); auto]) x). split; [apply (cK_C pa A EA) in X1|apply (cK_C pb B EB) in X2]; auto.
Qed.
(** poly_meet_particularcases *)
Lemma pbottom_repr : forall i r, repr (pbottom i r) i r (fun _ => False).
Proof. intros i r. split. split. exact I. left; auto. split; auto. split; auto. intros x. unfold gamma, cK. simpl. tauto. Qed.
Lemma partic_rep : forall meet lazy exw algleq pa pb i r (Sa Sb : vec -> Prop), rep meet pa i r Sa -> rep meet pb i r Sb -> let '(o, pa', pb') := poly_meet_particularcases meet lazy exw algleq pa pb in
  rep meet pa' i r Sa /\ ev pa pa' /\ rep meet pb' i r Sb /\ ev pb pb' /\ match o with Some po => rep meet po i r (T meet (d1 i r) Sa Sb) | None => isbot pa' = false /\ isbot pb' = false end.
Proof.
  intros meet lazy exw algleq pa pb i r Sa Sb Ra Rb. unfold poly_meet_particularcases. destruct meet.
  - split; auto. split. apply ev_refl. split; auto. split. apply ev_refl. destruct (isbot pa || isbot pb) eqn:B. 2: apply orb_false_elim; auto. unfold rep, U, T in *. assert (D := Ra). destruct D as (_ & -> & -> & _). apply repr_ext with (fun _ => False). 2: apply pbottom_repr. intros x. split. tauto. intros [X1 X2]. apply orb_prop in B. destruct B as [B|B]. apply (repr_bot _ _ _ _ Ra B x X1). apply (repr_bot _ _ _ _ Rb B x X2).
  - destruct (isbot pa) eqn:Ba.
    + assert (Q : rep false (if lazy then pb else poly_chernikova_dual false pb) i r Sb /\ ev pb (if lazy then pb else poly_chernikova_dual false pb)). { destruct lazy. split; auto. apply ev_refl. destruct (chern_rep false pb i r Sb Rb) as (A & B & _). auto. } destruct Q as [Q1 Q2]. cbv zeta. split; auto. split. apply ev_refl. split; auto. split; auto.
      apply (repr_ext _ _ _ Sb); auto. intros x. unfold T. symmetry. apply (hull_left _ _ _ Sa Sb x Q1). intros y Y. exfalso. apply (repr_bot _ _ _ _ Ra) with y; auto. rewrite U_bot; auto.
    + destruct (isbot pb) eqn:Bb.
      * assert (Q : rep false (if lazy then pa else poly_chernikova_dual false pa) i r Sa /\ ev pa (if lazy then pa else poly_chernikova_dual false pa)). { destruct lazy. split; auto. apply ev_refl. destruct (chern_rep false pa i r Sa Ra) as (A & B & _). auto. } destruct Q as [Q1 Q2]. cbv zeta. split; auto. split; auto. split; auto. split. apply ev_refl.
        apply (repr_ext _ _ _ Sa); auto. intros x. rewrite T_sym. unfold T. symmetry. apply (hull_left _ _ _ Sb Sa x Q1). intros y Y. exfalso. apply (repr_bot _ _ _ _ Rb) with y; auto. rewrite U_bot; auto.
      * destruct exw. 2: { split; auto. split. apply ev_refl. split; auto. split. apply ev_refl. auto. }
        assert (SP := is_leq_spec algleq (poly_dual pa) (poly_dual pb) i r Sa Sb Ra Rb). destruct (pk_is_leq algleq (poly_dual pa) (poly_dual pb)) as [[res1 da] db]. destruct SP as (A1 & A2 & A3 & A4 & A5).
        assert (EA : ev pa (poly_dual da)) by (apply (U_ev false); simpl; rewrite dual_dual; auto). assert (EB : ev pb (poly_dual db)) by (apply (U_ev false); simpl; rewrite dual_dual; auto). assert (RA : rep false (poly_dual da) i r Sa) by (unfold rep; simpl; rewrite dual_dual; auto). assert (RB : rep false (poly_dual db) i r Sb) by (unfold rep; simpl; rewrite dual_dual; auto).
        destruct res1. { split; auto. split; auto. split; auto. split; auto. apply (repr_ext _ _ _ Sb); auto. intros x. unfold T. symmetry. apply (hull_left _ _ _ Sa Sb x A3). apply A5; auto. }
        assert (SP := is_leq_spec algleq db da i r Sb Sa A3 A1). destruct (pk_is_leq algleq db da) as [[res2 db2] da2]. destruct SP as (B1 & B2 & B3 & B4 & B5).
        assert (EA2 : ev pa (poly_dual da2)) by (apply (U_ev false); simpl; rewrite dual_dual; eapply ev_trans; eauto). assert (EB2 : ev pb (poly_dual db2)) by (apply (U_ev false); simpl; rewrite dual_dual; eapply ev_trans; eauto). assert (RA2 : rep false (poly_dual da2) i r Sa) by (unfold rep; simpl; rewrite dual_dual; auto). assert (RB2 : rep false (poly_dual db2) i r Sb) by (unfold rep; simpl; rewrite dual_dual; auto).
        split; auto. split; auto. split; auto. split; auto. destruct res2. { apply (repr_ext _ _ _ Sa); auto. intros x. rewrite T_sym. unfold T. symmetry. apply (hull_left _ _ _ Sb Sa x B3). apply B5; auto. }
        rewrite !isbot_dual. split. destruct (isbot da2) eqn:Q; auto. assert (false = true); [|discriminate]. apply A5. intros x X. destruct (repr_bot _ _ _ _ B3 Q x X). destruct (isbot db2) eqn:Q; auto. assert (false = true); [|discriminate]. apply B5. intros x X. destruct (repr_bot _ _ _ _ B1 Q x X).
Qed.
Lemma partic_C : forall pa pa', (pC pa = None -> isbot pa = true) -> ev pa pa' -> isbot pa' = false -> exists C, pC pa' = Some C.
Proof. intros pa pa' H [->|[E|E]] B. destruct (pC pa); eauto. rewrite H in B; auto; discriminate. unfold minimal2 in E. destruct (pC pa'); eauto; discriminate. congruence. Qed.
Lemma satC_rep : forall m po i r S, rep m po i r S -> minimal2 po = true -> exists po', poly_obtain_satC po = Some po' /\ rep m po' i r S /\ pC po' = pC po /\ pF po' = pF po /\ psatC po' <> None.
Proof.
  intros m po i r S H M. unfold minimal2 in M. destruct (pC po) as [C|] eqn:EC; try discriminate. destruct (pF po) as [F|] eqn:EF; try discriminate. destruct (satC_spec po C F) as (po' & A1 & A2 & A3 & A4 & A5 & A6 & A7 & _); auto. apply (U_swf m), H. exists po'. split; auto. split. 2: { split; auto. split; auto. congruence. }
  apply keep_rep with po; auto. intros x. rewrite (cK_C po C EC), (cK_C po' C A5). tauto. congruence. congruence.
Qed.
Lemma finish_rep : forall meet destr pa pb i r (Sa Sb : vec -> Prop) B, rep meet pa i r Sa -> rep meet pb i r Sb -> minimal2 pa = true -> pC pb = Some B ->
  exists po pa' pb', (match poly_obtain_satC pa with None => None | Some pa => let pb := poly_obtain_sorted_C pb in match pC pb with None => None | Some B => match poly_meet_matrix meet false destr pa B with None => None | Some (po, pa) => Some (po, pa, pb) end end end) = Some (po, pa', pb')
    /\ rep meet po i r (T meet (d1 i r) Sa Sb) /\ (destr = false -> rep meet pa' i r Sa) /\ rep meet pb' i r Sb.
Proof.
  intros meet destr pa pb i r Sa Sb B Ra Rb M EB. destruct (satC_rep meet pa i r Sa Ra M) as (pa1 & -> & R1 & EC & EF & ES). assert (R2 := sorted_rep meet pb i r Sb Rb). assert (HC : has (pC (poly_obtain_sorted_C pb)) = true). { destruct (sorted_C_spec pb) as (_ & _ & _ & _ & _ & Q). apply (U_swf meet), Rb. rewrite Q, EB. auto. } cbv zeta. destruct (pC (poly_obtain_sorted_C pb)) as [B'|] eqn:EB'; try discriminate.
  unfold minimal2 in M. destruct (pC pa) as [A|] eqn:EA; try discriminate. destruct (pF pa) as [F|]; try discriminate. destruct (matrix_rep meet false destr pa1 (poly_obtain_sorted_C pb) i r Sa Sb A B' R1 R2 EC EB') as (po & pa' & -> & Q1 & Q2). right. split; congruence. exists po, pa', (poly_obtain_sorted_C pb). auto.
Qed.
Theorem poly_meet_spec : forall meet lazy exw algleq destr pa pb i r (Sa Sb : vec -> Prop), rep meet pa i r Sa -> rep meet pb i r Sb ->
  match poly_meet meet lazy exw algleq destr pa pb with
  | Some (po, pa', pb') => rep meet po i r (T meet (d1 i r) Sa Sb) /\ (destr = false -> rep meet pa' i r Sa) /\ rep meet pb' i r Sb
  | None => meet = true /\ lazy = false /\ destr = true /\ forall x, ~ Sa x
  end.
Proof.
  intros meet lazy exw algleq destr pa pb i r Sa Sb Ra Rb. unfold poly_meet. assert (P1 := partic_rep meet lazy exw algleq pa pb i r Sa Sb Ra Rb). destruct (poly_meet_particularcases meet lazy exw algleq pa pb) as [[o1 pa1] pb1]. destruct P1 as (Ra1 & _ & Rb1 & _ & O1). destruct o1 as [po|]. auto. clear O1 Ra Rb.
  destruct (obtain_C_rep meet pa1 i r Sa Ra1) as (Ra2 & _ & Ca2). destruct (obtain_C_rep meet pb1 i r Sb Rb1) as (Rb2 & _ & Cb2). set (pa2 := poly_obtain_C_dual meet pa1) in *. set (pb2 := poly_obtain_C_dual meet pb1) in *. clearbody pa2 pb2. clear Ra1 Rb1.
  assert (P2 := partic_rep meet lazy exw algleq pa2 pb2 i r Sa Sb Ra2 Rb2). destruct (poly_meet_particularcases meet lazy exw algleq pa2 pb2) as [[o2 pa3] pb3]. destruct P2 as (Ra3 & Ea3 & Rb3 & Eb3 & O2). destruct o2 as [po|]. auto. destruct O2 as [Ba Bb]. destruct (partic_C _ _ Ca2 Ea3 Ba) as (A & EA). destruct (partic_C _ _ Cb2 Eb3 Bb) as (B & EB). clear Ra2 Rb2 Ca2 Cb2 Ea3 Eb3 pa2 pb2.
  destruct lazy.
  - assert (Rsa := sorted_rep _ _ _ _ _ Ra3). assert (Rsb := sorted_rep _ _ _ _ _ Rb3). assert (HA : has (pC (poly_obtain_sorted_C pa3)) = true). { destruct (sorted_C_spec pa3) as (_ & _ & _ & _ & _ & Q). apply (U_swf meet), Ra3. rewrite Q, EA. auto. } assert (HB : has (pC (poly_obtain_sorted_C pb3)) = true). { destruct (sorted_C_spec pb3) as (_ & _ & _ & _ & _ & Q). apply (U_swf meet), Rb3. rewrite Q, EB. auto. } cbv zeta.
    destruct (pC (poly_obtain_sorted_C pa3)) as [A'|] eqn:EA'; try discriminate. destruct (pC (poly_obtain_sorted_C pb3)) as [B'|] eqn:EB'; try discriminate. destruct (matrix_rep meet true destr _ _ i r Sa Sb A' B' Rsa Rsb EA' EB' (or_introl eq_refl)) as (po & pa' & -> & Q1 & Q2). auto.
  - set (fin := fun (swap : bool) (pa pb : poly) => match poly_obtain_satC pa with None => None | Some pa => let pb := poly_obtain_sorted_C pb in match pC pb with None => None | Some B => match poly_meet_matrix meet false destr pa B with None => None | Some (po, pa) => Some (if swap then (po, pb, pa) else (po, pa, pb)) end end end).
    cbv zeta. fold fin. clear Ba Bb. cbv beta.
    assert (F0 : forall pa pb B, rep meet pa i r Sa -> rep meet pb i r Sb -> minimal2 pa = true -> pC pb = Some B -> match fin false pa pb with Some (po, pa', pb') => rep meet po i r (T meet (d1 i r) Sa Sb) /\ (destr = false -> rep meet pa' i r Sa) /\ rep meet pb' i r Sb | None => meet = true /\ false = false /\ destr = true /\ forall x, ~ Sa x end).
    { intros qa qb Q H1 H2 H3 H4. destruct (finish_rep meet destr qa qb i r Sa Sb Q H1 H2 H3 H4) as (po & pa' & pb' & E & R). unfold fin. destruct (poly_obtain_satC qa) as [qa'|]; try discriminate. cbv zeta in *. destruct (pC (poly_obtain_sorted_C qb)) as [B'|]; try discriminate. destruct (poly_meet_matrix meet false destr qa' B') as [[po' pa'']|]; try discriminate. injection E as -> -> ->. auto. }
    assert (F1 : destr = false -> forall pa pb A, rep meet pa i r Sa -> rep meet pb i r Sb -> minimal2 pb = true -> pC pa = Some A -> match fin true pb pa with Some (po, pa', pb') => rep meet po i r (T meet (d1 i r) Sa Sb) /\ (destr = false -> rep meet pa' i r Sa) /\ rep meet pb' i r Sb | None => meet = true /\ false = false /\ destr = true /\ forall x, ~ Sa x end).
    { intros DF qa qb Q H1 H2 H3 H4. destruct (finish_rep meet destr qb qa i r Sb Sa Q H2 H1 H3 H4) as (po & pb' & pa' & E & R1 & R2 & R3). unfold fin. destruct (poly_obtain_satC qb) as [qb'|]; try discriminate. cbv zeta in *. destruct (pC (poly_obtain_sorted_C qa)) as [B'|]; try discriminate. destruct (poly_meet_matrix meet false destr qb' B') as [[po' pa'']|]; try discriminate. injection E as -> -> ->. split; auto. apply (repr_ext _ _ _ (T meet (d1 i r) Sb Sa)); auto. intros x. apply T_sym. }
    destruct destr.
    + destruct (chern_rep meet pa3 i r Sa Ra3) as (R4 & _ & [B4|M4]). 2: apply (F0 _ _ B); auto.
      assert (meet = true). { destruct meet; auto. exfalso. assert (R5 := repr_bot _ _ _ _ R4). rewrite U_bot in R5. destruct (repr_F _ _ _ _ Ra3) as (x & X). simpl. congruence. apply (R5 B4 x X). } subst meet.
      assert (NS : forall x, ~ Sa x) by (apply (repr_bot _ _ _ _ R4); rewrite U_bot; auto). unfold fin. assert (BC : pC (poly_chernikova_dual true pa3) = None /\ pF (poly_chernikova_dual true pa3) = None). { unfold isbot in B4. destruct (pC (poly_chernikova_dual true pa3)), (pF (poly_chernikova_dual true pa3)); try discriminate; auto. } destruct BC as [BC BF].
      destruct (poly_obtain_satC (poly_chernikova_dual true pa3)) as [p|] eqn:ES; auto. exfalso. unfold poly_obtain_satC in ES. rewrite BF in ES. destruct (psatC (poly_chernikova_dual true pa3)) eqn:E6; try discriminate. simpl in BC, BF, E6. unfold poly_chernikova in BC, E6. rewrite EA in BC, E6. destruct (pF pa3) eqn:E7. congruence. destruct (cherni_minimize true (pcols pa3) _) as [[[[[? ?] ?] ?] ?]|]; simpl in *; discriminate.
    + assert (MIN : forall p C F, pC p = Some C -> pF p = Some F -> minimal2 p = true) by (intros p C F E1 E2; unfold minimal2; rewrite E1, E2; auto).
      destruct (pF pa3) as [Fa|] eqn:EFa, (pF pb3) as [Fb|] eqn:EFb; cbn [has andb negb].
      * destruct (start_first pa3 pb3). apply (F0 _ _ B); auto. eapply MIN; eauto. apply (F1 eq_refl _ _ A); auto. eapply MIN; eauto.
      * apply (F0 _ _ B); auto. eapply MIN; eauto.
      * apply (F1 eq_refl _ _ A); auto. eapply MIN; eauto.
      * destruct (chern_rep meet pa3 i r Sa Ra3) as (Ra4 & _ & Ma4). destruct (chern_rep meet pb3 i r Sb Rb3) as (Rb4 & _ & Mb4). assert (P3 := partic_rep meet false exw algleq _ _ i r Sa Sb Ra4 Rb4). destruct (poly_meet_particularcases meet false exw algleq (poly_chernikova_dual meet pa3) (poly_chernikova_dual meet pb3)) as [[o5 pa5] pb5]. destruct P3 as (Ra5 & Ea5 & Rb5 & Eb5 & O5). destruct o5 as [po|]. auto. destruct O5 as [Ba5 Bb5].
        assert (M5 : forall q q', (isbot q = true \/ minimal2 q = true) -> ev q q' -> isbot q' = false -> minimal2 q' = true). { clear. intros q q' [H|H] [->|[E|E]] N; congruence. }
        assert (MA := M5 _ _ Ma4 Ea5 Ba5). assert (MB := M5 _ _ Mb4 Eb5 Bb5). destruct (start_first pa5 pb5).
        unfold minimal2 in MB. destruct (pC pb5) as [B5|] eqn:E; try discriminate. apply (F0 _ _ B5); auto. assert (MA' := MA). unfold minimal2 in MA'. destruct (pC pa5) as [A5|] eqn:E; try discriminate. apply (F1 eq_refl _ _ A5); auto.
Qed.

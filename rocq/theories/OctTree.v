(** Expression trees in octagons: octagons/oct_predicate.c 327-331 (oct_sat_tcons), 414-419 (oct_bound_texpr),
    octagons/oct_transfer.c 519-527 (oct_meet_tcons_array), 1186-1203 (oct_assign_texpr_array and
    oct_substitute_texpr_array): the functions of ap_generic.c (GenericTree.v) over the functions of octagons.

    Simplified: the flags "exact" and "best" are not modelled (the entries of the table answer false); the trees are
    linearised with rational numbers (NUM_AP_SCALAR is MPQ for rational octagons), the numbers of the octagon are [N]. *)
From Coq Require Import Arith ZArith QArith Qreals Reals Lra Lia Bool List Sorted.
From Verif Require Import Bound BoundFacts Itv ItvFacts ItvFacts2 Linexpr LinexprFacts OctMat OctIdx OctClose Oct OctFacts OctFacts2 OctFacts3 OctUexpr OctGuard OctGuard4 OctGuard5 OctTransfer OctQuery OctResize2 OctResize3 BoxDims ItvLin ItvLinFacts ItvLinInt ApCore ApCheck PropApCheck ApTexpr TexprSem ItvTree ItvTreeFacts ItvTreeApi ItvTreeApiFacts PropItvTree PkUserCons PkUserMeet TreeShape Generic GenericFacts GenericTree Abs1InstOct PropOctLattice PropOctBox PropOctResize PropOctTransfer.
From Verif Require PkTree.
From Verif Require Import OctGeom2 OctForget OctExpand PropOctInv.
Import ListNotations.
Open Scope nat_scope.

(** ** The model *)
Section Model.
Context (N : numtype) {F : fmts}.
(** the interval of level 0 as an interval with the lower bound negated *)
Definition itv_of_uitv (u : uitv) : itv := mkItv (bneg (fst u)) (snd u).
(** the box the linearisation asks for *)
Definition oct_box (algo : Z) (a : oct) : nat -> itv := fun d => itv_of_uitv (nth d (oct_to_box (N:=N) (U:=exact_num) algo a) (MInf, PInf)).
(** the table of functions; is_bottom caches the closure in its argument: see [oct_mt] and [oct_asssub_texpr_array] *)
Definition oct_gdom (algo : Z) (tmp : hmat) : gdom :=
  mkGdom oct oint (fun a => odim a - oint a) (oct_is_bottom (N:=N) algo)
    (fun a pos k => (match pos with [] => a | _ => oct_add_dimensions a pos k false end, false))
    (fun a perm => (oct_permute_dimensions a perm, false))
    (fun a pos k => (match pos with [] => a | _ => oct_remove_dimensions (N:=N) algo a pos k end, false))
    (fun a b => (oct_meet a b, false))
    (fun a l => Some (fst (oct_meet_lincons_array (N:=N) algo tmp a l), false)).
Definition oct_sat_tcons (eq0 : bool) (algo : Z) (tmp : hmat) (a : oct) (c : tcons) : option bool :=
  generic_sat_tcons (N:=exact_num) (F:=F) eq0 false (oint a) (oct_is_bottom (N:=N) algo a) (oct_box algo (cached (N:=N) algo a)) (oct_sat_lincons (N:=N) algo tmp (cached (N:=N) algo a)) c.
Definition oct_bound_texpr (eq0 : bool) (algo : Z) (tmp : hmat) (a : oct) (e : texpr) : option itv :=
  generic_bound_texpr (N:=exact_num) (F:=F) eq0 false (oint a) (oct_is_bottom (N:=N) algo a) (oct_box algo (cached (N:=N) algo a))
    (fun l => itv_of_uitv (oct_bound_linexpr (N:=N) (U:=exact_num) algo tmp (cached (N:=N) algo a) l)) e.
Definition oct_mt (eq0 : bool) (tch : nat -> bool * bool) (algo : Z) (tmp : hmat) (a : oct) (l : list tcons) : option (oct * bool) :=
  generic_meet_tcons (N:=exact_num) (F:=F) eq0 (oint a) (odim a) TIntlinear tch (oct_is_bottom (N:=N) algo a) (oct_box algo (cached (N:=N) algo a))
    (fun a l => Some (fst (oct_meet_lincons_array (N:=N) algo tmp a l), false)) (cached (N:=N) algo a) l.
Definition oct_meet_tcons_array (eq0 : bool) (tch : nat -> bool * bool) (algo : Z) (tmp : hmat) (a : oct) (l : list tcons) : option oct := option_map fst (oct_mt eq0 tch algo tmp a l).
Definition oct_asssub_texpr_array (eq0 : bool) (tch : nat -> bool * bool) (assign : bool) (algo : Z) (tmp : hmat) (a : oct) (l : list (nat * texpr)) (dest : option oct) : option oct :=
  option_map fst (asssub_texpr_array (oct_gdom algo tmp) (oct_mt eq0 tch algo tmp) assign (cached (N:=N) algo a) l dest).
End Model.

(** ** The table is sound *)
Lemma in_uitv : forall r u, in_u r u <-> in_itv r (itv_of_uitv u).
Proof. intros r [[|p|] u]; unfold in_u, in_itv, itv_of_uitv; simpl; try rewrite Q2R_opp; intuition lra. Qed.
Lemma oct_gsound : forall N algo tmp, gsound (oct_gdom N algo tmp) wfo gamo (fun _ => True).
Proof.
  intros N algo tmp. constructor; cbn [oct_gdom gd gd_int gd_real gd_is_bottom gd_add gd_permute gd_remove gd_meet gd_meet_lincons fst snd].
  - intros a v w H G. apply (gamo_loc a v); auto. intros x L. symmetry. apply H. lia.
  - intros a W B v G. exact (OctFacts.is_bottom_sound (N:=N) algo a v W B G).
  - intros a pos k W A. pose proof (wfo_int _ W) as WI. destruct A as (A & L & _). replace (oint a + (odim a - oint a)) with (odim a) in * by lia. destruct pos as [|p pos].
    + split; auto. simpl in L. split. lia. split. simpl; lia. intros w G. apply (gamo_loc a (fun x => w (ApCoreDim.shift [] x))); auto. intros x _. unfold ApCoreDim.shift, cle; simpl. f_equal; lia.
    + assert (DO : dimchange_add_ok (odim a) (p :: pos)). { destruct A. split; auto. discriminate. } destruct (add_dimensions_dim a (p :: pos) k false) as (D1 & D2). rewrite D1, D2. split. apply add_dimensions_wfo; auto. split; auto. split. lia.
      intros w G. apply (proj2 (C30_add_dimensions_exact a (p :: pos) k false W DO) w). split. exact G. discriminate.
  - intros a perm W P. pose proof (wfo_int _ W) as WI. replace (oint a + (odim a - oint a)) with (odim a) in * by lia. destruct (permute_dimensions_dim a perm) as (D1 & D2). rewrite D1, D2. split. apply permute_dimensions_wfo; auto. split; auto. split; auto. destruct P as (P1 & P2 & P3).
    intros v w H G. apply (proj2 (C30_permute_dimensions_exact a perm W P1 P2 P3) (fun x => w (nth x perm 0)) w (fun x => eq_refl)). apply (gamo_loc a v); auto. intros x L. symmetry. apply H; auto.
  - intros a pos k W A. pose proof (wfo_int _ W) as WI. destruct A as (A & L & L2 & L3 & _). replace (oint a + (odim a - oint a)) with (odim a) in * by lia. destruct pos as [|p pos].
    + split; auto. simpl in L. split. lia. split. simpl; lia. intros v w G Hv. apply (gamo_loc a v); auto. intros x LX. specialize (Hv x LX (fun F => F)). unfold clt in Hv; simpl in Hv. rewrite Nat.sub_0_r in Hv. auto.
    + assert (DO : dimchange_rem_ok (odim a) (p :: pos)). { destruct A. split; auto. discriminate. } destruct (remove_dimensions_dim (N:=N) algo a (p :: pos) k) as (D1 & D2). rewrite D1, D2. split. apply remove_wfo; auto; lia. split; auto. split. lia.
      intros v w G Hv. apply (proj2 (C30_remove_dimensions_sound N algo a (p :: pos) k W DO) v w); auto.
  - intros a b Wa Wb A B. pose proof (wfo_int _ Wa). pose proof (wfo_int _ Wb). assert (SD : odim a = odim b) by lia. destruct (OctFacts.meet_dim a b) as (D1 & D2). rewrite D1, D2. split. apply exo_wf; apply meet_wfo; auto. split; auto. split; auto.
    intros v G1 G2. apply (C27_meet_exact a b Wa Wb SD v). auto.
  - intros a l r x W FA H. pose proof (wfo_int _ W) as WI. replace (oint a + (odim a - oint a)) with (odim a) in * by lia. injection H as <- <-.
    assert (CO : forall c, In c l -> wf_linexpr (odim a) (lc_expr c)). { intros c C. rewrite Forall_forall in FA. destruct (FA c C) as (_ & _ & X & _). exact X. }
    destruct (meet_lincons_dim (N:=N) algo tmp a l) as (D1 & D2). rewrite D1, D2. split. apply meet_lincons_wfo; auto. split; auto. split; auto.
    intros v IV G ST. rewrite Forall_forall in *. apply C31_meet_lincons_sound; auto. intros c C T. destruct (FA c C) as (_ & T' & _). congruence.
  - auto.
Qed.

(** ** Constraints *)
Section Shape.
Context (F : fmts).
Local Notation E := exact_num.
(** the linear constraint is strict only if the constraint is *)
Lemma loop_typ : forall eq0 env intdim l t k, intlin_tcons_loop (N:=E) (F:=F) eq0 env intdim l = Some t -> In k t -> exists c, In c l /\ ic_typ k = tc_typ c.
Proof.
  intros eq0 env intdim. induction l as [|c l IH]; intros t k H I; cbn [intlin_tcons_loop] in H. inversion H; subst. destruct I.
  destruct (intlin_rec eq0 env intdim (tc_expr c)) as [[t0 l0] i0]. destruct (_ || _); [discriminate|]. destruct (intlin_tcons_loop eq0 env intdim l) as [r|] eqn:R; [|discriminate]. inversion H; subst. destruct I as [<-|I].
  exists c. split; simpl; auto. destruct (IH r k eq_refl I) as (c' & A & B). exists c'. split; simpl; auto.
Qed.
Lemma rows_typ : forall tch env ds r k, all_rows tch env ds = Some r -> In k r -> ic_typ k <> CSup.
Proof.
  intros tch env. induction ds as [|d ds IH]; intros r k H I; cbn [all_rows] in H. inversion H; subst. destruct I.
  destruct (rows_of tch env d) as [a|] eqn:A; [|discriminate]. destruct (all_rows tch env ds) as [b|]; [|discriminate]. inversion H; subst. apply in_app_or in I. destruct I as [I|I]; [|eapply IH; eauto].
  unfold rows_of in A. destruct (tch d) as [ci cs]. destruct ((ci || cs) && itv_is_point (env d)). inversion A; subst. destruct I as [<-|[]]. discriminate.
  destruct ci, cs, (inf (env d)), (sup (env d)); try discriminate; inversion A; subst; cbn [app In] in I; intuition (subst; discriminate).
Qed.
Lemma array_typ : forall eq0 env intdim n boxize kmax ionly tch l t, ap_intlinearize_tcons0_array (N:=E) (F:=F) eq0 env intdim n TIntlinear true boxize kmax ionly tch l = Some t ->
  forall k, In k t -> lc_typ k = CSup -> exists c, In c l /\ tc_typ c = CSup.
Proof.
  intros eq0 env intdim n boxize kmax ionly tch l t H k I T. unfold ap_intlinearize_tcons0_array in H.
  match type of H with option_map _ ?x = _ => destruct x as [t1|] eqn:H1; [|discriminate] end. injection H as <-. apply in_map_iff in I. destruct I as (k0 & <- & I). change (ic_typ k0 = CSup) in T.
  assert (A : In k0 (fst (intlin_tcons_array (N:=E) (F:=F) eq0 env intdim l)) -> exists c, In c l /\ tc_typ c = CSup).
  { unfold intlin_tcons_array. destruct (intlin_tcons_loop eq0 env intdim l) as [r|] eqn:R; cbn [fst]; intros J. destruct (loop_typ _ _ _ _ _ _ R J) as (c & C1 & C2). exists c. split; auto. congruence. destruct J as [<-|[]]. discriminate. }
  set (t0 := fst (intlin_tcons_array eq0 env intdim l)) in *. clearbody t0. destruct (single_cst t0). inversion H1; subst; auto.
  destruct (if true && boxize && _ then _ else _) as [[env' change] empty]. destruct (single_false t0). inversion H1; subst; auto. destruct change; [|inversion H1; subst; auto]. destruct empty. inversion H1; subst. destruct I as [<-|[]]. discriminate.
  destruct (all_rows tch env' (seq 0 n)) as [r|] eqn:AR; [|discriminate]. inversion H1; subst. apply in_app_or in I. destruct I as [I|I]; auto. destruct (rows_typ _ _ _ _ _ AR I T).
Qed.
(** the form of a single constraint *)
Lemma form_shape : forall n l, sdims (il_terms l) -> (forall t, In t (il_terms l) -> t_dim t < n) -> forall ty m, lcd n (mkCons ty (linexpr_of_ilin l) m) /\ ordered (linexpr_of_ilin l).
Proof.
  intros n l SD DI ty m. split.
  - split; cbn [lc_expr linexpr_of_ilin le_terms]. exists (map (fun t => (Some (t_dim t), coeff_of_itv (t_itv t))) (il_terms l)), []. rewrite app_nil_r. split; auto. split; auto. rewrite Forall_map. apply Forall_forall. simpl. discriminate.
    rewrite terms_of_dims. split. apply sorted_nodup; auto. intros d I. apply in_map_iff in I. destruct I as (t & <- & T). auto.
  - unfold ordered. cbn [linexpr_of_ilin le_terms]. rewrite terms_of_dims. exact SD.
Qed.
Lemma val_wf : forall n e v r, lcd n (mkCons CEq e None) -> expr_val e v r -> wf_linexpr n e.
Proof.
  intros n e v r L V. destruct (Req_dec r 0) as [Z|Z].
  - apply (sat_wf n (mkCons CEq e None) v L). exists r. split; auto.
  - apply (sat_wf n (mkCons CDisEq e None) v L). exists r. split; auto.
Qed.
Lemma rec_dims : forall eq0 env intdim n e, (forall d, occurs d e -> d < n) -> forall t, In t (il_terms (snd (fst (intlin_rec (N:=E) (F:=F) eq0 env intdim e)))) -> t_dim t < n.
Proof. intros eq0 env intdim n e D t T. destruct (rec_wfd (F:=F) eq0 env intdim n e CEq 0%Q D) as ((_ & W) & _). cbn [ic_expr] in W. rewrite Forall_forall in W. apply W; auto. Qed.
Lemma any_shape : forall eq0 env intdim n e x, no_pow e -> (forall d, occurs d e -> d < n) -> ap_intlinearize_texpr0 (N:=E) (F:=F) eq0 env intdim false e = Some x -> lcd n (mkCons CEq x None) /\ ordered x.
Proof.
  intros eq0 env intdim n e x NP D H. unfold ap_intlinearize_texpr0, intlin_any in H. cbn [andb] in H. destruct (is_interval_linear e) eqn:IL.
  - destruct (intlinear_sound (N:=E) (F:=F) eq0 e IL (no_pow_eval _ _ _ _ NP)) as (l & EL & _ & DI & _). rewrite EL in H. inversion H; subst x. apply form_shape. eapply intlinear_sorted; eauto. intros t T. unfold dims_in in DI. rewrite Forall_forall in DI. apply D. apply DI; auto.
  - inversion H; subst x. pose proof (rec_dims eq0 env intdim n e D) as RD. pose proof (intlin_rec_sorted (N:=E) (F:=F) eq0 env intdim e) as RS. unfold intlin_form. destruct (intlin_rec eq0 env intdim e) as [[t l] i]. cbn [fst snd] in *.
    destruct (negb _ && negb _); [|apply form_shape; auto]. destruct (il_terms l) eqn:TL; [|apply form_shape; rewrite TL; auto]. apply form_shape; simpl. constructor. intros ? [].
Qed.
Lemma tcons0_shape : forall eq0 env intdim n c k, no_pow (tc_expr c) -> (forall d, occurs d (tc_expr c) -> d < n) -> ap_intlinearize_tcons0 (N:=E) (F:=F) eq0 env intdim false false c = Some k ->
  lcd n k /\ ordered (lc_expr k) /\ (lc_typ k = tc_typ c \/ lc_typ k = CEq).
Proof.
  intros eq0 env intdim n c k NP D H. unfold ap_intlinearize_tcons0 in H. cbn [andb option_map] in H. injection H as <-.
  assert (G : forall j, sdims (il_terms (ic_expr j)) -> (forall t, In t (il_terms (ic_expr j)) -> t_dim t < n) -> lcd n (lincons_of_icons j) /\ ordered (lc_expr (lincons_of_icons j))).
  { intros j S T. destruct (form_shape n (ic_expr j) S T CEq None) as (A & B). split; auto. }
  destruct (is_interval_linear (tc_expr c)) eqn:IL.
  - unfold intlinear_tcons. destruct (intlinear_sound (N:=E) (F:=F) eq0 (tc_expr c) IL (no_pow_eval _ _ _ _ NP)) as (l & EL & _ & DI & _). rewrite EL. cbn [fst]. destruct (G (mkIC l (tc_typ c) (mod_num (N:=E) (tc_mod c)))) as (A & B). cbn [ic_expr]. eapply intlinear_sorted; eauto. intros t T. unfold dims_in in DI. rewrite Forall_forall in DI. apply D. apply DI; auto.
    split; [exact A|]. split; [exact B|]. left; reflexivity.
  - unfold intlin_tcons. pose proof (rec_dims eq0 env intdim n (tc_expr c) D) as RD. pose proof (intlin_rec_sorted (N:=E) (F:=F) eq0 env intdim (tc_expr c)) as RS. destruct (intlin_rec eq0 env intdim (tc_expr c)) as [[t l] i]. cbn [fst snd] in *.
    destruct (negb _ && negb _); cbn [fst].
    + match goal with |- lcd n (lincons_of_icons ?j) /\ _ => destruct (G j) as (A & B) end; cbn [ic_expr]. destruct (il_terms l) eqn:TL; [constructor|rewrite TL; exact RS]. destruct (il_terms l) eqn:TL; [intros ? []|rewrite TL; exact RD].
      split; [exact A|]. split; [exact B|]. left; reflexivity.
    + match goal with |- lcd n (lincons_of_icons ?j) /\ _ => destruct (G j) as (A & B) end; cbn [ic_expr icons_bool il_terms]. constructor. intros ? []. split; [exact A|]. split; [exact B|]. right; reflexivity.
Qed.
End Shape.

(** ** The meet adds no point *)
Section Below.
Context {N : numtype}.
Lemma other_half_mle : forall n s lo hi b, mle (other_half (N:=N) n s lo hi b) b.
Proof.
  intros n s lo hi b. unfold other_half. destruct (binfty (s_b s)). apply mle_refl. destruct (s_inf s) as [|[|[|k]]].
  - apply (for_inv (fun x => mle x b)). apply mle_refl. intros j x _ M. destruct (half_sel x lo hi j) as [[mj uj]|]; auto. apply (for_inv (fun x => mle x b)); auto. intros k y _ M'. destruct (half_sel y lo hi k) as [[mk uk]|]; auto. eapply mle_trans; [apply mmin_mle|auto].
  - destruct (half_unit lo hi (s_1 s)); [|apply mle_refl]. apply (for_inv (fun x => mle x b)). apply mle_refl. intros j x _ M. destruct (Nat.eqb j (s_1 s)); auto. destruct (half_sel x lo hi j) as [[mj uj]|]; auto. eapply mle_trans; [apply mmin_mle|auto].
  - destruct (half_unit lo hi (s_1 s)), (half_unit lo hi (s_2 s)); try apply mle_refl. apply mmin_mle.
  - apply mle_refl.
Qed.
Lemma add1_below : forall intdim n c g g' v, (g_pend g = true -> g_var g < n) -> add_lincons1 (N:=N) intdim n c g = Some g' -> gam n (g_m g') v -> gam n (g_m g) v.
Proof.
  intros intdim n c g g' v HV H G. unfold add_lincons1 in H.
  assert (MM : forall m p b, gam n (mmin m p b) v -> gam n m v) by (intros m p b X; eapply OctSubst.gam_le; [apply mmin_mle|exact X]).
  destruct (lc_typ c) eqn:T; try (injection H as <-; exact G);
  destruct (uexpr_of_linexpr (g_tmp g) (lc_expr c) intdim n) as [tmp u]; cbv zeta in H; destruct (u_int u && _); destruct (u_type u); try (injection H as <-; exact G);
  try (match type of H with (if ?b then _ else _) = _ => destruct b; [injection H as <-; exact G|discriminate] end);
  try (match type of H with match pend_close n ?k g with _ => _ end = _ => destruct (pend_close n k g) as [m|] eqn:PC; [|discriminate] end; injection H as <-; cbn [g_m] in G; repeat apply MM in G; eapply pend_back; eauto; fail);
  (match type of H with (let '(_, _) := ?x in _) = _ => destruct x as [[t1 s1] s2] end; injection H as <-; cbn [g_m] in G; eapply OctSubst.gam_le; [|exact G]; first [eapply mle_trans; [apply other_half_mle|apply other_half_mle]|apply other_half_mle]).
Qed.
Lemma loop_below : forall intdim n ar g g' v, (forall c, In c ar -> wf_linexpr n (lc_expr c)) -> ginv n g -> add_lincons_loop (N:=N) intdim n ar g = Some g' -> gam n (g_m g') v -> gam n (g_m g) v.
Proof.
  intros intdim n. induction ar as [|c ar IH]; intros g g' v W GI H G; cbn [add_lincons_loop] in H. injection H as <-; auto.
  destruct (add_lincons1 (N:=N) intdim n c g) as [g1|] eqn:A; [|discriminate]. eapply add1_below; [apply GI|exact A|]. eapply IH; eauto. intros; apply W; simpl; auto. eapply (add1_wf (N:=N) intdim n c g); eauto. apply W; simpl; auto.
Qed.
Lemma meet_below : forall algo tmp a ar v, wfo a -> (forall c, In c ar -> wf_linexpr (odim a) (lc_expr c)) -> gamo (fst (oct_meet_lincons_array (N:=N) algo tmp a ar)) v -> gamo a v.
Proof.
  intros algo tmp a ar v W WL G. rewrite (gamo_best a v W). unfold oct_meet_lincons_array in G. destruct (best a) as [b|] eqn:B; [|apply gamo_none in G; tauto].
  pose proof (best_wf a b W B) as WB. destruct (hmat_add_lincons tmp b (oint a) (odim a) ar _) as [[[m x] r]|] eqn:H; [|apply gamo_none in G; tauto].
  assert (Gm : gam (odim a) m v) by (destruct r; [apply gamo_single_c in G|apply gamo_single_m in G]; auto). clear G. unfold hmat_add_lincons in H.
  destruct (add_lincons_loop (oint a) (odim a) ar _) as [g'|] eqn:L; [|discriminate]. assert (GI : ginv (odim a) (mkG b tmp true (is_some (ocl a) && (0 <=? algo)%Z) false 0)) by (split; [discriminate|auto]).
  destruct (pend_close (N:=N) (odim a) false g') as [m'|] eqn:P; [|discriminate]. injection H as -> _ _. refine (loop_below _ _ _ _ _ v WL GI L _). eapply pend_back; eauto. apply (loop_wf (N:=N) _ _ _ _ _ WL GI L).
Qed.
End Below.

(** ** The functions of octagons *)
Lemma oct_box_in : forall N algo a v d, wfo a -> gamo a v -> d < odim a -> in_itv (v d) (oct_box N algo a d).
Proof. intros N algo a v d W G D. unfold oct_box. apply in_uitv. apply C36_to_box_sound; auto. Qed.
Section Facts.
Context (N : numtype) (F : fmts) (eq0 : bool) (algo : Z) (tmp : hmat).
Lemma sat_tcons_sound : forall a c, wfo a -> no_pow (tc_expr c) -> (forall d, occurs d (tc_expr c) -> d < odim a) -> tmod_ok (N:=exact_num) c -> tc_typ c <> CDisEq ->
  oct_sat_tcons N (F:=F) eq0 algo tmp a c = Some true -> forall v, ipoint (oint a) v -> gamo a v -> forall r, xval F v (tc_expr c) r -> sat_typ (tc_typ c) (tc_mod c) r.
Proof.
  intros a c W NP D M ND H v IV G r XV. unfold oct_sat_tcons, generic_sat_tcons in H. destruct (oct_is_bottom (N:=N) algo a) eqn:B. destruct (OctFacts.is_bottom_sound (N:=N) algo a v W B G).
  pose proof (cached_wfo (N:=N) algo a W) as CW. assert (CG : gamo (cached (N:=N) algo a) v) by (apply cached_gamo; auto). destruct (cached_dim (N:=N) algo a) as (CD & CI). set (b := cached (N:=N) algo a) in *. clearbody b.
  destruct (ap_intlinearize_tcons0 eq0 (oct_box N algo b) (oint a) false false c) as [k|] eqn:K; [|discriminate]. injection H as H.
  destruct (tcons0_shape F eq0 _ _ (odim a) c k NP D K) as (L & O & T). eapply C12_tcons_test; [exact NP|exact M| |exact K| |exact XV].
  - intros d OC. split. apply oct_box_in; auto. rewrite CD; auto. apply IV.
  - intros x EV. apply orb_prop in H. destruct H as [H|H].
    + apply (C46_is_sat_partial k) with (v := v); auto. apply L. intros Y. destruct T as [T|T]; congruence.
    + assert (WL : wf_linexpr (odim b) (lc_expr k)). { rewrite CD. apply (val_wf (odim a) (lc_expr k) v x); auto. }
      apply (proj1 (C34_sat_bound_linexpr_sound N exact_num algo tmp b k (lc_expr k) CW WL O WL) H v x); auto.
Qed.
Lemma bound_texpr_sound : forall a e v r, wfo a -> no_pow e -> (forall d, occurs d e -> d < odim a) -> ipoint (oint a) v -> gamo a v -> xval F v e r ->
  exists b, oct_bound_texpr N (F:=F) eq0 algo tmp a e = Some b /\ in_itv r b.
Proof.
  intros a e v r W NP D IV G XV. unfold oct_bound_texpr, generic_bound_texpr. destruct (oct_is_bottom (N:=N) algo a) eqn:B. destruct (OctFacts.is_bottom_sound (N:=N) algo a v W B G).
  pose proof (cached_wfo (N:=N) algo a W) as CW. assert (CG : gamo (cached (N:=N) algo a) v) by (apply cached_gamo; auto). destruct (cached_dim (N:=N) algo a) as (CD & CI). set (b := cached (N:=N) algo a) in *. clearbody b.
  destruct (C12_texpr0 exact_num F eq0 (oct_box N algo b) (oint a) false v e r NP) as (x & K & EV & _); auto.
  { intros d OC. split. apply oct_box_in; auto. rewrite CD; auto. apply IV. }
  rewrite K. cbn [option_map]. eexists. split; [reflexivity|]. destruct (any_shape F eq0 _ _ (odim a) e x NP D K) as (L & O). apply in_uitv.
  assert (WL : wf_linexpr (odim b) x). { rewrite CD. apply (val_wf (odim a) x v r); auto. }
  apply (proj2 (C34_sat_bound_linexpr_sound N exact_num algo tmp b (mkCons CEq x None) x CW WL O WL) v r); auto.
Qed.
Lemma mt_dims : forall tch a l r x, wfo a -> oct_mt N (F:=F) eq0 tch algo tmp a l = Some (r, x) -> odim r = odim a /\ oint r = oint a.
Proof.
  intros tch a l r x W H. unfold oct_mt, generic_meet_tcons in H. destruct (cached_dim (N:=N) algo a) as (CD & CI). destruct (_ || _). inversion H; subst; auto.
  destruct (ap_intlinearize_tcons0_array _ _ _ _ _ _ _ _ _ _ _) as [t|]; [|discriminate]. injection H as <- _. destruct (meet_lincons_dim (N:=N) algo tmp (cached (N:=N) algo a) t) as (A & B). split; congruence.
Qed.
Lemma mt_sound : forall tch a l r x, wfo a -> Forall (fun c => tmod_ok (N:=exact_num) c /\ no_pow (tc_expr c) /\ (forall d, occurs d (tc_expr c) -> d < odim a) /\ (tc_typ c = CSup -> N = exact_num)) l ->
  oct_mt N (F:=F) eq0 tch algo tmp a l = Some (r, x) -> forall v, ipoint (oint a) v -> gamo a v -> Forall (fun c => sat_tcons F c v) l -> wfo r /\ gamo r v /\ forall w, gamo r w -> gamo a w.
Proof.
  intros tch a l r x W OK H v IV G ST. unfold oct_mt, generic_meet_tcons in H.
  pose proof (cached_wfo (N:=N) algo a W) as CW. assert (CG : gamo (cached (N:=N) algo a) v) by (apply cached_gamo; auto). destruct (cached_dim (N:=N) algo a) as (CD & CI). set (b := cached (N:=N) algo a) in *. 
  assert (BB : forall w, gamo b w -> gamo a w). { intros w X. unfold b in X. apply cached_gamo in X; auto. } clearbody b. destruct (_ || _). inversion H; subst; auto. pose proof (wfo_int _ W) as WI.
  destruct (ap_intlinearize_tcons0_array _ _ _ _ _ _ _ _ _ _ _) as [t|] eqn:EL; [|discriminate]. injection H as <- _.
  assert (SC : Forall (fun c => sat_cons c v) t).
  { eapply (ap_tcons_array_meet exact_num F); [left; reflexivity|exact WI| | |exact IV|exact ST|exact EL].
    eapply Forall_impl; [|exact OK]. simpl. intros c (A & B & C & _). split; auto. split; auto. apply no_pow_lin; auto.
    intros d D. apply oct_box_in; auto. rewrite CD; auto. }
  assert (SH : Forall (lcd (odim a)) t). { eapply (tcons_array_shape (F:=F)); [|exact EL]. eapply Forall_impl; [|exact OK]. simpl. tauto. }
  assert (WL : forall c, In c t -> wf_linexpr (odim b) (lc_expr c)). { intros c C. rewrite Forall_forall in SC, SH. rewrite CD. apply (sat_wf _ _ v); auto. }
  split. apply meet_lincons_wfo; auto. split; [|intros w X; apply BB; exact (meet_below algo tmp b t w CW WL X)]. rewrite Forall_forall in SC. apply C31_meet_lincons_sound; auto.
  intros c C T. destruct (array_typ F _ _ _ _ _ _ _ _ _ _ EL c C T) as (c0 & C0 & T0). rewrite Forall_forall in OK. destruct (OK c0 C0) as (_ & _ & _ & X). split. intros d L. apply IV. rewrite CI in L; auto. rewrite (X T0). apply repr_E.
Qed.
End Facts.

Lemma oct_tsound : forall N (F : fmts) eq0 tch algo tmp, tsound F (oct_gdom N algo tmp) wfo gamo (fun _ e => no_pow e) (oct_mt N (F:=F) eq0 tch algo tmp).
Proof.
  intros N F eq0 tch algo tmp. constructor.
  - intros a l r x W OK H. cbn [gd gd_int gd_real oct_gdom] in *. pose proof (wfo_int _ W) as WI. replace (oint a + (odim a - oint a)) with (odim a) in * by lia. destruct (mt_dims N F eq0 algo tmp tch a l r x W H) as (D1 & D2). rewrite D1, D2. split; auto. split; auto.
    intros v IV G ST. destruct (mt_sound N F eq0 algo tmp tch a l r x) with (v := v) as (Q1 & Q2 & _); auto. eapply Forall_impl; [|exact OK]. simpl. intros c (C1 & C2 & C3 & C4). split. intros C5. congruence. split; auto. split; auto. congruence.
  - intros n e pos d H _ _. simpl. split. apply PkTree.no_pow_add; auto. split; auto. discriminate.
Qed.
Lemma oct_asssub_sound : forall N (F : fmts) eq0 tch assign algo tmp a l dest r v w, wfo a -> NoDup (map fst l) -> (forall d e, In (d, e) l -> d < odim a /\ no_pow e /\ forall k, occurs k e -> k < odim a) ->
  (forall b, dest = Some b -> wfo b /\ odim b = odim a /\ oint b = oint a) -> oct_asssub_texpr_array N (F:=F) eq0 tch assign algo tmp a l dest = Some r ->
  ipoint (oint a) v -> ipoint (oint a) w -> tupdated F (odim a) l v w -> gamo a (if assign then v else w) -> (forall b, dest = Some b -> gamo b (if assign then w else v)) ->
  wfo r /\ odim r = odim a /\ oint r = oint a /\ gamo r (if assign then w else v).
Proof.
  intros N F eq0 tch assign algo tmp a l dest r v w W ND OK DO H IV IW U G GD. unfold oct_asssub_texpr_array in H.
  destruct (asssub_texpr_array (oct_gdom N algo tmp) (oct_mt N eq0 tch algo tmp) assign (cached algo a) l dest) as [[r' x]|] eqn:E; [|discriminate]. injection H as <-.
  pose proof (cached_wfo (N:=N) algo a W) as CW. assert (CG : gamo (cached (N:=N) algo a) (if assign then v else w)) by (apply cached_gamo; auto). destruct (cached_dim (N:=N) algo a) as (CD & CI). set (b := cached (N:=N) algo a) in *. clearbody b. pose proof (wfo_int _ CW) as WI.
  assert (S : oint b + (odim b - oint b) = odim a) by lia.
  destruct (GenericTree.asssub_sound F (oct_gdom N algo tmp) wfo gamo (fun _ => True) (fun _ e => no_pow e) (oct_gsound N algo tmp) (oct_mt N eq0 tch algo tmp) (oct_tsound N F eq0 tch algo tmp) b l dest CW ND) with (assign := assign) (r := r') (x := x) (v := v) (w := w) as (R1 & R2 & R3 & R4); cbn [gd gd_int gd_real oct_gdom]; try rewrite S; try rewrite CI; auto.
  - intros d D. apply in_map_iff in D. destruct D as ([d' e] & <- & I). exact (proj1 (OK _ _ I)).
  - intros d e I. exact (proj2 (OK _ _ I)).
  - intros c C. destruct (DO c C) as (A & B & D). split; auto. split; congruence.
  - cbn [gd gd_int gd_real oct_gdom] in *. pose proof (wfo_int _ R1). split; auto. split. lia. split; auto. congruence.
Qed.

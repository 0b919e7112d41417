(** Generic operations on expression trees: /repo/apron/ap_generic.c 30-90 (test and bound), 183-214
    (meet), 382-510 (parallel assignment and substitution).  Simplified: as in Generic.v, the flag
    "best" and the ownership of the arguments are not modelled; of the result of the linearisation
    only the constraint is kept, not whether it is exact. *)
From Coq Require Import Arith ZArith QArith Qreals Reals Lra Lia Bool List Sorted Permutation.
From Verif Require Import Bound BoundFacts Itv ItvFacts Linexpr LinexprFacts OctResize2 OctResize3 BoxDims ItvLin ItvLinFacts ItvLinCons ApCore ApCoreFacts ApCoreDim PropApCore ApCheck ApTexpr TexprSem PropTexpr ItvTree ItvTreeApi ItvTreeApiFacts Generic GenericFacts.
Import ListNotations.
Open Scope nat_scope.
#[local] Arguments Nat.leb : simpl never.
#[local] Arguments Nat.ltb : simpl never.
#[local] Arguments Nat.eqb : simpl never.
#[local] Arguments Nat.sub : simpl never.

(** ** The model *)
(** ap_generic_sat_tcons, 30-58, without quasilinearisation as the domains call it; [box] is the
    box of the value (ap_intlinearize_tcons0 asks for it), [None]: abort *)
Definition generic_sat_tcons {N : numtype} {F : fmts} (eq0 quasi : bool) (intdim : nat) (is_bottom : bool) (box : nat -> itv) (sat_lincons : lincons -> bool) (c : tcons) : option bool :=
  if is_bottom then Some true
  else match ap_intlinearize_tcons0 (N:=N) (F:=F) eq0 box intdim quasi false c with
       | None => None
       | Some k => Some (lincons_is_sat k || sat_lincons k)
       end.
(** ap_generic_bound_texpr, 65-90 *)
Definition generic_bound_texpr {N : numtype} {F : fmts} (eq0 quasi : bool) (intdim : nat) (is_bottom : bool) (box : nat -> itv) (bound_linexpr : linexpr -> itv) (e : texpr) : option itv :=
  if is_bottom then Some itv_bottom
  else option_map bound_linexpr (ap_intlinearize_texpr0 (N:=N) (F:=F) eq0 box intdim quasi e).
(** ap_generic_meet_intlinearize_tcons_array, 183-214 *)
Definition generic_meet_tcons {N : numtype} {F : fmts} {D : Type} (eq0 : bool) (intdim n : nat) (lt : ltype) (tch : nat -> bool * bool) (is_bottom : bool) (box : nat -> itv)
    (meet_lincons : D -> list lincons -> option (D * bool)) (a : D) (l : list tcons) : option (D * bool) :=
  if is_bottom || is_nil l then Some (a, true)
  else match ap_intlinearize_tcons0_array (N:=N) (F:=F) eq0 box intdim n lt true true 2 false tch l with
       | None => None
       | Some t => meet_lincons a t
       end.
(** step 5 of ap_generic_asssub_texpr_array, 452-467 *)
Definition primed_tcons (ni : nat) (pos perm : list nat) (tdim : list nat) (t : nat * texpr) : tcons :=
  let dim := if Nat.leb ni (fst t) then fst t + count_int ni tdim else fst t in
  let dimp := nth dim perm 0 in
  mkTC CEq (TBin BSub RReal DRnd (texpr_add_dimensions (snd t) pos) (TDim dimp)) None.
(** ap_generic_asssub_texpr_array, 382-510; [mt] is the entry meet_tcons_array of the table *)
Definition asssub_texpr_array (G : gdom) (mt : gd G -> list tcons -> option (gd G * bool)) (assign : bool) (abs : gd G) (asn : list (nat * texpr)) (dest : option (gd G)) : option (gd G * bool) :=
  if gd_is_bottom G abs then Some (abs, true)
  else
    let ni := gd_int G abs in
    let nr := gd_real G abs in
    let tdim := map fst asn in
    let si := count_int ni tdim in
    let pos := primed_positions ni nr tdim in
    let perm := primed_perm ni nr tdim in
    let '(abs2, exact) := gd_add G abs pos si in
    let array := map (primed_tcons ni pos perm tdim) asn in
    let '(abs2, exact) := if assign then (abs2, exact) else let '(a, x) := gd_permute G abs2 perm in (a, exact && x) in
    let '(abs2, exact) :=
      match dest with
      | None => (abs2, exact)
      | Some dest =>
        let '(dest2, x1) := gd_add G dest pos si in
        let '(dest2, x2) := if assign then gd_permute G dest2 perm else (dest2, true) in
        let '(a, x3) := gd_meet G abs2 dest2 in
        (a, exact && x1 && x2 && x3)
      end in
    match mt abs2 array with
    | None => None
    | Some (abs2, x) =>
      let exact := exact && x in
      let '(abs2, exact) := if assign then let '(a, x) := gd_permute G abs2 perm in (a, exact && x) else (abs2, exact) in
      let '(abs2, x) := gd_remove G abs2 (dimchange_add_invert pos) si in
      Some (abs2, exact && x)
    end.

(** ** Assignment and substitution *)
(** [w] is obtained from [v] by the simultaneous assignments [asn] *)
Definition tupdated (F : fmts) (n : nat) (asn : list (nat * texpr)) (v w : nat -> R) : Prop :=
  (forall d e, In (d, e) asn -> xval F v e (w d)) /\ (forall d, d < n -> ~ In d (map fst asn) -> w d = v d).
(** the meet with constraints on trees is sound for the trees [eok]; these are closed under the
    construction of the constraints *)
Record tsound (F : fmts) (G : gdom) (inv : gd G -> Prop) (gam : gd G -> (nat -> R) -> Prop) (eok : nat -> texpr -> Prop) (mt : gd G -> list tcons -> option (gd G * bool)) : Prop := mkTsound {
  ts_cons : forall a l r x, inv a -> Forall (fun c => tc_typ c = CEq /\ tc_mod c = None /\ eok (gd_int G a + gd_real G a) (tc_expr c) /\ forall d, occurs d (tc_expr c) -> d < gd_int G a + gd_real G a) l -> mt a l = Some (r, x) ->
    gd_int G r = gd_int G a /\ gd_real G r = gd_real G a /\ forall v, ipoint (gd_int G a) v -> gam a v -> Forall (fun c => sat_tcons F c v) l -> inv r /\ gam r v;
  ts_shift : forall n e pos d, eok n e -> StronglySorted le pos -> d < n + length pos -> eok (n + length pos) (TBin BSub RReal DRnd (texpr_add_dimensions e pos) (TDim d))
}.
Definition texact (F : fmts) (G : gdom) (inv : gd G -> Prop) (gam : gd G -> (nat -> R) -> Prop) (eok : nat -> texpr -> Prop) (mt : gd G -> list tcons -> option (gd G * bool)) : Prop :=
  forall a l r x, inv a -> Forall (fun c => tc_typ c = CEq /\ tc_mod c = None /\ eok (gd_int G a + gd_real G a) (tc_expr c) /\ forall d, occurs d (tc_expr c) -> d < gd_int G a + gd_real G a) l -> mt a l = Some (r, x) ->
    inv r /\ (x = true -> forall v, gam r v -> gam a v /\ Forall (fun c => sat_tcons F c v) l).
Lemma occurs_add : forall e pos x, occurs x (texpr_add_dimensions e pos) -> exists y, occurs y e /\ x = y + dim_while (length pos) pos y 0.
Proof.
  induction e as [c|d|o t r a IH|o t r a IHa b IHb]; intros pos x H; simpl in H; inversion H; subst.
  - eexists. split. constructor. auto.
  - destruct (IH pos x) as (y & A & B); auto. exists y. split; auto. constructor; auto.
  - destruct (IHa pos x) as (y & A & B); auto. exists y. split; auto. apply oc_l; auto.
  - destruct (IHb pos x) as (y & A & B); auto. exists y. split; auto. apply oc_r; auto.
Qed.

Section Tree.
Variables (F : fmts) (G : gdom) (inv : gd G -> Prop) (gam : gd G -> (nat -> R) -> Prop) (cok : coeff -> Prop).
Variable eok : nat -> texpr -> Prop.
Hypothesis GS : gsound G inv gam cok.
Variable mt : gd G -> list tcons -> option (gd G * bool).
Hypothesis TS : tsound F G inv gam eok mt.
Variables (abs : gd G) (asn : list (nat * texpr)) (dest : option (gd G)).
Let ni := gd_int G abs.
Let nr := gd_real G abs.
Let n := ni + nr.
Let tdim := map fst asn.
Let si := count_int ni tdim.
Let pos := primed_positions ni nr tdim.
Let perm := primed_perm ni nr tdim.
Let ivt := dimchange_add_invert pos.
Let n' := n + length tdim.
Let cs := map (primed_tcons ni pos perm tdim) asn.
Hypothesis IA : inv abs.
Hypothesis ND : NoDup tdim.
Hypothesis RG : forall d, In d tdim -> d < n.
Hypothesis EO : forall d e, In (d, e) asn -> eok n e /\ forall x, occurs x e -> x < n.
Hypothesis DO : forall b, dest = Some b -> inv b /\ gd_int G b = ni /\ gd_real G b = nr.

Lemma count_split : forall l, count_int ni l <= length l. Proof. intro l. unfold count_int. induction l as [|d l IH]; simpl; auto. destruct (Nat.ltb d ni); simpl; lia. Qed.
Lemma a_contract : add_contract ni nr pos si.
Proof.
  split. apply pos_ok. pose proof (pos_length ni nr tdim) as PL. fold pos in PL. split. rewrite PL. apply count_split. unfold pos, primed_positions. fold si. split.
  - intros t T. rewrite app_nth1 by (rewrite repeat_length; auto). pose proof (nth_In (repeat ni si) 0 (ltac:(rewrite repeat_length; auto) : t < length (repeat ni si))) as X. apply repeat_spec in X. lia.
  - intros t [T1 T]. assert (X : In (nth t (repeat ni si ++ repeat (ni + nr) (length tdim - si)) 0) (repeat ni si ++ repeat (ni + nr) (length tdim - si))) by (apply nth_In; exact T).
    apply in_app_or in X. destruct X as [X|X]; apply repeat_spec in X; lia.
Qed.
Lemma tdim_int_real : si <= length tdim. Proof. apply count_split. Qed.
Lemma r_contract : rem_contract (ni + si) (nr + (length tdim - si)) ivt si.
Proof.
  pose proof tdim_int_real as L. assert (IL : length ivt = length tdim) by apply inv_length. pose proof (inv_ok ni nr tdim) as [IS IR]. fold pos ivt in IS, IR.
  split. { split; auto. intros p P. apply IR in P. lia. } rewrite IL. split; auto. split; [lia|]. split; [lia|].
  assert (E : ivt = seq ni si ++ seq (n + si) (length tdim - si)) by apply inv_eq. rewrite E. split.
  - intros t T. rewrite app_nth1 by (rewrite seq_length; auto). rewrite seq_nth; lia.
  - intros t T. rewrite app_nth2 by (rewrite seq_length; lia). rewrite seq_length, seq_nth by lia. unfold n. lia.
Qed.
Lemma dim_shift : forall d, In d tdim -> (if Nat.leb ni d then d + count_int ni tdim else d) = shift pos d.
Proof. intros d D. unfold pos. rewrite shift_pos; auto. destruct (Nat.leb_spec ni d), (Nat.ltb_spec d ni); auto; lia. Qed.
Lemma cs_ok : Forall (fun c => tc_typ c = CEq /\ tc_mod c = None /\ eok n' (tc_expr c) /\ forall x, occurs x (tc_expr c) -> x < n') cs.
Proof.
  apply Forall_forall. intros c C. apply in_map_iff in C. destruct C as ([d e] & <- & I). destruct (EO d e I) as [E0 EB]. assert (D : In d tdim) by (unfold tdim; apply (in_map fst) in I; auto).
  pose proof (pos_ok ni nr tdim) as PO. pose proof (pos_length ni nr tdim) as PL. fold pos in PO, PL.
  destruct (perm_prime ni nr tdim ND RG d D) as (b & E & B & _). fold pos perm in E, B.
  assert (BL : b < n'). { unfold n'. rewrite <- PL. pose proof (inv_ok ni nr tdim) as [_ IR]. unfold n. rewrite PL. apply IR. exact B. }
  unfold primed_tcons. cbn [tc_typ tc_mod tc_expr fst snd]. rewrite dim_shift, E by auto. split; auto. split; auto. split.
  - unfold n'. rewrite <- PL. apply (ts_shift _ _ _ _ _ _ TS); auto. apply PO. rewrite PL. exact BL.
  - intros x O. inversion O; subst. 2: { inversion H0; subst. exact BL. }
    apply occurs_add in H0. destruct H0 as (y & Y & ->). rewrite dim_while_ok; try lia. 2: apply PO. apply EB in Y. pose proof (shift_lt ni nr tdim y Y) as SL. fold pos in SL. unfold shift in SL. exact SL.
Qed.
Lemma cs_sat : forall V, Forall (fun c => sat_tcons F c V) cs <-> forall d e, In (d, e) asn -> xval F (fun x => V (shift pos x)) e (V (nth (shift pos d) perm 0)).
Proof.
  intro V. unfold cs. rewrite Forall_map, Forall_forall.
  assert (K : forall d e, In (d, e) asn -> (sat_tcons F (primed_tcons ni pos perm tdim (d, e)) V <-> xval F (fun x => V (shift pos x)) e (V (nth (shift pos d) perm 0)))).
  { intros d e I. assert (D : In d tdim) by (unfold tdim; apply (in_map fst) in I; auto). pose proof (pos_ok ni nr tdim) as PO. fold pos in PO.
    unfold sat_tcons, primed_tcons. cbn [tc_typ tc_mod tc_expr fst snd]. rewrite dim_shift by auto. set (q := nth (shift pos d) perm 0).
    assert (A : forall r, xval F V (texpr_add_dimensions e pos) r <-> xval F (fun x => V (shift pos x)) e r). { intro r. apply C42_tree_add. apply PO. intros x _. reflexivity. }
    split.
    - intros (r & X & S). apply xval_bin in X. destruct X as (x & y & X1 & X2 & X3). apply xval_dim in X2. simpl in X3, S. apply A. replace (V q) with x. exact X1. subst y. lra.
    - intros X. exists 0%R. split; [|reflexivity]. apply xval_bin. exists (V q), (V q). split. apply A. exact X. split. apply xval_dim. auto. simpl. lra. }
  split; intros H; [intros d e I; apply K; auto; apply (H (d, e) I) | intros [d e] I; apply K; auto].
Qed.
(** the point over unprimed and primed dimensions *)
Definition big (v w : nat -> R) (y : nat) : R := if in_dec Nat.eq_dec y ivt then w (unshift ni nr tdim (nth y perm 0)) else v (unshift ni nr tdim y).
Lemma big_shift : forall v w x, big v w (shift pos x) = v x.
Proof. intros v w x. unfold big. destruct (in_dec Nat.eq_dec (shift pos x) ivt) as [I|I]. exfalso. revert I. apply (shift_out ni nr tdim). rewrite (unshift_shift ni nr tdim). auto. Qed.
Lemma big_prime : forall v w d, In d tdim -> big v w (nth (shift pos d) perm 0) = w d.
Proof.
  intros v w d D. destruct (perm_prime ni nr tdim ND RG d D) as (b & E & B & E'). fold pos perm in E, E', B. rewrite E. unfold big. destruct (in_dec Nat.eq_dec b ivt) as [I|I]; [|contradiction].
  rewrite E'. rewrite (unshift_shift ni nr tdim). auto.
Qed.
Lemma big_perm : forall v w x, x < n -> tupdated F n asn v w -> big v w (nth (shift pos x) perm 0) = w x.
Proof.
  intros v w x X [U1 U2]. destruct (in_dec Nat.eq_dec x tdim) as [D|D]. apply big_prime; auto.
  pose proof (perm_fix ni nr tdim RG x X D) as PF. fold pos perm in PF. rewrite PF, big_shift. symmetry. apply U2; auto.
Qed.
Lemma big_int : forall v w, tupdated F n asn v w -> ipoint ni v -> ipoint ni w -> ipoint (ni + si) (big v w).
Proof.
  intros v w U V W y Y. pose proof tdim_int_real. destruct (cover ni nr tdim y) as [(x & X & E)|I]. lia.
  - fold pos in E. subst y. rewrite big_shift. apply V. pose proof (shift_pos ni nr tdim x X) as SP. fold pos si in SP. rewrite SP in Y. destruct (Nat.ltb_spec x ni); lia.
  - destruct (perm_unprime ni nr tdim ND RG y I) as (d & D & E & E'). fold perm pos in E, E'. rewrite <- E'. rewrite big_prime; auto. apply W.
    destruct (Nat.lt_ge_cases d ni) as [L|L]; auto. exfalso.
    (* y is a primed real dimension otherwise *)
    assert (Q : forall l ii ir a b, In (a, b) (primed_pairs ni nr si ii ir l) -> (forall z, In z l -> z < n) -> (a < ni /\ ni + ii <= b) \/ (ni <= a /\ n + si <= b)).
    { clear. induction l as [|z l IH]; intros ii ir a b H R; [destruct H|]. simpl in H. destruct (Nat.ltb_spec z ni); destruct H as [H|H].
      - inversion H; subst. left. lia.
      - apply IH in H; [|intros; apply R; simpl; auto]. lia.
      - inversion H; subst. right. unfold n. lia.
      - apply IH in H; [|intros; apply R; simpl; auto]. lia. }
    assert (PI : In (shift pos d) (map fst (primed_pairs ni nr si 0 0 tdim))) by (pose proof (proj1 (ps_spec ni nr tdim RG)) as PE; fold pos si in PE; rewrite PE; apply in_map; auto).
    apply in_map_iff in PI. destruct PI as ([a b] & E1 & PI). simpl in E1. subst a. destruct (perm_pair ni nr tdim ND RG _ _ PI) as [E2 _]. fold perm pos in E2. rewrite E' in E2. subst b.
    apply Q in PI; auto. pose proof (shift_pos ni nr tdim d (RG d D)) as SP. fold pos si in SP. rewrite SP in PI. destruct (Nat.ltb_spec d ni); lia.
Qed.
Lemma big_sat : forall v w, tupdated F n asn v w -> Forall (fun c => sat_tcons F c (big v w)) cs.
Proof.
  intros v w U. apply cs_sat. intros d e I. assert (D : In d tdim) by (unfold tdim; apply (in_map fst) in I; auto). rewrite big_prime; auto.
  destruct U as [U _]. specialize (U d e I). revert U. apply xval_ext. intros x _. apply big_shift.
Qed.
Lemma perm_ok' : is_perm n' perm. Proof. apply (perm_ok ni nr tdim ND RG). Qed.
Lemma back_point : forall x, x < n' -> ~ In x ivt -> x = shift pos (x - clt ivt x) /\ x - clt ivt x < n.
Proof.
  intros x X I. destruct (cover ni nr tdim x X) as [(y & Y & E)|J]; [|contradiction]. fold pos in E. pose proof (unshift_shift ni nr tdim y) as U. unfold unshift in U. fold pos ivt in U. rewrite <- E in U. rewrite U. auto.
Qed.

(** *** Soundness *)
Lemma asssub_sound : forall assign r x v w, asssub_texpr_array G mt assign abs asn dest = Some (r, x) -> tupdated F n asn v w -> ipoint ni v -> ipoint ni w ->
  gam abs (if assign then v else w) -> (forall b, dest = Some b -> gam b (if assign then w else v)) -> inv r /\ gd_int G r = ni /\ gd_real G r = nr /\ gam r (if assign then w else v).
Proof.
  intros assign r x v w H U VI WI GA GD. unfold asssub_texpr_array in H. destruct (gd_is_bottom G abs) eqn:BT. { exfalso. eapply (gs_bottom _ _ _ _ GS); eauto. }
  fold ni nr tdim si pos perm cs in H. pose proof tdim_int_real as TI. pose proof (pos_length ni nr tdim) as PL. fold pos in PL.
  set (V := big v w) in *.
  (* [w] on the unprimed dimensions, exchanged *)
  assert (SW : forall x, x < n -> V (nth (shift pos x) perm 0) = w x) by (intros; apply big_perm; auto).
  assert (SV : forall x, x < n -> V (shift pos x) = v x) by (intros; apply big_shift).
  assert (ADD : forall a, inv a -> gd_int G a = ni -> gd_real G a = nr -> forall u, gam a (fun x => u (shift pos x)) -> inv (fst (gd_add G a pos si)) /\ gd_int G (fst (gd_add G a pos si)) = ni + si /\
     gd_real G (fst (gd_add G a pos si)) = nr + (length tdim - si) /\ gam (fst (gd_add G a pos si)) u).
  { intros a A1 A2 A3 u GU. destruct (gs_add _ _ _ _ GS a pos si A1) as (B1 & B2 & B3 & B4). rewrite A2, A3. apply a_contract. rewrite A2, A3, PL in *. auto. }
  assert (N' : ni + si + (nr + (length tdim - si)) = n') by (unfold n', n; lia).
  assert (PRM : forall a, inv a -> gd_int G a = ni + si -> gd_real G a = nr + (length tdim - si) -> forall u, gam a (fun x => u (nth x perm 0)) -> inv (fst (gd_permute G a perm)) /\
     gd_int G (fst (gd_permute G a perm)) = ni + si /\ gd_real G (fst (gd_permute G a perm)) = nr + (length tdim - si) /\ gam (fst (gd_permute G a perm)) u).
  { intros a A1 A2 A3 u GU. destruct (gs_permute _ _ _ _ GS a perm A1) as (B1 & B2 & B3 & B4). rewrite A2, A3, N'. apply perm_ok'. rewrite A2, A3 in *. split; auto. split; auto. split; auto. apply (B4 (fun x => u (nth x perm 0))); auto. }
  (* steps 4 and 6 *)
  destruct (gd_add G abs pos si) as [a1 x1] eqn:E1.
  assert (S6 : exists a2 x2, (if assign then (a1, x1) else let '(a, x0) := gd_permute G a1 perm in (a, x1 && x0)) = (a2, x2) /\ inv a2 /\ gd_int G a2 = ni + si /\ gd_real G a2 = nr + (length tdim - si) /\ gam a2 V).
  { destruct assign.
    - exists a1, x1. split; auto. specialize (ADD abs IA eq_refl eq_refl V). rewrite E1 in ADD. apply ADD. eapply (gs_ext _ _ _ _ GS); [|exact GA]. intros y Y. simpl. apply SV; auto.
    - specialize (ADD abs IA eq_refl eq_refl (fun x => V (nth x perm 0))). rewrite E1 in ADD. destruct ADD as (B1 & B2 & B3 & B4). eapply (gs_ext _ _ _ _ GS); [|exact GA]. intros y Y; simpl; apply SW; auto.
      simpl in B1, B2, B3, B4. destruct (PRM a1 B1 B2 B3 V B4) as (C1 & C2 & C3 & C4). destruct (gd_permute G a1 perm) as [a2 x2]. simpl in *. exists a2, (x1 && x2). auto. }
  destruct S6 as (a2 & x2 & E2 & I2 & D2 & R2 & G2). rewrite E2 in H. clear E2.
  (* step 7 *)
  assert (S7 : exists a3 x3, match dest with None => (a2, x2) | Some dest => let '(dest2, y1) := gd_add G dest pos si in let '(dest2, y2) := if assign then gd_permute G dest2 perm else (dest2, true) in
      let '(a, y3) := gd_meet G a2 dest2 in (a, x2 && y1 && y2 && y3) end = (a3, x3) /\ inv a3 /\ gd_int G a3 = ni + si /\ gd_real G a3 = nr + (length tdim - si) /\ gam a3 V).
  { destruct dest as [b|]. 2: exists a2, x2; auto. destruct (DO b eq_refl) as (BI & BD & BR). specialize (GD b eq_refl).
    assert (SD : exists d2 y2, (let '(dest2, y1) := gd_add G b pos si in if assign then gd_permute G dest2 perm else (dest2, true)) = (d2, y2) /\ inv d2 /\ gd_int G d2 = ni + si /\ gd_real G d2 = nr + (length tdim - si) /\ gam d2 V).
    { destruct assign.
      - specialize (ADD b BI BD BR (fun x => V (nth x perm 0))). destruct ADD as (B1 & B2 & B3 & B4). eapply (gs_ext _ _ _ _ GS); [|exact GD]. intros y Y; simpl; apply SW. unfold n. rewrite BD, BR in Y. auto.
        destruct (gd_add G b pos si) as [d1 y1]. simpl in *. destruct (PRM d1 B1 B2 B3 V B4) as (C1 & C2 & C3 & C4). destruct (gd_permute G d1 perm) as [d2 y2]. simpl in *. exists d2, y2; auto.
      - specialize (ADD b BI BD BR V). destruct ADD as (B1 & B2 & B3 & B4). eapply (gs_ext _ _ _ _ GS); [|exact GD]. intros y Y; simpl; apply SV. unfold n. rewrite BD, BR in Y. auto.
        destruct (gd_add G b pos si) as [d1 y1]. simpl in *. exists d1, true; auto. }
    destruct SD as (d2 & y2 & E & C1 & C2 & C3 & C4). destruct (gd_add G b pos si) as [d1 y1]. rewrite E. destruct (gs_meet _ _ _ _ GS a2 d2) as (F1 & F2 & F3 & F4); auto; try congruence. destruct (gd_meet G a2 d2) as [a3 y3]. simpl in *.
    exists a3, (x2 && y1 && y2 && y3). split; auto. split; auto. split; [congruence|]. split; [congruence|]. auto. }
  destruct S7 as (a3 & x3 & E3 & I3 & D3 & R3 & G3). rewrite E3 in H. clear E3.
  destruct (mt a3 cs) as [[a4 x4]|] eqn:E4; [|discriminate].
  destruct (ts_cons _ _ _ _ _ _ TS a3 cs a4 x4 I3) as (D4 & R4 & G4); auto. { rewrite D3, R3, N'. apply cs_ok. }
  assert (GV : inv a4 /\ gam a4 V). { apply G4; auto. rewrite D3. apply big_int; auto. apply big_sat; auto. } destruct GV as (I4 & GV).
  assert (S9 : exists a5 x5 u, (if assign then let '(a, x0) := gd_permute G a4 perm in (a, x3 && x4 && x0) else (a4, x3 && x4)) = (a5, x5) /\ inv a5 /\ gd_int G a5 = ni + si /\ gd_real G a5 = nr + (length tdim - si) /\ gam a5 u /\
     forall x, x < n -> u (shift pos x) = (if assign then w else v) x).
  { rewrite D3 in D4. rewrite R3 in R4. destruct assign.
    - destruct (PRM a4 I4 D4 R4 (fun x => V (nth x perm 0))) as (C1 & C2 & C3 & C4). { eapply (gs_ext _ _ _ _ GS); [|exact GV]. rewrite D4, R4, N'. intros y Y. simpl. f_equal. apply (perm_inv ni nr tdim ND RG y Y). }
      destruct (gd_permute G a4 perm) as [a5 x5]. simpl in *. exists a5, (x3 && x4 && x5), (fun x => V (nth x perm 0)). auto 10.
    - exists a4, (x3 && x4), V. auto 10. }
  destruct S9 as (a5 & x5 & u & E5 & I5 & D5 & R5 & G5 & HU). rewrite E5 in H. clear E5.
  destruct (gs_remove _ _ _ _ GS a5 ivt si I5) as (I6 & D6 & R6 & G6). { rewrite D5, R5. apply r_contract. }
  fold ivt in H. destruct (gd_remove G a5 ivt si) as [a6 x6]. simpl in *. inversion H; subst a6 x. split; auto. split. rewrite D6, D5. lia. split. { rewrite R6, R5. rewrite (inv_length ni nr tdim : length ivt = length tdim). lia. }
  apply (G6 u); auto. rewrite D5, R5, N'. intros y Y NI. destruct (back_point y Y NI) as [E L]. rewrite <- HU; auto; f_equal; auto.
Qed.

(** *** Exactness *)
Hypothesis GE : gexact G inv gam cok.
Hypothesis TE : texact F G inv gam eok mt.
Lemma asssub_exact : forall assign r u, asssub_texpr_array G mt assign abs asn dest = Some (r, true) -> gam r u -> gd_is_bottom G abs = false ->
  exists v w, tupdated F n asn v w /\ (forall x, x < n -> u x = (if assign then w else v) x) /\ gam abs (if assign then v else w) /\ (forall b, dest = Some b -> gam b (if assign then w else v)).
Proof.
  intros assign r u H GU BT. unfold asssub_texpr_array in H. rewrite BT in H. 
  fold ni nr tdim si pos perm cs in H. pose proof tdim_int_real as TI. pose proof (pos_length ni nr tdim) as PL. fold pos in PL.
  assert (N' : ni + si + (nr + (length tdim - si)) = n') by (unfold n', n; lia).
  assert (ADD : forall a, inv a -> gd_int G a = ni -> gd_real G a = nr -> inv (fst (gd_add G a pos si)) /\ gd_int G (fst (gd_add G a pos si)) = ni + si /\
     gd_real G (fst (gd_add G a pos si)) = nr + (length tdim - si) /\ (snd (gd_add G a pos si) = true -> forall u, gam (fst (gd_add G a pos si)) u -> gam a (fun x => u (shift pos x)))).
  { intros a A1 A2 A3. destruct (gs_add _ _ _ _ GS a pos si A1) as (B1 & B2 & B3 & B4). rewrite A2, A3. apply a_contract. split; auto. split; [congruence|]. split; [congruence|]. apply (ge_add _ _ _ _ GE); auto. rewrite A2, A3. apply a_contract. }
  assert (PRM : forall a, inv a -> gd_int G a = ni + si -> gd_real G a = nr + (length tdim - si) -> inv (fst (gd_permute G a perm)) /\
     gd_int G (fst (gd_permute G a perm)) = ni + si /\ gd_real G (fst (gd_permute G a perm)) = nr + (length tdim - si) /\ (snd (gd_permute G a perm) = true -> forall u, gam (fst (gd_permute G a perm)) u -> gam a (fun x => u (nth x perm 0)))).
  { intros a A1 A2 A3. destruct (gs_permute _ _ _ _ GS a perm A1) as (B1 & B2 & B3 & B4). rewrite A2, A3, N'. apply perm_ok'. split; auto. split; [congruence|]. split; [congruence|]. apply (ge_permute _ _ _ _ GE); auto. rewrite A2, A3, N'. apply perm_ok'. }
  destruct (gd_add G abs pos si) as [a1 x1] eqn:E1. pose proof (ADD abs IA eq_refl eq_refl) as A1. rewrite E1 in A1. simpl in A1. destruct A1 as (I1 & D1 & R1 & G1).
  assert (S6 : exists a2 x2, (if assign then (a1, x1) else let '(a, x0) := gd_permute G a1 perm in (a, x1 && x0)) = (a2, x2) /\ inv a2 /\ gd_int G a2 = ni + si /\ gd_real G a2 = nr + (length tdim - si) /\
     (x2 = true -> forall V, gam a2 V -> gam abs (fun x => V (if assign then shift pos x else nth (shift pos x) perm 0)))).
  { destruct assign. exists a1, x1. auto. destruct (PRM a1 I1 D1 R1) as (C1 & C2 & C3 & C4). destruct (gd_permute G a1 perm) as [a2 x2]. simpl in *. exists a2, (x1 && x2). split; auto. split; auto. split; auto. split; auto.
    intros X V GV. apply andb_true_iff in X. destruct X as [X1 X2]. apply (G1 X1 (fun x => V (nth x perm 0))). apply C4; auto. }
  destruct S6 as (a2 & x2 & E2 & I2 & D2 & R2 & G2). rewrite E2 in H. clear E2.
  assert (S7 : exists a3 x3, match dest with None => (a2, x2) | Some dest => let '(dest2, y1) := gd_add G dest pos si in let '(dest2, y2) := if assign then gd_permute G dest2 perm else (dest2, true) in
      let '(a, y3) := gd_meet G a2 dest2 in (a, x2 && y1 && y2 && y3) end = (a3, x3) /\ inv a3 /\ gd_int G a3 = ni + si /\ gd_real G a3 = nr + (length tdim - si) /\
      (x3 = true -> x2 = true /\ forall V, gam a3 V -> gam a2 V /\ forall b, dest = Some b -> gam b (fun x => V (if assign then nth (shift pos x) perm 0 else shift pos x)))).
  { destruct dest as [b|]. 2: { exists a2, x2. repeat (split; auto). intros; discriminate. } destruct (DO b eq_refl) as (BI & BD & BR).
    assert (SD : exists d2 y1 y2, (let '(dest2, y1) := gd_add G b pos si in let '(dest2, y2) := if assign then gd_permute G dest2 perm else (dest2, true) in (dest2, y1, y2)) = (d2, y1, y2) /\ inv d2 /\ gd_int G d2 = ni + si /\ gd_real G d2 = nr + (length tdim - si) /\
       (y1 = true -> y2 = true -> forall V, gam d2 V -> gam b (fun x => V (if assign then nth (shift pos x) perm 0 else shift pos x)))).
    { destruct (ADD b BI BD BR) as (B1 & B2 & B3 & B4). destruct (gd_add G b pos si) as [d1 y1]. simpl in *. destruct assign.
      - destruct (PRM d1 B1 B2 B3) as (C1 & C2 & C3 & C4). destruct (gd_permute G d1 perm) as [d2 y2]. simpl in *. exists d2, y1, y2. repeat (split; auto). intros Y1 Y2 V GV. apply (B4 Y1 (fun x => V (nth x perm 0))). apply C4; auto.
      - exists d1, y1, true. auto 10. }
    destruct SD as (d2 & y1 & y2 & E & C1 & C2 & C3 & C4). destruct (gd_add G b pos si) as [d1 y1']. destruct (if assign then gd_permute G d1 perm else (d1, true)) as [d2' y2'] eqn:E'. inversion E; subst d2' y1' y2'.
    destruct (gs_meet _ _ _ _ GS a2 d2) as (F1 & F2 & F3 & F4); auto; try congruence. pose proof (ge_meet _ _ _ _ GE a2 d2 I2 C1 ltac:(congruence) ltac:(congruence)) as F5. destruct (gd_meet G a2 d2) as [a3 y3]. simpl in *.
    exists a3, (x2 && y1 && y2 && y3). split; auto. split; auto. split; [congruence|]. split; [congruence|]. intro X. rewrite !andb_true_iff in X. destruct X as (((X1 & X2) & X3) & X4). split; auto. intros V GV. destruct (F5 X4 V GV). split; auto.
    intros b' Eb. inversion Eb; subst b'. apply C4; auto. }
  destruct S7 as (a3 & x3 & E3 & I3 & D3 & R3 & G3). rewrite E3 in H. clear E3.
  destruct (mt a3 cs) as [[a4 x4]|] eqn:E4; [|discriminate].
  assert (CK : Forall (fun c => tc_typ c = CEq /\ tc_mod c = None /\ eok (gd_int G a3 + gd_real G a3) (tc_expr c) /\ forall x, occurs x (tc_expr c) -> x < gd_int G a3 + gd_real G a3) cs) by (rewrite D3, R3, N'; apply cs_ok).
  destruct (ts_cons _ _ _ _ _ _ TS a3 cs a4 x4 I3 CK E4) as (D4 & R4 & _). destruct (TE a3 cs a4 x4 I3 CK E4) as (I4 & TX). rewrite D3 in D4. rewrite R3 in R4.
  assert (S9 : exists a5 x5, (if assign then let '(a, x0) := gd_permute G a4 perm in (a, x3 && x4 && x0) else (a4, x3 && x4)) = (a5, x5) /\ inv a5 /\ gd_int G a5 = ni + si /\ gd_real G a5 = nr + (length tdim - si) /\
     (x5 = true -> x3 = true /\ x4 = true /\ forall V, gam a5 V -> exists V', gam a4 V' /\ forall x, x < n -> V (shift pos x) = V' (if assign then nth (shift pos x) perm 0 else shift pos x))).
  { destruct assign.
    - destruct (PRM a4 I4 D4 R4) as (C1 & C2 & C3 & C4). destruct (gd_permute G a4 perm) as [a5 x5]. simpl in *. exists a5, (x3 && x4 && x5). split; auto. split; auto. split; auto. split; auto. intro X. rewrite !andb_true_iff in X. destruct X as ((X1 & X2) & X3).
      split; auto. split; auto. intros V GV. exists (fun x => V (nth x perm 0)). split; auto. intros x X. f_equal. symmetry. apply (perm_inv ni nr tdim ND RG). apply (shift_lt ni nr tdim x X).
    - exists a4, (x3 && x4). split; auto. split; auto. split; auto. split; auto. intro X. apply andb_true_iff in X. destruct X. split; auto. split; auto. intros V GV. exists V. auto. }
  destruct S9 as (a5 & x5 & E5 & I5 & D5 & R5 & G5). rewrite E5 in H. clear E5.
  assert (RC : rem_contract (gd_int G a5) (gd_real G a5) ivt si) by (rewrite D5, R5; apply r_contract).
  pose proof (ge_remove _ _ _ _ GE a5 ivt si I5 RC) as G6. fold ivt in H. destruct (gd_remove G a5 ivt si) as [a6 x6]. simpl in *. inversion H; subst a6. apply andb_true_iff in H2. destruct H2 as [X5 X6].
  destruct (G6 X6 u GU) as (V & GV & HV). destruct (G5 X5) as (X3 & X4 & G5'). destruct (G5' V GV) as (V' & GV' & HV'). subst x4. destruct (TX eq_refl V' GV') as [GV3 SAT].
  destruct (G3 X3) as (X2 & G3'). destruct (G3' V' GV3) as (GV2 & GD). specialize (G2 X2 V' GV2). rewrite cs_sat in SAT.
  assert (HU : forall x, x < n -> u x = V' (if assign then nth (shift pos x) perm 0 else shift pos x)).
  { intros x X. rewrite <- HV'; auto. rewrite <- (HV (shift pos x)). f_equal. symmetry. apply (unshift_shift ni nr tdim x). rewrite D5, R5, N'. apply (shift_lt ni nr tdim x X). apply (shift_out ni nr tdim). }
  exists (fun x => V' (shift pos x)), (fun x => V' (nth (shift pos x) perm 0)). split; [|split; [|split]].
  - split. intros d e I. apply SAT; auto. intros d D NI. f_equal. pose proof (perm_fix ni nr tdim RG d D NI) as PF. fold pos perm in PF. auto.
  - intros x X. rewrite HU; auto. destruct assign; auto.
  - destruct assign; auto.
  - intros b B. specialize (GD b B). destruct assign; auto.
Qed.
End Tree.

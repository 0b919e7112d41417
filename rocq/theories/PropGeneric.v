(** Properties C49, C50 and the substitution part of C19: generic operations. *)
From Coq Require Import Arith ZArith QArith Qreals Reals Lra Lia Bool List Sorted Permutation.
From Verif Require Import Bound BoundFacts Itv Linexpr LinexprFacts OctResize2 OctResize3 ItvLin ItvLinFacts Box BoxFacts BoxDims BoxOps BoxMeet PropItvLin PropOctTransfer PropBox ApCore ApCoreFacts ApCoreDim PropApCore Generic GenericFacts BoxSubst.
Import ListNotations.
Open Scope nat_scope.
#[local] Arguments Nat.leb : simpl never.
#[local] Arguments Nat.ltb : simpl never.
#[local] Arguments Nat.eqb : simpl never.
#[local] Arguments Nat.sub : simpl never.

Local Notation E := exact_num.

(** ** C50 *)
(** [gsound] (GenericFacts): each operation of the domain is sound; [updated n asn v w]: the point
    [w] is obtained from [v] by all the assignments [asn] at once.  Sparse expressions are
    sorted, dense ones have as many coefficients as the value has dimensions ([gexpr_ok]). *)
Theorem C50_assign_sound_partial : forall G inv gam cok, gsound G inv gam cok -> forall abs asn dest r x v w,
  inv abs -> NoDup (map fst asn) -> (forall d e, In (d, e) asn -> d < gd_int G abs + gd_real G abs /\ gexpr_ok (gd_int G abs + gd_real G abs) cok e) ->
  (forall b, dest = Some b -> inv b /\ gd_int G b = gd_int G abs /\ gd_real G b = gd_real G abs) ->
  asssub_linexpr_array G true abs asn dest = Some (r, x) ->
  ipoint (gd_int G abs) v -> ipoint (gd_int G abs) w -> updated (gd_int G abs + gd_real G abs) asn v w ->
  gam abs v -> (forall b, dest = Some b -> gam b w) ->
  inv r /\ gd_int G r = gd_int G abs /\ gd_real G r = gd_real G abs /\ gam r w.
Proof.
  intros G inv gam cok GS abs asn dest r x v w IA ND EO DO H VI WI U GA GD. apply (asssub_sound G inv gam cok GS abs asn dest IA ND) with (assign := true) (x := x) (v := v); auto.
  intros d D. apply in_map_iff in D. destruct D as ([d' e] & <- & I). apply (EO _ _ I). intros d e I. apply (EO _ _ I).
Qed.
Print Assumptions C50_assign_sound_partial.
Theorem C50_substitute_sound_partial : forall G inv gam cok, gsound G inv gam cok -> forall abs asn dest r x v w,
  inv abs -> NoDup (map fst asn) -> (forall d e, In (d, e) asn -> d < gd_int G abs + gd_real G abs /\ gexpr_ok (gd_int G abs + gd_real G abs) cok e) ->
  (forall b, dest = Some b -> inv b /\ gd_int G b = gd_int G abs /\ gd_real G b = gd_real G abs) ->
  asssub_linexpr_array G false abs asn dest = Some (r, x) ->
  ipoint (gd_int G abs) v -> ipoint (gd_int G abs) w -> updated (gd_int G abs + gd_real G abs) asn v w ->
  gam abs w -> (forall b, dest = Some b -> gam b v) ->
  inv r /\ gd_int G r = gd_int G abs /\ gd_real G r = gd_real G abs /\ gam r v.
Proof.
  intros G inv gam cok GS abs asn dest r x v w IA ND EO DO H VI WI U GA GD. apply (asssub_sound G inv gam cok GS abs asn dest IA ND) with (assign := false) (x := x) (w := w); auto.
  intros d D. apply in_map_iff in D. destruct D as ([d' e] & <- & I). apply (EO _ _ I). intros d e I. apply (EO _ _ I).
Qed.
Print Assumptions C50_substitute_sound_partial.
(** When the flag "exact" is set, and the domain only sets it when an operation is exact
    ([gexact]), the result is the set of images (of inverse images) and nothing else. *)
Theorem C50_exact_flag : forall G inv gam cok, gsound G inv gam cok -> gexact G inv gam cok -> forall assign abs asn dest r u,
  inv abs -> NoDup (map fst asn) -> (forall d e, In (d, e) asn -> d < gd_int G abs + gd_real G abs /\ gexpr_ok (gd_int G abs + gd_real G abs) cok e) ->
  (forall b, dest = Some b -> inv b /\ gd_int G b = gd_int G abs /\ gd_real G b = gd_real G abs) ->
  asssub_linexpr_array G assign abs asn dest = Some (r, true) -> gam r u ->
  exists v w, updated (gd_int G abs + gd_real G abs) asn v w /\ (forall d, d < gd_int G abs + gd_real G abs -> u d = (if assign then w else v) d) /\
    gam abs (if assign then v else w) /\ forall b, dest = Some b -> gam b (if assign then w else v).
Proof.
  intros G inv gam cok GS GE assign abs asn dest r u IA ND EO DO H GU. destruct (gd_is_bottom G abs) eqn:BT.
  - exfalso. unfold asssub_linexpr_array in H. rewrite BT in H. inversion H; subst. eapply (gs_bottom _ _ _ _ GS); eauto.
  - apply (asssub_exact G inv gam cok GS abs asn dest IA ND) with (r := r); auto.
    intros d D. apply in_map_iff in D. destruct D as ([d' e] & <- & I). apply (EO _ _ I). intros d e I. apply (EO _ _ I).
Qed.
Print Assumptions C50_exact_flag.
(** arrays of values *)
Theorem C50_meet_array_sound : forall (D : Type) (gam : D -> (nat -> R) -> Prop) (P : D -> Prop) (op : D -> D -> D * bool) cx tab r x, Forall P tab ->
  (forall a b, P a -> P b -> P (fst (op a b)) /\ forall v, gam a v -> gam b v -> gam (fst (op a b)) v) -> meetjoin_array op cx tab = Some (r, x) -> forall v, (forall a, In a tab -> gam a v) -> gam r v.
Proof. intros. eapply meetjoin_sound; eauto. apply Forall_forall. auto. Qed.
Print Assumptions C50_meet_array_sound.
Theorem C50_join_array_sound : forall (D : Type) (gam : D -> (nat -> R) -> Prop) (P : D -> Prop) (op : D -> D -> D * bool) cx tab r x, Forall P tab ->
  (forall a b, P a -> P b -> P (fst (op a b)) /\ forall v, gam a v \/ gam b v -> gam (fst (op a b)) v) -> meetjoin_array op cx tab = Some (r, x) -> forall v a, In a tab -> gam a v -> gam r v.
Proof.
  intros D gam P op cx tab r x F H E v a I G. destruct (meetjoin_upper D (fun a b => forall v, gam a v -> gam b v) P op cx tab r x) as [_ U]; auto.
  - intros b c Pb Pc. destruct (H b c Pb Pc). auto.
  - rewrite Forall_forall in U. apply (U a I v G).
Qed.
Print Assumptions C50_join_array_sound.
(** A dense expression with fewer coefficients than dimensions: x1 := x0 written [1]; the
    equation becomes x0 + x1 = 0 and the image of [0,1] x [5,6] is lost. *)
Definition short50 : linexpr := mkLin czero (Dense [Scal (Fin 1)]).
Theorem C50_assign_refuted : exists (G : gdom) inv gam cok, gsound G inv gam cok /\ exists abs e r x v w, inv abs /\ gd_int G abs = 0 /\ gd_real G abs = 2 /\
  wf_linexpr 2 e /\ lin_sorted (le_terms e) /\ asssub_linexpr_array G true abs [(1, e)] None = Some (r, x) /\ updated 2 [(1, e)] v w /\ gam abs v /\ ~ gam r w.
Proof.
  exists (box_gdom E 0 false), (fun _ => True), gbox, (repr_coeff E). split. apply box_gsound; left; reflexivity.
  exists (bx 0 2 [(0, 1); (5, 6)]%Q), short50. eexists _, _, (qpt [1; 5]%Q), (qpt [1; 1]%Q). split. exact I. split. reflexivity. split. reflexivity.
  split. { split. exact I. split. simpl; lia. repeat constructor. } split. exact I. split. vm_compute. reflexivity. split.
  - split. intros d e [H|[]]. inversion H; subst. exists 0%R, 1%R. split. simpl. rq. split. exists [1%R]. split. repeat constructor; simpl; rq. simpl. unfold qpt. simpl. rq. unfold qpt; simpl; rq.
    intros [|[|d]] D N; try lia. unfold qpt. simpl. auto. exfalso. apply N. simpl. auto.
  - split. apply gboxb_ok. reflexivity. intro X. exact X.
Qed.
Print Assumptions C50_assign_refuted.

(** The hypotheses are met: sets of points form a domain with exact operations *)
Definition sets : gdom :=
  mkGdom (nat * nat * ((nat -> R) -> Prop)) (fun a => fst (fst a)) (fun a => snd (fst a)) (fun _ => false)
    (fun a pos k => ((fst (fst a) + k, snd (fst a) + (length pos - k), fun w => snd a (fun x => w (shift pos x))), true))
    (fun a perm => ((fst a, fun w => snd a (fun x => w (nth x perm 0))), true))
    (fun a pos k => ((fst (fst a) - k, snd (fst a) - (length pos - k), fun w => exists v, snd a v /\ forall x, x < fst (fst a) + snd (fst a) -> ~ In x pos -> w (x - clt pos x) = v x), true))
    (fun a b => ((fst a, fun v => snd a v /\ snd b v), true))
    (fun a l => Some ((fst a, fun v => snd a v /\ Forall (fun c => sat_cons c v) l), true)).
Definition sets_inv (a : gd sets) : Prop := forall v w, (forall x, x < gd_int sets a + gd_real sets a -> w x = v x) -> snd a v -> snd a w.
Definition sets_gam (a : gd sets) (v : nat -> R) : Prop := exists u, snd a u /\ forall x, x < gd_int sets a + gd_real sets a -> v x = u x.
Lemma sets_gam_iff : forall a v, sets_inv a -> (sets_gam a v <-> snd a v).
Proof. intros a v I. split. intros (u & U & H). apply (I u v); auto. intro H. exists v; auto. Qed.
Lemma sat_cons_ext : forall n c v w, wf_terms n (le_terms (lc_expr c)) -> (forall x, x < n -> w x = v x) -> sat_cons c v -> sat_cons c w.
Proof.
  intros n c v w W H (r & A & B). exists r. split; auto. rewrite (expr_val_lin n) in *; auto. destruct A as (c0 & k & A1 & A2 & A3). exists c0, k. split; auto. split; auto. rewrite A3. f_equal. apply lsum_ext. intros j J. rewrite H; auto.
Qed.
Lemma sets_sound : gsound sets sets_inv sets_gam (fun _ => True).
Proof.
  constructor; try (simpl; auto; fail).
  - intros a v w H (u & U & K). exists u. split; auto. intros x X. rewrite H; auto.
  - discriminate.
  - intros a pos k IA ((SP & SB) & A & B & C). simpl. split.
    { intros v w H G. simpl in *. apply (IA (fun x => v (shift pos x))); auto. simpl. intros x X. apply H. unfold shift. assert (L : cle pos x <= length pos). { unfold cle. clear. induction pos; simpl; auto. destruct (Nat.leb a x); simpl; lia. } lia. }
    split; auto. split; auto. intros w (u & U & H). exists w. split; auto. simpl. apply (IA u); auto.
  - intros a perm IA P. simpl. split. { intros v w H G. simpl in *. apply (IA (fun x => v (nth x perm 0))); auto. simpl. intros x X. apply H. apply P; auto. }
    split; auto. split; auto. intros v w H (u & U & K). exists w. split; auto. simpl. apply (IA u); auto. intros x X. rewrite H; auto.
  - intros a pos k IA (RO & A & B & C & D). simpl. pose proof (rem_len_le _ _ RO) as RL. split.
    { intros v w H (u & U & K). exists u. split; auto. intros x X NI. destruct (rem_back _ _ x RO X NI) as [R1 R2]. rewrite H. auto. simpl in *. lia. }
    split; auto. split; auto. intros v w (u & U & K) H. exists w. split; auto. simpl. exists v. split; auto. apply (IA u); auto.
  - intros a b IA IB E1 E2. simpl in *. split. { intros v w H [G1 G2]. simpl in *. split. apply (IA v); auto. apply (IB v); auto. simpl. rewrite <- E1, <- E2. auto. }
    split; auto. split; auto. intros v (u & U & K) (u' & U' & K'). exists v. split; auto. simpl. split. apply (IA u); auto. apply (IB u'); auto.
  - intros a l r x IA F H. simpl in *. inversion H; subst. clear H. assert (FW : Forall (fun c => wf_terms (fst (fst a) + snd (fst a)) (le_terms (lc_expr c))) l). { eapply Forall_impl; [|exact F]. intros c (_ & _ & W & _). apply W. }
    split. { intros v w H [G1 G2]. simpl in *. split. apply (IA v); auto. rewrite Forall_forall in *. intros c C. eapply sat_cons_ext; [apply FW; auto|exact H|]. auto. }
    split; auto. split; auto. intros v _ (u & U & K) S. exists v. split; auto. simpl. split; auto. apply (IA u); auto.
Qed.
Lemma sets_exact : gexact sets sets_inv sets_gam (fun _ => True).
Proof.
  assert (SS := sets_sound). constructor.
  - intros a pos k IA A _ w G. destruct (gs_add _ _ _ _ SS a pos k IA A) as (I & _). apply sets_gam_iff in G; auto. apply sets_gam_iff; auto.
  - intros a perm IA A _ w G. destruct (gs_permute _ _ _ _ SS a perm IA A) as (I & _). apply sets_gam_iff in G; auto. apply sets_gam_iff; auto.
  - intros a pos k IA A _ w G. destruct (gs_remove _ _ _ _ SS a pos k IA A) as (I & _). apply sets_gam_iff in G; auto. destruct G as (v & V & H). exists v. split; auto. apply sets_gam_iff; auto.
  - intros a b IA IB A B _ v G. destruct (gs_meet _ _ _ _ SS a b IA IB A B) as (I & _). apply sets_gam_iff in G; auto. destruct G. split; apply sets_gam_iff; auto.
  - intros a l r IA F H v G. destruct (gs_cons _ _ _ _ SS a l r true IA F H) as (I & _). apply sets_gam_iff in G; auto. simpl in H. inversion H; subst. destruct G. split; auto. apply sets_gam_iff; auto.
Qed.
(** an integer and two reals: i := i + 1 and y := x - y at once, boxes and substitution *)
Definition asn50 : list (nat * linexpr) := [(2, sp 0 [(1, 1%Q); (2, (-1)%Q)]); (0, sp 1 [(0, 1%Q)])].
Example C50_example : gsound sets sets_inv sets_gam (fun _ => True) /\ gexact sets sets_inv sets_gam (fun _ => True) /\
  primed_positions 1 2 [2; 0] = [1; 3] /\ primed_perm 1 2 [2; 0] = [1; 0; 2; 4; 3] /\
  let a := bx 1 2 [(0, 3); (0, 1); (4, 5)]%Q in
  (match asssub_linexpr_array (box_gdom E 0 false) true a asn50 None with
   | Some (r, _) => gboxb r [4; 1; -3]%Q && gboxb r [1; 0; -5]%Q && negb (gboxb r [0; 1; -3]%Q) && negb (gboxb r [4; 1; 4]%Q)
   | None => false end) = true /\
  (match asssub_linexpr_array (box_gdom E 0 false) false a asn50 None with
   | Some (r, _) => gboxb r [2; 1; -3]%Q && gboxb r [-1; 0; -5]%Q && negb (gboxb r [3; 1; -3]%Q) && negb (gboxb r [2; 1; 4]%Q)
   | None => false end) = true /\ updated 3 asn50 (qpt [3; 1; 4]%Q) (qpt [4; 1; -3]%Q).
Proof.
  split. apply sets_sound. split. apply sets_exact. split. reflexivity. split. reflexivity. cbv zeta. split. vm_compute. reflexivity. split. vm_compute. reflexivity. split.
  - intros d e [H|[H|[]]]; inversion H; subst.
    + exists 0%R, (-3)%R. split. simpl; rq. split. exists [1%R; (-1)%R]. split. repeat constructor; simpl; rq. simpl. unfold qpt; simpl; rq. unfold qpt; simpl; rq.
    + exists 1%R, 3%R. split. simpl; rq. split. exists [1%R]. split. repeat constructor; simpl; rq. simpl. unfold qpt; simpl; rq. unfold qpt; simpl; rq.
  - intros [|[|[|d]]] D N; try lia; unfold qpt; simpl; auto; exfalso; apply N; simpl; auto.
Qed.

(** ** C19, substitution *)
(** coefficients: scalars of the number type, or exact arithmetic *)
Theorem C19_substitute_sound_partial : forall (N : numtype) (algo : Z) (destr : bool) a asn dest r x v w, repr_coeff N czero -> repr_coeff N (Scal (Fin (-1))) ->
  NoDup (map fst asn) -> (forall d e, In (d, e) asn -> d < bx_dim a /\ gexpr_ok (bx_dim a) (repr_coeff N) e) ->
  (forall b, dest = Some b -> bx_int b = bx_int a /\ bx_real b = bx_real a /\ gbox b v) ->
  box_substitute_linexpr_array N algo destr a asn dest = Some (r, x) ->
  ipoint (bx_int a) v -> ipoint (bx_int a) w -> updated (bx_dim a) asn v w -> gbox a w -> gbox r v.
Proof.
  intros N algo destr a asn dest r x v w K0 K1 ND EO DO H VI WI U G.
  destruct (C50_substitute_sound_partial (box_gdom N algo destr) _ gbox (repr_coeff N) (box_gsound N algo destr K0 K1) a asn dest r x v w) as (_ & _ & _ & X); auto; simpl; intros; try (split; auto; apply DO; auto; fail). split; auto. split; apply (DO b); auto. apply (DO b); auto.
Qed.
Print Assumptions C19_substitute_sound_partial.

(** ** C49 *)
(** [P]: invariant of the representation.  The result contains the second argument (and the first
    one when it is below the second); the array passed by the caller is only permuted. *)
Theorem C49_threshold_sound : forall (D : Type) (P : D -> Prop) (gam : D -> (nat -> R) -> Prop) widening sat_lincons meet_lincons (okc : lincons -> Prop),
  (forall a b r, P a -> P b -> widening a b = Some r -> P r /\ forall v, gam b v -> gam r v) ->
  (forall a c, P a -> okc c -> sat_lincons a c = true -> forall v, gam a v -> sat_cons c v) ->
  (forall a l r, P a -> Forall okc l -> meet_lincons a l = Some r -> forall v, gam a v -> (forall c, In c l -> sat_cons c v) -> gam r v) ->
  forall a1 a2 array r array', P a1 -> P a2 -> Forall okc array -> widening_threshold widening sat_lincons meet_lincons a1 a2 array = (Some r, array') ->
  Permutation array array' /\ forall v, gam a2 v -> gam r v.
Proof.
  intros D P gam wid sat mt okc HW HS HM a1 a2 array r array' P1 P2 OK H. unfold widening_threshold in H. pose proof (threshold_sel (sat a2) array) as T. destruct (threshold_loop (sat a2) (length array) array 0 0) as [p i]. destruct T as [T1 T2].
  destruct (wid a1 a2) as [val|] eqn:W; [|discriminate]. destruct (HW a1 a2 val P1 P2 W) as [PV GV]. inversion H; subst array'. split; auto. intros v G. rewrite Forall_forall in OK. destruct (Nat.ltb 0 i).
  - eapply HM; [exact PV| |exact H1|auto|]. apply Forall_forall. intros c C. apply OK, T2; auto. intros c C. apply T2 in C. destruct C as [C1 C2]. apply (HS a2 c); auto.
  - inversion H1; subst. auto.
Qed.
Print Assumptions C49_threshold_sound.
(** each threshold the second argument satisfies is imposed, and no other *)
Theorem C49_threshold_exact : forall (D : Type) (P : D -> Prop) (gam : D -> (nat -> R) -> Prop) widening sat_lincons meet_lincons (okc : lincons -> Prop),
  (forall a b r, P a -> P b -> widening a b = Some r -> P r) ->
  (forall a l r, P a -> Forall okc l -> meet_lincons a l = Some r -> forall v, gam r v <-> gam a v /\ forall c, In c l -> sat_cons c v) ->
  forall a1 a2 array r array' u, P a1 -> P a2 -> Forall okc array -> widening_threshold widening sat_lincons meet_lincons a1 a2 array = (Some r, array') -> widening a1 a2 = Some u ->
  forall v, gam r v <-> gam u v /\ forall c, In c array -> sat_lincons a2 c = true -> sat_cons c v.
Proof.
  intros D P gam wid sat mt okc HW HM a1 a2 array r array' u P1 P2 OK H W v. unfold widening_threshold in H. pose proof (threshold_sel (sat a2) array) as T. destruct (threshold_loop (sat a2) (length array) array 0 0) as [p i]. destruct T as [T1 T2].
  rewrite W in H. pose proof (HW a1 a2 u P1 P2 W) as PV. rewrite Forall_forall in OK. destruct (Nat.ltb_spec 0 i) as [L|L].
  - assert (M : mt u (firstn i p) = Some r) by (inversion H; auto). rewrite (HM u (firstn i p) r PV); [|apply Forall_forall; intros c C; apply OK, T2; auto|exact M]. split; intros [A B]; split; auto; intros c C; [intros; apply B; apply T2|apply T2 in C; apply B]; tauto.
  - assert (i = 0) by lia. subst i. inversion H; subst. split; [|tauto]. intro G. split; auto. intros c C S. exfalso. assert (X : In c (firstn 0 array')) by (apply T2; auto). destruct X.
Qed.
Print Assumptions C49_threshold_exact.
(** boxes; coefficients: scalars of the number type, or exact arithmetic *)
Theorem C49_box_sound : forall (N : numtype) (algo : Z) (i n : nat) a1 a2 array r array',
  bx_int a1 = i -> bx_int a2 = i -> bx_dim a1 = n -> bx_dim a2 = n -> Forall (fun c => meet_cons_ok (N:=N) n c /\ expr_total (lc_expr c)) array ->
  widening_threshold box_widening (fun a c => match box_sat_lincons (N:=N) a c with Some true => true | _ => false end) (box_meet_lincons_array (N:=N) algo) a1 a2 array = (Some r, array') ->
  Permutation array array' /\ forall v, ipoint i v -> gbox a2 v -> gbox r v.
Proof.
  intros N algo i n a1 a2 array r array' I1 I2 D1 D2 F H.
  destruct (C49_threshold_sound box (fun a => bx_int a = i /\ bx_dim a = n) (fun a v => ipoint i v /\ gbox a v) box_widening (fun a c => match box_sat_lincons (N:=N) a c with Some true => true | _ => false end)
    (box_meet_lincons_array (N:=N) algo) (fun c => meet_cons_ok (N:=N) n c /\ expr_total (lc_expr c))) with (a1 := a1) (a2 := a2) (array := array) (r := r) (array' := array') as [A B]; auto.
  - intros a b u [Ia Da] [Ib Db] W. assert (SD : same_dims a b) by (split; [congruence|unfold bx_dim in *; lia]). split.
    + revert W. unfold box_widening. destruct (bx_p a), (bx_p b); intro W; inversion W; subst; auto.
    + intros v [VI G]. split; auto. eapply widening_sound; eauto.
  - intros a c [Ia Da] [[U _] T] S v [VI G]. destruct (box_sat_lincons (N:=N) a c) as [[|]|] eqn:E; try discriminate. rewrite <- Da in U. pose proof (sat_lincons_sound (N:=N) a c v U E G) as X. destruct (T v) as (z & Z). exists z. split; auto.
  - intros a l u [Ia Da] OK M v [VI G] S. split; auto. eapply meet_lincons_sound; [| |exact G| |exact M].
    + rewrite Da. eapply Forall_impl; [|exact OK]. intros c [C _]; auto.
    + rewrite Ia. exact VI.
    + apply Forall_forall; auto.
  - split; auto. intros v VI G. apply B; auto.
Qed.
Print Assumptions C49_box_sound.
(** [0,1] widened by [0,2]: 10 >= x is kept, 1 >= x is not *)
Example C49_example : let a1 := bx 0 1 [(0, 1)]%Q in let a2 := bx 0 1 [(0, 2)]%Q in
  let c1 := mkCons CSupEq (sp 1 [(0, (-1)%Q)]) None in let c2 := mkCons CSupEq (sp 10 [(0, (-1)%Q)]) None in
  match widening_threshold box_widening (fun a c => match box_sat_lincons (N:=E) a c with Some true => true | _ => false end) (box_meet_lincons_array (N:=E) 0) a1 a2 [c1; c2] with
  | (Some r, l) => l = [c2; c1] /\ gboxb r [10]%Q = true /\ gboxb r [11]%Q = false
  | _ => False
  end.
Proof. vm_compute. auto. Qed.

(** Property C87: octagons and expression trees; property C31: the meet with constraints adds no point.  [xval F v e r]
    (TexprSem.v): [r] is a value of the tree [e] at the point [v], for some choice of its interval constants and of its
    roundings; [no_pow e]: the tree has no power.  The trees are made linear with rational numbers; [N] is the number
    type of the octagon. *)
From Coq Require Import Arith ZArith QArith Qreals Reals Lra Lia Bool List Sorted.
From Verif Require Import Bound BoundFacts Itv ItvFacts Linexpr LinexprFacts OctMat OctClose Oct OctFacts OctFacts2 OctTransfer ApCore ApTexpr TexprSem ItvTree ItvTreeApi ItvTreeApiFacts PropItvTree Generic GenericFacts GenericTree PropGenericTree PropOctLattice PropOctTransfer OctTree.
Import ListNotations.
Open Scope nat_scope.

Definition otree_ok (n : nat) (e : texpr) : Prop := no_pow e /\ forall d, occurs d e -> d < n.
(** [w] is obtained from [v] by all the assignments at once *)
Definition otree_update (F : fmts) (n : nat) (l : list (nat * texpr)) (v w : nat -> R) : Prop :=
  (forall d e, In (d, e) l -> xval F v e (w d)) /\ (forall d, d < n -> ~ In d (map fst l) -> w d = v d).
Definition odest_ok (a : oct) (dest : option oct) : Prop := forall b, dest = Some b -> wfo b /\ odim b = odim a /\ oint b = oint a.

(** the meet with linear constraints adds no point: any numbers, any option, any constraints *)
Theorem C31_meet_lincons_below : forall (N : numtype) (algo : Z) (tmp : hmat) (a : oct) (cs : list lincons), wfo a -> (forall c, In c cs -> wf_linexpr (odim a) (lc_expr c)) ->
  forall v, gamo (fst (oct_meet_lincons_array (N:=N) algo tmp a cs)) v -> gamo a v.
Proof. intros. eapply meet_below; eauto. Qed.
Print Assumptions C31_meet_lincons_below.

(** a tree which has a value at some point of the octagon gets an interval, and it contains the value *)
Theorem C87_bound_texpr : forall (N : numtype) (F : fmts) eq0 algo tmp a e v r, wfo a -> otree_ok (odim a) e -> ipoint (oint a) v -> gamo a v -> xval F v e r ->
  exists b, oct_bound_texpr N (F:=F) eq0 algo tmp a e = Some b /\ in_itv r b.
Proof. intros N F eq0 algo tmp a e v r W (NP & D) IV G XV. eapply bound_texpr_sound; eauto. Qed.
Print Assumptions C87_bound_texpr.
(** the answer true is right, except for disequalities: the constraint holds at every point for all the values of the tree *)
Theorem C87_sat_tcons_partial : forall (N : numtype) (F : fmts) eq0 algo tmp a c, wfo a -> otree_ok (odim a) (tc_expr c) -> tmod_ok (N:=exact_num) c -> tc_typ c <> CDisEq ->
  oct_sat_tcons N (F:=F) eq0 algo tmp a c = Some true -> forall v r, ipoint (oint a) v -> gamo a v -> xval F v (tc_expr c) r -> sat_typ (tc_typ c) (tc_mod c) r.
Proof. intros N F eq0 algo tmp a c W (NP & D) M T H v r IV G XV. eapply sat_tcons_sound; eauto. Qed.
Print Assumptions C87_sat_tcons_partial.
(** the meet loses no point that satisfies the constraints and, when there is one, adds no point; strict inequalities
    with exact numbers only *)
Theorem C87_meet_tcons : forall (N : numtype) (F : fmts) eq0 tch algo tmp a l r, wfo a -> Forall (fun c => tmod_ok (N:=exact_num) c /\ otree_ok (odim a) (tc_expr c) /\ (tc_typ c = CSup -> N = exact_num)) l ->
  oct_meet_tcons_array N (F:=F) eq0 tch algo tmp a l = Some r ->
  odim r = odim a /\ oint r = oint a /\
  forall v, ipoint (oint a) v -> gamo a v -> Forall (fun c => exists y, xval F v (tc_expr c) y /\ sat_typ (tc_typ c) (tc_mod c) y) l -> wfo r /\ gamo r v /\ forall w, gamo r w -> gamo a w.
Proof.
  intros N F eq0 tch algo tmp a l r W OK H. unfold oct_meet_tcons_array in H. destruct (oct_mt N eq0 tch algo tmp a l) as [[r' x]|] eqn:E; [|discriminate]. injection H as <-.
  destruct (mt_dims N F eq0 algo tmp tch a l r' x W E) as (A & B). split; auto. split; auto. intros v IV G ST. apply (mt_sound N F eq0 algo tmp tch a l r' x); auto. eapply Forall_impl; [|exact OK]. simpl. intros c (M & (NP & D) & T). auto.
Qed.
Print Assumptions C87_meet_tcons.
(** parallel assignment and substitution of trees: no point is lost *)
Theorem C87_assign_texpr : forall (N : numtype) (F : fmts) eq0 tch algo tmp a l dest r v w, wfo a -> NoDup (map fst l) -> (forall d e, In (d, e) l -> d < odim a /\ otree_ok (odim a) e) -> odest_ok a dest ->
  oct_asssub_texpr_array N (F:=F) eq0 tch true algo tmp a l dest = Some r ->
  ipoint (oint a) v -> ipoint (oint a) w -> otree_update F (odim a) l v w -> gamo a v -> (forall b, dest = Some b -> gamo b w) -> wfo r /\ odim r = odim a /\ oint r = oint a /\ gamo r w.
Proof. intros N F eq0 tch algo tmp a l dest r v w W ND OK DO H IV IW U G GD. exact (oct_asssub_sound N F eq0 tch true algo tmp a l dest r v w W ND OK DO H IV IW U G GD). Qed.
Print Assumptions C87_assign_texpr.
Theorem C87_substitute_texpr : forall (N : numtype) (F : fmts) eq0 tch algo tmp a l dest r v w, wfo a -> NoDup (map fst l) -> (forall d e, In (d, e) l -> d < odim a /\ otree_ok (odim a) e) -> odest_ok a dest ->
  oct_asssub_texpr_array N (F:=F) eq0 tch false algo tmp a l dest = Some r ->
  ipoint (oint a) v -> ipoint (oint a) w -> otree_update F (odim a) l v w -> gamo a w -> (forall b, dest = Some b -> gamo b v) -> wfo r /\ odim r = odim a /\ oint r = oint a /\ gamo r v.
Proof. intros N F eq0 tch algo tmp a l dest r v w W ND OK DO H IV IW U G GD. exact (oct_asssub_sound N F eq0 tch false algo tmp a l dest r v w W ND OK DO H IV IW U G GD). Qed.
Print Assumptions C87_substitute_texpr.
(** wrong for a disequality: [-1,1] <> 0 is said to hold although the constant may be 0 *)
Definition dis : tcons := mkTC CDisEq (TCst (Intv (Fin (-1)) (Fin 1))) None.
Theorem C87_sat_disequality_refuted : forall (F : fmts), exists a v, wfo a /\ otree_ok (odim a) (tc_expr dis) /\ oct_sat_tcons exact_num (F:=F) true 0 junk a dis = Some true /\
  ipoint (oint a) v /\ gamo a v /\ xval F v (tc_expr dis) 0 /\ ~ sat_typ (tc_typ dis) (tc_mod dis) 0.
Proof.
  intros F. exists (lbox 0 1 0 1), (qpt [1; 1]%Q). split. apply exo_wf, lbox_exo. split. split. exact I. intros d O; inversion O. split. vm_compute; reflexivity.
  split. intros d D. simpl in D. lia. split. apply gamo_single_b. vm_compute; reflexivity. split. constructor. simpl. unfold Q2R; simpl. lra. simpl. lra.
Qed.
Print Assumptions C87_sat_disequality_refuted.

(** ** Examples: on the rectangle [0,1]x[0,2], the trees x*y and x+y+[1,2] *)
Definition oxy : texpr := TBin BMul RReal DRnd (TDim 0) (TDim 1).
Definition oxyc : tcons := mkTC CSupEq (TBin BAdd RReal DRnd (TBin BAdd RReal DRnd (TDim 0) (TDim 1)) (TCst (Intv (Fin 1) (Fin 2)))) None.
Definition rect : oct := lbox 0 1 0 2.
Definition pt87 : nat -> R := qpt [1; 2]%Q.
Ltac occ := intros d O; repeat match goal with H : occurs _ _ |- _ => inversion H; clear H; subst end; simpl; lia.
Lemma rect_wf : wfo rect. Proof. apply exo_wf, lbox_exo. Qed.
Lemma rect_pt : gamo rect pt87. Proof. apply gamo_single_b. vm_compute; reflexivity. Qed.
Lemma oxy_ok : otree_ok (odim rect) oxy. Proof. split. simpl; repeat split; discriminate. occ. Qed.
Lemma oxy_val : forall F, xval F pt87 oxy 2.
Proof. intros F. apply xv_bin with 1%R 2%R; [| |simpl; lra]. replace 1%R with (pt87 0) by (unfold pt87, qpt, Q2R; simpl; lra). constructor. replace 2%R with (pt87 1) by (unfold pt87, qpt, Q2R; simpl; lra). constructor. Qed.
Lemma rect_int : ipoint (oint rect) pt87. Proof. intros d D. simpl in D. lia. Qed.
Example C87_bound : forall F, wfo rect /\ otree_ok (odim rect) oxy /\ ipoint (oint rect) pt87 /\ gamo rect pt87 /\ xval F pt87 oxy 2 /\
  match oct_bound_texpr exact_num (F:=F) true 0 junk rect oxy with Some b => match sup b with Fin q => Qle_bool q 2 = true | _ => False end | None => False end.
Proof. intros F. split. apply rect_wf. split. apply oxy_ok. split. apply rect_int. split. apply rect_pt. split. apply oxy_val. vm_compute. reflexivity. Qed.
Example C87_sat : forall F, otree_ok (odim rect) (tc_expr oxyc) /\ tmod_ok (N:=exact_num) oxyc /\ tc_typ oxyc <> CDisEq /\ oct_sat_tcons exact_num (F:=F) true 0 junk rect oxyc = Some true.
Proof. intros F. split. split. simpl; repeat split; discriminate. occ. split. intros X. discriminate. split. discriminate. vm_compute. reflexivity. Qed.
(** [1,2]*x - 1 >= 0 leaves a smaller octagon; (1,2) is kept *)
Definition ge2 : tcons := mkTC CSupEq (TBin BSub RReal DRnd (TBin BMul RReal DRnd (TCst (Intv (Fin 1) (Fin 2))) (TDim 0)) (TCst (Scal (Fin 1)))) None.
Example C87_meet : forall F, otree_ok (odim rect) (tc_expr ge2) /\ xval F pt87 (tc_expr ge2) 0 /\
  match oct_meet_tcons_array exact_num (F:=F) true (fun _ => (true, true)) 0 junk rect [ge2] with Some r => match best r with Some m => gamb 2 m [1; 2]%Q && negb (gamb 2 m [0; 0]%Q) = true | None => False end | None => False end.
Proof.
  intros F. split. split. simpl; repeat split; discriminate. occ. split. apply xv_bin with 1%R 1%R; [|constructor; simpl; unfold Q2R; simpl; lra|simpl; lra]. apply xv_bin with 1%R (pt87 0); [constructor; simpl; unfold Q2R; simpl; lra|constructor|unfold pt87, qpt, Q2R; simpl; lra]. vm_compute. reflexivity.
Qed.
(** x := x*y in parallel with y := x *)
Definition swp : list (nat * texpr) := [(0, oxy); (1, TDim 0)].
Example C87_assign : forall F, NoDup (map fst swp) /\ (forall d e, In (d, e) swp -> d < odim rect /\ otree_ok (odim rect) e) /\ otree_update F 2 swp pt87 (qpt [2; 1]%Q) /\
  match oct_asssub_texpr_array exact_num (F:=F) true (fun _ => (false, false)) true 0 junk rect swp None with Some r => match best r with Some m => gamb 2 m [2; 1]%Q && negb (gamb 2 m [2; 2]%Q) = true | None => False end | None => False end.
Proof.
  intros F. split. repeat constructor; simpl; intuition lia. split. { intros d e [X|[X|[]]]; injection X as <- <-; (split; [simpl; lia|]). apply oxy_ok. split. exact I. occ. }
  split. { split. intros d e [X|[X|[]]]; injection X as <- <-. replace (qpt [2; 1]%Q 0) with 2%R by (unfold qpt, Q2R; simpl; lra). apply oxy_val. replace (qpt [2; 1]%Q 1) with (pt87 0) by (unfold pt87, qpt, Q2R; simpl; lra). constructor. intros d D NI. destruct NI. simpl. destruct d as [|[|d]]; auto. lia. }
  vm_compute. reflexivity.
Qed.
Example C87_substitute : forall F, match oct_asssub_texpr_array exact_num (F:=F) true (fun _ => (false, false)) false 0 junk rect [(0, TBin BAdd RReal DRnd (TDim 0) (TDim 1))] None with Some r => match best r with Some m => gamb 2 m [0; 1]%Q && negb (gamb 2 m [1; 1]%Q) = true | None => False end | None => False end.
Proof. intros F. vm_compute. reflexivity. Qed.
Example C31_below : wfo exTri /\ wf_linexpr (odim exTri) (mkLin (Scal (Fin 0)) (Sparse [(Some 0, Scal (Fin 1))])).
Proof. split. apply exo_wf, exTri_exo. split; simpl; auto. split. repeat constructor; simpl; auto. split. repeat constructor; simpl; auto. intros d [<-|[]]. lia. Qed.

(** Properties C50 and C19, expression trees: the generic parallel assignment and substitution of trees, and
    substitution of trees in boxes. *)
From Coq Require Import Arith ZArith QArith Qreals Reals Lra Lia Bool List Sorted.
From Verif Require Import Bound BoundFacts Itv ItvFacts Linexpr LinexprFacts ApCore ApTexpr TexprSem ItvTree ItvTreeApi ItvTreeApiFacts PropItvTree Box BoxFacts PropBox BoxSubst Hc4Facts BoxTree PropBoxTree Generic GenericFacts GenericTree BoxSubstTree.
Import ListNotations.
Open Scope nat_scope.
Local Notation E := exact_num.

(** [w] is obtained from [v] by all the assignments at once *)
Definition tree_upd (F : fmts) (n : nat) (asn : list (nat * texpr)) (v w : nat -> R) : Prop :=
  (forall d e, In (d, e) asn -> xval F v e (w d)) /\ (forall d, d < n -> ~ In d (map fst asn) -> w d = v d).

(** [gsound]: the operations of the domain are sound; [tsound]: so is its meet with constraints on the
    trees [eok].  [eok] is a condition on the trees which the domain accepts, for instance "no power". *)
Theorem C50_assign_tree : forall F G inv gam cok eok mt, gsound G inv gam cok -> tsound F G inv gam eok mt -> forall abs asn dest r x v w,
  inv abs -> NoDup (map fst asn) -> (forall d e, In (d, e) asn -> d < gd_int G abs + gd_real G abs /\ eok (gd_int G abs + gd_real G abs) e /\ forall k, occurs k e -> k < gd_int G abs + gd_real G abs) ->
  (forall b, dest = Some b -> inv b /\ gd_int G b = gd_int G abs /\ gd_real G b = gd_real G abs) ->
  asssub_texpr_array G mt true abs asn dest = Some (r, x) ->
  ipoint (gd_int G abs) v -> ipoint (gd_int G abs) w -> tree_upd F (gd_int G abs + gd_real G abs) asn v w ->
  gam abs v -> (forall b, dest = Some b -> gam b w) ->
  inv r /\ gd_int G r = gd_int G abs /\ gd_real G r = gd_real G abs /\ gam r w.
Proof.
  intros F G inv gam cok eok mt GS TS abs asn dest r x v w IA ND EO DO H VI WI U GA GD. apply (GenericTree.asssub_sound F G inv gam cok eok GS mt TS abs asn dest IA ND) with (assign := true) (x := x) (v := v); auto.
  intros d D. apply in_map_iff in D. destruct D as ([d' e] & <- & I). exact (proj1 (EO _ _ I)). intros d e I. exact (proj2 (EO _ _ I)).
Qed.
Print Assumptions C50_assign_tree.
Theorem C50_substitute_tree : forall F G inv gam cok eok mt, gsound G inv gam cok -> tsound F G inv gam eok mt -> forall abs asn dest r x v w,
  inv abs -> NoDup (map fst asn) -> (forall d e, In (d, e) asn -> d < gd_int G abs + gd_real G abs /\ eok (gd_int G abs + gd_real G abs) e /\ forall k, occurs k e -> k < gd_int G abs + gd_real G abs) ->
  (forall b, dest = Some b -> inv b /\ gd_int G b = gd_int G abs /\ gd_real G b = gd_real G abs) ->
  asssub_texpr_array G mt false abs asn dest = Some (r, x) ->
  ipoint (gd_int G abs) v -> ipoint (gd_int G abs) w -> tree_upd F (gd_int G abs + gd_real G abs) asn v w ->
  gam abs w -> (forall b, dest = Some b -> gam b v) ->
  inv r /\ gd_int G r = gd_int G abs /\ gd_real G r = gd_real G abs /\ gam r v.
Proof.
  intros F G inv gam cok eok mt GS TS abs asn dest r x v w IA ND EO DO H VI WI U GA GD. apply (GenericTree.asssub_sound F G inv gam cok eok GS mt TS abs asn dest IA ND) with (assign := false) (x := x) (w := w); auto.
  intros d D. apply in_map_iff in D. destruct D as ([d' e] & <- & I). exact (proj1 (EO _ _ I)). intros d e I. exact (proj2 (EO _ _ I)).
Qed.
Print Assumptions C50_substitute_tree.
(** when the flag "exact" is set, and each operation sets it only when it is exact, every point of the result
    is an image (an inverse image) *)
Theorem C50_exact_flag_tree : forall F G inv gam cok eok mt, gsound G inv gam cok -> tsound F G inv gam eok mt -> gexact G inv gam cok -> texact F G inv gam eok mt -> forall assign abs asn dest r u,
  inv abs -> NoDup (map fst asn) -> (forall d e, In (d, e) asn -> d < gd_int G abs + gd_real G abs /\ eok (gd_int G abs + gd_real G abs) e /\ forall k, occurs k e -> k < gd_int G abs + gd_real G abs) ->
  (forall b, dest = Some b -> inv b /\ gd_int G b = gd_int G abs /\ gd_real G b = gd_real G abs) ->
  asssub_texpr_array G mt assign abs asn dest = Some (r, true) -> gd_is_bottom G abs = false -> gam r u ->
  exists v w, tree_upd F (gd_int G abs + gd_real G abs) asn v w /\ (forall d, d < gd_int G abs + gd_real G abs -> u d = (if assign then w else v) d) /\
    gam abs (if assign then v else w) /\ (forall b, dest = Some b -> gam b (if assign then w else v)).
Proof.
  intros F G inv gam cok eok mt GS TS GE TE assign abs asn dest r u IA ND EO DO H BT GU. apply (GenericTree.asssub_exact F G inv gam cok eok GS mt TS abs asn dest IA ND) with (r := r); auto.
  intros d D. apply in_map_iff in D. destruct D as ([d' e] & <- & I). exact (proj1 (EO _ _ I)). intros d e I. exact (proj2 (EO _ _ I)).
Qed.
Print Assumptions C50_exact_flag_tree.

(** ** Boxes *)
(** algorithm >= 100 (propagation on the trees): any number type which represents 0 and -1, trees without
    the roundings refuted in C14 *)
Theorem C19_substitute_texpr_hc4 : forall (N : numtype) (F : fmts) eq0 nx algo destr (a b : box) asn dest x (v w : nat -> R), (100 <= algo)%Z -> repr_coeff N czero -> repr_coeff N (Scal (Fin (-1))) -> NoDup (map fst asn) ->
  (forall d e, In (d, e) asn -> d < bx_dim a /\ hc4_ok e /\ within a e) -> (forall c, dest = Some c -> bx_int c = bx_int a /\ bx_real c = bx_real a) ->
  box_substitute_texpr_array (N:=N) (F:=F) eq0 nx algo destr a asn dest = Some (b, x) ->
  ipoint (bx_int a) v -> ipoint (bx_int a) w -> tree_upd F (bx_dim a) asn v w -> gbox a w -> (forall c, dest = Some c -> gbox c v) ->
  bx_int b = bx_int a /\ bx_real b = bx_real a /\ gbox b v.
Proof.
  intros N F eq0 nx algo destr a b asn dest x v w A K0 K1 ND EO DO H VI WI U GA GD.
  destruct (C50_substitute_tree F (box_gdom N algo destr) (fun _ => True) gbox (repr_coeff N) (fun _ e => hc4_ok e) _ (box_gsound N algo destr K0 K1) (box_tsound_hc4 N F eq0 nx algo destr A) a asn dest b x v w) as (_ & R); auto.
Qed.
Print Assumptions C19_substitute_texpr_hc4.
(** algorithm < 100 (the trees are made linear): exact numbers, no power *)
Theorem C19_substitute_texpr_linear : forall (F : fmts) eq0 nx algo destr (a b : box) asn dest x (v w : nat -> R), (algo < 100)%Z -> NoDup (map fst asn) ->
  (forall d e, In (d, e) asn -> d < bx_dim a /\ no_pow e /\ within a e) -> (forall c, dest = Some c -> bx_int c = bx_int a /\ bx_real c = bx_real a) ->
  box_substitute_texpr_array (N:=E) (F:=F) eq0 nx algo destr a asn dest = Some (b, x) ->
  ipoint (bx_int a) v -> ipoint (bx_int a) w -> tree_upd F (bx_dim a) asn v w -> gbox a w -> (forall c, dest = Some c -> gbox c v) ->
  bx_int b = bx_int a /\ bx_real b = bx_real a /\ gbox b v.
Proof.
  intros F eq0 nx algo destr a b asn dest x v w A ND EO DO H VI WI U GA GD.
  destruct (C50_substitute_tree F (box_gdom E algo destr) (fun _ => True) gbox (repr_coeff E) (fun _ e => no_pow e) _ (box_gsound E algo destr (or_introl eq_refl) (or_introl eq_refl)) (box_tsound_lin F eq0 nx algo destr A) a asn dest b x v w) as (_ & R); auto.
Qed.
Print Assumptions C19_substitute_texpr_linear.

(** ** Example: substitution of x by x*y in x in [2,6], y in [2,3]: the result contains (2,3), whose image is (6,3) *)
Definition xy50 : texpr := TBin BMul RReal DRnd (TDim 0) (TDim 1).
Definition as50 : list (nat * texpr) := [(0, xy50)].
Definition bx50 : box := bx 0 2 [(2, 6); (2, 3)]%Q.
Definition v50 : nat -> R := fun d => match d with O => 2%R | _ => 3%R end.
Definition w50 : nat -> R := fun d => match d with O => 6%R | _ => 3%R end.
Example C19_substitute_example : forall F nx algo, algo = 0%Z \/ algo = 100%Z -> (forall d e, In (d, e) as50 -> d < bx_dim bx50 /\ hc4_ok e /\ no_pow e /\ within bx50 e) /\ tree_upd F (bx_dim bx50) as50 v50 w50 /\ gbox bx50 w50 /\
  exists b x, box_substitute_texpr_array (N:=E) (F:=F) true nx algo false bx50 as50 None = Some (b, x) /\ gbox b v50.
Proof.
  intros F nx algo AL.
  assert (OK : forall d e, In (d, e) as50 -> d < bx_dim bx50 /\ hc4_ok e /\ no_pow e /\ within bx50 e).
  { intros d e [X|[]]. inversion X; subst. split. unfold bx_dim; simpl; lia. split. simpl. split; auto. split; auto. left; auto. split. simpl. repeat split. discriminate. intros k O. unfold bx_dim; simpl. repeat match goal with K : occurs _ _ |- _ => inversion K; subst; clear K end; lia. }
  assert (U : tree_upd F (bx_dim bx50) as50 v50 w50).
  { split. intros d e [X|[]]. inversion X; subst. apply xv_bin with 2%R 3%R; [apply (xv_dim F v50 0)|apply (xv_dim F v50 1)|simpl; lra]. intros d D NI. destruct d as [|d]. exfalso. apply NI. simpl. auto. reflexivity. }
  assert (G : gbox bx50 w50). { intros d D. unfold bx_dim in D. simpl in D. destruct d as [|[|d]]; [| |lia]; unfold w50; simpl; unfold in_itv; simpl; unfold Q2R; simpl; lra. }
  split; auto. split; auto. split; auto.
  assert (NC : match box_substitute_texpr_array (N:=E) (F:=F) true nx algo false bx50 as50 None with Some _ => true | None => false end = true) by (destruct AL; subst algo; vm_compute; reflexivity).
  destruct (box_substitute_texpr_array (N:=E) (F:=F) true nx algo false bx50 as50 None) as [[b x]|] eqn:H; [|discriminate NC]. exists b, x. split; auto.
  assert (ND : NoDup (map fst as50)) by (repeat constructor; simpl; tauto). assert (IP : forall u : nat -> R, ipoint (bx_int bx50) u) by (intros u d D; simpl in D; lia).
  destruct AL as [AL|AL].
  - destruct (C19_substitute_texpr_linear F true nx algo false bx50 b as50 None x v50 w50) as (_ & _ & R); auto. lia. intros d e I. destruct (OK d e I) as (A1 & _ & A2 & A3); auto. discriminate. discriminate.
  - destruct (C19_substitute_texpr_hc4 E F true nx algo false bx50 b as50 None x v50 w50) as (_ & _ & R); auto. lia. left; auto. left; auto. intros d e I. destruct (OK d e I) as (A1 & A2 & _ & A3); auto. discriminate. discriminate.
Qed.

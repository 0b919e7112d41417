(** Property C51: the reduced product (RedProd.v).

    The components are arbitrary: a component is given by its functions ([core], and one function per operation) and by
    what they are supposed to do ([spec]: which values are legal for given dimensions, and which points they stand for).
    A product stands for the points which are in all its components ([pts]).  The reduction function is arbitrary as
    long as it keeps the points ([reduce_ok]).  The meaning of an operation is a function from sets of points to sets of
    points; [mono]: more points in the arguments give more points in the result. *)
From Coq Require Import Arith ZArith QArith Qreals Reals Lra Lia Bool List.
From Verif Require Import Bound BoundFacts Util Itv Linexpr LinexprFacts ItvLin ApCore ApCoreEq Box BoxFacts BoxOps PropOctTransfer PropBox PkVec PkSpec PkPoly PkPolyFacts PropPkPoly PkDims PkOps PropPkDims RedProd RedProdFacts.
Import ListNotations.
Open Scope nat_scope.
Local Notation E := exact_num.

(** * Soundness and exactness for any operation *)
(** whatever the options, whether the emptiness of the component results is tested or not, early exits included *)
Theorem C51_operation : forall V red o1 o2 chk redbot rd cs ss fs T dl d l, reduce_ok V ss red -> Forall2 (sound_core V) cs ss ->
  Forall2 (fun s f => sound_op V T dl d s f) ss fs -> mono T -> Forall2 (valid V ss) dl l ->
  let a := fst (fst (rp_op V red o1 o2 chk redbot rd cs fs l)) in
  valid V ss d a /\ forall x, T (map (pts V ss) l) x -> pts V ss a x.
Proof. exact op_sound. Qed.
(** exactness when the components are exact and the operation commutes with the intersection *)
Theorem C51_operation_exact : forall V red o1 o2 chk redbot rd cs ss fs T dl d l, reduce_ok V ss red -> Forall2 (sound_core V) cs ss ->
  Forall2 (fun s f => sound_op V T dl d s f) ss fs -> Forall2 (fun s f => exact_op V T dl s f) ss fs -> mono T -> conj_op T -> ss <> [] -> Forall2 (valid V ss) dl l ->
  forall x, pts V ss (fst (fst (rp_op V red o1 o2 chk redbot rd cs fs l))) x <-> T (map (pts V ss) l) x.
Proof.
  intros V red o1 o2 chk redbot rd cs ss fs T dl d l R HC HF HE M J NE HL x. split.
  - apply (op_exact V red o1 o2 chk redbot rd cs ss fs T dl d l true); auto.
  - apply (op_sound V red o1 o2 chk redbot rd cs ss fs T dl d l); auto.
Qed.
(** the flag [flag_exact] is right for the operations which do not test the emptiness of their component results *)
Theorem C51_operation_flag : forall V red o1 o2 redbot rd cs ss fs T dl d l, reduce_ok V ss red -> Forall2 (sound_core V) cs ss ->
  Forall2 (fun s f => sound_op V T dl d s f) ss fs -> Forall2 (fun s f => honest_op V T dl s f) ss fs -> mono T -> conj_op T -> ss <> [] -> Forall2 (valid V ss) dl l ->
  snd (fst (rp_op V red o1 o2 false redbot rd cs fs l)) = true ->
  forall x, pts V ss (fst (fst (rp_op V red o1 o2 false redbot rd cs fs l))) x -> T (map (pts V ss) l) x.
Proof. intros V red o1 o2 redbot rd cs ss fs T dl d l R HC HF HE M J NE HL FL. apply (op_exact V red o1 o2 false redbot rd cs ss fs T dl d l false); auto. Qed.
Print Assumptions C51_operation_exact.

(** * The operations of the interface *)
(** common points; points of one of them *)
Definition t_meet (l : list set) : set := fun x => Forall (fun A : set => A x) l.
Definition t_join (l : list set) : set := fun x => Exists (fun A : set => A x) l.
(** the points which satisfy constraints *)
Definition t_cons (P : set) (l : list set) : set := fun x => P x /\ t_meet l x.
(** the images of the points by a relation (assignment, substitution, projection, change of dimensions), among the
    points of the optional destination *)
Definition t_image (Rel : (nat -> R) -> (nat -> R) -> Prop) (l : list set) : set := fun y => match l with [] => False | A :: dest => (exists x, A x /\ Rel x y) /\ t_meet dest y end.
Lemma F2_meet : forall l l', Forall2 (fun A B : set => forall x, A x -> B x) l l' -> forall x, t_meet l x -> t_meet l' x.
Proof. intros l l' H x. induction H; intros Q; auto. inversion Q; subst. constructor; auto. apply IHForall2; auto. Qed.
Lemma m_meet : mono t_meet. Proof. intros l l' H. apply F2_meet; auto. Qed.
Lemma m_join : mono t_join. Proof. intros l l' H x. induction H; intros Q; auto. inversion Q; subst. constructor; auto. apply Exists_cons_tl. apply IHForall2; auto. Qed.
Lemma m_cons : forall P, mono (t_cons P). Proof. intros P l l' H x [A B]. split; auto. eapply F2_meet; eauto. Qed.
Lemma m_image : forall Rel, mono (t_image Rel).
Proof. intros Rel l l' H y. destruct H; simpl; auto. intros [(x0 & A & B) M]. split. exists x0; auto. eapply F2_meet; eauto. Qed.
Lemma j_meet : conj_op t_meet.
Proof. intros L1. induction L1; intros [|B L2] x L A C; try discriminate; simpl. constructor. inversion A; inversion C; subst. constructor. simpl; auto. apply IHL1; auto. Qed.
Lemma j_cons : forall P, conj_op (t_cons P). Proof. intros P L1 L2 x L [A B] [C D]. split; auto. apply j_meet; auto. Qed.
Lemma j_image : forall (Rel : (nat -> R) -> (nat -> R) -> Prop), (forall x x' y, Rel x y -> Rel x' y -> x = x') -> conj_op (t_image Rel).
Proof.
  intros Rel D [|A L1] [|B L2] y L; simpl; try tauto; try discriminate. intros [(x & X & RX) M] [(x' & X' & RX') M']. rewrite (D x' x y RX' RX) in X'. split. exists x. auto. apply j_meet; auto.
Qed.

(** the points whose images by all the functions of a list are in the argument (expansion of a dimension) *)
Definition t_every (Pr : list ((nat -> R) -> (nat -> R))) (l : list set) : set := fun y => match l with A :: _ => Forall (fun p => A (p y)) Pr | [] => False end.
Lemma m_every : forall Pr, mono (t_every Pr).
Proof. intros Pr l l' H y. destruct H; simpl; auto. apply Forall_impl. auto. Qed.
Lemma j_every : forall Pr, conj_op (t_every Pr).
Proof. intros Pr [|A L1] [|B L2] y L; simpl; try tauto; try discriminate. intros H1 H2. rewrite Forall_forall in *. intros p I. auto. Qed.

Section Api.
Variables (V : Type) (red : rp V -> rp V) (o1 o2 : bool) (cs : list (core V)) (ss : list (spec V)).
Hypothesis RD : reduce_ok V ss red.
Hypothesis HC : Forall2 (sound_core V) cs ss.
Notation pts := (pts V ss).
Notation valid := (valid V ss).
Notation val r := (fst (fst r)).

(** meet is sound, and exact if it is exact in the components *)
Theorem C51_meet : forall fs d a b, Forall2 (fun s f => sound_op V t_meet [d; d] d s f) ss fs -> valid d a -> valid d b ->
  valid d (val (rp_meet V red o1 o2 cs fs a b)) /\ forall x, pts a x -> pts b x -> pts (val (rp_meet V red o1 o2 cs fs a b)) x.
Proof.
  intros fs d a b HF A B. assert (HL : Forall2 valid [d; d] [a; b]) by auto. destruct (C51_operation V red o1 o2 true true (fun _ => false) cs ss fs t_meet _ d _ RD HC HF m_meet HL) as [X Y].
  split. exact X. intros x XA XB. apply Y. repeat constructor; auto.
Qed.
Theorem C51_meet_exact : forall fs d a b, Forall2 (fun s f => sound_op V t_meet [d; d] d s f) ss fs -> Forall2 (fun s f => exact_op V t_meet [d; d] s f) ss fs -> ss <> [] -> valid d a -> valid d b ->
  forall x, pts (val (rp_meet V red o1 o2 cs fs a b)) x <-> pts a x /\ pts b x.
Proof.
  intros fs d a b HF HE NE A B x. assert (HL : Forall2 valid [d; d] [a; b]) by auto. unfold rp_meet. rewrite (C51_operation_exact V red o1 o2 true true (fun _ => false) cs ss fs t_meet _ d _ RD HC HF HE m_meet j_meet NE HL).
  unfold t_meet. simpl. rewrite !Forall_cons_iff. intuition.
Qed.
Theorem C51_meet_array : forall fs d l, Forall2 (fun s f => sound_op V t_meet (map (fun _ => d) l) d s f) ss fs -> Forall (valid d) l ->
  valid d (val (rp_meet_array V red o1 o2 cs fs l)) /\ forall x, Forall (fun a => pts a x) l -> pts (val (rp_meet_array V red o1 o2 cs fs l)) x.
Proof.
  intros fs d l HF A. assert (HL : Forall2 valid (map (fun _ => d) l) l) by (clear - A; induction A; simpl; auto). destruct (C51_operation V red o1 o2 true true (fun _ => false) cs ss fs t_meet _ d _ RD HC HF m_meet HL) as [X Y].
  split. exact X. intros x Q. apply Y. apply Forall_map. exact Q.
Qed.
(** join, arrays of any size *)
Theorem C51_join : forall fs d a b, Forall2 (fun s f => sound_op V t_join [d; d] d s f) ss fs -> valid d a -> valid d b ->
  valid d (val (rp_join V red o1 o2 cs fs a b)) /\ forall x, pts a x \/ pts b x -> pts (val (rp_join V red o1 o2 cs fs a b)) x.
Proof.
  intros fs d a b HF A B. assert (HL : Forall2 valid [d; d] [a; b]) by auto. destruct (C51_operation V red o1 o2 false true (reds V) cs ss fs t_join _ d _ RD HC HF m_join HL) as [X Y].
  split. exact X. intros x Q. apply Y. simpl. destruct Q; [apply Exists_cons_hd|apply Exists_cons_tl, Exists_cons_hd]; auto.
Qed.
Theorem C51_join_array : forall fs d l, Forall2 (fun s f => sound_op V t_join (map (fun _ => d) l) d s f) ss fs -> Forall (valid d) l ->
  valid d (val (rp_join_array V red o1 o2 cs fs l)) /\ forall x, Exists (fun a => pts a x) l -> pts (val (rp_join_array V red o1 o2 cs fs l)) x.
Proof.
  intros fs d l HF A. assert (HL : Forall2 valid (map (fun _ => d) l) l) by (clear - A; induction A; simpl; auto). destruct (C51_operation V red o1 o2 false true (fun _ => false) cs ss fs t_join _ d _ RD HC HF m_join HL) as [X Y].
  split. exact X. intros x Q. apply Y. apply Exists_exists in Q. destruct Q as (a & I & P). apply Exists_exists. exists (pts a). split; auto. apply in_map; auto.
Qed.
(** meet with linear or tree constraints, [P]: the points which satisfy them *)
Theorem C51_meet_constraints : forall (P : set) fs d a, Forall2 (fun s f => sound_op V (t_cons P) [d] d s f) ss fs -> valid d a ->
  valid d (val (rp_meet_cons V red o1 o2 cs fs a)) /\ (forall x, pts a x -> P x -> pts (val (rp_meet_cons V red o1 o2 cs fs a)) x) /\
  (Forall2 (fun s f => exact_op V (t_cons P) [d] s f) ss fs -> ss <> [] -> forall x, pts (val (rp_meet_cons V red o1 o2 cs fs a)) x -> pts a x /\ P x).
Proof.
  intros P fs d a HF A. assert (HL : Forall2 valid [d] [a]) by auto. destruct (C51_operation V red o1 o2 true false (fun _ => false) cs ss fs (t_cons P) _ d _ RD HC HF (m_cons P) HL) as [X Y].
  split. exact X. split. intros x XA XP. apply Y. split; auto. constructor; auto.
  intros HE NE x Q. unfold rp_meet_cons in Q. rewrite (C51_operation_exact V red o1 o2 true false (fun _ => false) cs ss fs (t_cons P) _ d _ RD HC HF HE (m_cons P) (j_cons P) NE HL) in Q. destruct Q as [Q1 Q2]. simpl in Q2. inversion Q2; subst. auto.
Qed.
(** assignment and substitution of linear or tree expressions; [Rel x y]: the point [x] may become [y] *)
Theorem C51_assign : forall Rel sub fs d a dest, Forall2 (fun s f => sound_op V (t_image Rel) (d :: map (fun _ => d) (match dest with Some b => [b] | None => [] end)) d s f) ss fs -> valid d a -> (forall b, dest = Some b -> valid d b) ->
  valid d (val (rp_asssub V sub red o1 o2 cs fs a dest)) /\
  forall x y, pts a x -> Rel x y -> (forall b, dest = Some b -> pts b y) -> pts (val (rp_asssub V sub red o1 o2 cs fs a dest)) y.
Proof.
  intros Rel sub fs d a dest HF A B. assert (HL : Forall2 valid (d :: map (fun _ => d) (match dest with Some b => [b] | None => [] end)) (a :: match dest with Some b => [b] | None => [] end)) by (destruct dest; simpl; auto).
  destruct (C51_operation V red o1 o2 (sub || match dest with Some _ => true | None => false end) false (fun _ => false) cs ss fs (t_image Rel) _ d _ RD HC HF (m_image Rel) HL) as [X Y].
  split. exact X. intros x y XA XR XB. apply Y. simpl. split. eauto. destruct dest; simpl; repeat constructor; auto.
Qed.
(** projection, addition, removal and permutation of dimensions, addition of rays, closure, folding: image by a relation *)
Theorem C51_unary : forall Rel fs d d' a, Forall2 (fun s f => sound_op V (t_image Rel) [d] d' s f) ss fs -> valid d a ->
  (valid d' (val (rp_keep V red o1 o2 cs fs a)) /\ forall x y, pts a x -> Rel x y -> pts (val (rp_keep V red o1 o2 cs fs a)) y) /\
  (valid d' (val (rp_lose V red o1 o2 cs fs a)) /\ forall x y, pts a x -> Rel x y -> pts (val (rp_lose V red o1 o2 cs fs a)) y).
Proof.
  intros Rel fs d d' a HF A. assert (HL : Forall2 valid [d] [a]) by auto.
  destruct (C51_operation V red o1 o2 false false (reds V) cs ss fs (t_image Rel) _ d' _ RD HC HF (m_image Rel) HL) as [X Y].
  destruct (C51_operation V red o1 o2 false false (fun _ => false) cs ss fs (t_image Rel) _ d' _ RD HC HF (m_image Rel) HL) as [X' Y'].
  split; (split; [assumption|]); intros x y XA XR; [apply Y|apply Y']; (split; [exists x; auto|constructor]).
Qed.
Theorem C51_expand : forall Pr fs d d' a, Forall2 (fun s f => sound_op V (t_every Pr) [d] d' s f) ss fs -> Forall2 (fun s f => exact_op V (t_every Pr) [d] s f) ss fs -> ss <> [] -> valid d a ->
  forall y, pts (val (rp_keep V red o1 o2 cs fs a)) y <-> Forall (fun p => pts a (p y)) Pr.
Proof.
  intros Pr fs d d' a HF HE NE A y. assert (HL : Forall2 valid [d] [a]) by auto. unfold rp_keep.
  rewrite (C51_operation_exact V red o1 o2 false false (reds V) cs ss fs (t_every Pr) _ d' _ RD HC HF HE (m_every Pr) (j_every Pr) NE HL). reflexivity.
Qed.
Theorem C51_widening : forall fs d a b, Forall2 (fun s f => sound_op V t_join [d; d] d s f) ss fs -> valid d a -> valid d b ->
  valid d (val (rp_widening V red o1 o2 cs fs a b)) /\ forall x, pts a x \/ pts b x -> pts (val (rp_widening V red o1 o2 cs fs a b)) x.
Proof.
  intros fs d a b HF A B. assert (HL : Forall2 valid [d; d] [a; b]) by auto. destruct (C51_operation V red o1 o2 false false (fun _ => false) cs ss fs t_join _ d _ RD HC HF m_join HL) as [X Y].
  split. exact X. intros x Q. apply Y. simpl. destruct Q; [apply Exists_cons_hd|apply Exists_cons_tl, Exists_cons_hd]; auto.
Qed.

(** * Tests: a positive answer is right *)
Theorem C51_is_bottom : forall fs d a before, valid d a -> length before = length fs ->
  Forall2 (fun s f => forall v, s_inv V s (fst d) (snd d) v -> fst (f v) = true -> forall x, ~ s_gam V s v x) ss fs ->
  fst (fst (rp_any V red o1 fs a before)) = true -> forall x, ~ pts a x.
Proof.
  intros fs d a before VA L HF Q. apply (any_sound V (fun A => forall x, ~ A x)) with (red := red) (o := o1) (fs := fs) (d := d) (before := before); auto. intros A B I NB x X. apply (NB x); auto.
Qed.
(** [P]: the points which satisfy the linear constraint, the tree constraint, the interval *)
Theorem C51_sat : forall (P : set) fs d a before, valid d a -> length before = length fs ->
  Forall2 (fun s f => forall v, s_inv V s (fst d) (snd d) v -> fst (f v) = true -> forall x, s_gam V s v x -> P x) ss fs ->
  fst (fst (rp_any V red o1 fs a before)) = true -> forall x, pts a x -> P x.
Proof.
  intros P fs d a before VA L HF Q. apply (any_sound V (fun A => forall x, A x -> P x)) with (red := red) (o := o1) (fs := fs) (d := d) (before := before); auto.
Qed.
Theorem C51_is_leq : forall fs d a b before, valid d a -> valid d b -> length before = length fs ->
  Forall2 (fun s f => forall v w, s_inv V s (fst d) (snd d) v -> s_inv V s (fst d) (snd d) w -> fst (f (v, w)) = true -> forall x, s_gam V s v x -> s_gam V s w x) ss fs ->
  fst (fst (rp_all2 V red o1 fs a b before)) = true -> forall x, pts a x -> pts b x.
Proof.
  intros fs d a b before VA VB L HF Q. apply all2_iff in Q; auto. destruct (init1_ok V ss red o1 d a RD VA) as [IA JA]. destruct (init1_ok V ss red o1 d b RD VB) as [IB JB].
  intros x X. apply JB. apply JA in X. revert x X. apply (leq_list V (fun A B => forall x, A x -> B x) d ss fs); auto.
  - intros A B A' B' H1 H2 x [H3 H4]. auto.
  - intros A B A' B' H1 H2 H3 x H4. apply H2, H3, H1; auto.
Qed.
Theorem C51_is_eq : forall fs d a b before, valid d a -> valid d b -> length before = length fs ->
  Forall2 (fun s f => forall v w, s_inv V s (fst d) (snd d) v -> s_inv V s (fst d) (snd d) w -> fst (f (v, w)) = true -> forall x, s_gam V s v x <-> s_gam V s w x) ss fs ->
  fst (fst (rp_all2 V red o1 fs a b before)) = true -> forall x, pts a x <-> pts b x.
Proof.
  intros fs d a b before VA VB L HF Q. apply all2_iff in Q; auto. destruct (init1_ok V ss red o1 d a RD VA) as [IA JA]. destruct (init1_ok V ss red o1 d b RD VB) as [IB JB].
  intros x. rewrite <- JA, <- JB. revert x. apply (leq_list V (fun A B => forall x, A x <-> B x) d ss fs); auto.
  - tauto.
  - intros A B A' B' H1 H2 x. rewrite H1, H2. tauto.
  - intros A B A' B' H1 H2 H3 x. rewrite <- H1, <- H2. auto.
Qed.
(** [K]: a property of sets kept by intersection *)
Lemma all_kept : forall (K : set -> Prop) fs d a before, K (fun _ => True) -> (forall A B : set, K A -> K B -> K (fun x => A x /\ B x)) -> (forall A B : set, (forall x, A x <-> B x) -> K A -> K B) ->
  valid d a -> length before = length fs ->
  Forall2 (fun s f => forall v, s_inv V s (fst d) (snd d) v -> fst (f v) = true -> K (s_gam V s v)) ss fs ->
  fst (fst (rp_all V red o1 fs a before)) = true -> K (pts a).
Proof.
  intros K fs d a before K1 K2 K3 VA L HF Q. apply (all_iff V red o1 ss fs d a before) in Q; auto. 2: { clear - HF; induction HF; simpl; auto. }
  destruct (init1_ok V ss red o1 d a RD VA) as [IA JA]. apply (K3 (pts (init1 V red o1 a))). auto. clear JA.
  unfold pts, valid in *. revert IA Q. generalize (rp_p V (init1 V red o1 a)) as vs. clear - HF K1 K2 K3. induction HF as [|s f ss' fs HS HF IH]; intros vs IA Q.
  - inversion IA; subst. apply (K3 (fun _ => True)); auto. intros x. split; auto. constructor.
  - inversion IA; subst. simpl in Q. inversion Q; subst. apply (K3 (fun x => s_gam V s y x /\ lpts V ss' l' x)). intros x. split; [intros [A B]; constructor; auto|intros A; inversion A; auto]. apply K2; auto.
Qed.
Theorem C51_is_top : forall fs d a before, valid d a -> length before = length fs ->
  Forall2 (fun s f => forall v, s_inv V s (fst d) (snd d) v -> fst (f v) = true -> forall x, s_gam V s v x) ss fs ->
  fst (fst (rp_all V red o1 fs a before)) = true -> forall x, pts a x.
Proof. intros fs d a before VA L HF. apply (all_kept (fun A => forall x, A x) fs d); auto. intros A B H1 H2. firstorder. Qed.
(** the answer is also complete when it is in the components *)
Theorem C51_is_top_iff : forall fs d a before, valid d a -> length before = length fs ->
  Forall2 (fun s f => forall v, s_inv V s (fst d) (snd d) v -> (fst (f v) = true <-> forall x, s_gam V s v x)) ss fs ->
  (fst (fst (rp_all V red o1 fs a before)) = true <-> forall x, pts a x).
Proof.
  intros fs d a before VA L HF. split. apply (C51_is_top fs d); auto. clear - HF. induction HF; constructor; auto. intros v I. apply H; auto.
  intros Q. apply (all_iff V red o1 ss fs d a before); auto. clear - HF; induction HF; simpl; auto.
  destruct (init1_ok V ss red o1 d a RD VA) as [IA JA]. assert (Q' : forall x, pts (init1 V red o1 a) x) by (intro x; apply JA; auto). clear Q JA.
  unfold pts, valid in *. revert IA Q'. generalize (rp_p V (init1 V red o1 a)) as vs. clear - HF. induction HF as [|s f ss' fs HS HF IH]; intros vs IA Q. constructor.
  inversion IA; subst. simpl. constructor. simpl. apply HS; auto. intros x. specialize (Q x). inversion Q; auto. apply IH; auto. intros x. specialize (Q x). inversion Q; auto.
Qed.
(** the dimension [k] may take any value *)
Theorem C51_is_dimension_unconstrained : forall k fs d a before, valid d a -> length before = length fs ->
  Forall2 (fun s f => forall v, s_inv V s (fst d) (snd d) v -> fst (f v) = true -> forall x y, (forall j, j <> k -> x j = y j) -> s_gam V s v x -> s_gam V s v y) ss fs ->
  fst (fst (rp_all V red o1 fs a before)) = true -> forall x y, (forall j, j <> k -> x j = y j) -> pts a x -> pts a y.
Proof.
  intros k fs d a before VA L HF. apply (all_kept (fun A => forall x y, (forall j, j <> k -> x j = y j) -> A x -> A y) fs d); auto.
  - intros A B H1 H2 x y H3 [H4 H5]. split; eauto.
  - intros A B H1 H2 x y H3 H4. apply H1. eapply H2; eauto. apply H1; auto.
Qed.

(** * Bounds and conversions *)
(** [Val x r]: [r] is a value of the expression (or the coordinate) at [x] *)
Theorem C51_bound : forall (Val : (nat -> R) -> R -> Prop) fs d a, valid d a ->
  Forall2 (fun s f => forall v, s_inv V s (fst d) (snd d) v -> forall x r, s_gam V s v x -> Val x r -> in_u r (fst (f v))) ss fs ->
  forall x r, pts a x -> Val x r -> in_u r (rp_bound V red o1 fs a).
Proof. intros. eapply bound_sound; eauto. Qed.
Theorem C51_to_box : forall fs d n a, valid d a -> ss <> [] ->
  Forall2 (fun s f => forall v, s_inv V s (fst d) (snd d) v -> length (fst (f v)) = n /\ forall x, s_gam V s v x -> in_box n (fst (f v)) x) ss fs ->
  length (rp_to_box V red o1 fs a) = n /\ forall x, pts a x -> in_box n (rp_to_box V red o1 fs a) x.
Proof. intros. eapply to_box_sound; eauto. Qed.
(** the constraints describe exactly the product *)
Theorem C51_to_constraints : forall C (sat : C -> set) fs d a, valid d a ->
  Forall2 (fun s f => forall v, s_inv V s (fst d) (snd d) v -> forall x, s_gam V s v x <-> Forall (fun c => sat c x) (fst (f v))) ss fs ->
  forall x, pts a x <-> Forall (fun c => sat c x) (rp_to_cons V red o1 fs a).
Proof. intros. eapply to_cons_exact; eauto. Qed.
End Api.
Print Assumptions C51_assign.
Print Assumptions C51_is_leq.
Print Assumptions C51_bound.
Print Assumptions C51_to_box.

(** * Boxes and polyhedra *)
(** a product of the box domain (exact numbers) and of the polyhedra; the component functions are those of the models of
    the two libraries, with the flags they leave *)
Definition bp : Type := (box + poly)%type.
Definition bp_dim (v : bp) : nat * nat := match v with inl b => (bx_int b, bx_real b) | inr p => (pint p, preal p) end.
(** box_bottom, box_is_bottom: box_constructor.c 21-31, 92-99 *)
Definition bcore : core bp := mkCore bp bp_dim (fun i r => (inl (box_bottom i r), true)) (fun v => match v with inl b => (box_is_bottom b, true) | inr _ => (false, true) end).
(** pk_bottom, pk_is_bottom with [algorithm] >= 0: pk_test.c 27-58 *)
Definition pcore : core bp := mkCore bp bp_dim (fun i r => (inr (pbottom i r), true))
  (fun v => match v with inr p => (fst (pk_is_bottom true p), fst (pk_is_bottom true p) || (pint p =? 0)) | inl _ => (false, true) end).
Definition bspec : spec bp := mkSpec bp (fun i r v => match v with inl b => box_built E b /\ bx_int b = i /\ bx_real b = r | inr _ => False end) (fun v => match v with inl b => gbox b | inr _ => fun _ => False end).
Definition pspec : spec bp := mkSpec bp (fun i r v => match v with inr p => wfp p /\ pint p = i /\ preal p = r | inl _ => False end) (fun v => match v with inr p => points p | inl _ => fun _ => False end).
Lemma bcore_ok : sound_core bp bcore bspec.
Proof.
  split; [|split].
  - intros i r [b|p]; simpl; try tauto. intros (_ & A & B). congruence.
  - intros i r. simpl. split; [|tauto]. split; auto. constructor.
  - intros i r [b|p]; simpl; try tauto. intros (A & _) Q. apply (C15_is_bottom_iff E b A). auto.
Qed.
Lemma pcore_ok : sound_core bp pcore pspec.
Proof.
  split; [|split].
  - intros i r [b|p]; simpl; try tauto. intros (_ & A & B). congruence.
  - intros i r. simpl. split; [|tauto]. split; auto. apply C68_bottom.
  - intros i r [b|p]; simpl; try tauto. intros (A & _) Q. destruct (pk_is_bottom true p) as [b po'] eqn:EB. destruct (C68_is_bottom true p b po' A EB) as (_ & X & _). auto.
Qed.
Definition bp_cores := [bcore; pcore].
Definition bp_specs := [bspec; pspec].
Lemma bp_ok : Forall2 (sound_core bp) bp_cores bp_specs.
Proof. constructor. apply bcore_ok. constructor. apply pcore_ok. constructor. Qed.
Definition no_reduce (a : rp bp) : rp bp := a.
Lemma no_reduce_ok : reduce_ok bp bp_specs no_reduce. Proof. intros d a VA. split; auto. intros; tauto. Qed.
(** box_meet (box_meetjoin.c 22-43), pk_meet (pk_meetjoin.c) *)
Definition bmeet (l : list bp) : bp * bool := match l with [inl a; inl b] => (inl (box_meet a b), true) | _ => (inl (box_bottom 0 0), false) end.
Definition pmeet (lazy : bool) (l : list bp) : bp * bool := match l with [inr a; inr b] => match pk_meet lazy false a b with Some (po, _, _) => (inr po, true) | None => (inr a, false) end | _ => (inr (pbottom 0 0), false) end.
(** box_join (box_meetjoin.c 49-74), pk_join (pk_meetjoin.c) *)
Definition bjoin (l : list bp) : bp * bool := match l with [inl a; inl b] => (inl (box_join a b), box_is_bottom a || box_is_bottom b) | _ => (inl (box_bottom 0 0), false) end.
Definition pjoin (lazy : bool) (l : list bp) : bp * bool := match l with [inr a; inr b] => match pk_join lazy false false false a b with Some (po, _, _) => (inr po, false) | None => (inr a, false) end | _ => (inr (pbottom 0 0), false) end.

Lemma two : forall (P : nat * nat -> bp -> Prop) d l, Forall2 P [d; d] l -> exists a b, l = [a; b] /\ P d a /\ P d b.
Proof. intros P d l H. inversion H; subst. inversion H4; subst. inversion H6; subst. eauto. Qed.
Lemma box_meet_dims : forall a b, bx_int (box_meet a b) = bx_int a /\ bx_real (box_meet a b) = bx_real a.
Proof. intros a b. unfold box_meet. destruct (bx_p a), (bx_p b); simpl; auto. destruct (all_dims _ _); auto. Qed.
Lemma bmeet_ok : forall d, sound_op bp t_meet [d; d] d bspec bmeet /\ exact_op bp t_meet [d; d] bspec bmeet.
Proof.
  intros [i r]. split.
  - intros l H. apply two in H. destruct H as (a & b & EL & A & B). subst l. destruct a as [a|a], b as [b|b]; simpl in A, B; try tauto. destruct A as (A1 & A2 & A3), B as (B1 & B2 & B3).
    assert (SD : BoxFacts.same_dims a b) by (split; congruence). simpl. split.
    + destruct (box_meet_dims a b) as [D1 D2]. split; [|split; congruence]. apply bb_meet; auto.
    + intros x X. inversion X; subst. inversion H2; subst. apply C16_meet_exact; auto.
  - intros l H. apply two in H. destruct H as (a & b & EL & A & B). subst l. destruct a as [a|a], b as [b|b]; simpl in A, B; try tauto. destruct A as (A1 & A2 & A3), B as (B1 & B2 & B3).
    assert (SD : BoxFacts.same_dims a b) by (split; congruence). simpl. intros x X. apply C16_meet_exact in X; auto. destruct X. repeat constructor; auto.
Qed.
Lemma pmeet_ok : forall lazy d, sound_op bp t_meet [d; d] d pspec (pmeet lazy) /\ exact_op bp t_meet [d; d] pspec (pmeet lazy).
Proof.
  intros lazy [i r]. split.
  - intros l H. apply two in H. destruct H as (a & b & EL & A & B). subst l. destruct a as [a|a], b as [b|b]; simpl in A, B; try tauto. destruct A as (A1 & A2 & A3), B as (B1 & B2 & B3).
    assert (SD : PropPkPoly.same_dims a b) by (split; congruence). simpl. destruct (C69_meet lazy a b A1 B1 SD) as (po & pa' & pb' & EM & (M1 & (M2 & M3) & M4) & _). rewrite EM. simpl. split.
    + split; [auto|split; congruence].
    + intros x X. inversion X; subst. inversion H2; subst. apply M4; auto.
  - intros l H. apply two in H. destruct H as (a & b & EL & A & B). subst l. destruct a as [a|a], b as [b|b]; simpl in A, B; try tauto. destruct A as (A1 & A2 & A3), B as (B1 & B2 & B3).
    assert (SD : PropPkPoly.same_dims a b) by (split; congruence). simpl. destruct (C69_meet lazy a b A1 B1 SD) as (po & pa' & pb' & EM & (M1 & (M2 & M3) & M4) & _). rewrite EM. simpl.
    intros x X. apply M4 in X. destruct X. repeat constructor; auto.
Qed.
(** the meet of two products of a box and a polyhedron is their intersection, with any reduction function, any option *)
Theorem C51_box_polyhedra_meet : forall red o1 o2 lazy d a b, reduce_ok bp bp_specs red -> valid bp bp_specs d a -> valid bp bp_specs d b ->
  valid bp bp_specs d (fst (fst (rp_meet bp red o1 o2 bp_cores [bmeet; pmeet lazy] a b))) /\
  forall x, pts bp bp_specs (fst (fst (rp_meet bp red o1 o2 bp_cores [bmeet; pmeet lazy] a b))) x <-> pts bp bp_specs a x /\ pts bp bp_specs b x.
Proof.
  intros red o1 o2 lazy d a b RD A B.
  assert (HF : Forall2 (fun s f => sound_op bp t_meet [d; d] d s f) bp_specs [bmeet; pmeet lazy]) by (constructor; [apply bmeet_ok|constructor; [apply pmeet_ok|constructor]]).
  assert (HE : Forall2 (fun s f => exact_op bp t_meet [d; d] s f) bp_specs [bmeet; pmeet lazy]) by (constructor; [apply bmeet_ok|constructor; [apply pmeet_ok|constructor]]).
  split. apply C51_meet; auto. apply bp_ok. intros x. apply (C51_meet_exact bp red o1 o2 bp_cores bp_specs RD bp_ok _ d); auto. discriminate.
Qed.
Print Assumptions C51_box_polyhedra_meet.
Lemma box_join_dims : forall a b, BoxFacts.same_dims a b -> bx_int (box_join a b) = bx_int a /\ bx_real (box_join a b) = bx_real a.
Proof. intros a b [D1 D2]. unfold box_join. destruct (bx_p a), (bx_p b); simpl; auto. Qed.
Lemma join_two : forall (A B : set) x, t_join [A; B] x -> A x \/ B x.
Proof. intros A B x H. inversion H; subst; auto. inversion H1; subst; auto. inversion H2. Qed.
Lemma bjoin_ok : forall d, sound_op bp t_join [d; d] d bspec bjoin.
Proof.
  intros [i r] l H. apply two in H. destruct H as (a & b & EL & A & B). subst l. destruct a as [a|a], b as [b|b]; simpl in A, B; try tauto. destruct A as (A1 & A2 & A3), B as (B1 & B2 & B3).
  assert (SD : BoxFacts.same_dims a b) by (split; congruence). simpl. split.
  - destruct (box_join_dims a b SD) as [D1 D2]. split; [|split; congruence]. apply bb_join; auto.
  - intros x X. apply (proj1 (C16_join_best E a b A1 B1 SD)). apply join_two in X. auto.
Qed.
Lemma pjoin_ok : forall lazy d, sound_op bp t_join [d; d] d pspec (pjoin lazy).
Proof.
  intros lazy [i r] l H. apply two in H. destruct H as (a & b & EL & A & B). subst l. destruct a as [a|a], b as [b|b]; simpl in A, B; try tauto. destruct A as (A1 & A2 & A3), B as (B1 & B2 & B3).
  assert (SD : PropPkPoly.same_dims a b) by (split; congruence). simpl. destruct (C70_join lazy false false false a b A1 B1 SD) as (po & pa' & pb' & EM & (M1 & (M2 & M3) & M4 & M5 & _) & _). rewrite EM. simpl. split.
  - split; [auto|split; congruence].
  - intros x X. apply join_two in X. destruct X; auto.
Qed.
Theorem C51_box_polyhedra_join : forall red o1 o2 lazy d a b, reduce_ok bp bp_specs red -> valid bp bp_specs d a -> valid bp bp_specs d b ->
  valid bp bp_specs d (fst (fst (rp_join bp red o1 o2 bp_cores [bjoin; pjoin lazy] a b))) /\
  forall x, pts bp bp_specs a x \/ pts bp bp_specs b x -> pts bp bp_specs (fst (fst (rp_join bp red o1 o2 bp_cores [bjoin; pjoin lazy] a b))) x.
Proof.
  intros red o1 o2 lazy d a b RD A B.
  assert (HF : Forall2 (fun s f => sound_op bp t_join [d; d] d s f) bp_specs [bjoin; pjoin lazy]) by (constructor; [apply bjoin_ok|constructor; [apply pjoin_ok|constructor]]).
  apply C51_join; auto. apply bp_ok.
Qed.
(** * Concrete cases *)
Definition obx (l : list (Q * Q)) : box := box_of_box (N:=E) 0 2 (fun d => let i := nth d l (0, 0)%Q in (Fin (fst i), Fin (snd i))).
Lemma obx_built : forall l, box_built E (obx l). Proof. intros l. apply bb_of_box. intros; split; discriminate. Qed.
Lemma obx_dims : forall l, bx_int (obx l) = 0%nat /\ bx_real (obx l) = 2%nat.
Proof. intros l. split; reflexivity. Qed.
Definition bpair (l : list (Q * Q)) (C : list pvec) : rp bp := mkRp bp false [inl (obx l); inr (pair_of C)].
Lemma bpair_valid : forall l C, Forall (fun c : pvec => length c = 4%nat) C -> valid bp bp_specs (0, 2)%nat (bpair l C).
Proof.
  intros l C H. constructor; [|constructor; [|constructor]]. simpl. split. apply obx_built. split; reflexivity. simpl. split; auto. apply (C69_constraints_wf 0 2). auto.
Qed.
Lemma bpair_pts : forall l C x, pts bp bp_specs (bpair l C) x <-> gbox (obx l) x /\ points (pair_of C) x.
Proof.
  intros l C x. split. intros H. inversion H; subst. inversion H5; subst. auto. intros [A B]. repeat (constructor; auto).
Qed.
(* x in [0,2], y in [0,2], x <= y; x in [1,3], y in [0,1] and no other constraint: the meet is the point (1,1) *)
Definition ra : rp bp := bpair [(0, 2); (0, 2)]%Q [[1; 0; -1; 1]]%Z.
Definition rb : rp bp := bpair [(1, 3); (0, 1)]%Q [].
Example ra_valid : valid bp bp_specs (0, 2)%nat ra /\ valid bp bp_specs (0, 2)%nat rb. Proof. split; apply bpair_valid; repeat constructor. Qed.
Example ra_meet : pts bp bp_specs (fst (fst (rp_meet bp no_reduce true true bp_cores [bmeet; pmeet false] ra rb))) (qpt [1; 1]%Q) /\
  ~ pts bp bp_specs (fst (fst (rp_meet bp no_reduce true true bp_cores [bmeet; pmeet false] ra rb))) (qpt [2; 1]%Q).
Proof.
  destruct ra_valid as [VA VB]. destruct (C51_box_polyhedra_meet no_reduce true true false _ _ _ no_reduce_ok VA VB) as [_ H]. rewrite !H. unfold ra, rb. rewrite !bpair_pts. rewrite <- !gboxb_ok. split.
  - split; split; try (vm_compute; reflexivity); unfold points, pair_of, positivity, poly_con, cone; simpl; repeat constructor; unfold row_holds, qpt; simpl; unfold Q2R; simpl; lra.
  - intros [[_ A] _]. unfold points, pair_of, positivity, poly_con, cone in A. simpl in A. inversion A; subst. inversion H3; subst. unfold row_holds, qpt in H4; simpl in H4. unfold Q2R in H4; simpl in H4. lra.
Qed.
(* a component which becomes empty makes the other one empty: x in [0,1] and x in [2,3] *)
Example early_exit : rp_p bp (fst (fst (rp_meet bp no_reduce true true bp_cores [bmeet; pmeet false] (bpair [(0, 1); (0, 1)]%Q []) (bpair [(2, 3); (0, 1)]%Q [])))) = [inl (box_bottom 0 2); inr (pbottom 0 2)].
Proof. vm_compute. reflexivity. Qed.

(** * What the flags do not tell *)
(** the test of emptiness answers false, and says that this answer is exact, on a product without points: x in [0,0] in
    the box, x = 1 in the polyhedron *)
Theorem C51_is_bottom_refuted : exists a, valid bp bp_specs (0, 2)%nat a /\ (forall x, ~ pts bp bp_specs a x) /\
  rp_any bp no_reduce true (map (c_isbot bp) bp_cores) a [true; true] = (false, true, true).
Proof.
  exists (bpair [(0, 0); (0, 0)]%Q [[0; -1; 1; 0]]%Z). split. apply bpair_valid; repeat constructor. split; [|vm_compute; reflexivity].
  intros x X. apply bpair_pts in X. destruct X as [A B]. unfold points, pair_of, positivity, poly_con, cone in B. simpl in B. inversion B; subst. inversion H2; subst. unfold row_holds in H3. simpl in H3.
  specialize (A 0%nat). unfold bx_dim in A. simpl in A. destruct (A ltac:(lia)) as [A1 A2]. simpl in A1, A2. unfold Q2R in A1, A2. simpl in A1, A2. lra.
Qed.
Print Assumptions C51_is_bottom_refuted.
(** in the same way the inclusion test answers false although the first argument has no point *)
Definition bleq (p : bp * bp) : bool * bool := match p with (inl a, inl b) => (box_is_leq a b, true) | _ => (false, true) end.
Definition pleq (p : bp * bp) : bool * bool := match p with (inr a, inr b) => (fst (fst (pk_is_leq true a b)), true) | _ => (false, true) end.
Theorem C51_is_leq_refuted : exists a b, valid bp bp_specs (0, 2)%nat a /\ valid bp bp_specs (0, 2)%nat b /\ (forall x, pts bp bp_specs a x -> pts bp bp_specs b x) /\
  rp_all2 bp no_reduce true [bleq; pleq] a b [true; true] = (false, true, true).
Proof.
  exists (bpair [(0, 0); (0, 0)]%Q [[0; -1; 1; 0]]%Z), (bpair [(5, 5); (0, 0)]%Q []). split. apply bpair_valid; repeat constructor. split. apply bpair_valid; repeat constructor. split; [|vm_compute; reflexivity].
  intros x X. exfalso. apply bpair_pts in X. destruct X as [A B]. unfold points, pair_of, positivity, poly_con, cone in B. simpl in B. inversion B; subst. inversion H2; subst. unfold row_holds in H3. simpl in H3.
  specialize (A 0%nat). unfold bx_dim in A. simpl in A. destruct (A ltac:(lia)) as [A1 A2]. simpl in A1, A2. unfold Q2R in A1, A2. simpl in A1, A2. lra.
Qed.
Print Assumptions C51_is_leq_refuted.
(** meet with constraints: the flag collected is the one of the last emptiness test, not the one of the operation.  Two
    box components, x + y <= 1 on the unit square: both boxes say that they are not exact, the product says it is *)
Definition bcons (c : list lincons) (l : list bp) : bp * bool := match l with [inl b] => match box_meet_lincons_array (N:=E) 0 b c with Some b => (inl b, false) | None => (inl b, false) end | _ => (inl (box_bottom 0 0), false) end.
Theorem C51_flag_exact_refuted : exists (a : rp bp) (c : lincons), valid bp [bspec; bspec] (0, 2)%nat a /\
  (let res := rp_meet_cons bp no_reduce true true [bcore; bcore] [bcons [c]; bcons [c]] a in
   snd (fst res) = true /\ exists x, pts bp [bspec; bspec] (fst (fst res)) x /\ ~ sat_cons c x).
Proof.
  exists (mkRp bp false [inl (obx [(0, 1); (0, 1)]%Q); inl (obx [(0, 1); (0, 1)]%Q)]), (mkCons CSupEq (sp 1 [(0%nat, (-1)%Q); (1%nat, (-1)%Q)]) None). split.
  - constructor; [|constructor; [|constructor]]; simpl; (split; [apply obx_built|split; reflexivity]).
  - split. vm_compute; reflexivity. exists (qpt [1; 1]%Q). split.
    + match goal with |- pts _ _ ?t _ => assert (EP : exists b1 b2, rp_p bp t = [inl b1; inl b2] /\ gboxb b1 [1; 1]%Q = true /\ gboxb b2 [1; 1]%Q = true) by (vm_compute; do 2 eexists; split; [reflexivity|split; reflexivity]) end.
      destruct EP as (b1 & b2 & EP & G1 & G2). unfold pts. rewrite EP. apply gboxb_ok in G1, G2. repeat (constructor; auto).
    + intros (r & EV & S). simpl in S.
      destruct EV as (c0 & r1 & EC & ET & ER). simpl in EC, ET. unfold terms_val in ET. simpl in ET.
      destruct ET as (cs & F & E1). inversion F as [|k1 ? l1 ? K1 F1]; subst. inversion F1 as [|k2 ? l2 ? K2 F2]; subst. inversion F2; subst.
      specialize (K1 ltac:(discriminate)). specialize (K2 ltac:(discriminate)). simpl in K1, K2. subst. unfold qpt, Q2R in S. simpl in S. lra.
Qed.
Print Assumptions C51_flag_exact_refuted.
(** projection: exact in the box and in the polyhedron, reported exact by the product, but the product loses the relation
    between the two components: y = 0 in the box, x = y in the polyhedron *)
Definition bforget (tdim : list nat) (pr : bool) (l : list bp) : bp * bool := match l with [inl b] => (inl (box_forget_array b tdim pr), true) | _ => (inl (box_bottom 0 0), false) end.
(** pk_forget_array: pk_project.c 120-125 for the flag *)
Definition pforget (lazy : bool) (tdim : list nat) (pr : bool) (l : list bp) : bp * bool :=
  match l with [inr p] => match pk_forget_array lazy false p tdim pr with Some (po, _) => (inr po, pint p =? 0) | None => (inr p, false) end | _ => (inr (pbottom 0 0), false) end.
Definition forgets (tdim : list nat) (v w : nat -> R) : Prop := forall x, (x < 2)%nat -> ~ In x tdim -> w x = v x.
Lemma keep2 : forall f g v w r, rp_p bp (fst (fst (rp_keep bp no_reduce true true bp_cores [f; g] (mkRp bp r [v; w])))) = [fst (f [v]); fst (g [w])].
Proof. intros f g v w r. unfold rp_keep, rp_op, run. destruct r; simpl; destruct (f [v]) as [v1 e1], (g [w]) as [w1 e2]; reflexivity. Qed.
Theorem C51_forget_flag_refuted : exists a, valid bp bp_specs (0, 2)%nat a /\
  (let res := rp_keep bp no_reduce true true bp_cores [bforget [1%nat] false; pforget true [1%nat] false] a in
   snd (fst res) = true /\ exists w, pts bp bp_specs (fst (fst res)) w /\ ~ exists v, pts bp bp_specs a v /\ forgets [1%nat] v w).
Proof.
  exists (bpair [(0, 9); (0, 0)]%Q [[0; 0; 1; -1]]%Z). split. apply bpair_valid; repeat constructor. split. vm_compute; reflexivity.
  exists (qpt [5; 0]%Q). split.
  - set (P := pair_of [[0; 0; 1; -1]]%Z). assert (W : wfp P) by (apply (C69_constraints_wf 0 2); repeat constructor).
    destruct (C73_forget true false P [1%nat] false W) as (po & pa' & EF & (_ & _ & _ & G) & _). { intros t [<-|[]]. unfold pdim. simpl. lia. }
    unfold pts, bpair. fold P. rewrite keep2. cbn [pforget]. rewrite EF. cbn [fst bforget]. constructor; [|constructor; [|constructor]]; cbn [s_gam bspec pspec].
    + apply gboxb_ok. vm_compute. reflexivity.
    + apply G. exists (qpt [5; 5]%Q). split. unfold P, points, pair_of, positivity, poly_con, cone. simpl. repeat constructor; unfold row_holds, qpt, Q2R; simpl; lra.
      intros x X. split. intros N. unfold pdim in X. simpl in X. destruct x as [|[|x]]; try lia. reflexivity. exfalso; apply N; left; auto. intros _ B. discriminate.
  - intros (v & A & B). apply bpair_pts in A. destruct A as [A1 A2]. unfold points, pair_of, positivity, poly_con, cone in A2. simpl in A2. inversion A2; subst. inversion H2; subst. unfold row_holds in H3. simpl in H3.
    specialize (A1 1%nat). unfold bx_dim in A1. simpl in A1. destruct (A1 ltac:(lia)) as [A3 A4]. simpl in A3, A4. specialize (B 0%nat ltac:(lia)). rewrite <- B in H3. unfold qpt, Q2R in *. simpl in *. lra. simpl. intros [C|[]]. discriminate.
Qed.
Print Assumptions C51_forget_flag_refuted.

(** * The hypotheses of the other theorems, for boxes and polyhedra *)
Example is_bottom_hyp : forall d, Forall2 (fun s f => forall v, s_inv bp s (fst d) (snd d) v -> fst (f v) = true -> forall x, ~ s_gam bp s v x) bp_specs (map (c_isbot bp) bp_cores).
Proof. intros d. constructor; [|constructor; [|constructor]]; intros v I B; [eapply bcore_ok|eapply pcore_ok]; eauto. Qed.
Example is_leq_hyp : forall d, Forall2 (fun s f => forall v w, s_inv bp s (fst d) (snd d) v -> s_inv bp s (fst d) (snd d) w -> fst (f (v, w)) = true -> forall x, s_gam bp s v x -> s_gam bp s w x) bp_specs [bleq; pleq].
Proof.
  intros [i r]. constructor; [|constructor; [|constructor]]; intros [v|v] [w|w] I J B; cbn in I, J; try tauto; destruct I as (I1 & I2 & I3), J as (J1 & J2 & J3); cbn [bleq pleq fst] in B; cbn [s_gam bspec pspec].
  - apply (C15_is_leq_iff E); auto. unfold bx_dim. congruence.
  - destruct (pk_is_leq true v w) as [[b v'] w'] eqn:EQ. assert (SD : PropPkPoly.same_dims v w) by (split; congruence). destruct (C68_is_leq true v w b v' w' I1 J1 SD EQ) as (_ & _ & X). apply X. exact B.
Qed.
(* the polyhedron x >= 1, x <= 0 is empty *)
Example is_bottom_ex : rp_any bp no_reduce true (map (c_isbot bp) bp_cores) (bpair [(0, 1); (0, 3)]%Q [[1; -1; 1; 0]; [1; 0; -1; 0]]%Z) [true; true] = (true, true, true).
Proof. vm_compute. reflexivity. Qed.
Example is_leq_ex : rp_all2 bp no_reduce true [bleq; pleq] (bpair [(0, 1); (0, 3)]%Q [[1; -1; 1; 0]]%Z) (bpair [(0, 2); (0, 3)]%Q [[1; 0; 1; 0]]%Z) [true; true] = (true, true, true).
Proof. vm_compute. reflexivity. Qed.
Example forget_hyp : forall lazy tdim pr i r, (forall t, In t tdim -> (t < i + r)%nat) ->
  Forall2 (fun s f => sound_op bp (t_image (fun v w => forall x, (x < i + r)%nat -> (~ In x tdim -> w x = v x) /\ (In x tdim -> pr = true -> w x = 0%R))) [(i, r)] (i, r) s f) bp_specs [bforget tdim pr; pforget lazy tdim pr].
Proof.
  intros lazy tdim pr i r LT. constructor; [|constructor; [|constructor]]; intros l H; inversion H as [|? v ? l' I H1]; subst; inversion H1; subst; destruct v as [v|v]; cbn in I; try tauto; destruct I as (I1 & I2 & I3).
  - cbn [bforget fst snd s_inv s_gam bspec map]. split.
    + split. apply bb_forget; auto. unfold box_forget_array. destruct (bx_p v); simpl; auto.
    + intros w [(u & U & RU) _]. apply (C18_forget_exact E); auto. exists u. split; auto. intros x X. apply RU. unfold bx_dim in X. lia.
  - destruct (C73_forget lazy false v tdim pr I1) as (po & pa' & EF & (G1 & G2 & G3 & G4) & _). { intros t T. unfold pdim. rewrite I2, I3. auto. }
    cbn [pforget]. rewrite EF. cbn [fst snd s_inv s_gam pspec map]. split. split; [auto|split; congruence].
    intros w [(u & U & RU) _]. apply G4. exists u. split; auto. intros x X. apply RU. unfold pdim in X. lia.
Qed.
Example to_lincons_hyp : forall d, Forall2 (fun s f => forall v, s_inv bp s (fst d) (snd d) v -> forall x, s_gam bp s v x <-> Forall (fun c => sat_cons c x) (fst (f v)))
  [bspec; bspec] [fun v => match v with inl b => (box_to_lincons_array b, true) | inr _ => ([], true) end; fun v => match v with inl b => (box_to_lincons_array b, true) | inr _ => ([], true) end].
Proof. intros d. constructor; [|constructor; [|constructor]]; intros [v|v] I x; cbn in I; try tauto; destruct I as (I1 & _); cbn [fst s_gam bspec]; symmetry; apply (C20_to_lincons_exact E); auto. Qed.
Example bound_hyp : forall k d, (k < fst d + snd d)%nat -> Forall2 (fun s f => forall v, s_inv bp s (fst d) (snd d) v -> forall x r, s_gam bp s v x -> r = x k -> in_u r (fst (f v)))
  [bspec; bspec] [fun v => match v with inl b => (box_bound_dimension b k, true) | inr _ => ((MInf, PInf), true) end; fun v => match v with inl b => (box_bound_dimension b k, true) | inr _ => ((MInf, PInf), true) end].
Proof.
  intros k d K. constructor; [|constructor; [|constructor]]; intros [v|v] I x r G ER; cbn in I; try tauto; destruct I as (I1 & I2 & I3); cbn [fst s_gam bspec] in *; subst r; apply (C20_bound_dimension_exact E v k (x k)); auto; unfold bx_dim; try lia; eauto.
Qed.
Example bound_ex : rp_bound bp no_reduce true [fun v => match v with inl b => (box_bound_dimension b 0, true) | inr _ => ((MInf, PInf), true) end; fun v => match v with inl b => (box_bound_dimension b 0, true) | inr _ => ((MInf, PInf), true) end]
  (mkRp bp false [inl (obx [(0, 3); (0, 0)]%Q); inl (obx [(1, 4); (0, 0)]%Q)]) = (Fin 1, Fin 3).
Proof. vm_compute. reflexivity. Qed.

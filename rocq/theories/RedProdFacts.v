(** The reduced product: soundness from the one of the components. *)
From Coq Require Import Arith ZArith QArith Qreals Reals Lra Lia Bool List.
From Verif Require Import Bound BoundFacts Util Linexpr LinexprFacts ApCore ApCoreFacts ApCoreEq RedProd.
Import ListNotations.
Open Scope nat_scope.

Notation set := ((nat -> R) -> Prop).

Section Facts.
Variable V : Type.
Notation core := (core V).
Notation rp := (rp V).

(** what a component is supposed to do: [s_inv i r v], [v] is a value with [i] integer and [r] real dimensions;
    [s_gam v] the set of points it stands for *)
Record spec : Type := mkSpec { s_inv : nat -> nat -> V -> Prop; s_gam : V -> set }.
Definition sound_core (c : core) (s : spec) : Prop :=
  (forall i r v, s_inv s i r v -> c_dim V c v = (i, r)) /\
  (forall i r, s_inv s i r (fst (c_bottom V c i r)) /\ forall x, ~ s_gam s (fst (c_bottom V c i r)) x) /\
  (forall i r v, s_inv s i r v -> fst (c_isbot V c v) = true -> forall x, ~ s_gam s v x).

(** a product stands for the points which are in all its components *)
Definition lvalid (ss : list spec) (d : nat * nat) (vs : list V) : Prop := Forall2 (fun s v => s_inv s (fst d) (snd d) v) ss vs.
Definition lpts (ss : list spec) (vs : list V) : set := fun x => Forall2 (fun s v => s_gam s v x) ss vs.
Definition valid (ss : list spec) (d : nat * nat) (a : rp) : Prop := lvalid ss d (rp_p V a).
Definition pts (ss : list spec) (a : rp) : set := lpts ss (rp_p V a).
Definition reduce_ok (ss : list spec) (reduce : rp -> rp) : Prop := forall d a, valid ss d a -> valid ss d (reduce a) /\ forall x, pts ss (reduce a) x <-> pts ss a x.

(** the meaning of an operation: a function from sets of points to sets of points *)
Definition mono (T : list set -> set) : Prop := forall l l', Forall2 (fun A B : set => forall x, A x -> B x) l l' -> forall x, T l x -> T l' x.
Definition conj_op (T : list set -> set) : Prop := forall L1 L2 x, length L1 = length L2 -> T L1 x -> T L2 x -> T (map (fun p y => fst p y /\ snd p y) (combine L1 L2)) x.
Definition sound_op (T : list set -> set) (dl : list (nat * nat)) (d : nat * nat) (s : spec) (f : list V -> V * bool) : Prop :=
  forall l, Forall2 (fun d v => s_inv s (fst d) (snd d) v) dl l -> s_inv s (fst d) (snd d) (fst (f l)) /\ forall x, T (map (s_gam s) l) x -> s_gam s (fst (f l)) x.
Definition exact_op (T : list set -> set) (dl : list (nat * nat)) (s : spec) (f : list V -> V * bool) : Prop :=
  forall l, Forall2 (fun d v => s_inv s (fst d) (snd d) v) dl l -> forall x, s_gam s (fst (f l)) x -> T (map (s_gam s) l) x.
(** the component tells the truth when its flag is set *)
Definition honest_op (T : list set -> set) (dl : list (nat * nat)) (s : spec) (f : list V -> V * bool) : Prop :=
  forall l, Forall2 (fun d v => s_inv s (fst d) (snd d) v) dl l -> snd (f l) = true -> forall x, s_gam s (fst (f l)) x -> T (map (s_gam s) l) x.

Lemma init1_ok : forall ss red o d a, reduce_ok ss red -> valid ss d a -> valid ss d (init1 V red o a) /\ forall x, pts ss (init1 V red o a) x <-> pts ss a x.
Proof. intros. unfold init1. destruct (negb (rp_reduced V a) && o); auto. split; auto. intros; tauto. Qed.
Lemma collect1_ok : forall ss red o d a fl, reduce_ok ss red -> valid ss d a -> valid ss d (fst (fst (collect1 V red o a fl))) /\ forall x, pts ss (fst (fst (collect1 V red o a fl))) x <-> pts ss a x.
Proof.
  intros. unfold collect1, collect0. simpl. destruct (negb (rp_reduced V a) && o).
  - apply H in H0. exact H0.
  - split; auto. intros; tauto.
Qed.

(** heads and tails of the arguments *)
Definition heads (ls : list (list V)) : list V := concat (map (firstn 1) ls).
Lemma split_args : forall s ss dl ls, Forall2 (lvalid (s :: ss)) dl ls ->
  Forall2 (fun d v => s_inv s (fst d) (snd d) v) dl (heads ls) /\ Forall2 (lvalid ss) dl (map (@tl V) ls) /\
  Forall2 (fun A B : set => forall x, A x -> B x) (map (lpts (s :: ss)) ls) (map (s_gam s) (heads ls)) /\
  Forall2 (fun A B : set => forall x, A x -> B x) (map (lpts (s :: ss)) ls) (map (lpts ss) (map (@tl V) ls)) /\
  Forall2 (fun A B : set => forall x, A x -> B x) (map (fun p y => fst p y /\ snd p y) (combine (map (s_gam s) (heads ls)) (map (lpts ss) (map (@tl V) ls)))) (map (lpts (s :: ss)) ls) /\
  length (heads ls) = length ls.
Proof.
  intros s ss dl ls H. induction H. simpl. repeat split; constructor.
  destruct IHForall2 as (A & B & C & D & E & F). inversion H; subst. unfold heads in *. simpl.
  split; [constructor; auto|]. split; [constructor; auto|].
  split; [constructor; auto; intros z0 Y; inversion Y; auto|].
  split; [constructor; auto; intros z0 Y; inversion Y; auto|].
  split; [constructor; auto; simpl; intros z0 [Y Z]; constructor; auto|]. simpl. f_equal. auto.
Qed.
Lemma tails_nil : forall dl ls, Forall2 (lvalid []) dl ls -> forall l, In l ls -> l = [].
Proof. intros dl ls H. induction H; simpl. tauto. intros l0 [E|I]; auto. subst. inversion H. auto. Qed.

Lemma loop_sound : forall T dl d chk, mono T -> forall cs ss, Forall2 sound_core cs ss -> forall fs, Forall2 (fun s f => sound_op T dl d s f) ss fs ->
  forall ls, Forall2 (lvalid ss) dl ls ->
  match loop V chk cs fs (cols V (length cs) ls) with
  | inl (vs, _) => lvalid ss d vs /\ forall x, T (map (lpts ss) ls) x -> lpts ss vs x
  | inr (k, v, _) => exists s c, nth_error ss k = Some s /\ nth_error cs k = Some c /\ sound_core c s /\ s_inv s (fst d) (snd d) v /\ (forall x, ~ s_gam s v x) /\ forall x, ~ T (map (lpts ss) ls) x
  end.
Proof.
  intros T dl d chk M cs ss H. induction H as [|c s cs ss HC HS IH]; intros fs HF ls HL.
  - simpl. split. constructor. intros. constructor.
  - destruct fs as [|f fs]; [inversion HF|]. assert (SF : sound_op T dl d s f) by (inversion HF; auto). assert (HF' : Forall2 (fun s f => sound_op T dl d s f) ss fs) by (inversion HF; auto).
    destruct (split_args _ _ _ _ HL) as (A & B & C & D & _ & _). cbn [length cols loop]. fold (heads ls).
    specialize (SF _ A). destruct (f (heads ls)) as [r ex] eqn:EF. simpl in SF. destruct SF as [SI SG].
    specialize (IH fs HF' _ B).
    destruct (if chk then c_isbot V c r else (false, ex)) as [b ex'] eqn:EB.
    destruct b.
    + destruct chk; [|discriminate]. assert (NB : forall x, ~ s_gam s r x) by (apply HC with (i := fst d) (r := snd d); auto; rewrite EB; auto).
      cbv beta iota. exists s, c. split; [reflexivity|]. split; [reflexivity|]. split; [exact HC|]. split; [exact SI|]. split; [exact NB|]. intros x X. apply (NB x). apply SG. eapply M; eauto.
    + destruct (loop V chk cs fs (cols V (length cs) (map (tl (A:=V)) ls))) as [[vs es]|[[k v] e]].
      * destruct IH as [I1 I2]. split. constructor; auto. intros x X. constructor. apply SG; eapply M; eauto. apply I2; eapply M; eauto.
      * destruct IH as (s0 & c0 & E1 & E2 & E3 & E4 & E5 & E6). exists s0, c0. split; [exact E1|]. split; [exact E2|]. split; [exact E3|]. split; [exact E4|]. split; [exact E5|]. intros x X. apply (E6 x). eapply M; eauto.
Qed.
Lemma bots_ok : forall cs ss d, Forall2 sound_core cs ss -> lvalid ss d (map fst (map (fun c => c_bottom V c (fst d) (snd d)) cs)).
Proof. intros cs ss d H. induction H; simpl; constructor; auto. apply H. Qed.
Lemma set_bottom_ok : forall cs ss, Forall2 sound_core cs ss -> forall k v e d s, nth_error ss k = Some s -> s_inv s (fst d) (snd d) v -> (forall x, ~ s_gam s v x) ->
  lvalid ss d (fst (set_bottom V cs k v e d)) /\ forall x, ~ lpts ss (fst (set_bottom V cs k v e d)) x.
Proof.
  intros cs ss H. induction H as [|c s cs ss HC HS IH]; intros k v e d s0 E I N. destruct k; discriminate.
  destruct k; simpl in *.
  - inversion E; subst. split. constructor; auto. apply bots_ok; auto. intros x X. inversion X; subst. eapply N; eauto.
  - destruct (IH k v e d s0 E I N) as [A B]. destruct (set_bottom V cs k v e d) as [vs es]. simpl in *. destruct HC as (_ & HB & _). specialize (HB (fst d) (snd d)). destruct (c_bottom V c (fst d) (snd d)) as [b x0]. simpl in *.
    split. constructor; auto. apply HB. intros x X. inversion X; subst. apply (B x). auto.
Qed.
Lemma run_sound : forall T dl d chk red redbot, mono T -> forall cs ss, Forall2 sound_core cs ss -> forall fs, Forall2 (fun s f => sound_op T dl d s f) ss fs ->
  forall ls, Forall2 (lvalid ss) dl ls ->
  let a := fst (run V chk red redbot cs fs (cols V (length cs) ls)) in
  valid ss d a /\ forall x, T (map (lpts ss) ls) x -> pts ss a x.
Proof.
  intros T dl d chk red redbot M cs ss HC fs HF ls HL. assert (L := loop_sound T dl d chk M cs ss HC fs HF ls HL). unfold run.
  destruct (loop V chk cs fs (cols V (length cs) ls)) as [[vs es]|[[k v] e]].
  - simpl. exact L.
  - destruct L as (s & c & E1 & E2 & E3 & E4 & E5 & E6). unfold nth_dim. rewrite E2. destruct E3 as (ED & _). rewrite (ED _ _ _ E4). replace (fst d, snd d) with d by (destruct d; auto).
    assert (Q := set_bottom_ok cs ss HC k v e d s E1 E4 E5). destruct (set_bottom V cs k v e d) as [vs es]. simpl in *. split. apply Q. intros x X. destruct (E6 x X).
Qed.
Lemma init_args : forall ss red o, reduce_ok ss red -> forall dl l, Forall2 (valid ss) dl l ->
  Forall2 (lvalid ss) dl (map (rp_p V) (map (init1 V red o) l)) /\
  Forall2 (fun A B : set => forall x, A x -> B x) (map (pts ss) l) (map (lpts ss) (map (rp_p V) (map (init1 V red o) l))) /\
  Forall2 (fun A B : set => forall x, A x -> B x) (map (lpts ss) (map (rp_p V) (map (init1 V red o) l))) (map (pts ss) l).
Proof.
  intros ss red o R dl l H. induction H; simpl. repeat split; constructor.
  destruct IHForall2 as (A & B & C). destruct (init1_ok ss red o _ _ R H) as [I J]. repeat split; constructor; auto; intros; apply J; auto.
Qed.
Theorem op_sound : forall red o1 o2 chk redbot rd cs ss fs T dl d l, reduce_ok ss red -> Forall2 sound_core cs ss -> Forall2 (fun s f => sound_op T dl d s f) ss fs -> mono T ->
  Forall2 (valid ss) dl l ->
  let a := fst (fst (rp_op V red o1 o2 chk redbot rd cs fs l)) in
  valid ss d a /\ forall x, T (map (pts ss) l) x -> pts ss a x.
Proof.
  intros red o1 o2 chk redbot rd cs ss fs T dl d l R HC HF M HL. unfold rp_op. destruct (init_args ss red o1 R dl l HL) as (A & B & _).
  assert (Q := run_sound T dl d chk (rd (map (init1 V red o1) l)) redbot M cs ss HC fs HF _ A). cbv zeta in Q.
  destruct (run V chk (rd (map (init1 V red o1) l)) redbot cs fs (cols V (length cs) (map (rp_p V) (map (init1 V red o1) l)))) as [a fl]. simpl in Q. destruct Q as [Q1 Q2].
  destruct (collect1_ok ss red o2 d a fl R Q1) as [C1 C2]. split; auto. intros x X. apply C2, Q2. eapply M; eauto.
Qed.

(** * Exactness *)
(** either the flags are ignored and the component is exact, or the flags which are collected are those of the
    operation and the component is honest *)
Lemma loop_exact : forall T dl d chk (all : bool), mono T -> conj_op T -> forall cs ss, Forall2 sound_core cs ss ->
  forall fs, Forall2 (fun s f => sound_op T dl d s f) ss fs -> Forall2 (fun s f => if all then exact_op T dl s f else honest_op T dl s f) ss fs -> all = true \/ chk = false ->
  forall ls, ss <> [] -> Forall2 (lvalid ss) dl ls ->
  match loop V chk cs fs (cols V (length cs) ls) with
  | inl (vs, es) => all = true \/ forallb (fun b => b) es = true -> forall x, lpts ss vs x -> T (map (lpts ss) ls) x
  | inr _ => True
  end.
Proof.
  intros T dl d chk all M J cs ss H. induction H as [|c s cs ss HC HS IH]; intros fs HF HE HA ls NE HL. congruence.
  destruct fs as [|f fs]; [inversion HF|]. assert (HF' : Forall2 (fun s f => sound_op T dl d s f) ss fs) by (inversion HF; auto).
  assert (EF : if all then exact_op T dl s f else honest_op T dl s f) by (inversion HE; auto). assert (HE' : Forall2 (fun s f => if all then exact_op T dl s f else honest_op T dl s f) ss fs) by (inversion HE; auto).
  destruct (split_args _ _ _ _ HL) as (A & B & C & D & E & F). cbn [length cols loop]. fold (heads ls).
  destruct (f (heads ls)) as [r ex] eqn:Ef.
  destruct (if chk then c_isbot V c r else (false, ex)) as [b ex'] eqn:EB. destruct b; auto.
  specialize (IH fs HF' HE' HA (map (tl (A:=V)) ls)).
  destruct (loop V chk cs fs (cols V (length cs) (map (tl (A:=V)) ls))) as [[vs es]|q] eqn:EL; [|destruct q as [[? ?] ?]; auto].
  intros FL x X. assert (G1 : s_gam s r x) by (inversion X; auto). assert (G2 : lpts ss vs x) by (inversion X; auto).
  assert (T1 : T (map (s_gam s) (heads ls)) x).
  { destruct all.
    - specialize (EF _ A x). rewrite Ef in EF. apply EF. auto.
    - destruct HA as [|HA]; [discriminate|]. destruct FL as [|FL]; [discriminate|]. simpl in FL. apply andb_prop in FL. subst chk. injection EB as EB. subst ex'.
      specialize (EF _ A). rewrite Ef in EF. apply EF; auto. simpl. tauto. }
  destruct ss as [|s' ss].
  - eapply M; [|exact T1]. clear - HL. induction HL; simpl; try constructor; auto.
    + inversion H; subst. inversion H4; subst. constructor. intros y Y. repeat constructor; auto. auto.
  - assert (T2 : T (map (lpts (s' :: ss)) (map (tl (A:=V)) ls)) x).
    { apply IH; auto. congruence. destruct FL; auto. right. simpl in H. apply andb_prop in H. tauto. }
    eapply M; [exact E|]. apply J; auto. rewrite !map_length. rewrite F. auto.
Qed.
Lemma run_exact : forall T dl d chk red redbot (all : bool), mono T -> conj_op T -> forall cs ss, Forall2 sound_core cs ss ->
  forall fs, Forall2 (fun s f => sound_op T dl d s f) ss fs -> Forall2 (fun s f => if all then exact_op T dl s f else honest_op T dl s f) ss fs -> all = true \/ chk = false ->
  forall ls, ss <> [] -> Forall2 (lvalid ss) dl ls -> all = true \/ forallb (fun b => b) (snd (run V chk red redbot cs fs (cols V (length cs) ls))) = true ->
  forall x, pts ss (fst (run V chk red redbot cs fs (cols V (length cs) ls))) x -> T (map (lpts ss) ls) x.
Proof.
  intros T dl d chk red redbot all M J cs ss HC fs HF HE HA ls NE HL. assert (L := loop_exact T dl d chk all M J cs ss HC fs HF HE HA ls NE HL).
  assert (L' := loop_sound T dl d chk M cs ss HC fs HF ls HL). unfold run.
  destruct (loop V chk cs fs (cols V (length cs) ls)) as [[vs es]|[[k v] e]].
  - simpl. auto.
  - destruct L' as (s & c & E1 & E2 & E3 & E4 & E5 & E6). unfold nth_dim. rewrite E2. destruct E3 as (ED & _). rewrite (ED _ _ _ E4). replace (fst d, snd d) with d by (destruct d; auto).
    assert (Q := set_bottom_ok cs ss HC k v e d s E1 E4 E5). destruct (set_bottom V cs k v e d) as [vs es]. simpl in *. intros _ x X. destruct (proj2 Q x X).
Qed.
Theorem op_exact : forall red o1 o2 chk redbot rd cs ss fs T dl d l (all : bool), reduce_ok ss red -> Forall2 sound_core cs ss -> Forall2 (fun s f => sound_op T dl d s f) ss fs ->
  Forall2 (fun s f => if all then exact_op T dl s f else honest_op T dl s f) ss fs -> all = true \/ chk = false -> mono T -> conj_op T -> ss <> [] ->
  Forall2 (valid ss) dl l -> all = true \/ snd (fst (rp_op V red o1 o2 chk redbot rd cs fs l)) = true ->
  forall x, pts ss (fst (fst (rp_op V red o1 o2 chk redbot rd cs fs l))) x -> T (map (pts ss) l) x.
Proof.
  intros red o1 o2 chk redbot rd cs ss fs T dl d l all R HC HF HE HA M J NE HL. unfold rp_op. destruct (init_args ss red o1 R dl l HL) as (A & _ & B).
  assert (Q := run_sound T dl d chk (rd (map (init1 V red o1) l)) redbot M cs ss HC fs HF _ A). cbv zeta in Q.
  assert (X := run_exact T dl d chk (rd (map (init1 V red o1) l)) redbot all M J cs ss HC fs HF HE HA _ NE A).
  destruct (run V chk (rd (map (init1 V red o1) l)) redbot cs fs (cols V (length cs) (map (rp_p V) (map (init1 V red o1) l)))) as [a fl]. simpl in Q, X. destruct Q as [Q1 Q2].
  destruct (collect1_ok ss red o2 d a fl R Q1) as [C1 C2]. intros FL x X0. eapply M; [exact B|]. apply X. destruct FL; auto. apply C2; auto.
Qed.

(** * Tests *)
Lemma qloop_any : forall A fs vs before, length before = length fs -> (fst (qloop (A:=A) true fs vs before) = true <-> Exists (fun p => fst (fst p (snd p)) = true) (combine fs vs)).
Proof.
  induction fs as [|f fs IH]; intros vs before L; simpl. split. discriminate. intro H; inversion H.
  destruct vs as [|v vs]; simpl. split. discriminate. intro H; inversion H.
  destruct before as [|b0 before]; [discriminate|]. specialize (IH vs before). simpl in L. assert (L' : length before = length fs) by lia. specialize (IH L').
  rewrite Exists_cons. simpl. destruct (f v) as [b e]. simpl. destruct b; simpl.
  - split; auto.
  - destruct (qloop true fs vs before) as [g es]. simpl in *. rewrite IH. split; auto. intros [Q|Q]; auto. discriminate.
Qed.
Lemma qloop_all : forall A fs vs before, length before = length fs -> (fst (qloop (A:=A) false fs vs before) = true <-> Forall (fun p => fst (fst p (snd p)) = true) (combine fs vs)).
Proof.
  induction fs as [|f fs IH]; intros vs before L; simpl. split; auto.
  destruct vs as [|v vs]; simpl. split; auto.
  destruct before as [|b0 before]; [discriminate|]. specialize (IH vs before). simpl in L. assert (L' : length before = length fs) by lia. specialize (IH L').
  rewrite Forall_cons_iff. simpl. destruct (f v) as [b e]. simpl. destruct b; simpl.
  - destruct (qloop false fs vs before) as [g es]. simpl in *. rewrite IH. tauto.
  - split; intro Q. discriminate. destruct Q; discriminate.
Qed.
Lemma query_fst : forall A st fs vs before, fst (fst (query (A:=A) st fs vs before)) = fst (qloop st fs vs before).
Proof. intros. unfold query. destruct (qloop st fs vs before). reflexivity. Qed.
(** a test made by one component: the points of the product are among those of the component *)
Lemma any_sound : forall (P : set -> Prop), (forall A B : set, (forall x, A x -> B x) -> P B -> P A) ->
  forall red o ss fs d a before, reduce_ok ss red -> valid ss d a -> length before = length fs ->
  Forall2 (fun s f => forall v, s_inv s (fst d) (snd d) v -> fst (f v) = true -> P (s_gam s v)) ss fs ->
  fst (fst (rp_any V red o fs a before)) = true -> P (pts ss a).
Proof.
  intros P M red o ss fs d a before R VA L HF. unfold rp_any. rewrite query_fst, qloop_any by auto. destruct (init1_ok ss red o d a R VA) as [IV IP].
  intro Q. apply (M _ (pts ss (init1 V red o a))). intros x; apply IP. clear IP.
  unfold pts, valid in *. revert IV Q. generalize (rp_p V (init1 V red o a)) as vs. clear - HF M. induction HF as [|s f ss fs HS HF IH]; intros vs IV Q. inversion Q.
  destruct vs as [|v vs]; [inversion IV|]. simpl in Q. assert (IV1 := IV). inversion IV1; subst. inversion Q; subst.
  - apply (M _ (s_gam s v)). intros x X. inversion X; auto. apply HS; auto.
  - apply (M _ (lpts ss vs)). intros x X. inversion X; auto. apply IH; auto.
Qed.
(** a test made by all the components *)
Lemma all_iff : forall red o ss fs d a before, reduce_ok ss red -> valid ss d a -> length before = length fs -> length fs = length ss ->
  (fst (fst (rp_all V red o fs a before)) = true <-> Forall (fun p => fst (fst p (snd p)) = true) (combine fs (rp_p V (init1 V red o a)))).
Proof. intros. unfold rp_all. rewrite query_fst. apply qloop_all; auto. Qed.
Lemma all2_iff : forall red o fs a b before, length before = length fs ->
  (fst (fst (rp_all2 V red o fs a b before)) = true <-> Forall (fun p => fst (fst p (snd p)) = true) (combine fs (combine (rp_p V (init1 V red o a)) (rp_p V (init1 V red o b))))).
Proof. intros. unfold rp_all2. rewrite query_fst. apply qloop_all; auto. Qed.
Lemma leq_list : forall (ok : set -> set -> Prop) d ss (fs : list (V * V -> bool * bool)), (ok (fun _ => True) (fun _ => True)) ->
  (forall A B A' B' : set, ok A B -> ok A' B' -> ok (fun x => A x /\ A' x) (fun x => B x /\ B' x)) ->
  (forall A B A' B' : set, (forall x, A x <-> A' x) -> (forall x, B x <-> B' x) -> ok A B -> ok A' B') ->
  Forall2 (fun s f => forall v w, s_inv s (fst d) (snd d) v -> s_inv s (fst d) (snd d) w -> fst (f (v, w)) = true -> ok (s_gam s v) (s_gam s w)) ss fs ->
  forall vs ws, lvalid ss d vs -> lvalid ss d ws -> Forall (fun p => fst (fst p (snd p)) = true) (combine fs (combine vs ws)) -> ok (lpts ss vs) (lpts ss ws).
Proof.
  intros ok d ss fs O1 O2 O3 HF. induction HF as [|s f ss fs HS HF IH]; intros vs ws IV IW Q.
  - inversion IV; subst. inversion IW; subst. apply (O3 (fun _ => True) (fun _ => True)); auto; intros z; (split; [intro; constructor|auto]).
  - inversion IV; subst. inversion IW; subst. simpl in Q. inversion Q; subst. simpl in *.
    apply (O3 (fun x => s_gam s y x /\ lpts ss l' x) (fun x => s_gam s y0 x /\ lpts ss l'0 x)).
    + intros z; simpl; (split; [intros [A B]; constructor; auto|intros A; inversion A; auto]).
    + intros z; simpl; (split; [intros [A B]; constructor; auto|intros A; inversion A; auto]).
    + apply O2; auto.
Qed.

(** * Bounds *)
Lemma meet_with_iff : forall r a b, in_u r (meet_with a b) <-> in_u r a /\ in_u r b.
Proof.
  intros r [a1 a2] [b1 b2]. unfold in_u, meet_with. simpl.
  assert (A : ge_rb r (if (scalar_cmp a1 b1 <? 0)%Z then b1 else a1) <-> ge_rb r a1 /\ ge_rb r b1).
  { rewrite scalar_cmp_bcmp. destruct a1 as [|p|], b1 as [|q|]; simpl; try tauto. unfold qcmp.
    destruct (Qcompare_spec p q) as [E|E|E]; simpl.
    - rewrite (Qeq_eqR _ _ E). tauto.
    - apply Qlt_Rlt in E. split; [intro|tauto]. split; auto. lra.
    - apply Qlt_Rlt in E. split; [intro|tauto]. split; auto. lra. }
  assert (B : le_rb r (if (0 <? scalar_cmp a2 b2)%Z then b2 else a2) <-> le_rb r a2 /\ le_rb r b2).
  { rewrite scalar_cmp_bcmp. destruct a2 as [|p|], b2 as [|q|]; simpl; try tauto. unfold qcmp.
    destruct (Qcompare_spec p q) as [E|E|E]; simpl.
    - rewrite (Qeq_eqR _ _ E). tauto.
    - apply Qlt_Rlt in E. split; [intro|tauto]. split; auto. lra.
    - apply Qlt_Rlt in E. split; [intro|tauto]. split; auto. lra. }
  tauto.
Qed.
Lemma bottom_none : forall i r, interval_is_bottom i = true -> ~ in_u r i.
Proof.
  intros [l u] r B [G H]. unfold interval_is_bottom in B. apply Z.ltb_lt in B. assert (~ (scalar_cmp l u <= 0)%Z) by (simpl in B; lia). apply H0. apply scalar_cmp_le.
  intros x X. simpl in *. destruct l as [|p|], u as [|q|]; simpl in *; auto; try contradiction. lra.
Qed.
Lemma bloop_sound : forall d ss fs (E : (nat -> R) -> R -> Prop), Forall2 (fun s f => forall v, s_inv s (fst d) (snd d) v -> forall x r, s_gam s v x -> E x r -> in_u r (fst (f v))) ss fs ->
  forall vs g x r, lvalid ss d vs -> lpts ss vs x -> E x r -> in_u r g -> in_u r (bloop V fs vs g).
Proof.
  intros d ss fs E HF. induction HF as [|s f ss fs HS HF IH]; intros vs g x r IV X EX G; simpl; auto.
  destruct vs as [|v vs]; auto. inversion IV; subst. inversion X; subst.
  assert (M : in_u r (meet_with g (fst (f v)))) by (apply meet_with_iff; split; auto; eapply HS; eauto).
  destruct (interval_is_bottom (meet_with g (fst (f v)))); auto. eapply IH; eauto.
Qed.
Lemma bound_sound : forall red o ss fs d a (E : (nat -> R) -> R -> Prop), reduce_ok ss red -> valid ss d a ->
  Forall2 (fun s f => forall v, s_inv s (fst d) (snd d) v -> forall x r, s_gam s v x -> E x r -> in_u r (fst (f v))) ss fs ->
  forall x r, pts ss a x -> E x r -> in_u r (rp_bound V red o fs a).
Proof.
  intros. destruct (init1_ok ss red o d a H H0) as [I J]. unfold rp_bound. eapply bloop_sound; eauto. apply J; auto. split; simpl; auto.
Qed.
Definition in_box (n : nat) (b : list uitv) (x : nat -> R) : Prop := length b = n /\ forall k, k < n -> in_u (x k) (nth k b (MInf, PInf)).
Lemma boxes_meet_sound : forall g b, length g = length b ->
  match boxes_meet g b with
  | Some m => length m = length g /\ forall k y, k < length g -> in_u y (nth k g (MInf, PInf)) -> in_u y (nth k b (MInf, PInf)) -> in_u y (nth k m (MInf, PInf))
  | None => exists k, k < length g /\ forall y, in_u y (nth k g (MInf, PInf)) -> in_u y (nth k b (MInf, PInf)) -> False
  end.
Proof.
  induction g as [|i g IH]; intros [|j b] L; try discriminate; simpl. auto.
  specialize (IH b ltac:(simpl in L; lia)). destruct (interval_is_bottom (meet_with i j)) eqn:B.
  - exists 0. split. lia. intros y Y Z. apply (bottom_none _ y B). apply meet_with_iff. auto.
  - destruct (boxes_meet g b) as [m|].
    + destruct IH as [I1 I2]. split. simpl; lia. intros k y K Y Z. destruct k; simpl in *. apply meet_with_iff; auto. apply I2; auto. lia.
    + destruct IH as (k & K & Q). exists (S k). split. lia. simpl. auto.
Qed.
Lemma tbloop_sound : forall d n ss fs, Forall2 (fun s f => forall v, s_inv s (fst d) (snd d) v -> length (fst (f v)) = n /\ forall x, s_gam s v x -> in_box n (fst (f v)) x) ss fs ->
  forall vs g, lvalid ss d vs -> length g = n -> length (tbloop V fs vs g) = n /\ forall x, lpts ss vs x -> in_box n g x -> in_box n (tbloop V fs vs g) x.
Proof.
  intros d n ss fs HF. induction HF as [|s f ss fs HS HF IH]; intros vs g IV LG; simpl; auto.
  destruct vs as [|v vs]; auto. inversion IV; subst. destruct (HS v H2) as [L S].
  assert (LL : length g = length (fst (f v))) by congruence. assert (Q := boxes_meet_sound g (fst (f v)) LL). destruct (boxes_meet g (fst (f v))) as [m|].
  - destruct Q as [Q1 Q2]. destruct (IH vs m H4 Q1) as [I1 I2]. split; auto. intros x X [_ G]. inversion X; subst. apply I2; auto. destruct (S x H3) as [_ G']. split; auto.
  - destruct Q as (k & K & Q). rewrite map_length. split; auto. intros x X [_ G]. inversion X; subst. destruct (S x H3) as [_ G']. exfalso. eapply Q; eauto.
Qed.
Lemma to_box_sound : forall red o ss fs d n a, reduce_ok ss red -> valid ss d a -> ss <> [] ->
  Forall2 (fun s f => forall v, s_inv s (fst d) (snd d) v -> length (fst (f v)) = n /\ forall x, s_gam s v x -> in_box n (fst (f v)) x) ss fs ->
  length (rp_to_box V red o fs a) = n /\ forall x, pts ss a x -> in_box n (rp_to_box V red o fs a) x.
Proof.
  intros red o ss fs d n a R VA NE HF. destruct (init1_ok ss red o d a R VA) as [I J]. unfold rp_to_box, valid, pts in *. destruct HF as [|s f ss fs HS HF]. congruence.
  destruct (rp_p V (init1 V red o a)) as [|v vs]. inversion I. inversion I; subst. destruct (HS v H2) as [L S]. destruct (tbloop_sound d n ss fs HF vs (fst (f v)) H4 L) as [A B]. split; auto.
  intros x X. apply J in X. inversion X; subst. auto.
Qed.
Lemma to_cons_exact : forall C (sat : C -> set) red o ss fs d a, reduce_ok ss red -> valid ss d a ->
  Forall2 (fun s f => forall v, s_inv s (fst d) (snd d) v -> forall x, s_gam s v x <-> Forall (fun c => sat c x) (fst (f v))) ss fs ->
  forall x, pts ss a x <-> Forall (fun c => sat c x) (rp_to_cons V red o fs a).
Proof.
  intros C sat red o ss fs d a R VA HF x. destruct (init1_ok ss red o d a R VA) as [I J]. rewrite <- J. unfold rp_to_cons, valid, pts in *. revert I. generalize (rp_p V (init1 V red o a)) as vs. clear - HF.
  induction HF as [|s f ss fs HS HF IH]; intros vs IV. inversion IV; subst. simpl. split; constructor.
  inversion IV; subst. simpl. rewrite Forall_app, <- IH by auto. rewrite <- HS by auto. split. intros Q; inversion Q; auto. intros [A B]; constructor; auto.
Qed.
End Facts.

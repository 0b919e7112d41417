(** C91: disjunctions of abstract values (ap_disjunction.c) over any domain whose functions are right, and over boxes. *)
From Coq Require Import ZArith QArith Bool List Lia Reals Lra Qreals.
Import ListNotations.
From Verif Require Import Bound BoundFacts Util Itv Linexpr ApCore PropOctTransfer Box BoxFacts PropBox ApCoreEq Disj DisjFacts.
Local Notation E := exact_num.

(** * What is asked of the underlying domain *)
Definition point := nat -> R.
Section Any.
Context {V : Type}.
Variable K : comp V.
(** the values of a number of integer and real dimensions, and the points of a value *)
Variable inv : nat * nat -> V -> Prop.
Variable gam : V -> point -> Prop.
Record dom_sound : Prop := {
  s_dim : forall d v, inv d v -> k_dim K v = d;
  s_bottom : forall i r, inv (i, r) (k_bottom K i r) /\ forall x, ~ gam (k_bottom K i r) x;
  s_top : forall i r, inv (i, r) (k_top K i r) /\ forall x, gam (k_top K i r) x;
  s_isbot : forall d v, inv d v -> k_isbot K v = true -> forall x, ~ gam v x;
  s_istop : forall d v, inv d v -> k_istop K v = true -> forall x, gam v x;
  s_iseq : forall d v w, inv d v -> inv d w -> k_iseq K v w = true -> forall x, gam v x <-> gam w x;
  s_meet : forall d v w, inv d v -> inv d w -> inv d (k_meet K v w) /\ forall x, gam v x -> gam w x -> gam (k_meet K v w) x
}.
Record dom_exact : Prop := {
  e_isbot : forall d v, inv d v -> (forall x, ~ gam v x) -> k_isbot K v = true;
  e_istop : forall d v, inv d v -> (forall x, gam v x) -> k_istop K v = true;
  e_iseq : forall d v w, inv d v -> inv d w -> (forall x, gam v x <-> gam w x) -> k_iseq K v w = true;
  e_meet : forall d v w x, inv d v -> inv d w -> gam (k_meet K v w) x -> gam v x /\ gam w x
}.
(** the points of a disjunction *)
Definition pts (a : disj V) (x : point) : Prop := exists v, In v a /\ gam v x.
Definition good (d : nat * nat) (a : disj V) : Prop := a <> [] /\ Forall (inv d) a.
Hypothesis KS : dom_sound.

Lemma hb : forall d v, inv d v -> k_isbot K v = true -> forall x, ~ gam v x. Proof. apply s_isbot; auto. Qed.
Lemma elim_pts : forall d a x, Forall (inv d) a -> (pts (elim_redundant K a) x <-> pts a x).
Proof. intros d a x F. apply (elim_union K point (inv d) gam); auto. apply s_isbot; auto. apply s_istop; auto. apply s_iseq; auto. Qed.
Lemma clean_pts : forall d a x, Forall (inv d) a -> (pts (clean K a) x <-> pts a x).
Proof. intros d a x F. apply (clean_union K point (inv d) gam); auto. apply s_isbot; auto. apply s_istop; auto. Qed.
Lemma elim_good : forall d a, good d a -> good d (elim_redundant K a).
Proof. intros d a [H F]. split. apply elim_ne; auto. rewrite Forall_forall in *. intros v Hv. apply F. eapply elim_in; eauto. Qed.
Lemma clean_good : forall d a, good d a -> good d (clean K a).
Proof. intros d a [H F]. split. apply clean_ne; auto. rewrite Forall_forall in *. intros v Hv. apply F. eapply clean_in; eauto. Qed.
Lemma bottom_pts : forall d a x, Forall (inv d) a -> d_is_bottom K a = true -> ~ pts a x.
Proof.
  intros d [|v [|w a]] x F H; simpl in H; try discriminate. intros [u [[E|[]] G]]. subst u. inversion F; subst. eapply hb; eauto.
Qed.
Lemma good_map : forall d d' (f : V -> V) a, (forall v, inv d v -> inv d' (f v)) -> good d a -> good d' (map f a).
Proof.
  intros d d' f a Hf [H F]. split. { destruct a; simpl; congruence. } rewrite Forall_forall in *. intros w Hw. apply in_map_iff in Hw. destruct Hw as [v [E Hv]]. subst; auto.
Qed.
Lemma pts_map : forall (f : V -> V) (a : disj V) (x : point), pts (map f a) x <-> exists v, In v a /\ gam (f v) x.
Proof. intros f a x. unfold pts. split. intros [w [H G]]. apply in_map_iff in H. destruct H as [v [E Hv]]. subst; eauto. intros [v [H G]]. exists (f v). split; auto. apply in_map; auto. Qed.

(** minimize, canonicalize (with [f] the function of the domain): same points; the components that are left are pairwise
    different and none is empty, unless the value is one empty component *)
Theorem C91_minimize : forall d f a, good d a -> (forall v, inv d v -> inv d (f v)) -> (forall v x, inv d v -> (gam (f v) x <-> gam v x)) ->
  good d (d_minimize K f a) /\ (forall x, pts (d_minimize K f a) x <-> pts a x) /\ (length (d_minimize K f a) <= length a)%nat.
Proof.
  intros d f a G Hi Hf. pose proof (elim_good d a G) as [E1 E2]. unfold d_minimize. split; [apply good_map with d; auto; split; auto | split].
  - intro x. destruct G as [G1 G2]. rewrite <- (elim_pts d a x G2), pts_map. unfold pts. rewrite Forall_forall in E2. split; intros [v [H X]]; exists v; split; auto; apply (Hf v x); auto.
  - rewrite map_length. rewrite elim_eq. pose proof (flt_len K a true false). pose proof (flt_len K a false false). destruct (existsb (nonbot K) a); auto.
    assert (L : forall n l, (length (dedup K n l) <= length l)%nat).
    { induction n as [|n IH]; intros l; simpl; auto. destruct l as [|v l]; simpl; auto. destruct (tp K v); [specialize (IH l); lia|].
      pose proof (filter_length_le _ (fun w => tp K w || negb (k_iseq K v w)) l). specialize (IH (filter (fun w => tp K w || negb (k_iseq K v w)) l)). lia. }
    specialize (L (length a) (flt K true false a)). lia.
Qed.
Theorem C91_minimize_irredundant : forall d f a, dom_exact -> good d a -> (forall v x, inv d v -> (gam (f v) x <-> gam v x)) ->
  (exists v, d_minimize K f a = [v] /\ forall x, ~ gam v x) \/
  (Forall (fun v => ~ forall x, ~ gam v x) (d_minimize K f a) /\ ForallOrdPairs (fun v w => ~ forall x, gam v x <-> gam w x) (d_minimize K f a)).
Proof.
  intros d f a KE G Hf. pose proof (elim_good d a G) as [_ F]. unfold d_minimize. destruct (elim_shape K a (proj1 G)) as [(v & E & B)|[B P]].
  - left. rewrite E in *. inversion F; subst. exists (f v). split; auto. intros x X. apply (Hf v x) in X; auto. eapply hb; eauto.
  - right. split.
    + rewrite Forall_forall in *. intros w Hw. apply in_map_iff in Hw. destruct Hw as [v [E Hv]]. subst. intro X.
      assert (Y : k_isbot K v = true). { apply (e_isbot KE d); auto. intros x Z. apply (X x). apply Hf; auto. } rewrite B in Y; auto; discriminate.
    + clear B. induction P as [|v l P1 P2 IH]; simpl; [constructor|]. inversion F as [|? ? Fv Fl]; subst. constructor; auto.
      rewrite Forall_forall in *. intros w Hw. apply in_map_iff in Hw. destruct Hw as [u [E Hu]]. subst w. intro X.
      assert (Y : forall x, gam v x <-> gam u x). { intro x. rewrite <- (Hf v x), <- (Hf u x); auto. } clear X.
      destruct (P1 u Hu) as [A [B|[B|B]]].
      * assert (T : k_istop K u = true). { apply (e_istop KE d); auto. intro x. apply Y. apply (s_istop KS d); auto. } rewrite A in T; auto; discriminate.
      * assert (T : k_istop K v = true). { apply (e_istop KE d); auto. intro x. apply Y. apply (s_istop KS d); auto. } rewrite A in B; auto; discriminate.
      * rewrite (e_iseq KE d v u) in B; auto; discriminate.
Qed.
(** is_bottom, is_top: true only of the empty and the whole space; after minimize, is_bottom is exact *)
Theorem C91_is_bottom : forall d f a, good d a ->
  (d_is_bottom K a = true -> forall x, ~ pts a x) /\ (d_is_top K a = true -> forall x, pts a x) /\
  (dom_exact -> (forall v, inv d v -> inv d (f v)) -> (forall v x, inv d v -> (gam (f v) x <-> gam v x)) ->
   (d_is_bottom K (d_minimize K f a) = true <-> forall x, ~ pts a x)).
Proof.
  intros d f a G. split; [|split].
  - intros H x. eapply bottom_pts; eauto. apply G.
  - destruct G as [_ F]. destruct a as [|v [|w a]]; simpl; try discriminate. intros H x. exists v. split; simpl; auto. inversion F; subst. apply (s_istop KS d); auto.
  - intros KE Hi Hf. destruct (C91_minimize d f a G Hi Hf) as [G' [P _]]. split.
    + intros H x X. apply P in X. exact (bottom_pts d _ x (proj2 G') H X).
    + intro H. destruct (C91_minimize_irredundant d f a KE G Hf) as [(v & E & B)|[B _]].
      * rewrite E in *. simpl. destruct G' as [_ F]. inversion F; subst. apply (e_isbot KE d); auto.
      * exfalso. destruct G' as [N _]. destruct (d_minimize K f a) as [|v l]; [congruence|]. inversion B; subst. apply H2. intros x X.
        apply (H x), P. exists v. split; simpl; auto.
Qed.
(** bottom, top, of_box, dimension, compose, decompose *)
Theorem C91_constants : forall i r, good (i, r) (d_bottom K i r) /\ good (i, r) (d_top K i r) /\
  (forall x, ~ pts (d_bottom K i r) x) /\ (forall x, pts (d_top K i r) x) /\ d_is_bottom K (d_bottom K i r) = k_isbot K (k_bottom K i r) /\
  (forall f t x, pts (d_of_box f i r t) x <-> gam (f i r t) x) /\
  (forall d a, good d a -> d_dimension K a = Some d) /\
  (forall l x, pts (compose l) x <-> Exists (fun v => gam v x) (decompose (compose l))).
Proof.
  intros i r. destruct (s_bottom KS i r) as [B1 B2], (s_top KS i r) as [T1 T2].
  split; [split; [discriminate | constructor; auto]|]. split; [split; [discriminate | constructor; auto]|].
  split; [intros x [v [[E|[]] X]]; subst; eapply B2; eauto|]. split; [intro x; exists (k_top K i r); simpl; auto|]. split; [reflexivity|].
  split; [intros f t x; split; [intros [v [[E|[]] X]]; subst; auto | intro X; exists (f i r t); simpl; auto]|].
  split; [intros d a [N F]; destruct F; [congruence | simpl; f_equal; apply (s_dim KS); auto]|].
  intros l x. unfold compose, decompose, pts. rewrite Exists_exists. tauto.
Qed.
(** join: the union of the two sets of points *)
Theorem C91_join : forall d a b, good d a -> good d b -> good d (d_join K a b) /\ forall x, pts (d_join K a b) x <-> pts a x \/ pts b x.
Proof.
  intros d a b Ga Gb. unfold d_join. destruct (d_is_bottom K a) eqn:Ea.
  { split; auto. intro x. pose proof (bottom_pts d a x (proj2 Ga) Ea). tauto. }
  destruct (d_is_bottom K b) eqn:Eb. { split; auto. intro x. pose proof (bottom_pts d b x (proj2 Gb) Eb). tauto. }
  rewrite compact_eq, resize_app, !resize_some. assert (F : Forall (inv d) (a ++ b)) by (apply Forall_app; split; [apply Ga | apply Gb]).
  split. { apply clean_good. split; auto. destruct Ga as [N _]. destruct a; simpl; congruence. }
  intro x. rewrite (clean_pts d _ x F). apply union_app.
Qed.
Lemma fill_resize : forall l, d_resize (ja_fill K l) = flat_map (fun a => if d_is_bottom K a then [] else a) l.
Proof.
  intro l. unfold ja_fill. rewrite resize_app, resize_none, app_nil_r. induction l as [|a l IH]; simpl; auto.
  rewrite resize_app, IH. destruct (d_is_bottom K a); simpl; auto. rewrite resize_some. auto.
Qed.
Lemma fill_pts : forall d l x, Forall (good d) l -> (pts (flat_map (fun a => if d_is_bottom K a then [] else a) l) x <-> Exists (fun a => pts a x) l).
Proof.
  intros d l x F. unfold pts. rewrite Exists_exists. rewrite Forall_forall in F. split.
  - intros [v [H X]]. apply in_flat_map in H. destruct H as [a [Ha Hv]]. exists a. split; auto. destruct (d_is_bottom K a); [destruct Hv | eauto].
  - intros [a [Ha [v [Hv X]]]]. exists v. split; auto. apply in_flat_map. exists a. split; auto. destruct (d_is_bottom K a) eqn:E; auto.
    exfalso. apply (bottom_pts d a x); auto. apply F; auto. exists v; auto.
Qed.
(** join_array: the union of all; the result is a value, except of three or more arguments that are all one empty component *)
Theorem C91_join_array : forall d l, l <> [] -> Forall (good d) l -> exists r, d_join_array K l = Some r /\
  (forall x, pts r x <-> Exists (fun a => pts a x) l) /\ ((length l <= 2)%nat \/ Exists (fun a => d_is_bottom K a = false) l -> good d r).
Proof.
  intros d l N F. destruct l as [|a [|b [|c l]]]; [congruence| | |].
  - inversion F; subst. exists a. split; [reflexivity | split; auto]. intro x. rewrite Exists_cons, Exists_nil. tauto.
  - inversion F; subst. inversion H2; subst. destruct (C91_join d a b H1 H3) as [G P]. exists (d_join K a b). split; [reflexivity | split; auto].
    intro x. rewrite P, !Exists_cons, Exists_nil. tauto.
  - remember (a :: b :: c :: l) as L. assert (C : d_join_array K L = Some (compact K (ja_fill K L))).
    { subst L. unfold d_join_array. inversion F; subst. destruct H1 as [Na _]. destruct a; [congruence | reflexivity]. }
    exists (compact K (ja_fill K L)). split; auto. rewrite compact_eq, fill_resize.
    assert (Fi : Forall (inv d) (flat_map (fun a => if d_is_bottom K a then [] else a) L)).
    { apply Forall_forall. intros v H. apply in_flat_map in H. destruct H as [e [He Hv]]. rewrite Forall_forall in F. destruct (F e He) as [_ Fe]. rewrite Forall_forall in Fe. destruct (d_is_bottom K e); [destruct Hv | auto]. }
    split. { intro x. rewrite (clean_pts d _ x Fi). apply (fill_pts d); auto. }
    intros [H|H]. { subst L. simpl in H. lia. }
    apply clean_good. split; auto. apply Exists_exists in H. destruct H as [e [He Eb]]. rewrite Forall_forall in F. destruct (F e He) as [Ne _].
    destruct e as [|v e]; [congruence|]. intro Z. assert (In v []) as []. rewrite <- Z. apply in_flat_map. exists (v :: e). rewrite Eb. simpl; auto.
Qed.
(** meet: all the common points are in the result, and nothing else when there is a common point; the arguments, changed in
    place, keep their points *)
Theorem C91_meet : forall d a b, good d a -> good d b -> let '(r, a', b') := d_meet K a b in
  good d r /\ good d a' /\ good d b' /\ (forall x, pts a' x <-> pts a x) /\ (forall x, pts b' x <-> pts b x) /\
  (forall x, pts a x -> pts b x -> pts r x) /\ (dom_exact -> (exists x, pts a x /\ pts b x) -> forall x, pts r x -> pts a x /\ pts b x).
Proof.
  intros d a b Ga Gb. unfold d_meet. destruct (d_is_bottom K a) eqn:Ea.
  { pose proof (fun x => bottom_pts d a x (proj2 Ga) Ea) as B. do 3 (split; [assumption|]). do 2 (split; [tauto|]). split; [tauto|]. intros _ [y [Y _]]. destruct (B y Y). }
  destruct (d_is_bottom K b) eqn:Eb.
  { pose proof (fun x => bottom_pts d b x (proj2 Gb) Eb) as B. do 3 (split; [assumption|]). do 2 (split; [tauto|]). split; [tauto|]. intros _ [y [_ Y]]. destruct (B y Y). }
  pose proof (elim_good d a Ga) as Ga'. pose proof (elim_good d b Gb) as Gb'.
  assert (Pa : forall x, pts (elim_redundant K a) x <-> pts a x) by (intro; apply (elim_pts d); apply Ga).
  assert (Pb : forall x, pts (elim_redundant K b) x <-> pts b x) by (intro; apply (elim_pts d); apply Gb).
  revert Ga' Gb' Pa Pb. generalize (elim_redundant K a) (elim_redundant K b). intros a' b' Ga' Gb' Pa Pb.
  remember (filter (fun v => negb (k_isbot K v)) (flat_map (fun v => map (k_meet K v) b') a')) as r eqn:Er.
  assert (Ri : forall w, In w r -> exists v u, In v a' /\ In u b' /\ w = k_meet K v u /\ inv d v /\ inv d u).
  { intros w Hw. subst r. apply filter_In in Hw. destruct Hw as [Hw _]. apply in_flat_map in Hw. destruct Hw as [v [Hv Hw]]. apply in_map_iff in Hw. destruct Hw as [u [E Hu]].
    exists v, u. destruct Ga' as [_ Fa], Gb' as [_ Fb]. rewrite Forall_forall in Fa, Fb. auto 10. }
  assert (Fr : Forall (inv d) r). { apply Forall_forall. intros w Hw. destruct (Ri w Hw) as (v & u & _ & _ & E & I1 & I2). subst w. apply (s_meet KS d); auto. }
  assert (Rs : forall x, pts a x -> pts b x -> pts r x).
  { intros x Xa Xb. apply Pa in Xa. apply Pb in Xb. destruct Xa as [v [Hv Xv]], Xb as [u [Hu Xu]].
    assert (Iv : inv d v) by (destruct Ga' as [_ Fa]; rewrite Forall_forall in Fa; auto). assert (Iu : inv d u) by (destruct Gb' as [_ Fb]; rewrite Forall_forall in Fb; auto).
    destruct (s_meet KS d v u Iv Iu) as [I M]. exists (k_meet K v u). split; auto. subst r. apply filter_In. split.
    - apply in_flat_map. exists v. split; auto. apply in_map; auto.
    - apply negb_true_iff. apply not_true_iff_false. intro Z. eapply hb; eauto. }
  assert (Rc : dom_exact -> forall x, pts r x -> pts a x /\ pts b x).
  { intros KE x [w [Hw X]]. destruct (Ri w Hw) as (v & u & Hv & Hu & E & I1 & I2). subst w. destruct (e_meet KE d v u x I1 I2 X) as [X1 X2].
    split; [apply Pa; exists v; auto | apply Pb; exists u; auto]. }
  assert (Q : forall q, good d q -> (forall x, pts a x -> pts b x -> pts q x) -> (dom_exact -> (exists x, pts a x /\ pts b x) -> forall x, pts q x -> pts a x /\ pts b x) ->
    good d q /\ good d a' /\ good d b' /\ (forall x, pts a' x <-> pts a x) /\ (forall x, pts b' x <-> pts b x) /\
    (forall x, pts a x -> pts b x -> pts q x) /\ (dom_exact -> (exists x, pts a x /\ pts b x) -> forall x, pts q x -> pts a x /\ pts b x)) by tauto.
  clear Er. destruct r as [|w r].
  - destruct a' as [|v a'']; [destruct Ga'; congruence|]. apply Q.
    + destruct Ga' as [_ Fa]. inversion Fa as [|? ? Iv Il]; subst. rewrite (s_dim KS d v Iv). split; [discriminate|]. constructor; auto. destruct d. apply (s_top KS).
    + intros x _ _. eexists. split; [left; reflexivity|]. apply (s_top KS).
    + intros _ [y [Y1 Y2]]. destruct (Rs y Y1 Y2) as [? [[] _]].
  - apply Q.
    + apply elim_good. split; [discriminate | auto].
    + intros x X1 X2. apply (elim_pts d); auto.
    + intros KE _ x X. apply Rc; auto. exact (proj1 (elim_pts d _ x Fr) X).
Qed.
(** a disjunction known to be empty, on either side, gives one *)
Theorem C91_meet_bottom : forall d a b, good d a -> good d b -> d_is_bottom K a = true \/ d_is_bottom K b = true ->
  d_is_bottom K (fst (fst (d_meet K a b))) = true /\ forall x, ~ pts (fst (fst (d_meet K a b))) x.
Proof.
  intros d a b Ga Gb H. unfold d_meet. destruct (d_is_bottom K a) eqn:Ea; simpl.
  { split; auto. intro x. apply (bottom_pts d); auto. apply Ga. }
  destruct H as [H|H]; [discriminate|]. rewrite H. simpl. split; auto. intro x. apply (bottom_pts d); auto. apply Gb.
Qed.
(** an operation of the domain that maps the points of a value along the relation [T] (constraints: the identity on the
    points that satisfy them; assignments, projections, changes of dimensions, expand, fold: the graph) *)
Definition sound_along (d d' : nat * nat) (T : point -> point -> Prop) (f : V -> V) : Prop :=
  forall v, inv d v -> inv d' (f v) /\ forall x y, gam v x -> T x y -> gam (f v) y.
Definition exact_along (d d' : nat * nat) (T : point -> point -> Prop) (f : V -> V) : Prop :=
  forall v, inv d v -> inv d' (f v) /\ forall y, gam (f v) y <-> exists x, gam v x /\ T x y.
(** the operations of the disjunction that use one function of the domain *)
Definition lifted (f : V -> V) (g : disj V -> disj V) : Prop :=
  g = d_map_compact K f \/ g = d_map f \/ g = d_map_elim K f \/ (forall a, d_asssub f false a = Some (g a)).
Lemma lifted_map : forall d d' f g a, (forall v, inv d v -> inv d' (f v)) -> good d a -> lifted f g ->
  good d' (g a) /\ forall y, pts (g a) y <-> exists v, In v a /\ gam (f v) y.
Proof.
  intros d d' f g a Hf G L. pose proof (good_map d d' f a Hf G) as M. destruct L as [L|[L|[L|L]]].
  - subst g. unfold d_map_compact. rewrite compact_eq. rewrite <- (map_map f Some), resize_some. split; [apply clean_good; auto|]. intro y. rewrite (clean_pts d'), pts_map by apply M. tauto.
  - subst g. split; auto. intro y. apply pts_map.
  - subst g. unfold d_map_elim. split; [apply elim_good; auto|]. intro y. rewrite (elim_pts d'), pts_map by apply M. tauto.
  - specialize (L a). unfold d_asssub in L. inversion L as [E]. split; auto. intro y. apply pts_map.
Qed.
Theorem C91_lifted_sound : forall d d' T f g a, sound_along d d' T f -> good d a -> lifted f g ->
  good d' (g a) /\ forall x y, pts a x -> T x y -> pts (g a) y.
Proof.
  intros d d' T f g a S G L. destruct (lifted_map d d' f g a (fun v I => proj1 (S v I)) G L) as [G' P]. split; auto.
  intros x y [v [Hv X]] TT. apply P. exists v. split; auto. destruct G as [_ F]. rewrite Forall_forall in F. destruct (S v (F v Hv)) as [_ SS]. eauto.
Qed.
Theorem C91_lifted_exact : forall d d' T f g a, exact_along d d' T f -> good d a -> lifted f g ->
  good d' (g a) /\ forall y, pts (g a) y <-> exists x, pts a x /\ T x y.
Proof.
  intros d d' T f g a S G L. destruct (lifted_map d d' f g a (fun v I => proj1 (S v I)) G L) as [G' P]. split; auto.
  destruct G as [_ F]. rewrite Forall_forall in F. intro y. rewrite P. split.
  - intros [v [Hv X]]. apply (proj2 (S v (F v Hv))) in X. destruct X as [x [X TT]]. exists x. split; auto. exists v; auto.
  - intros [x [[v [Hv X]] TT]]. exists v. split; auto. apply (proj2 (S v (F v Hv))). eauto.
Qed.
(** sat_lincons, sat_tcons, sat_interval: right when the test of the domain is *)
Theorem C91_sat : forall d (P : point -> Prop) f a, good d a ->
  ((forall v, inv d v -> f v = true -> forall x, gam v x -> P x) -> d_sat f a = true -> forall x, pts a x -> P x) /\
  ((forall v, inv d v -> (forall x, gam v x -> P x) -> f v = true) -> (forall x, pts a x -> P x) -> d_sat f a = true).
Proof.
  intros d P f a [N F]. unfold d_sat. rewrite forallb_forall. rewrite Forall_forall in F. split.
  - intros H E x [v [Hv X]]. apply (H v); auto.
  - intros H E v Hv. apply H; auto. intros x X. apply E. exists v; auto.
Qed.
(** to_lincons_array: implemented for one component only, and then the constraints of this component *)
Theorem C91_to_lincons : forall f a l, d_to_lincons_array f a = Some l -> exists v, l = f v /\ forall x, pts a x <-> gam v x.
Proof.
  intros f [|v [|w a]] l H; simpl in H; try discriminate. inversion H. exists v. split; auto. intro x. split; [intros [u [[E|[]] X]]; subst; auto | intro X; exists v; simpl; auto].
Qed.
(** bound_linexpr, bound_texpr, bound_dimension: all the values [W x r] taken on the points are in the interval, provided the
    first component has a point where there is a value *)
Lemma bound_loop_l : forall (f : V -> uitv) a g r0 r, in_u r0 g -> in_u r g -> in_u r (bound_loop f g a).
Proof.
  induction a as [|v a IH]; intros g r0 r H0 H; simpl; auto. rewrite (ne_not_bottom _ r0) by (apply ijoin_l; auto). apply (IH _ r0); apply ijoin_l; auto.
Qed.
Lemma bound_loop_r : forall (f : V -> uitv) a g r0 v r, in_u r0 g -> In v a -> in_u r (f v) -> in_u r (bound_loop f g a).
Proof.
  induction a as [|w a IH]; intros g r0 v r H0 H X; [destruct H|]. simpl. rewrite (ne_not_bottom _ r0) by (apply ijoin_l; auto). destruct H as [H|H].
  - subst w. apply (bound_loop_l f a _ r0); [apply ijoin_l | apply ijoin_r]; auto.
  - apply (IH _ r0 v); auto. apply ijoin_l; auto.
Qed.
Theorem C91_bound_sound : forall d (W : point -> R -> Prop) f v0 a, good d (v0 :: a) ->
  (forall v x r, inv d v -> gam v x -> W x r -> in_u r (f v)) -> (exists x r, gam v0 x /\ W x r) ->
  forall x r, pts (v0 :: a) x -> W x r -> in_u r (d_bound f (v0 :: a)).
Proof.
  intros d W f v0 a [_ F] H (x0 & r0 & X0 & W0) x r [v [Hv X]] Wx. unfold d_bound. simpl. rewrite Forall_forall in F.
  assert (I : in_u r0 (ijoin_with ibottom (f v0))) by (apply ijoin_r; apply (H v0 x0); auto; apply F; simpl; auto).
  rewrite (ne_not_bottom _ r0 I). destruct Hv as [E|Hv].
  - subst v. apply (bound_loop_l f a _ r0); auto. apply ijoin_r. apply (H v0 x); auto. apply F; simpl; auto.
  - apply (bound_loop_r f a _ r0 v); auto. apply (H v x); auto. apply F; simpl; auto.
Qed.
(** to_box *)
Lemma bjl_other : forall n j g b k, (k < j)%nat -> fst (box_join_loop n j g b) k = g k.
Proof.
  induction n as [|n IH]; intros j g b k H; simpl; auto.
  assert (E : Nat.eqb k j = false) by (apply Nat.eqb_neq; lia).
  destruct (interval_is_bottom (ijoin_with (g j) (b j))); simpl; [rewrite E; auto|]. rewrite IH by lia. rewrite E. auto.
Qed.
Lemma bjl_spec : forall n j g b, (forall k, (j <= k < j + n)%nat -> exists r, in_u r (g k) \/ in_u r (b k)) ->
  snd (box_join_loop n j g b) = false /\ forall k, (j <= k < j + n)%nat -> fst (box_join_loop n j g b) k = ijoin_with (g k) (b k).
Proof.
  induction n as [|n IH]; intros j g b H; simpl. { split; auto. intros; lia. }
  assert (B : interval_is_bottom (ijoin_with (g j) (b j)) = false).
  { destruct (H j) as [r [X|X]]; [lia | |]; apply (ne_not_bottom _ r); [apply ijoin_l | apply ijoin_r]; auto. }
  rewrite B. destruct (IH (Datatypes.S j) (fun k => if Nat.eqb k j then ijoin_with (g j) (b j) else g k) b) as [A1 A2].
  { intros k Hk. assert (E : Nat.eqb k j = false) by (apply Nat.eqb_neq; lia). rewrite E. apply H. lia. }
  split; auto. intros k Hk. destruct (Nat.eq_dec k j) as [->|Nk].
  - rewrite bjl_other by lia. rewrite Nat.eqb_refl. auto.
  - rewrite A2 by lia. assert (E : Nat.eqb k j = false) by (apply Nat.eqb_neq; lia). rewrite E. auto.
Qed.
Lemma tbl_sound : forall f n a g y, (forall k, (k < n)%nat -> in_u (y k) (g k)) ->
  (forall x : nat -> R, (forall k, (k < n)%nat -> in_u (x k) (g k)) \/ (exists v, In v a /\ forall k, (k < n)%nat -> in_u (x k) (f v k)) -> forall k, (k < n)%nat -> in_u (x k) (@to_box_loop V f n g a k)).
Proof.
  induction a as [|v a IH]; intros g y Hy x H; simpl.
  - destruct H as [H|[v [[] _]]]; auto.
  - destruct (bjl_spec n 0 g (f v)) as [A1 A2]. { intros k Hk. exists (y k). left. apply Hy. lia. }
    destruct (box_join_loop n 0 g (f v)) as [g' s]. simpl in A1, A2. subst s. apply (IH g' y).
    + intros k Hk. rewrite A2 by lia. apply ijoin_l; auto.
    + destruct H as [H|[w [[E|Hw] H]]]; [left| |right; eauto].
      * intros k Hk. rewrite A2 by lia. apply ijoin_l; auto.
      * subst w. left. intros k Hk. rewrite A2 by lia. apply ijoin_r; auto.
Qed.
Theorem C91_to_box_sound : forall d f v0 a, good d (v0 :: a) ->
  (forall v x k, inv d v -> gam v x -> (k < fst d + snd d)%nat -> in_u (x k) (f v k)) ->
  (exists x, gam v0 x \/ exists v1 a', a = v1 :: a' /\ gam v1 x) ->
  exists b, d_to_box K f (v0 :: a) = Some b /\ forall x k, pts (v0 :: a) x -> (k < fst d + snd d)%nat -> in_u (x k) (b k).
Proof.
  intros d f v0 a [_ F] H [x0 H0]. simpl. rewrite (s_dim KS d v0) by (inversion F; auto). eexists. split; [reflexivity|].
  rewrite Forall_forall in F. assert (I0 : inv d v0) by (apply F; simpl; auto). intros x k X. destruct H0 as [H0|(v1 & a' & E & H0)].
  - apply (tbl_sound f _ a (f v0) x0). { intros; apply H; auto. } destruct X as [v [[E|Hv] X]]; [left; subst; intros; apply H; auto | right].
    exists v. split; auto. intros; apply H; auto. apply F; simpl; auto.
  - subst a. simpl. assert (I1 : inv d v1) by (apply F; simpl; auto). destruct (bjl_spec (fst d + snd d) 0 (f v0) (f v1)) as [A1 A2]. { intros j Hj. exists (x0 j). right. apply H; auto; lia. }
    destruct (box_join_loop (fst d + snd d) 0 (f v0) (f v1)) as [g' s]. simpl in A1, A2. subst s. apply (tbl_sound f _ a' g' x0).
    + intros j Hj. rewrite A2 by lia. apply ijoin_r. apply H; auto.
    + destruct X as [v [[E|[E|Hv]] X]]; [left|left|right].
      * subst v. intros j Hj. rewrite A2 by lia. apply ijoin_l. apply H; auto.
      * subst v. intros j Hj. rewrite A2 by lia. apply ijoin_r. apply H; auto.
      * exists v. split; auto. intros; apply H; auto. apply F; simpl; auto.
Qed.
Lemma tbl_best : forall f n c a g k, (k < n)%nat -> (forall j, (j < n)%nat -> exists r, in_u r (g j)) -> (forall v j, In v a -> (j < n)%nat -> exists r, in_u r (f v j)) ->
  (forall r, in_u r (g k) -> in_u r c) -> (forall v r, In v a -> in_u r (f v k) -> in_u r c) -> forall r, in_u r (@to_box_loop V f n g a k) -> in_u r c.
Proof.
  induction a as [|v a IH]; intros g k Hk Ng Nf Hg Hf r; simpl; auto.
  destruct (bjl_spec n 0 g (f v)) as [A1 A2]. { intros j Hj. destruct (Ng j) as [q Q]; [lia|]. exists q; auto. }
  destruct (box_join_loop n 0 g (f v)) as [g' s]. simpl in A1, A2. subst s. apply (IH g' k Hk).
  - intros j Hj. destruct (Ng j Hj) as [q Q]. exists q. rewrite A2 by lia. apply ijoin_l; auto.
  - intros; apply Nf; simpl; auto.
  - rewrite A2 by lia. apply ijoin_best; auto. apply Nf; simpl; auto. intros; apply (Hf v); simpl; auto.
  - intros w q Hw. apply Hf; simpl; auto.
Qed.
(** and when no component is empty each interval is the smallest one that contains the intervals of the components *)
Theorem C91_to_box_best : forall d f v0 a b k c, good d (v0 :: a) -> (k < fst d + snd d)%nat ->
  (forall v j, In v (v0 :: a) -> (j < fst d + snd d)%nat -> exists r, in_u r (f v j)) -> d_to_box K f (v0 :: a) = Some b ->
  (forall v r, In v (v0 :: a) -> in_u r (f v k) -> in_u r c) -> forall r, in_u r (b k) -> in_u r c.
Proof.
  intros d f v0 a b k c [_ F] Hk N E H r. simpl in E. rewrite (s_dim KS d v0) in E by (inversion F; auto). inversion E; subst. clear E.
  apply tbl_best; auto. { intros; apply N; simpl; auto. } { intros; apply N; simpl; auto. } { intros q; apply H; simpl; auto. } intros v q Hv. apply H; simpl; auto.
Qed.
End Any.

(** * Disjunctions of boxes *)
Definition bK : comp box := mkComp (fun v => (bx_int v, bx_real v)) box_bottom box_top box_is_bottom box_is_top box_is_eq box_meet.
Definition binv (d : nat * nat) (v : box) : Prop := box_built E v /\ bx_int v = fst d /\ bx_real v = snd d.
Lemma meet_dims : forall a b, bx_int (box_meet a b) = bx_int a /\ bx_real (box_meet a b) = bx_real a.
Proof. intros a b. unfold box_meet. destruct (bx_p a), (bx_p b); simpl; auto. destruct (all_dims _ _); auto. Qed.
Lemma binv_dims : forall d v w, binv d v -> binv d w -> same_dims v w /\ bx_dim v = bx_dim w.
Proof. intros d v w (_ & A & B) (_ & C & D). split; [split; congruence | unfold bx_dim; congruence]. Qed.
Theorem C91_boxes : dom_sound bK binv gbox /\ dom_exact bK binv gbox.
Proof.
  split; split.
  - intros [i r] v (_ & A & B). simpl in *. congruence.
  - intros i r. split; [split; [apply bb_bottom | simpl; auto]|]. apply (C15_is_bottom_iff E); [apply bb_bottom | reflexivity].
  - intros i r. split; [split; [apply bb_top | simpl; auto]|]. apply (C15_is_top_iff E); [apply bb_top|].
    unfold box_is_top, box_top. simpl. apply all_dims_iff. reflexivity.
  - intros d v (A & _). apply (C15_is_bottom_iff E); auto.
  - intros d v (A & _). apply (C15_is_top_iff E); auto.
  - intros d v w Hv Hw. apply (C15_is_eq_iff E); [apply Hv | apply Hw | apply (binv_dims d v w Hv Hw)].
  - intros d v w Hv Hw. destruct (binv_dims d v w Hv Hw) as [SD _]. split.
    + destruct (meet_dims v w) as [A B], Hv as (Hv & C & D). simpl k_meet. split; [apply bb_meet; auto; apply Hw | split; congruence].
    + intros x X Y. apply C16_meet_exact; auto.
  - intros d v (A & _). apply (C15_is_bottom_iff E); auto.
  - intros d v (A & _). apply (C15_is_top_iff E); auto.
  - intros d v w Hv Hw. apply (C15_is_eq_iff E); [apply Hv | apply Hw | apply (binv_dims d v w Hv Hw)].
  - intros d v w x Hv Hw. apply (C16_meet_exact v w x). apply (binv_dims d v w Hv Hw).
Qed.
Definition b1 (lo hi : Q) : box := box_of_box (N:=E) 0 1 (fun _ => (Fin lo, Fin hi)).
Lemma b1_inv : forall lo hi, binv (0, 1)%nat (b1 lo hi).
Proof. intros. split; [apply bb_of_box; intros; split; discriminate | split; reflexivity]. Qed.
Lemma bot_inv : binv (0, 1)%nat (box_bottom 0 1). Proof. split; [apply bb_bottom | split; reflexivity]. Qed.
Ltac gd := split; [discriminate | repeat (constructor; try apply b1_inv; try apply bot_inv)].

(** forget on a disjunction of boxes: exactly the points that agree with a point of the value outside the forgotten dimensions *)
Theorem C91_boxes_forget : forall d a tdim pr, good binv d a ->
  good binv d (d_map_elim bK (fun v => box_forget_array v tdim pr) a) /\
  forall y, pts gbox (d_map_elim bK (fun v => box_forget_array v tdim pr) a) y <->
    exists x, pts gbox a x /\ forall k, (k < fst d + snd d)%nat -> (~ In k tdim -> y k = x k) /\ (In k tdim -> pr = true -> y k = 0%R).
Proof.
  intros d a tdim pr G.
  apply (C91_lifted_exact bK binv gbox (proj1 C91_boxes) d d _ (fun v => box_forget_array v tdim pr)); auto.
  - intros v (B & D1 & D2). split.
    + split; [apply bb_forget; auto|]. unfold box_forget_array. destruct (bx_p v); simpl; auto.
    + intro y. rewrite (C18_forget_exact E v tdim pr y B). unfold bx_dim. rewrite D1, D2. tauto.
  - right. right. left. reflexivity.
Qed.
(** is_bottom answers false of two empty components (they come from compose, or from an assignment or a substitution) *)
Theorem C91_is_bottom_refuted : exists a, good binv (0, 1)%nat a /\ (forall x, ~ pts gbox a x) /\ d_is_bottom bK a = false.
Proof.
  exists (compose [box_bottom 0 1; box_bottom 0 1]). split; [gd|]. split; [|reflexivity]. intros x [v [[<-|[<-|[]]] X]]; exact X.
Qed.
(** is_leq and is_eq always answer false *)
Theorem C91_is_leq_refuted : exists a, good binv (0, 1)%nat a /\ (exists x, pts gbox a x) /\ d_is_leq a a = false /\ d_is_eq a a = false.
Proof.
  exists [b1 0 1]. split; [gd|]. split; [|split; reflexivity]. exists (qpt [1]%Q). exists (b1 0 1). split; [left; reflexivity|]. apply gboxb_ok. vm_compute. reflexivity.
Qed.
(** the join of three empty values has no component: dimension has nothing to read and is_bottom answers false *)
Theorem C91_join_array_refuted : exists l r, Forall (good binv (0, 1)%nat) l /\ d_join_array bK l = Some r /\ r = [] /\ d_dimension bK r = None /\ d_is_bottom bK r = false.
Proof.
  exists [d_bottom bK 0 1; d_bottom bK 0 1; d_bottom bK 0 1], []. split; [repeat (constructor; [gd|]); constructor | repeat split].
Qed.
(** the meet of two values without common point is the whole space *)
Theorem C91_meet_refuted : exists a b, good binv (0, 1)%nat a /\ good binv (0, 1)%nat b /\ (forall x, ~ (pts gbox a x /\ pts gbox b x)) /\
  forall x, pts gbox (fst (fst (d_meet bK a b))) x.
Proof.
  exists [b1 0 1], [b1 2 3]. split; [gd|]. split; [gd|]. split.
  - assert (M : box_is_bottom (box_meet (b1 0 1) (b1 2 3)) = true) by (vm_compute; reflexivity).
    intros x [[v [[<-|[]] X]] [w [[<-|[]] Y]]]. destruct (binv_dims _ _ _ (b1_inv 0 1) (b1_inv 2 3)) as [SD _].
    apply (proj1 (C15_is_bottom_iff E _ (bb_meet E _ _ (proj1 (b1_inv 0 1)) (proj1 (b1_inv 2 3)) SD)) M x). apply C16_meet_exact; auto.
  - assert (R : fst (fst (d_meet bK [b1 0 1] [b1 2 3])) = [box_top 0 1]) by (vm_compute; reflexivity). rewrite R. intro x.
    exists (box_top 0 1). split; [left; reflexivity|]. apply (s_top bK binv gbox (proj1 C91_boxes) 0 1).
Qed.
(** bound_dimension: an empty first component hides the others; and the interval [1,-1] taken as the empty one is joined
    to the result, so that the bounds of one component [5,6] become [1,6] *)
Theorem C91_bound_refuted :
  (exists a x, good binv (0, 1)%nat a /\ pts gbox a x /\ ~ in_u (x 0%nat) (d_bound (fun v => box_bound_dimension v 0) a)) /\
  (exists v r, binv (0, 1)%nat v /\ ~ in_u r (box_bound_dimension v 0) /\ in_u r (d_bound (fun v => box_bound_dimension v 0) (of_one v))).
Proof.
  split.
  - exists (compose [box_bottom 0 1; b1 0 1]), (qpt [1]%Q). split; [gd|]. split.
    + exists (b1 0 1). split; [right; left; reflexivity|]. apply gboxb_ok. vm_compute. reflexivity.
    + assert (R : d_bound (fun v => box_bound_dimension v 0) (compose [box_bottom 0 1; b1 0 1]) = (Fin 1, Fin (-1 # 1))) by (vm_compute; reflexivity).
      rewrite R. intros [_ H]. unfold qpt in H. simpl in H. unfold Q2R in H. simpl in H. lra.
  - exists (b1 5 6), 1%R. split; [apply b1_inv|]. split.
    + assert (R : box_bound_dimension (b1 5 6) 0 = (Fin 5, Fin 6)) by (vm_compute; reflexivity). rewrite R. intros [H _]. simpl in H. unfold Q2R in H. simpl in H. lra.
    + assert (R : d_bound (fun v => box_bound_dimension v 0) (of_one (b1 5 6)) = (Fin 1, Fin 6)) by (vm_compute; reflexivity). rewrite R. split; simpl; unfold Q2R; simpl; lra.
Qed.
(** to_box: two empty first components hide the others *)
Theorem C91_to_box_refuted : exists a x b, good binv (0, 1)%nat a /\ pts gbox a x /\ d_to_box bK (fun v => box_to_box v) a = Some b /\ ~ in_u (x 0%nat) (b 0%nat).
Proof.
  exists (compose [box_bottom 0 1; box_bottom 0 1; b1 0 1]), (qpt [1]%Q), (fun _ => ibottom). split; [gd|]. split.
  - exists (b1 0 1). split; [right; right; left; reflexivity|]. apply gboxb_ok. vm_compute. reflexivity.
  - split; [reflexivity|]. intros [_ H]. unfold qpt in H. simpl in H. unfold Q2R in H. simpl in H. lra.
Qed.

(** * Cases that meet the hypotheses *)
Definition q1 (x : Q) : point := qpt [x].
Example C91_example_join : let a := d_join bK (d_join bK [b1 0 1] [b1 3 4]) (d_join bK (d_bottom bK 0 1) [b1 0 1]) in
  length a = 3%nat /\ length (d_minimize bK (fun v => v) a) = 2%nat /\ pts gbox a (q1 4) /\ ~ pts gbox a (q1 2).
Proof.
  cbv zeta. split; [vm_compute; reflexivity|]. split; [vm_compute; reflexivity|].
  assert (G : forall l h, good binv (0, 1)%nat [b1 l h]) by (intros; gd).
  assert (KS := proj1 C91_boxes). assert (Gb : good binv (0, 1)%nat (d_bottom bK 0 1)) by apply (C91_constants bK binv gbox KS).
  destruct (C91_join bK binv gbox KS _ _ _ (G 0 1) (G 3 4))%Q as [G1 P1]. destruct (C91_join bK binv gbox KS _ _ _ Gb (G 0 1))%Q as [G2 P2].
  destruct (C91_join bK binv gbox KS _ _ _ G1 G2) as [G3 P3]. split.
  - apply P3. left. apply P1. right. exists (b1 3 4). split; [left; reflexivity|]. apply gboxb_ok. vm_compute. reflexivity.
  - intro X. apply P3 in X. rewrite P1, P2 in X.
    assert (Z : forall l h, gboxb (b1 l h) [2]%Q = false -> ~ pts gbox [b1 l h] (q1 2)).
    { intros l h H [v [[<-|[]] Y]]. apply gboxb_ok in Y. congruence. }
    destruct X as [[X|X]|[X|X]]; [|  | destruct X as [v [[<-|[]] Y]]; exact Y |]; refine (Z _ _ _ X); vm_compute; reflexivity.
Qed.
Example C91_example_meet : fst (fst (d_meet bK [b1 0 2; b1 4 6] [b1 1 5; b1 8 9])) <> [] /\
  exists x, pts gbox [b1 0 2; b1 4 6] x /\ pts gbox [b1 1 5; b1 8 9] x.
Proof.
  split; [vm_compute; discriminate|]. exists (q1 2). split; [exists (b1 0 2) | exists (b1 1 5)]; (split; [left; reflexivity|]; apply gboxb_ok; vm_compute; reflexivity).
Qed.
Example C91_example_meet_bottom : good binv (0, 1)%nat [b1 0 2; b1 4 6] /\ good binv (0, 1)%nat (d_bottom bK 0 1) /\
  d_is_bottom bK (d_bottom bK 0 1) = true /\ d_is_bottom bK (fst (fst (d_meet bK [b1 0 2; b1 4 6] (d_bottom bK 0 1)))) = true.
Proof. split; [gd|]. split; [gd|]. split; vm_compute; reflexivity. Qed.
Example C91_example_minimize : d_minimize bK (fun v => v) [box_bottom 0 1; b1 0 1; box_top 0 1; b1 0 1; box_top 0 1; b1 2 3] = [b1 0 1; box_top 0 1; b1 2 3].
Proof. reflexivity. Qed.
Example C91_example_join_array : d_join_array bK [[b1 0 1]; d_bottom bK 0 1; [b1 2 3; b1 5 6]] = Some [b1 0 1; b1 2 3; b1 5 6].
Proof. reflexivity. Qed.

Example C91_example_bound : d_bound (fun v => box_bound_dimension v 0) [b1 (-3) (-2); b1 4 6] = (Fin (-3), Fin 6) /\
  exists b, d_to_box bK (fun v => box_to_box v) [b1 5 6; b1 7 8] = Some b /\ b 0%nat = (Fin 5, Fin 8).
Proof. split; [vm_compute; reflexivity|]. eexists. split; [reflexivity | vm_compute; reflexivity]. Qed.

Print Assumptions C91_minimize. Print Assumptions C91_minimize_irredundant. Print Assumptions C91_is_bottom. Print Assumptions C91_constants.
Print Assumptions C91_join. Print Assumptions C91_join_array. Print Assumptions C91_meet. Print Assumptions C91_lifted_sound. Print Assumptions C91_lifted_exact.
Print Assumptions C91_sat. Print Assumptions C91_to_lincons. Print Assumptions C91_bound_sound. Print Assumptions C91_to_box_sound. Print Assumptions C91_to_box_best.
Print Assumptions C91_boxes. Print Assumptions C91_boxes_forget. Print Assumptions C91_is_bottom_refuted. Print Assumptions C91_is_leq_refuted. Print Assumptions C91_join_array_refuted.
Print Assumptions C91_meet_refuted. Print Assumptions C91_bound_refuted. Print Assumptions C91_to_box_refuted. Print Assumptions C91_meet_bottom.

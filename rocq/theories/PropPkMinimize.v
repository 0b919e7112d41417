(** Properties of the minimisation of polyhedra (C66, C67). *)
From Coq Require Import ZArith Bool List Lia Reals Lra Permutation.
Import ListNotations.
From Verif Require Import PkCone PkVec PkCherni PkCherniFacts PkCherniRay PkSpec PkFarkas PkSimplify PkSimplifyFacts PkSimplifyThm PkSimplifyEnd PkMinimize PropPkCherni.
Open Scope R_scope.

(** generators of a matrix with the lines first *)
Lemma generated_mat : forall n L R x, Forall (st 0) L -> Forall (st 1) R -> (generated n (L ++ R) x <-> gen n rv (tls L) (tls R) x).
Proof.
  intros n L R x S0 S1. set (pr := fun q : pvec => (q, @nil bool)). assert (A : forall l, map fst (map pr l) = l) by (intros l; rewrite map_map; apply map_id).
  assert (B : forall l, map tr (map pr l) = tls l) by (intros l; unfold tls; rewrite map_map; reflexivity). assert (C : forall s l, Forall (st s) l -> Forall (fun r : row => zn 0 (fst r) = s) (map pr l)). { intros s l F. apply Forall_forall. intros r I. apply in_map_iff in I. destruct I as (q & <- & I). rewrite Forall_forall in F. apply (F q I). }
  rewrite <- (B L), <- (B R). rewrite <- (generated_gen n (map pr L) (map pr R) x) by auto. rewrite map_app, !A. tauto.
Qed.
Lemma mini_points : forall n C F a b, mini n C F a b -> forall x, cone C x <-> generated n F x.
Proof.
  intros n C F a b (E & I & L & R & -> & -> & _ & _ & FL & S0 & S1 & D1 & _) x. apply Forall_app in FL, S0, S1. destruct FL as [FC _], S0 as [_ S0], S1 as [_ S1]. rewrite (cone_inC n _ x FC), generated_mat by auto. apply (dd_gen _ _ _ _ _ D1).
Qed.
(** for a polyhedron: the cone has no point with a negative first coordinate *)
Definition positive (con : list (list Z)) : Prop := forall x, cone con x -> 0 <= x 0%nat.
Lemma gen_coord : forall n (L R : list (list Z)) i, (i < n)%nat -> (forall l, In l L -> rv l i = 0) -> (forall r, In r R -> rv r i <= 0) -> forall x, gen n rv L R x -> x i <= 0.
Proof.
  intros n L R i Hi HL HR x G. induction G as [x Z|x l k y G IH J Q|x r k y G IH J K Q]. rewrite Z; auto; lra. rewrite Q by auto. unfold lin2. rewrite HL by auto. lra. rewrite Q by auto. unfold lin2. specialize (HR r J). nra.
Qed.
Lemma no_pos_empty : forall n C0 L R, (0 < n)%nat -> Forall (lenS n) C0 -> positive C0 -> (forall x, inC n (map kc C0) x <-> gen n rv L R x) -> (~ exists r, In r R /\ (0 < nth 0 r 0)%Z) -> forall x, ~ poly_con C0 x.
Proof.
  intros n C0 L R Hn FC P G N x H. unfold poly_con in H. rewrite (cone_inC n _ _ FC), G in H. assert (X : homog x 0%nat <= 0); [|simpl in X; lra]. apply (gen_coord n L R 0%nat Hn) with (3 := H).
  - intros l I. assert (A : forall k, 0 <= k * rv l 0%nat). { intros k. assert (K : 0 <= (lin2 k (rv l) 0 (rv l)) 0%nat). { apply P. rewrite (cone_inC n _ _ FC), G. apply gen_line; auto. } unfold lin2 in K. lra. } pose proof (A 1). pose proof (A (-1)). lra.
  - intros r I. apply IZR_le. destruct (Z_le_gt_dec (nth 0 r 0%Z) 0); auto. exfalso. apply N. exists r. split; auto. lia.
Qed.
Lemma pos_ray_point : forall n C F a b, (0 < n)%nat -> mini n C F a b -> pos_ray F -> exists x, poly_con C x.
Proof.
  intros n C F a b Hn (E & I & L & R & -> & -> & _ & _ & FL & S0 & S1 & D1 & _) (r & Ir & Zr & Pr). apply Forall_app in FL, S0, S1. destruct FL as [FC _], S0 as [_ S0], S1 as [_ S1]. apply in_app_iff in Ir. destruct Ir as [Ir|Ir]. exfalso. rewrite Forall_forall in S0. apply Zr. apply (S0 r Ir).
  set (p := IZR (zn 1 r)). assert (PP : 0 < p) by (apply IZR_lt; auto). exists (fun i => rv (tl r) (S i) / p). unfold poly_con. rewrite (cone_inC n _ _ FC). apply (dd_gen _ _ _ _ _ D1). apply gen_ext with (lin2 (/ p) (rv (tl r)) 0 (rv (tl r))). apply gen_scal. left. apply Rinv_0_lt_compat; auto. apply gen_ray. apply (in_map (fun q : pvec => tl q)); auto.
  intros i Hi. unfold lin2. destruct i as [|i]; simpl homog. unfold rv. rewrite <- zn_tl. fold p. field. lra. unfold Rdiv. ring.
Qed.

(** C66: minimisation finds emptiness exactly, and otherwise gives constraints and generators with exactly the points of the given constraints. *)
Theorem C66_minimize_exact : forall n C0, (0 < n)%nat -> Forall (fun c => length c = S n) C0 -> positive C0 ->
  match cherni_minimize true (S n) C0 with
  | None => forall x, ~ poly_con C0 x
  | Some (C, F, satF, nbeq, nbline) => (exists x, poly_con C0 x) /\ (forall x, cone C0 x <-> cone C x) /\ (forall x, cone C x <-> generated n F x)
  end.
Proof.
  intros n C0 Hn FC P. assert (M := minimize_spec true n C0 FC). destruct (cherni_minimize true (S n) C0) as [[[[[C F] satF] nbeq] nbline]|].
  - destruct M as (M & _ & Q & PR & _). assert (Q' : forall x, cone C0 x <-> cone C x). { intros x. destruct M as (E & I & L & R & -> & -> & _ & _ & FL & _). apply Forall_app in FL. destruct FL as [FL _]. rewrite (cone_inC n _ x FC), (cone_inC n _ x FL). apply Q. }
    split. destruct (pos_ray_point n C F nbeq nbline Hn M (PR eq_refl)) as (x & H). exists x. apply Q'. auto. split; auto. apply (mini_points n C F nbeq nbline M).
  - destruct M as (_ & L & R & G & N). apply (no_pos_empty n C0 L R); auto.
Qed.
Print Assumptions C66_minimize_exact.
(** The same for a polyhedron in minimal form to which constraints [D] are added. *)
Theorem C66_add_and_minimize_exact : forall n C F nbeq nbline D, (0 < n)%nat -> mini n C F nbeq nbline -> positive C -> Forall (fun c => length c = S n) D ->
  match cherni_add_and_minimize true (S n) (C ++ D) F (satmat F C) nbline (length C) with
  | None => forall x, ~ (poly_con C x /\ poly_con D x)
  | Some (C', F', satF, nbeq', nbline') => (exists x, poly_con C x /\ poly_con D x) /\ (forall x, (cone C x /\ cone D x) <-> cone C' x) /\ (forall x, cone C' x <-> generated n F' x)
  end.
Proof.
  intros n C F nbeq nbline D Hn M P FD. assert (A := add_and_minimize_spec true n C F nbeq nbline D M FD).
  assert (FC : Forall (lenS n) (C ++ D)). { destruct M as (E & I & L & R & _ & _ & _ & _ & FL & _). apply Forall_app in FL. destruct FL. apply Forall_app; auto. }
  assert (SP : forall x, cone (C ++ D) x <-> cone C x /\ cone D x) by (intros x; unfold cone; apply Forall_app).
  destruct (cherni_add_and_minimize true (S n) (C ++ D) F (satmat F C) nbline (length C)) as [[[[[C' F'] satF] nbeq'] nbline']|].
  - destruct A as (M' & _ & Q & PR & _). assert (Q' : forall x, cone (C ++ D) x <-> cone C' x). { intros x. destruct M' as (E & I & L & R & -> & -> & _ & _ & FL & _). apply Forall_app in FL. destruct FL as [FL _]. rewrite (cone_inC n _ x FC), (cone_inC n _ x FL). apply Q. }
    split. destruct (pos_ray_point n C' F' nbeq' nbline' Hn M' (PR eq_refl)) as (x & H). exists x. apply SP, Q'. auto. split. intros x. rewrite <- SP; auto. apply (mini_points n C' F' nbeq' nbline' M').
  - destruct A as (_ & L & R & G & N). intros x H. apply SP in H. revert H. apply (no_pos_empty n (C ++ D) L R); auto. intros y Hy. apply P, SP; auto.
Qed.
Print Assumptions C66_add_and_minimize_exact.

Lemma row_needed : forall n E I1 i I2 F L R, Forall (lenS n) (E ++ I1 ++ i :: I2) -> Forall (st 0) E -> Forall (st 1) (I1 ++ i :: I2) -> ddn n (map kc F) (tls E) (tls (I1 ++ i :: I2)) -> (forall x, inC n (map kc (E ++ I1 ++ I2)) x <-> gen n rv L R x) ->
  exists x, inC n (map kc (E ++ I1 ++ I2)) x /\ dt n (rv (tl i)) x < 0.
Proof.
  intros n E I1 i I2 F L R FL S0 S1 D G. unfold tls in D. rewrite (map_app (fun q : pvec => tl q)) in D. cbn [map] in D. assert (N := dd_ray_needed n _ _ _ _ _ D).
  assert (S1' : Forall (st 1) (I1 ++ I2)). { apply Forall_app in S1. destruct S1 as [A B]. apply Forall_app. split; auto. inversion B; auto. }
  assert (DEC : (exists g, In g L /\ dt n (rv (tl i)) (rv g) <> 0) \/ (exists g, In g R /\ dt n (rv (tl i)) (rv g) < 0) \/ ((forall g, In g L -> dt n (rv (tl i)) (rv g) = 0) /\ forall g, In g R -> 0 <= dt n (rv (tl i)) (rv g))).
  { assert (A : (exists g, In g L /\ dt n (rv (tl i)) (rv g) <> 0) \/ forall g, In g L -> dt n (rv (tl i)) (rv g) = 0). { clear. induction L as [|t L IH]. right; intros ? []. destruct (Req_EM_T (dt n (rv (tl i)) (rv t)) 0) as [A|A]. 2: left; exists t; split; [left|]; auto. destruct IH as [(g & J & K)|K]; [left; exists g; split; [right|]; auto|right; intros g [<-|J]; auto]. }
    assert (B : (exists g, In g R /\ dt n (rv (tl i)) (rv g) < 0) \/ forall g, In g R -> 0 <= dt n (rv (tl i)) (rv g)). { clear. induction R as [|t R IH]. right; intros ? []. destruct (Rlt_le_dec (dt n (rv (tl i)) (rv t)) 0) as [A|A]. left; exists t; split; [left|]; auto. destruct IH as [(g & J & K)|K]; [left; exists g; split; [right|]; auto|right; intros g [<-|J]; auto]. } tauto. }
  destruct DEC as [(g & Ig & NZ)|[(g & Ig & NZ)|[HL HR]]].
  - set (k := - / dt n (rv (tl i)) (rv g)). exists (lin2 k (rv g) 0 (rv g)). split. apply G, gen_line; auto. rewrite dt_lin. unfold k. replace (- / dt n (rv (tl i)) (rv g) * dt n (rv (tl i)) (rv g) + 0 * dt n (rv (tl i)) (rv g)) with (-1) by (field; auto). lra.
  - exists (rv g). split; auto. apply G, gen_ray; auto.
  - exfalso. apply N. rewrite <- (map_app (fun q : pvec => tl q)). apply farkas_lists.
    + unfold tls. rewrite <- map_app. apply (tls_len n (E ++ I1 ++ I2)). rewrite !Forall_app in *. destruct FL as (A & B & C'). inversion C'; auto.
    + intros x H. apply (cnE_kc n E (I1 ++ I2) x S0 S1') in H. apply G in H. assert (K : holds n (rv (tl i), false) x) by (apply (gen_holds n rv _ L R); auto). exact K.
Qed.
(** C67: no inequality is superfluous after minimisation: without it the constraints have another point. *)
Theorem C67_constraints_irredundant : forall n C0 C F satF nbeq nbline c1 c c2, (0 < n)%nat -> Forall (fun c => length c = S n) C0 ->
  cherni_minimize true (S n) C0 = Some (C, F, satF, nbeq, nbline) -> C = c1 ++ c :: c2 -> nth 0 c 0%Z <> 0%Z ->
  exists x, cone (c1 ++ c2) x /\ ~ cone C0 x.
Proof.
  intros n C0 C F satF nbeq nbline c1 c c2 Hn FC EQ EC NZ. assert (M := minimize_spec true n C0 FC). rewrite EQ in M. destruct M as ((E & I & L & R & EC' & -> & _ & _ & FL & S0 & S1 & _ & D2 & _) & _ & Q & _). rewrite EC' in EC.
  apply Forall_app in FL, S0, S1. destruct FL as [FL _], S0 as [S0 _], S1 as [S1 _].
  assert (SP : exists I1, c1 = E ++ I1 /\ I = I1 ++ c :: c2). { clear - EC S0 NZ. revert c1 EC. induction E as [|l E IH]; intros c1 EC. exists c1. auto. destruct c1 as [|q c1]; simpl in EC; injection EC as -> EC. inversion S0; subst. unfold st, zn in *. tauto. destruct (IH (Forall_inv_tail S0) c1 EC) as (I1 & -> & ->). exists I1. auto. }
  destruct SP as (I1 & -> & ->). subst C. assert (FR : Forall (lenS n) (E ++ I1 ++ c2)). { rewrite !Forall_app in *. destruct FL as (A & B & D'). inversion D'; auto. }
  destruct (gens_exist n (E ++ I1 ++ c2) FR) as (L' & R' & G). destruct (row_needed n E I1 c c2 (L ++ R) L' R' FL S0 S1 D2 G) as (x & H1 & H2). exists x. rewrite <- app_assoc. split. apply (cone_inC n _ x FR); auto.
  intros H. rewrite (cone_inC n _ x FC), Q in H. assert (K := H (kc c)). assert (KI : In (kc c) (map kc (E ++ I1 ++ c :: c2))) by (apply in_map, in_app_iff; right; apply in_elt). apply K in KI. apply holds_ge in KI. unfold kc in KI. cbn [fst] in KI. lra.
Qed.
Print Assumptions C67_constraints_irredundant.

(** The square of [PropPkCherni] (with a redundant constraint): four inequalities and an equality remain; without the upper bound of x, the point 2 appears. *)
Lemma square_positive : positive square.
Proof. intros x H. assert (A := Forall_inv (Forall_inv_tail (Forall_inv_tail (Forall_inv_tail (Forall_inv_tail (Forall_inv_tail (Forall_inv_tail H))))))). simpl in A. lra. Qed.
Example C66_case : (match cherni_minimize true 5 square with Some (C, F, satF, nbeq, nbline) => (C, nbeq, nbline, length F) | None => ([], 9, 9, 9)%nat end) =
  ([[0; 0; 0; -1; 1]; [1; 0; 1; 0; 0]; [1; 0; 0; 1; 0]; [1; 1; -1; 0; 0]; [1; 1; 0; -1; 0]]%Z, 1%nat, 0%nat, 4%nat)
  /\ cherni_minimize true 3 [[1;-2;1]; [1;1;-1]; [1;1;0]]%Z = None. (* 2 <= x <= 1 *)
Proof. split; vm_compute; reflexivity. Qed.

(** Generators of boxes: the set of points generated by a list of lines, rays and vertices. *)
From Coq Require Import Arith ZArith QArith Qround Qreals Reals Lra Lia Bool List.
From Verif Require Import Bound BoundFacts Util Itv ItvFacts ItvFacts2 Linexpr ItvLin Box BoxizeFacts BoxFacts.
Import ListNotations.
Open Scope R_scope.

(** sum of the generators with weights [ws]; mass of the vertices *)
Fixpoint comb (gs : list generator) (ws : list R) (d : nat) : R :=
  match gs, ws with g :: gs, w :: ws => w * Q2R (g_coef g d) + comb gs ws d | _, _ => 0 end.
Fixpoint vmass (gs : list generator) (ws : list R) : R :=
  match gs, ws with g :: gs, w :: ws => (match g_typ g with GVertex => w | _ => 0 end) + vmass gs ws | _, _ => 0 end.
(** vertices: convex combination; rays: non-negative combination; lines: any combination *)
Definition generated (n : nat) (gs : list generator) (v : nat -> R) : Prop :=
  exists ws, Forall2 (fun g w => g_typ g <> GLine -> 0 <= w) gs ws /\ vmass gs ws = 1 /\ forall d, (d < n)%nat -> v d = comb gs ws d.

Lemma comb_app : forall g1 w1 g2 w2 d, length g1 = length w1 -> comb (g1 ++ g2) (w1 ++ w2) d = comb g1 w1 d + comb g2 w2 d.
Proof. induction g1; intros [|w w1] g2 w2 d L; simpl in *; try discriminate; [lra|]. rewrite IHg1 by congruence. lra. Qed.
Lemma vmass_app : forall g1 w1 g2 w2, length g1 = length w1 -> vmass (g1 ++ g2) (w1 ++ w2) = vmass g1 w1 + vmass g2 w2.
Proof. induction g1; intros [|w w1] g2 w2 L; simpl in *; try discriminate; [lra|]. rewrite IHg1 by congruence. lra. Qed.
Lemma F2_len : forall A B (P : A -> B -> Prop) l m, Forall2 P l m -> length l = length m.
Proof. intros A B P l m F. induction F; simpl; congruence. Qed.

(** vertices only *)
Fixpoint vc (vs : list (nat -> Q)) (ws : list R) (d : nat) : R :=
  match vs, ws with f :: vs, w :: ws => w * Q2R (f d) + vc vs ws d | _, _ => 0 end.
Fixpoint rsum (ws : list R) : R := match ws with [] => 0 | w :: ws => w + rsum ws end.
Lemma comb_vert : forall vs ws d, comb (map (mkGen GVertex) vs) ws d = vc vs ws d.
Proof. induction vs; intros [|w ws] d; simpl; auto. rewrite IHvs. auto. Qed.
Lemma vmass_vert : forall vs ws, length vs = length ws -> vmass (map (mkGen GVertex) vs) ws = rsum ws.
Proof. induction vs; intros [|w ws] L; simpl in *; try discriminate; auto. rewrite IHvs by congruence. auto. Qed.
Lemma vc_app : forall v1 w1 v2 w2 d, length v1 = length w1 -> vc (v1 ++ v2) (w1 ++ w2) d = vc v1 w1 d + vc v2 w2 d.
Proof. induction v1; intros [|w w1] v2 w2 d L; simpl in *; try discriminate; [lra|]. rewrite IHv1 by congruence. lra. Qed.
Lemma rsum_app : forall a b, rsum (a ++ b) = rsum a + rsum b.
Proof. induction a; intros; simpl; [lra|]. rewrite IHa. lra. Qed.
Lemma rsum_scale : forall k l, rsum (map (Rmult k) l) = k * rsum l.
Proof. induction l; simpl; lra. Qed.
Lemma vc_cset_other : forall k x d t vs ws, d <> k -> vc (map (fun f => cset f k x) vs) (map (Rmult t) ws) d = t * vc vs ws d.
Proof.
  intros k x d t vs. induction vs; intros [|w ws] D; simpl; try lra. rewrite IHvs by auto. unfold cset. destruct (Nat.eqb_spec d k); [congruence|]. lra.
Qed.
Lemma vc_cset_same : forall k x t vs ws, length vs = length ws -> vc (map (fun f => cset f k x) vs) (map (Rmult t) ws) k = t * rsum ws * Q2R x.
Proof.
  intros k x t vs. induction vs; intros [|w ws] L; simpl in *; try discriminate; [lra|]. rewrite IHvs by congruence. unfold cset. rewrite Nat.eqb_refl. lra.
Qed.
Lemma vc_mid : forall lo hi d vs ws, (forall f, In f vs -> lo <= Q2R (f d) <= hi) -> length vs = length ws -> Forall (Rle 0) ws ->
  lo * rsum ws <= vc vs ws d <= hi * rsum ws.
Proof.
  intros lo hi d vs. induction vs; intros [|w ws] H L F; simpl in *; try discriminate; [lra|]. inversion F; subst.
  assert (X := H a (or_introl eq_refl)). assert (Y := IHvs ws (fun f I => H f (or_intror I)) ltac:(congruence) H3). split; nra.
Qed.

Definition bounded (i : itv) : bool := negb (binfty (inf i)) && negb (binfty (sup i)).
(** the vertices after the first [k] dimensions *)
Definition verts (p : nat -> itv) (k : nat) : list (nat -> Q) := gen_vertices p k.
Lemma verts_S : forall p k, verts p (S k) =
  if bounded (p k) then map (fun f => cset f k (- qof (inf (p k)))%Q) (verts p k) ++ map (fun f => cset f k (qof (sup (p k)))) (verts p k) else verts p k.
Proof. intros. unfold verts, gen_vertices. rewrite seq_S, fold_left_app. reflexivity. Qed.
Lemma bounded_in : forall i x, bounded i = true -> (in_itv x i <-> - Q2R (qof (inf i)) <= x <= Q2R (qof (sup i))) \/ inf i = MInf \/ sup i = MInf.
Proof.
  intros [[|p|] [|q|]] x B; simpl in *; auto; try discriminate. left. unfold in_itv. simpl. lra.
Qed.
Lemma verts_coord : forall p k f d, In f (verts p k) ->
  if (d <? k)%nat && bounded (p d) then (f d = (- qof (inf (p d)))%Q \/ f d = qof (sup (p d))) else f d = 0%Q.
Proof.
  induction k; intros f d I.
  - simpl in I. destruct I as [<-|[]]. simpl. auto.
  - rewrite verts_S in I. destruct (bounded (p k)) eqn:B.
    + assert (X : exists g x, In g (verts p k) /\ f = cset g k x /\ (x = (- qof (inf (p k)))%Q \/ x = qof (sup (p k)))).
      { apply in_app_or in I. destruct I as [I|I]; apply in_map_iff in I; destruct I as (g & <- & G); exists g; eexists; split; eauto. }
      destruct X as (g & x & G & -> & X). unfold cset. destruct (Nat.eqb_spec d k) as [->|D].
      * assert ((k <? S k)%nat = true) as -> by (apply Nat.ltb_lt; lia). rewrite B. simpl. auto.
      * specialize (IHk g d G). replace (d <? S k)%nat with (d <? k)%nat; auto. destruct (Nat.ltb_spec d k), (Nat.ltb_spec d (S k)); auto; lia.
    + specialize (IHk f d I). destruct (Nat.eq_dec d k) as [->|D].
      * rewrite B, andb_false_r. destruct (Nat.ltb_spec k k); [lia|]. simpl in IHk. auto.
      * replace (d <? S k)%nat with (d <? k)%nat; auto. destruct (Nat.ltb_spec d k), (Nat.ltb_spec d (S k)); auto; lia.
Qed.
(** each point of the bounded part is a convex combination of the vertices *)
Lemma verts_hull : forall p v k, (forall d, (d < k)%nat -> in_itv (v d) (p d)) ->
  exists ws, length (verts p k) = length ws /\ Forall (Rle 0) ws /\ rsum ws = 1 /\
    forall d, vc (verts p k) ws d = if (d <? k)%nat && bounded (p d) then v d else 0.
Proof.
  intros p v. induction k; intro H.
  - exists [1]. split; auto. split. repeat constructor; lra. split. simpl; lra. intro d. simpl. unfold Q2R. simpl. lra.
  - destruct IHk as (ws & L & F & S & C); [intros; apply H; lia|]. rewrite verts_S. destruct (bounded (p k)) eqn:B.
    + assert (G := H k ltac:(lia)). set (lo := Q2R (- qof (inf (p k)))). set (hi := Q2R (qof (sup (p k)))).
      assert (G2 : lo <= v k <= hi).
      { unfold lo, hi. rewrite Q2R_opp. destruct (bounded_in (p k) (v k) B) as [X|[X|X]]; [apply X; auto| |]; destruct G as [G1 G2]; rewrite X in *; simpl in *; tauto. }
      assert (T : exists t, 0 <= t <= 1 /\ v k = (1 - t) * lo + t * hi).
      { destruct (Req_dec lo hi) as [Q|Q]. exists 0. split; [lra|nra]. exists ((v k - lo) / (hi - lo)).
        assert (0 < hi - lo) by lra. split. split. apply Rmult_le_pos; [lra|]. left. apply Rinv_0_lt_compat; auto.
        apply Rmult_le_reg_r with (hi - lo); auto. unfold Rdiv. rewrite Rmult_assoc, Rinv_l, Rmult_1_r by lra. lra. field. lra. }
      destruct T as (t & T1 & T2). exists (map (Rmult (1 - t)) ws ++ map (Rmult t) ws).
      split. rewrite !app_length, !map_length. lia.
      split. apply Forall_app. split; apply Forall_map; (eapply Forall_impl; [|exact F]); intros a A; apply Rmult_le_pos; lra.
      split. rewrite rsum_app, !rsum_scale, S. lra.
      intro d. rewrite vc_app by (rewrite !map_length; auto). destruct (Nat.eq_dec d k) as [->|D].
      * rewrite !vc_cset_same, S by auto. fold lo hi. assert ((k <? Datatypes.S k)%nat = true) as -> by (apply Nat.ltb_lt; lia). rewrite B. simpl. lra.
      * rewrite !vc_cset_other, C by auto. replace (d <? Datatypes.S k)%nat with (d <? k)%nat by (destruct (Nat.ltb_spec d k), (Nat.ltb_spec d (Datatypes.S k)); auto; lia).
        destruct (_ && _); lra.
    + exists ws. split; auto. split; auto. split; auto. intro d. rewrite C. destruct (Nat.eq_dec d k) as [->|D].
      * rewrite B, !andb_false_r. auto.
      * replace (d <? Datatypes.S k)%nat with (d <? k)%nat; auto. destruct (Nat.ltb_spec d k), (Nat.ltb_spec d (Datatypes.S k)); auto; lia.
Qed.

(** lines *)
Definition lines (p : nat -> itv) (l : list nat) : list generator := flat_map (gen_line p) l.
Lemma lines_spec : forall p l ws d, comb (lines p l) ws d = 0 \/ binfty (inf (p d)) && binfty (sup (p d)) = true.
Proof.
  intros p l ws d. destruct (binfty (inf (p d)) && binfty (sup (p d))) eqn:B; auto. left. revert ws. induction l as [|x l IH]; intro ws; simpl.
  - destruct ws; auto.
  - unfold gen_line. destruct (binfty (inf (p x)) && binfty (sup (p x))) eqn:X; simpl; auto. destruct ws as [|w ws]; auto. fold (lines p l). rewrite IH.
    unfold cset. destruct (Nat.eqb_spec d x); [congruence|]. unfold Q2R. simpl. lra.
Qed.
Lemma lines_mass : forall p l ws, vmass (lines p l) ws = 0.
Proof.
  intros p l. induction l as [|x l IH]; intro ws; simpl. destruct ws; auto. unfold gen_line. destruct (_ && _); simpl; auto. destruct ws; auto. fold (lines p l). rewrite IH. simpl. lra.
Qed.
Lemma lines_all : forall p v l, NoDup l -> exists ws, Forall2 (fun g w => g_typ g <> GLine -> 0 <= w) (lines p l) ws /\
  forall d, comb (lines p l) ws d = if existsb (Nat.eqb d) l && (binfty (inf (p d)) && binfty (sup (p d))) then v d else 0.
Proof.
  intros p v. induction l as [|x l IH]; intro ND.
  - exists []. split. constructor. intro d. reflexivity.
  - inversion ND; subst. destruct (IH H2) as (ws & F & C). simpl. unfold gen_line. destruct (binfty (inf (p x)) && binfty (sup (p x))) eqn:B; simpl.
    + exists (v x :: ws). split. constructor; auto. simpl. congruence. intro d. fold (lines p l). rewrite C. unfold cset. destruct (Nat.eqb_spec d x) as [->|D]; simpl.
      * rewrite B. assert (existsb (Nat.eqb x) l = false) as ->. { apply not_true_is_false. intro X. apply existsb_exists in X. destruct X as (y & Y & Z). apply Nat.eqb_eq in Z. subst. auto. } simpl. unfold Q2R. simpl. lra.
      * unfold Q2R. simpl. lra.
    + exists ws. split; auto. intro d. fold (lines p l). rewrite C. destruct (Nat.eqb_spec d x) as [->|D]; simpl; auto. rewrite B, andb_false_r. auto.
Qed.

(** bounded or completely free dimensions *)
Definition no_half (p : nat -> itv) (n : nat) : Prop := forall d, (d < n)%nat -> binfty (inf (p d)) = binfty (sup (p d)).
Lemma no_rays : forall p n, no_half p n -> flat_map (gen_ray p) (seq 0 n) = [].
Proof.
  intros p n H. assert (G : forall l, (forall d, In d l -> (d < n)%nat) -> flat_map (gen_ray p) l = []).
  { induction l as [|x l IH]; intro I; simpl; auto. rewrite IH by (intros; apply I; simpl; auto). rewrite app_nil_r. unfold gen_ray.
    specialize (H x (I x (or_introl eq_refl))). destruct (binfty (inf (p x))), (binfty (sup (p x))); simpl; auto; discriminate. }
  apply G. intros d D. apply in_seq in D. lia.
Qed.
Lemma generators_exact : forall a p v, bx_p a = Some p -> nebox a -> no_half p (bx_dim a) ->
  (generated (bx_dim a) (box_to_generator_array a) v <-> gbox a v).
Proof.
  intros a p v P NE H. unfold nebox in NE. unfold gbox, box_to_generator_array. rewrite P in *. rewrite no_rays by auto. simpl. set (n := bx_dim a) in *.
  fold (lines p (seq 0 n)). split.
  - intros (ws & F & M & C). apply Forall2_app_inv_l in F. destruct F as (w1 & w2 & F1 & F2 & ->). assert (L1 := F2_len _ _ _ _ _ F1). assert (L2 := F2_len _ _ _ _ _ F2). rewrite map_length in L2.
    rewrite vmass_app, lines_mass, vmass_vert in M by auto. intros d D. rewrite C, comb_app, comb_vert by auto.
    specialize (NE d D). specialize (H d D). destruct (lines_spec p (seq 0 n) w1 d) as [Z|Z].
    + destruct (bounded (p d)) eqn:B.
      * rewrite Z. destruct NE as [x0 X0]. destruct (bounded_in (p d) (0 + vc (gen_vertices p n) w2 d) B) as [E|E].
        -- destruct (bounded_in (p d) x0 B) as [E0|E0]; [|destruct X0, E0 as [E0|E0]; rewrite E0 in *; simpl in *; tauto]. apply E0 in X0. apply E.
           assert (N0 : Forall (Rle 0) w2). { clear - F2. remember (map (mkGen GVertex) (gen_vertices p n)) as gs. assert (Y : forall g, In g gs -> g_typ g = GVertex) by (subst; intros g I; apply in_map_iff in I; destruct I as (f & <- & _); auto). clear Heqgs.
             induction F2; constructor. apply H. rewrite Y by (simpl; auto). discriminate. apply IHF2. intros; apply Y; simpl; auto. }
           assert (Y := vc_mid (- Q2R (qof (inf (p d)))) (Q2R (qof (sup (p d)))) d (gen_vertices p n) w2).
           assert (R1 : rsum w2 = 1) by lra. rewrite R1 in Y. rewrite Rplus_0_l. destruct Y; auto; [|lra]. intros f I. assert (V := verts_coord p n f d I).
           assert ((d <? n)%nat = true) as T by (apply Nat.ltb_lt; auto). rewrite T, B in V. simpl in V. destruct V as [-> | ->]; rewrite ?Q2R_opp; lra.
        -- destruct X0 as [X1 X2]. destruct E as [E|E]; rewrite E in *; simpl in *; tauto.
      * unfold bounded in B. rewrite H in B. destruct (binfty (sup (p d))) eqn:S; simpl in B; [|discriminate]. clear - NE H S. destruct NE as [x [A0 B0]]. unfold in_itv. destruct (p d) as [i1 s1]. simpl in *. destruct i1, s1; simpl in *; try tauto; discriminate.
    + apply andb_true_iff in Z. destruct Z as [Z1 Z2]. destruct NE as [x [A0 B0]]. unfold in_itv. destruct (inf (p d)), (sup (p d)); simpl in *; try tauto; try discriminate.
  - intro G. destruct (verts_hull p v n G) as (w2 & L2 & F2 & S2 & C2). destruct (lines_all p v (seq 0 n) (seq_NoDup n 0)) as (w1 & F1 & C1).
    exists (w1 ++ w2). assert (L1 := F2_len _ _ _ _ _ F1). split; [|split].
    + apply Forall2_app; auto. unfold verts in *. clear - L2 F2. revert w2 L2 F2. induction (gen_vertices p n) as [|f l IH]; intros [|w w2] L F; simpl in *; try discriminate; constructor; inversion F; auto.
    + rewrite vmass_app, lines_mass, vmass_vert by auto. lra.
    + intros d D. rewrite comb_app, comb_vert by auto. fold (verts p n). rewrite C1, C2. assert ((d <? n)%nat = true) as -> by (apply Nat.ltb_lt; auto).
      assert (existsb (Nat.eqb d) (seq 0 n) = true) as ->. { apply existsb_exists. exists d. split. apply in_seq; lia. apply Nat.eqb_refl. }
      specialize (H d D). unfold bounded. simpl. destruct (binfty (inf (p d))), (binfty (sup (p d))); simpl; try discriminate; lra.
Qed.

(** Geometry of strongly closed matrices: every partial solution extends,
    every bound is tight.                                                  *)
From Coq Require Import Arith Lia List ZArith QArith Qreals Reals Lra Bool.
From Verif Require Import Bound BoundFacts OctMat OctIdx OctClose OctWalk OctStrong.
Import ListNotations.
Open Scope nat_scope.

Lemma between : forall (Ls Us : list R), (forall l u, In l Ls -> In u Us -> (l <= u)%R) ->
  exists r, (forall l, In l Ls -> (l <= r)%R) /\ (forall u, In u Us -> (r <= u)%R).
Proof.
  intros Ls. induction Ls as [|l Ls IH]; intros Us H.
  - induction Us as [|u Us IHu].
    + exists 0%R. split; simpl; tauto.
    + destruct IHu as [r [_ Hr]]. { intros ? ? []. }
      exists (Rmin r u). split; [simpl; tauto|]. simpl. intros u' [<-|Hu']; [apply Rmin_r|].
      eapply Rle_trans; [apply Rmin_l|auto].
  - destruct (IH Us) as [r [H1 H2]]. { intros; apply H; simpl; auto. }
    exists (Rmax r l). split.
    + simpl. intros l' [<-|Hl']; [apply Rmax_r|]. eapply Rle_trans; [|apply Rmax_l]. auto.
    + intros u Hu. apply Rmax_lub; auto. apply H; simpl; auto.
Qed.

(** finite value of a bound, as a list *)
Definition fl (b : bound) : list R := match b with Fin q => [Q2R q] | _ => [] end.
Lemma fl_ge : forall b x, In x (fl b) -> ge_rb x b.
Proof. intros [|q|] x; simpl; try tauto. intros [<-|[]]. lra. Qed.
Lemma fl_le : forall b x, b <> MInf -> (forall q, In q (fl b) -> (x <= q)%R) -> le_rb x b.
Proof. intros [|q|] x W H; simpl; auto. apply H. simpl; auto. Qed.

Definition vset (v : nat -> R) (x : nat) (r : R) : nat -> R := fun y => if Nat.eqb y x then r else v y.
Lemma vset_same : forall v x r, vset v x r x = r.
Proof. intros. unfold vset. rewrite Nat.eqb_refl. auto. Qed.
Lemma vset_other : forall v x r y, y <> x -> vset v x r y = v y.
Proof. intros. unfold vset. apply Nat.eqb_neq in H. rewrite H. auto. Qed.
Lemma lit_vset_other : forall v x r i, i / 2 <> x -> lit (vset v x r) i = lit v i.
Proof. intros. unfold lit. rewrite vset_other by auto. auto. Qed.
Lemma lit_ext : forall v w i, v (i / 2) = w (i / 2) -> lit v i = lit w i.
Proof. intros. unfold lit. rewrite H. auto. Qed.

Lemma lit_of_var : forall i x, i / 2 = x -> i = 2 * x \/ i = xor1 (2 * x).
Proof. intros i x H. rewrite xor1_even. idx_cases i; lia. Qed.
Lemma div2_lt : forall n i, i < 2 * n -> i / 2 < n.
Proof. intros n i H. idx_cases i; lia. Qed.
Lemma same_var : forall i j, i / 2 = j / 2 -> i = j \/ i = xor1 j.
Proof. intros i j H. idx_cases i; idx_cases j; lia. Qed.

Section Geom.
Variable n : nat.
Variable m : hmat.
Hypothesis SC : sclosed n m.

Local Notation M i j := (m (matpos2 i j)).

Lemma sc_wf2 : forall i j, i < 2 * n -> j < 2 * n -> M i j <> MInf.
Proof. intros. eapply wfm2; eauto. apply SC. Qed.
Lemma sc_diag2 : forall i, i < 2 * n -> M i i = Fin 0.
Proof. intros. rewrite matpos2_diag. apply SC; auto. Qed.

(** [v] satisfies the constraints between the variables of [D] *)
Definition psat (D : nat -> bool) (v : nat -> R) : Prop :=
  forall i j, i < 2 * n -> j < 2 * n -> D (i / 2) = true -> D (j / 2) = true ->
    le_rb (lit v j - lit v i) (M i j).

Lemma extend1 : forall D v x, x < n -> psat D v -> D x = false ->
  exists r, psat (fun y => D y || Nat.eqb y x) (vset v x r).
Proof.
  intros D v x Hx PS Dx.
  set (X := 2 * x). assert (HX : X < 2 * n) by (unfold X; lia).
  assert (HX' : xor1 X < 2 * n) by (apply xor1_lt; auto).
  assert (DX : X / 2 = x) by (unfold X; apply div2_even).
  set (lits := filter (fun s => D (s / 2)) (seq 0 (2 * n))).
  assert (LI : forall s, In s lits <-> s < 2 * n /\ D (s / 2) = true).
  { intros s. unfold lits. rewrite filter_In, in_seq. intuition lia. }
  assert (NX : forall s, In s lits -> s <> X /\ s <> xor1 X).
  { intros s Hs. apply LI in Hs. destruct Hs as [_ Hs]. 
    split; intros ->; rewrite ?div2_xor1, DX in Hs; congruence. }
  set (Us := flat_map (fun s => map (fun q => lit v s + q)%R (fl (M s X))) lits
             ++ map (fun q => q / 2)%R (fl (M (xor1 X) X))).
  set (Ls := flat_map (fun s => map (fun q => lit v s - q)%R (fl (M X s))) lits
             ++ map (fun q => - q / 2)%R (fl (M X (xor1 X)))).
  destruct (between Ls Us) as [r [HL HU]].
  { intros l u Hl Hu. unfold Ls in Hl. unfold Us in Hu.
    apply in_app_or in Hl. apply in_app_or in Hu.
    destruct Hl as [Hl|Hl]; destruct Hu as [Hu|Hu].
    - apply in_flat_map in Hl. destruct Hl as [s [Hs Hl]]. apply in_map_iff in Hl. destruct Hl as [q [<- Hq]].
      apply in_flat_map in Hu. destruct Hu as [s' [Hs' Hu]]. apply in_map_iff in Hu. destruct Hu as [q' [<- Hq']].
      apply fl_ge in Hq. apply fl_ge in Hq'. apply LI in Hs. apply LI in Hs'.
      assert (G : ge_rb (q' + q) (M s' s)) by (apply (sc_tri n m SC) with X; tauto).
      pose proof (le_ge_rb _ _ _ (PS s' s (proj1 Hs') (proj1 Hs) (proj2 Hs') (proj2 Hs)) G). lra.
    - apply in_flat_map in Hl. destruct Hl as [s [Hs Hl]]. apply in_map_iff in Hl. destruct Hl as [q [<- Hq]].
      apply in_map_iff in Hu. destruct Hu as [q' [<- Hq']].
      apply fl_ge in Hq. apply fl_ge in Hq'. assert (Ns := NX _ Hs). apply LI in Hs. destruct Hs as [Hs1 Hs2].
      assert (Hs' := xor1_lt _ _ Hs1).
      (* 2 v_s <= M (s^,s) <= M (s^,X^) + M (X^,X) + M(X,s) *)
      assert (G : ge_rb (q + (q' + q)) (M (xor1 s) s)).
      { apply (sc_tri n m SC) with (xor1 X); auto.
        - rewrite matpos2_coh by (destruct Ns; auto). auto.
        - apply (sc_tri n m SC) with X; auto. }
      assert (Dl : D (xor1 s / 2) = true) by (rewrite div2_xor1; auto).
      pose proof (le_ge_rb _ _ _ (PS (xor1 s) s Hs' Hs1 Dl Hs2) G) as F. rewrite lit_xor1 in F. lra.
    - apply in_flat_map in Hu. destruct Hu as [s [Hs Hu]]. apply in_map_iff in Hu. destruct Hu as [q [<- Hq]].
      apply in_map_iff in Hl. destruct Hl as [q' [<- Hq']].
      apply fl_ge in Hq. apply fl_ge in Hq'. assert (Ns := NX _ Hs). apply LI in Hs. destruct Hs as [Hs1 Hs2].
      assert (Hs' := xor1_lt _ _ Hs1).
      assert (G : ge_rb (q + (q' + q)) (M s (xor1 s))).
      { apply (sc_tri n m SC) with X; auto.
        apply (sc_tri n m SC) with (xor1 X); auto. rewrite matpos2_coh by (destruct Ns; auto). auto. }
      assert (Dl : D (xor1 s / 2) = true) by (rewrite div2_xor1; auto).
      pose proof (le_ge_rb _ _ _ (PS s (xor1 s) Hs1 Hs' Hs2 Dl) G) as F. rewrite lit_xor1 in F. lra.
    - apply in_map_iff in Hu. destruct Hu as [q [<- Hq]].
      apply in_map_iff in Hl. destruct Hl as [q' [<- Hq']].
      apply fl_ge in Hq. apply fl_ge in Hq'.
      assert (G : ge_rb (q' + q) (M X X)) by (apply (sc_tri n m SC) with (xor1 X); auto).
      rewrite sc_diag2 in G by auto. simpl in G. rewrite Q2R_0' in G. lra. }
  exists r.
  assert (LX : lit (vset v x r) X = r) by (unfold X; rewrite lit_even; apply vset_same).
  assert (LX' : lit (vset v x r) (xor1 X) = (- r)%R) by (rewrite lit_xor1, LX; auto).
  assert (CU : forall s, s < 2 * n -> D (s / 2) = true -> le_rb (r - lit v s) (M s X)).
  { intros s Hs Ds. apply fl_le; [apply sc_wf2; auto|]. intros q Hq.
    assert (In (lit v s + q)%R Us).
    { apply in_or_app. left. apply in_flat_map. exists s. split; [apply LI; auto|].
      apply (in_map (fun q => lit v s + q)%R). auto. }
    apply HU in H. lra. }
  assert (CL : forall s, s < 2 * n -> D (s / 2) = true -> le_rb (lit v s - r) (M X s)).
  { intros s Hs Ds. apply fl_le; [apply sc_wf2; auto|]. intros q Hq.
    assert (In (lit v s - q)%R Ls).
    { apply in_or_app. left. apply in_flat_map. exists s. split; [apply LI; auto|].
      apply (in_map (fun q => lit v s - q)%R). auto. }
    apply HL in H. lra. }
  assert (CUU : le_rb (2 * r) (M (xor1 X) X)).
  { apply fl_le; [apply sc_wf2; auto|]. intros q Hq.
    assert (In (q / 2)%R Us) by (apply in_or_app; right; apply (in_map (fun q => q / 2)%R); auto).
    apply HU in H. lra. }
  assert (CLL : le_rb (- 2 * r) (M X (xor1 X))).
  { apply fl_le; [apply sc_wf2; auto|]. intros q Hq.
    assert (In (- q / 2)%R Ls) by (apply in_or_app; right; apply (in_map (fun q => - q / 2)%R); auto).
    apply HL in H. lra. }
  intros i j Hi Hj Di Dj.
  destruct (Nat.eq_dec (i / 2) x) as [Ei|Ei]; destruct (Nat.eq_dec (j / 2) x) as [Ej|Ej].
  - apply lit_of_var in Ei. apply lit_of_var in Ej. fold X in Ei, Ej.
    destruct Ei as [->| ->]; destruct Ej as [->| ->]; rewrite ?LX, ?LX', ?sc_diag2 by auto.
    + simpl. rewrite Q2R_0'. lra.
    + replace (- r - r)%R with (-2 * r)%R by ring. auto.
    + replace (r - - r)%R with (2 * r)%R by ring. auto.
    + simpl. rewrite Q2R_0'. lra.
  - rewrite (lit_vset_other v x r j) by auto.
    assert (Dj' : D (j / 2) = true).
    { apply orb_true_iff in Dj. destruct Dj as [|Dj]; auto. apply Nat.eqb_eq in Dj. tauto. }
    apply lit_of_var in Ei. fold X in Ei. destruct Ei as [->| ->].
    + rewrite LX. auto.
    + rewrite LX'. rewrite <- matpos2_coh, xor1_invol.
      * replace (lit v j - - r)%R with (r - lit v (xor1 j))%R by (rewrite lit_xor1; ring).
        apply CU; auto using xor1_lt. rewrite div2_xor1; auto.
      * intros <-. rewrite div2_xor1 in Ej. auto.
  - rewrite (lit_vset_other v x r i) by auto.
    assert (Di' : D (i / 2) = true).
    { apply orb_true_iff in Di. destruct Di as [|Di]; auto. apply Nat.eqb_eq in Di. tauto. }
    apply lit_of_var in Ej. fold X in Ej. destruct Ej as [->| ->].
    + rewrite LX. auto.
    + rewrite LX'. rewrite <- matpos2_coh, xor1_invol.
      * replace (- r - lit v i)%R with (lit v (xor1 i) - r)%R by (rewrite lit_xor1; ring).
        apply CL; auto using xor1_lt. rewrite div2_xor1; auto.
      * intros ->. rewrite div2_xor1 in Ei. auto.
  - rewrite !lit_vset_other by auto. apply PS; auto.
    + apply orb_true_iff in Di. destruct Di as [|Di]; auto. apply Nat.eqb_eq in Di. tauto.
    + apply orb_true_iff in Dj. destruct Dj as [|Dj]; auto. apply Nat.eqb_eq in Dj. tauto.
Qed.

Lemma psat_ext : forall (D D' : nat -> bool) v w, psat D v -> (forall y, D' y = true -> D y = true) ->
  (forall y, D' y = true -> w y = v y) -> psat D' w.
Proof.
  intros D D' v w P H1 H2 i j Hi Hj Di Dj.
  rewrite (lit_ext w v i), (lit_ext w v j) by auto. apply P; auto.
Qed.

(** every solution of a sub-system extends to a solution *)
Lemma extend_all : forall D v, psat D v ->
  exists w, gam n m w /\ forall y, D y = true -> w y = v y.
Proof.
  intros D v PS.
  assert (G : forall k, k <= n -> exists w, psat (fun y => D y || Nat.ltb y k) w /\
     forall y, D y = true -> w y = v y).
  { induction k; intros Hk.
    - exists v. split; auto. apply (psat_ext D _ v v PS); auto.
      intros y H. apply orb_true_iff in H. destruct H; auto; discriminate.
    - destruct IHk as [w [P W]]; [lia|].
      destruct (D k) eqn:Dk.
      + exists w. split; auto. apply (psat_ext _ _ w w P); auto. intros y H.
        apply orb_true_iff in H. apply orb_true_iff. destruct H as [H|H]; auto.
        apply Nat.ltb_lt in H. destruct (Nat.eq_dec y k) as [->|]; auto. right. apply Nat.ltb_lt. lia.
      + destruct (extend1 _ w k ltac:(lia) P) as [r Pr].
        { rewrite Dk. apply Nat.ltb_ge. lia. }
        exists (vset w k r). split.
        * apply (psat_ext _ _ _ (vset w k r) Pr); auto. intros y H.
          apply orb_true_iff in H. apply orb_true_iff. destruct H as [H|H].
          -- left. apply orb_true_iff. auto.
          -- apply Nat.ltb_lt in H. destruct (Nat.eq_dec y k) as [->|]; [right; apply Nat.eqb_refl|].
             left. apply orb_true_iff. right. apply Nat.ltb_lt. lia.
        * intros y Dy. rewrite vset_other; auto. intros ->. congruence. }
  destruct (G n (le_n _)) as [w [P W]]. exists w. split; auto.
  apply gam_okm. intros i j Hi Hj. apply P; auto; apply orb_true_iff; right; apply Nat.ltb_lt, div2_lt; auto.
Qed.

Lemma sc_nonempty : exists v, gam n m v.
Proof.
  destruct (extend_all (fun _ => false) (fun _ => 0%R)) as [w [H _]].
  - intros i j _ _ F. discriminate.
  - exists w; auto.
Qed.

(** all values between the two opposite bounds are reached *)
Lemma project_unary : forall i c, i < 2 * n ->
  le_rb (- 2 * c) (M i (xor1 i)) -> le_rb (2 * c) (M (xor1 i) i) ->
  exists v, gam n m v /\ lit v i = c.
Proof.
  intros i c Hi H1 H2. assert (Hi' := xor1_lt _ _ Hi).
  set (v0 := fun _ : nat => if Nat.eqb (i mod 2) 0 then c else (- c)%R).
  assert (L0 : lit v0 i = c) by (unfold lit, v0; destruct (Nat.eqb (i mod 2) 0); lra).
  destruct (extend_all (fun y => Nat.eqb y (i / 2)) v0) as [w [G W]].
  - intros a b Ha Hb Da Db. apply Nat.eqb_eq in Da, Db. 
    apply same_var in Da. apply same_var in Db.
    destruct Da as [->| ->]; destruct Db as [->| ->]; rewrite ?lit_xor1, ?L0, ?sc_diag2 by auto.
    + simpl. rewrite Q2R_0'. lra.
    + replace (- c - c)%R with (-2 * c)%R by ring. auto.
    + replace (c - - c)%R with (2 * c)%R by ring. auto.
    + simpl. rewrite Q2R_0'. lra.
  - exists w. split; auto. rewrite <- L0. apply lit_ext. apply W. apply Nat.eqb_refl.
Qed.

Lemma project_binary : forall i j c, i < 2 * n -> j < 2 * n -> i / 2 <> j / 2 ->
  le_rb c (M i j) -> le_rb (- c) (M j i) ->
  exists v, gam n m v /\ (lit v j - lit v i)%R = c.
Proof.
  intros i j c Hi Hj Dv H1 H2. assert (Hi' := xor1_lt _ _ Hi). assert (Hj' := xor1_lt _ _ Hj).
  assert (D1 : i <> j) by congruence.
  assert (D2 : i <> xor1 j) by (intros ->; rewrite div2_xor1 in Dv; congruence).
  assert (D3 : xor1 i <> j) by (intros <-; rewrite div2_xor1 in Dv; congruence).
  assert (T := sc_tri n m SC). assert (ST := sc_str n m SC).
  (* coherence *)
  assert (C1 : M (xor1 j) (xor1 i) = M i j) by (apply cell_coh; auto).
  assert (C2 : M (xor1 i) (xor1 j) = M j i) by (apply cell_coh; auto).
  assert (C3 : M j (xor1 i) = M i (xor1 j)).
  { rewrite <- (xor1_invol j) at 1. apply cell_coh; auto. }
  assert (C4 : M (xor1 j) i = M (xor1 i) j).
  { rewrite <- (xor1_invol i) at 1. apply cell_coh; auto. }
  set (Us := map (fun q => q / 2)%R (fl (M (xor1 i) i)) ++ map (fun q => q / 2 - c)%R (fl (M (xor1 j) j))
          ++ map (fun q => (q - c) / 2)%R (fl (M (xor1 i) j))).
  set (Ls := map (fun q => - q / 2)%R (fl (M i (xor1 i))) ++ map (fun q => - q / 2 - c)%R (fl (M j (xor1 j)))
          ++ map (fun q => (- q - c) / 2)%R (fl (M i (xor1 j)))).
  destruct (between Ls Us) as [a [HL HU]].
  { intros l u Hl Hu. unfold Ls in Hl. unfold Us in Hu.
    repeat rewrite in_app_iff in Hl. repeat rewrite in_app_iff in Hu.
    destruct Hl as [Hl|[Hl|Hl]]; destruct Hu as [Hu|[Hu|Hu]];
    apply in_map_iff in Hl; destruct Hl as [q [<- Hq]]; apply fl_ge in Hq;
    apply in_map_iff in Hu; destruct Hu as [q' [<- Hq']]; apply fl_ge in Hq'.
    - assert (G := T i (xor1 i) i _ _ Hi Hi' Hi Hq Hq'). rewrite sc_diag2 in G by auto.
      simpl in G. rewrite Q2R_0' in G. lra.
    - assert (G := ST i j _ _ Hi Hj Hq Hq'). pose proof (le_ge_rb _ _ _ H1 G). lra.
    - assert (G := T i (xor1 i) j _ _ Hi Hi' Hj Hq Hq'). pose proof (le_ge_rb _ _ _ H1 G). lra.
    - assert (G := ST j i _ _ Hj Hi Hq Hq'). pose proof (le_ge_rb _ _ _ H2 G). lra.
    - assert (G := T j (xor1 j) j _ _ Hj Hj' Hj Hq Hq'). rewrite sc_diag2 in G by auto.
      simpl in G. rewrite Q2R_0' in G. lra.
    - rewrite <- C4 in Hq'. assert (G := T j (xor1 j) i _ _ Hj Hj' Hi Hq Hq').
      pose proof (le_ge_rb _ _ _ H2 G). lra.
    - rewrite <- C3 in Hq. assert (G := T j (xor1 i) i _ _ Hj Hi' Hi Hq Hq').
      pose proof (le_ge_rb _ _ _ H2 G). lra.
    - assert (G := T i (xor1 j) j _ _ Hi Hj' Hj Hq Hq').
      pose proof (le_ge_rb _ _ _ H1 G). lra.
    - rewrite <- C4 in Hq'. assert (G := T i (xor1 j) i _ _ Hi Hj' Hi Hq Hq').
      rewrite sc_diag2 in G by auto. simpl in G. rewrite Q2R_0' in G. lra. }
  set (sg := fun (s : nat) (r : R) => if Nat.eqb (s mod 2) 0 then r else (- r)%R).
  set (v0 := vset (fun _ => sg i a) (j / 2) (sg j (a + c)%R)).
  assert (Li : lit v0 i = a).
  { unfold lit, v0. rewrite vset_other by auto. unfold sg. destruct (Nat.eqb (i mod 2) 0); lra. }
  assert (Lj : lit v0 j = (a + c)%R).
  { unfold lit, v0. rewrite vset_same. unfold sg. destruct (Nat.eqb (j mod 2) 0); lra. }
  assert (W := sc_wf2).
  assert (U1 : le_rb (2 * a) (M (xor1 i) i)).
  { apply fl_le; auto. intros q Hq. assert (I1 : In (q / 2)%R Us).
    { apply in_or_app; left. apply (in_map (fun q => q / 2)%R); auto. } apply HU in I1. lra. }
  assert (U2 : le_rb (2 * (a + c)) (M (xor1 j) j)).
  { apply fl_le; auto. intros q Hq. assert (I1 : In (q / 2 - c)%R Us).
    { apply in_or_app; right; apply in_or_app; left. apply (in_map (fun q => q / 2 - c)%R); auto. }
    apply HU in I1. lra. }
  assert (U3 : le_rb (2 * a + c) (M (xor1 i) j)).
  { apply fl_le; auto. intros q Hq. assert (I1 : In ((q - c) / 2)%R Us).
    { apply in_or_app; right; apply in_or_app; right. apply (in_map (fun q => (q - c) / 2)%R); auto. }
    apply HU in I1. lra. }
  assert (L1 : le_rb (-2 * a) (M i (xor1 i))).
  { apply fl_le; auto. intros q Hq. assert (I1 : In (- q / 2)%R Ls).
    { apply in_or_app; left. apply (in_map (fun q => - q / 2)%R); auto. } apply HL in I1. lra. }
  assert (L2 : le_rb (-2 * (a + c)) (M j (xor1 j))).
  { apply fl_le; auto. intros q Hq. assert (I1 : In (- q / 2 - c)%R Ls).
    { apply in_or_app; right; apply in_or_app; left. apply (in_map (fun q => - q / 2 - c)%R); auto. }
    apply HL in I1. lra. }
  assert (L3 : le_rb (-2 * a - c) (M i (xor1 j))).
  { apply fl_le; auto. intros q Hq. assert (I1 : In ((- q - c) / 2)%R Ls).
    { apply in_or_app; right; apply in_or_app; right. apply (in_map (fun q => (- q - c) / 2)%R); auto. }
    apply HL in I1. lra. }
  destruct (extend_all (fun y => Nat.eqb y (i / 2) || Nat.eqb y (j / 2)) v0) as [w [G Wk]].
  - assert (RW : forall x y b, x = y -> le_rb x b -> le_rb y b) by (intros ? ? ? ->; auto).
    intros s t Hs Ht Ds Dt.
    assert (Cs : (s = i \/ s = xor1 i) \/ (s = j \/ s = xor1 j)).
    { apply orb_true_iff in Ds. destruct Ds as [Ds|Ds]; apply Nat.eqb_eq in Ds; apply same_var in Ds; auto. }
    assert (Ct : (t = i \/ t = xor1 i) \/ (t = j \/ t = xor1 j)).
    { apply orb_true_iff in Dt. destruct Dt as [Dt|Dt]; apply Nat.eqb_eq in Dt; apply same_var in Dt; auto. }
    assert (Z0 : le_rb 0 (Fin 0)) by (simpl; rewrite Q2R_0'; lra).
    destruct Cs as [[->| ->]|[->| ->]]; destruct Ct as [[->| ->]|[->| ->]];
      rewrite ?lit_xor1, ?Li, ?Lj, ?sc_diag2, ?C1, ?C2, ?C3, ?C4 by auto;
      first [ eapply RW; [|exact Z0]; ring | eapply RW; [|exact U1]; ring | eapply RW; [|exact U2]; ring
            | eapply RW; [|exact U3]; ring | eapply RW; [|exact L1]; ring | eapply RW; [|exact L2]; ring
            | eapply RW; [|exact L3]; ring | eapply RW; [|exact H1]; ring | eapply RW; [|exact H2]; ring ].
  - exists w. split; auto.
    assert (E1 : lit w i = lit v0 i).
    { apply lit_ext, Wk. rewrite Nat.eqb_refl. auto. }
    assert (E2 : lit w j = lit v0 j).
    { apply lit_ext, Wk. rewrite Nat.eqb_refl, orb_true_r. auto. }
    rewrite E1, E2, Li, Lj. ring.
Qed.

Lemma project : forall i j c, i < 2 * n -> j < 2 * n -> i <> j ->
  le_rb c (M i j) -> le_rb (- c) (M j i) ->
  exists v, gam n m v /\ (lit v j - lit v i)%R = c.
Proof.
  intros i j c Hi Hj D H1 H2. destruct (Nat.eq_dec (i / 2) (j / 2)) as [E|E].
  - apply same_var in E. destruct E as [->| ->]; [tauto|].
    destruct (project_unary j (c / 2)%R Hj) as [v [G L]].
    + replace (-2 * (c / 2))%R with (- c)%R by field. auto.
    + replace (2 * (c / 2))%R with c by field. auto.
    + exists v. split; auto. rewrite lit_xor1, L. lra.
  - apply project_binary; auto.
Qed.

(** opposite bounds are consistent *)
Lemma opp_bounds : forall i j r, i < 2 * n -> j < 2 * n -> ge_rb r (M i j) -> le_rb (- r) (M j i).
Proof.
  intros i j r Hi Hj G. apply le_rb_ge; [apply sc_wf2; auto|]. intros r' G'.
  assert (F := sc_tri n m SC i j i r r' Hi Hj Hi G G'). rewrite sc_diag2 in F by auto.
  simpl in F. rewrite Q2R_0' in F. lra.
Qed.

(** bounds are tight *)
Lemma tight_fin : forall i j q, i < 2 * n -> j < 2 * n -> M i j = Fin q ->
  exists v, gam n m v /\ (lit v j - lit v i)%R = Q2R q.
Proof.
  intros i j q Hi Hj E. destruct (Nat.eq_dec i j) as [->|D].
  - rewrite sc_diag2 in E by auto. inversion E. destruct sc_nonempty as [v G].
    exists v. split; auto. rewrite Q2R_0'. ring.
  - apply project; auto.
    + rewrite E. simpl. lra.
    + apply opp_bounds; auto. rewrite E. simpl. lra.
Qed.
Lemma tight_inf : forall i j B, i < 2 * n -> j < 2 * n -> M i j = PInf ->
  exists v, gam n m v /\ (B <= lit v j - lit v i)%R.
Proof.
  intros i j B Hi Hj E. destruct (Nat.eq_dec i j) as [->|D].
  - rewrite sc_diag2 in E by auto. discriminate.
  - assert (W := sc_wf2 j i Hj Hi).
    set (c := match M j i with Fin q => Rmax B (- Q2R q) | _ => B end).
    destruct (project i j c Hi Hj D) as [v [G L]].
    + rewrite E. exact I.
    + unfold c. destruct (M j i) as [|q|]; simpl; auto. pose proof (Rmax_r B (- Q2R q)). lra.
    + exists v. split; auto. rewrite L. unfold c. destruct (M j i); try lra. apply Rmax_l.
Qed.
(** least upper bounds: every bound on V_j - V_i is above the entry *)
Lemma tight_le : forall i j b, i < 2 * n -> j < 2 * n ->
  (forall v, gam n m v -> le_rb (lit v j - lit v i) b) -> le_bb (M i j) b.
Proof.
  intros i j b Hi Hj H. destruct (M i j) as [|q|] eqn:E; [exact I| |].
  - destruct (tight_fin i j q Hi Hj E) as [v [G L]]. apply H in G. rewrite L in G.
    destruct b as [|q'|]; simpl in *; auto. apply Qle_Q2R; auto.
  - destruct b as [|q'|]; simpl; auto.
    + destruct sc_nonempty as [v G]. apply H in G. exact G.
    + destruct (tight_inf i j (Q2R q' + 1) Hi Hj E) as [v [G L]]. apply H in G. simpl in G. lra.
Qed.

End Geom.

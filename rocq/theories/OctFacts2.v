(** Octagons: n-ary meet and join, widenings, narrowing, perturbations. *)
From Coq Require Import Arith Lia List ZArith QArith Qreals Reals Lra Bool.
From Verif Require Import Bound BoundFacts Util Itv ItvFacts Linexpr OctMat OctIdx OctClose OctWalk OctInc OctStrong OctGeom OctGeom2 Oct OctFacts.
Import ListNotations.
Open Scope nat_scope.

(** ** n-ary meet *)
Lemma meet_fold : forall n l m v,
  (forall x, In x l -> odim x = n /\ wfo x /\ best x <> None) ->
  (gam n (fold_left (fun m x => match best x with Some y => cellwise bmin m y | None => m end) l m) v <->
   gam n m v /\ forall x, In x l -> gamo x v).
Proof.
  induction l; intros m v H; simpl; [tauto|].
  rewrite IHl by (intros; apply H; simpl; auto).
  destruct (H a (or_introl eq_refl)) as [Hd [W B]].
  destruct (best a) as [y|] eqn:Ba; [|congruence].
  rewrite gam_min. assert (gamo a v <-> gam n y v).
  { rewrite gamo_best by auto. rewrite Ba, Hd. tauto. }
  split.
  - intros [[H1 H2] H3]. split; auto. intros x [->|I]; auto. tauto.
  - intros [H1 H2]. split; [split|]; auto. apply (proj1 H0). auto.
Qed.
Lemma meet_array_exact : forall a l v, (forall x, In x (a :: l) -> wfo x /\ odim x = odim a) ->
  (gamo (oct_meet_array a l) v <-> forall x, In x (a :: l) -> gamo x v).
Proof.
  intros a l v H. unfold oct_meet_array.
  destruct (existsb _ (a :: l)) eqn:Ex.
  - unfold set_mat; simpl. split; [intros G; exfalso; eapply gamo_none; eauto|].
    intros G. apply existsb_exists in Ex. destruct Ex as [x [I B]]. specialize (G x I).
    rewrite gamo_best in G by (apply H; auto). destruct (best x); simpl in *; [discriminate|tauto].
  - assert (B : forall x, In x (a :: l) -> best x <> None).
    { intros x I Bx. assert (existsb (fun x => negb (is_some (best x))) (a :: l) = true).
      { apply existsb_exists. exists x. split; auto. rewrite Bx. auto. }
      congruence. }
    unfold set_mat; simpl odim. rewrite gamo_single_m.
    rewrite meet_fold by (intros x I; specialize (H x (or_intror I)); specialize (B x (or_intror I)); tauto).
    specialize (B a (or_introl eq_refl)). destruct (best a) eqn:Ba; [|congruence].
    assert (gamo a v <-> gam (odim a) h v).
    { rewrite gamo_best by (apply H; simpl; auto). rewrite Ba. tauto. }
    simpl. split.
    + intros [H1 H2] x [->|I]; auto. tauto.
    + intros G. split; [apply (proj1 H0); apply G; auto|]. intros x I. apply G. auto.
Qed.
Lemma meet_fold_ok : forall n l m,
  (forall x, In x l -> odim x = n /\ wfo x) -> wfm n m /\ nndiag n m ->
  let r := fold_left (fun m x => match best x with Some y => cellwise bmin m y | None => m end) l m in
  wfm n r /\ nndiag n r.
Proof.
  induction l; intros m H W; simpl; auto. apply IHl; [intros; apply H; simpl; auto|].
  destruct (best a) eqn:Ba; auto. destruct (H a (or_introl eq_refl)) as [Hd Wa].
  destruct (best_wf a _ Wa Ba) as [W1 D1]. rewrite Hd in *. destruct W as [W D]. split.
  - intros i j Hi Hj. apply bmin_not_MInf; auto.
  - intros x Hx. apply bsgn_min; auto.
Qed.
Lemma meet_array_exo : forall a l, (forall x, In x (a :: l) -> wfo x /\ odim x = odim a) -> exo (oct_meet_array a l).
Proof.
  intros a l H. unfold oct_meet_array. assert (Wa := proj1 (H a (or_introl eq_refl))).
  pose proof (wfo_int _ Wa).
  destruct (existsb _ (a :: l)) eqn:Ex; [apply exo_none; auto|].
  destruct (best a) eqn:Ba.
  - pose proof (meet_fold_ok (odim a) l h) as F. destruct F as [F1 F2].
    + intros x I. specialize (H x (or_intror I)). tauto.
    + eapply best_wf; eauto.
    + apply exo_single_m; auto.
  - simpl in Ex. rewrite Ba in Ex. simpl in Ex. discriminate.
Qed.
Lemma meet_array_dim : forall a l, odim (oct_meet_array a l) = odim a /\ oint (oct_meet_array a l) = oint a.
Proof. intros. unfold oct_meet_array. destruct (existsb _ _); auto. Qed.

(** ** n-ary join *)
Section JoinArray.
Context {N : numtype}.
Definition jstep (algo : Z) (s : option hmat * bool) (x : oct) : option hmat * bool :=
  let '(m, closed) := s in
  let x := cached (N:=N) algo x in
  match best x with
  | None => s
  | Some y =>
    ((match m with None => Some y | Some m => Some (cellwise bmax m y) end),
     (if is_some (ocl x) then closed else false))
  end.
Definition okst (n : nat) (s : option hmat * bool) : Prop :=
  forall m, fst s = Some m -> wfm n m /\ nndiag n m.
Lemma jstep_ok : forall z n x s, wfo x -> odim x = n -> okst n s -> okst n (jstep z s x).
Proof.
  intros z n x [m c] W Hd O. unfold jstep. pose proof (cached_wfo (N:=N) z x W) as W'.
  pose proof (proj1 (cached_dim (N:=N) z x)) as D'.
  destruct (best (cached z x)) as [y|] eqn:B; auto.
  destruct (best_wf _ _ W' B) as [W1 D1]. rewrite D', Hd in *.
  intros m' Em. simpl in Em. destruct m as [m|]; inversion Em; subst; auto.
  destruct (O m eq_refl). split.
  - intros i j Hi Hj. apply bmax_not_MInf; auto.
  - intros k Hk. apply bsgn_max; auto.
Qed.
Definition gst (n : nat) (s : option hmat * bool) (v : nat -> R) : Prop :=
  match fst s with Some m => gam n m v | None => False end.
Lemma jstep_sound : forall z n x s v, wfo x -> odim x = n -> gst n s v \/ gamo x v -> gst n (jstep z s x) v.
Proof.
  intros z n x [m c] v W Hd G. unfold jstep. pose proof (cached_wfo (N:=N) z x W) as W'.
  pose proof (proj1 (cached_dim (N:=N) z x)) as D'.
  rewrite <- (cached_gamo (N:=N) z x v W), gamo_best, D', Hd in G by auto.
  destruct (best (cached z x)) as [y|] eqn:B; [|tauto].
  unfold gst in *; simpl in *. destruct m; [apply gam_max; tauto|tauto].
Qed.
Lemma jfold_ok : forall z n l s, (forall x, In x l -> wfo x /\ odim x = n) -> okst n s ->
  okst n (fold_left (jstep z) l s).
Proof.
  induction l; intros s H O; simpl; auto. apply IHl; [intros; apply H; simpl; auto|].
  destruct (H a (or_introl eq_refl)). apply jstep_ok; auto.
Qed.
Lemma jfold_sound : forall z n l s v, (forall x, In x l -> wfo x /\ odim x = n) ->
  gst n s v \/ (exists x, In x l /\ gamo x v) -> gst n (fold_left (jstep z) l s) v.
Proof.
  induction l; intros s v H G; simpl.
  - destruct G as [|[x [[] _]]]; auto.
  - destruct (H a (or_introl eq_refl)). apply IHl; [intros; apply H; simpl; auto|].
    destruct G as [G|[x [[->|I] G]]].
    + left. apply jstep_sound; auto.
    + left. apply jstep_sound; auto.
    + right. eauto.
Qed.
Lemma join_array_unfold : forall z a l, oct_join_array (N:=N) z a l =
  let s := fold_left (jstep z) (a :: l) (None, true) in
  match fst s with
  | None => set_mat a None None
  | Some m => if snd s then set_mat a None (Some m) else set_mat a (Some m) None
  end.
Proof.
  intros. unfold oct_join_array. fold (jstep z).
  change (fold_left (fun (s : option hmat * bool) (x : oct) => _) (a :: l) (None, true)) with
    (fold_left (jstep z) (a :: l) (None, true)).
  destruct (fold_left (jstep z) (a :: l) (None, true)) as [m c]. reflexivity.
Qed.
Lemma join_array_gamo : forall z a l v, gamo (oct_join_array (N:=N) z a l) v <->
  gst (odim a) (fold_left (jstep z) (a :: l) (None, true)) v.
Proof.
  intros. rewrite join_array_unfold. cbv zeta. unfold gst.
  destruct (fst _) as [m|].
  - destruct (snd _); unfold set_mat; [apply gamo_single_c|apply gamo_single_m].
  - split; [intros G; eapply gamo_none; eauto|tauto].
Qed.
Lemma join_array_sound : forall z a l v, (forall x, In x (a :: l) -> wfo x /\ odim x = odim a) ->
  (exists x, In x (a :: l) /\ gamo x v) -> gamo (oct_join_array (N:=N) z a l) v.
Proof. intros. rewrite join_array_gamo. apply jfold_sound; auto. Qed.
Lemma join_array_wfo : forall z a l, (forall x, In x (a :: l) -> wfo x /\ odim x = odim a) ->
  wfo (oct_join_array (N:=N) z a l).
Proof.
  intros z a l H. rewrite join_array_unfold. cbv zeta.
  pose proof (jfold_ok z (odim a) (a :: l) (None, true) H) as F.
  assert (okst (odim a) (None, true)) by (intros m Em; discriminate).
  specialize (F H0). pose proof (wfo_int _ (proj1 (H a (or_introl eq_refl)))).
  destruct (fold_left (jstep z) (a :: l) (None, true)) as [[m|] c]; simpl.
  - destruct (F m eq_refl). destruct c; [apply wfo_single_c|apply wfo_single_m]; auto.
  - apply wfo_none; auto.
Qed.
Lemma join_array_dim : forall z a l, odim (oct_join_array (N:=N) z a l) = odim a /\
  oint (oct_join_array (N:=N) z a l) = oint a.
Proof.
  intros. rewrite join_array_unfold. cbv zeta. destruct (fst _); auto. destruct (snd _); auto.
Qed.
End JoinArray.

Lemma jfold_closed : forall z n l s, (forall x, In x l -> exo x /\ odim x = n) ->
  (snd s = true -> forall m, fst s = Some m -> sclosed n m) ->
  let r := fold_left (jstep (N:=E) z) l s in
  snd r = true -> forall m, fst r = Some m -> sclosed n m.
Proof.
  induction l; intros s H C; simpl; auto. apply IHl; [intros; apply H; simpl; auto|].
  destruct (H a (or_introl eq_refl)) as [X Hd]. pose proof (cached_exo z a X) as X'.
  pose proof (proj1 (cached_dim (N:=E) z a)) as D'. pose proof (exo_c _ X') as Sc. rewrite D', Hd in Sc.
  destruct s as [m c]. unfold jstep. unfold best.
  destruct (ocl (cached z a)) as [y|] eqn:O; simpl in *.
  - intros -> m' Em. destruct m as [m|]; inversion Em; subst; auto. apply sclosed_max; auto.
  - destruct (om (cached z a)); simpl; auto. discriminate.
Qed.
Lemma join_array_exo : forall z a l, (forall x, In x (a :: l) -> exo x /\ odim x = odim a) ->
  exo (oct_join_array (N:=E) z a l).
Proof.
  intros z a l H. constructor.
  - apply join_array_wfo. intros x I. destruct (H x I) as [X ?]. split; auto. apply X.
  - rewrite (proj1 (join_array_dim z a l)). rewrite join_array_unfold. cbv zeta.
    pose proof (jfold_closed z (odim a) (a :: l) (None, true) H) as F. cbv zeta in F.
    destruct (fold_left (jstep z) (a :: l) (None, true)) as [[m|] c]; simpl; try discriminate.
    destruct c; simpl; try discriminate. intros c' Ec. inversion Ec; subst. apply F; simpl; auto. discriminate.
Qed.
(** every matrix containing all the octagons contains the accumulated matrix *)
Lemma jfold_best : forall z n y l s, (0 <= z)%Z -> (forall x, In x l -> exo x /\ odim x = n) ->
  (forall x v, In x l -> gamo x v -> gam n y v) ->
  nndiag n y ->
  (forall m i j, fst s = Some m -> i < 2 * n -> j < 2 * n -> le_bb (m (matpos2 i j)) (y (matpos2 i j))) ->
  forall m i j, fst (fold_left (jstep (N:=E) z) l s) = Some m -> i < 2 * n -> j < 2 * n ->
    le_bb (m (matpos2 i j)) (y (matpos2 i j)).
Proof.
  intros z n y l. induction l; intros s Hz H HG ND C; simpl; auto.
  apply IHl; auto; [intros; apply H; simpl; auto|intros; eapply HG; simpl; eauto|].
  destruct (H a (or_introl eq_refl)) as [X Hd]. pose proof (closed_ex z a) as S.
  pose proof (proj1 (cached_dim (N:=E) z a)) as D'.
  destruct s as [m c]. unfold jstep.
  destruct (best (cached z a)) as [b|] eqn:B; auto.
  specialize (S b Hz X eq_refl). rewrite Hd in S.
  assert (L : forall i j, i < 2 * n -> j < 2 * n -> le_bb (b (matpos2 i j)) (y (matpos2 i j))).
  { intros i j Hi Hj. apply sclosed_le with n; auto. intros v Gv. apply HG with a; simpl; auto.
    rewrite <- (cached_gamo (N:=E) z) by apply X. rewrite gamo_best by (apply cached_wfo; apply X).
    rewrite B, D', Hd. auto. }
  simpl. intros m' i j Em Hi Hj. destruct m as [m|]; inversion Em; subst; auto.
  apply bmax_lub; [apply C; auto|apply L; auto].
Qed.
Lemma join_array_best : forall z a l c, (0 <= z)%Z -> (forall x, In x (a :: l) -> exo x /\ odim x = odim a) ->
  wfo c -> odim c = odim a ->
  (forall x v, In x (a :: l) -> gamo x v -> gamo c v) ->
  forall v, gamo (oct_join_array (N:=E) z a l) v -> gamo c v.
Proof.
  intros z a l c Hz H Wc Hc HG v G. rewrite join_array_gamo in G.
  destruct (best c) as [y|] eqn:Bc.
  - destruct (best_wf c y Wc Bc) as [W D]. rewrite Hc in *.
    assert (GY : forall w, gamo c w <-> gam (odim a) y w).
    { intros w. rewrite gamo_best by auto. rewrite Bc, Hc. tauto. }
    pose proof (jfold_best z (odim a) y (a :: l) (None, true) Hz H) as F.
    unfold gst in G. destruct (fst _) as [m|]; [|tauto].
    apply GY. apply gam_mono2 with m; auto. intros i j Hi Hj.
    assert (Hj' : j < 2 * odim a) by (pose proof (or1_lt _ _ Hi); lia).
    rewrite <- !(matpos2_half i j) by auto. apply F; auto.
    + intros x w I Gw. apply GY. eapply HG; eauto.
    + simpl. discriminate.
  - (* everything is empty *)
    assert (EM : forall x w, In x (a :: l) -> ~ gamo x w).
    { intros x w I Gw. specialize (HG x w I Gw). rewrite gamo_best, Bc in HG by auto. auto. }
    exfalso.
    assert (Z : forall l s, (forall x, In x l -> exo x) -> (forall x w, In x l -> ~ gamo x w) ->
       fst s = None -> fst (fold_left (jstep (N:=E) z) l s) = None).
    { induction l0; intros s X0 E0 S0; simpl; auto. apply IHl0; [intros; apply X0; simpl; auto|intros; apply E0; simpl; auto|].
      destruct s as [m cc]. unfold jstep. destruct (best (cached z a0)) as [b|] eqn:B; auto.
      exfalso. assert (X := X0 a0 (or_introl eq_refl)).
      destruct (sc_nonempty _ _ (closed_ex z a0 b Hz X B)) as [w Gw].
      apply (E0 a0 w (or_introl eq_refl)). rewrite <- (cached_gamo (N:=E) z) by apply X.
      rewrite gamo_best by (apply cached_wfo; apply X). rewrite B, (proj1 (cached_dim z a0)). auto. }
    unfold gst in G. rewrite Z in G; auto. intros x I. apply H; auto.
Qed.

(** ** Widening: cell-wise operators *)
Definition cover (f : bound -> bound -> bound) : Prop :=
  forall x y, le_bb x (f x y) /\ le_bb y (f x y).
Lemma bwiden_cover : cover bwiden.
Proof.
  intros x y. unfold bwiden. destruct (0 <=? bcmp x y)%Z eqn:H.
  - split; [apply le_bb_refl|]. apply bcmp_le. rewrite bcmp_anti. apply Z.leb_le in H. lia.
  - split; apply le_bb_PInf.
Qed.
Lemma bmax_cover : cover bmax.
Proof. intros x y. split; [apply bmax_ge_l|apply bmax_ge_r]. Qed.
Lemma bthreshold_ge : forall ts y, le_bb y (bthreshold ts y).
Proof.
  induction ts; intros y; simpl; [apply le_bb_PInf|].
  destruct (bcmp y a <=? 0)%Z eqn:H; auto. apply bcmp_le. apply Z.leb_le in H. auto.
Qed.
Lemma bwiden_thr_cover : forall ts, cover (bwiden_thr ts).
Proof.
  intros ts x y. unfold bwiden_thr. destruct (0 <=? bcmp x y)%Z eqn:H.
  - split; [apply le_bb_refl|]. apply bcmp_le. rewrite bcmp_anti. apply Z.leb_le in H. lia.
  - pose proof (bthreshold_ge ts y). split; auto. apply le_bb_trans with y; auto.
    apply bcmp_le. apply Z.leb_gt in H. lia.
Qed.
Lemma cover_gam : forall f n m1 m2 v, cover f -> gam n m1 v \/ gam n m2 v -> gam n (cellwise f m1 m2) v.
Proof.
  intros f n m1 m2 v C [G|G]; eapply gam_mono2; eauto; intros; unfold cellwise; apply C.
Qed.

(** common shape of the widenings *)
Definition widen_shape (N : numtype) (f : bound -> bound -> bound) (algo : Z) (a1 a2 : oct) : oct :=
  let a2 := cached (N:=N) algo a2 in
  match orig a1, best a2 with
  | None, _ => a2
  | Some _, None => a1
  | Some m1, Some m2 => set_mat a1 (Some (cellwise f m1 m2)) None
  end.
Lemma widening_shape : forall N z a1 a2, oct_widening (N:=N) z a1 a2 =
  widen_shape N (if ((z =? oct_pre_widening) || (z =? - oct_pre_widening))%Z then bmax else bwiden) z a1 a2.
Proof.
  intros. unfold oct_widening, widen_shape. destruct (orig a1), (best (cached (N:=N) z a2)); auto.
  destruct ((z =? oct_pre_widening)%Z || (z =? - oct_pre_widening)%Z); auto.
Qed.
Lemma widening_thr_shape : forall N z a1 a2 ts, oct_widening_thresholds (N:=N) z a1 a2 ts =
  widen_shape N (bwiden_thr (map (fun s => bound_of_scalar (N:=N) s false false) ts)) z a1 a2.
Proof. reflexivity. Qed.

Section Widen.
Context {N : numtype}.
Variable f : bound -> bound -> bound.
Hypothesis Cf : cover f.
Lemma widen_dim : forall z a b, odim a = odim b -> oint a = oint b ->
  odim (widen_shape N f z a b) = odim a /\ oint (widen_shape N f z a b) = oint a.
Proof.
  intros. unfold widen_shape. destruct (cached_dim (N:=N) z b).
  destruct (orig a), (best (cached (N:=N) z b)); simpl; split; congruence.
Qed.
Lemma widen_wfo : forall z a b, wfo a -> wfo b -> odim a = odim b -> wfo (widen_shape N f z a b).
Proof.
  intros z a b Wa Wb Hd. unfold widen_shape. pose proof (cached_wfo (N:=N) z b Wb) as W'.
  pose proof (proj1 (cached_dim (N:=N) z b)) as D'. pose proof (wfo_int _ Wa).
  destruct (orig a) as [m1|] eqn:O; auto. destruct (best (cached (N:=N) z b)) as [m2|] eqn:B; auto.
  destruct (orig_wf _ _ Wa O) as [W1 N1]. destruct (best_wf _ _ W' B) as [W2 N2].
  apply wfo_single_m; auto.
  - intros i j Hi Hj E0. specialize (W1 i j Hi Hj). destruct (Cf (m1 (matpos i j)) (m2 (matpos i j))) as [C1 _].
    unfold cellwise in E0. rewrite E0 in C1. destruct (m1 (matpos i j)); simpl in *; try congruence; tauto.
  - intros x Hx. destruct (Cf (m1 (matpos x x)) (m2 (matpos x x))) as [C1 _].
    apply bsgn_ge0_iff. eapply le_rb_mono; [|apply C1]. apply bsgn_ge0_iff. apply N1; auto.
Qed.
Lemma widen_sound : forall z a b v, wfo a -> wfo b -> odim a = odim b -> gamo a v \/ gamo b v ->
  gamo (widen_shape N f z a b) v.
Proof.
  intros z a b v Wa Wb Hd G. unfold widen_shape. pose proof (cached_wfo (N:=N) z b Wb) as W'.
  pose proof (proj1 (cached_dim (N:=N) z b)) as D'.
  rewrite <- (cached_gamo (N:=N) z b) in G by auto.
  destruct (orig a) as [m1|] eqn:O.
  - destruct (best (cached (N:=N) z b)) as [m2|] eqn:B.
    + unfold set_mat. rewrite gamo_single_m. apply cover_gam; auto.
      rewrite gamo_orig, O in G by auto. rewrite gamo_best, B, D', <- Hd in G by auto. auto.
    + destruct G as [G|G]; auto. rewrite gamo_best, B in G by auto. tauto.
  - destruct G as [G|G]; auto. rewrite gamo_orig, O in G by auto. tauto.
Qed.

(** number-of-changes argument: a weight on cells that decreases at each change *)
Variable mu : bound -> nat.
Variable K : nat.
Hypothesis mu_le : forall b, mu b <= K.
Hypothesis mu_f : forall x y, f x y = x \/ mu (f x y) < mu x.
Definition weight (s : nat) (m : hmat) : nat := list_sum (map (fun p => mu (m p)) (seq 0 s)).
Lemma weight_S : forall s m, weight (S s) m = weight s m + mu (m s).
Proof.
  intros. unfold weight. rewrite seq_S, map_app, list_sum_app. simpl. lia.
Qed.
Lemma weight_le : forall s m, weight s m <= s * K.
Proof. induction s; intros; [auto|]. rewrite weight_S. specialize (IHs m). specialize (mu_le (m s)). lia. Qed.
Lemma weight_step : forall s m1 m2,
  (forall p, p < s -> cellwise f m1 m2 p = m1 p) /\ weight s (cellwise f m1 m2) = weight s m1
  \/ weight s (cellwise f m1 m2) < weight s m1.
Proof.
  induction s; intros m1 m2.
  - left. split; [intros; lia|reflexivity].
  - rewrite !weight_S. destruct (mu_f (m1 s) (m2 s)) as [e|l]; destruct (IHs m1 m2) as [[E1 E2]|L]; unfold cellwise in *.
    + left. rewrite e. split; [|lia]. intros p Hp. destruct (Nat.eq_dec p s); [subst; auto|apply E1; lia].
    + right. rewrite e. lia.
    + right. lia.
    + right. lia.
Qed.
Definition emptyb (n : nat) (a : oct) : bool :=
  match orig a with None => true | Some m => snd (hmat_close (N:=E) m n) end.
Lemma emptyb_spec : forall a, wfo a -> (emptyb (odim a) a = true <-> forall v, ~ gamo a v).
Proof.
  intros a W. unfold emptyb. destruct (orig a) as [m|] eqn:O.
  - destruct (orig_wf _ _ W O) as [W1 _]. rewrite (close_empty_iff (odim a) m) by auto.
    split; intros H v; specialize (H v); [rewrite gamo_orig, O by auto; auto|].
    rewrite gamo_orig, O in H by auto. auto.
  - split; auto. intros _ v G. rewrite gamo_orig, O in G by auto. auto.
Qed.
Lemma emptyb_false : forall a, wfo a -> emptyb (odim a) a = false -> exists v, gamo a v.
Proof.
  intros a W. unfold emptyb. destruct (orig a) as [m|] eqn:O; [|discriminate]. intros H.
  destruct (orig_wf _ _ W O) as [W1 _].
  destruct (hmat_close m (odim a)) as [c b] eqn:C. simpl in H. subst b.
  destruct (sc_nonempty _ _ (close_exact _ _ _ W1 C)) as [v G]. exists v.
  rewrite gamo_orig, O by auto. apply (proj2 (close_sound _ _ v _ _ C)); auto.
Qed.
Definition oweight (a : oct) : nat :=
  if emptyb (odim a) a then 1 + matsize (odim a) * K
  else match orig a with Some m => weight (matsize (odim a)) m | None => 0 end.
Lemma oweight_le : forall a, oweight a <= 1 + matsize (odim a) * K.
Proof.
  intros a. unfold oweight. destruct (emptyb _ _); auto. destruct (orig a); [|lia].
  pose proof (weight_le (matsize (odim a)) h). lia.
Qed.
Lemma gam_cells : forall n m1 m2 v, (forall p, p < matsize n -> m1 p = m2 p) -> (gam n m1 v <-> gam n m2 v).
Proof.
  intros n m1 m2 v H. unfold gam. split; intros G i j Hi Hj; specialize (G i j Hi Hj).
  - rewrite <- H; auto. apply matpos_lt; auto.
  - rewrite H; auto. apply matpos_lt; auto.
Qed.
Lemma orig_emptyb_eq : forall a b, orig a = orig b -> odim a = odim b -> oweight a = oweight b.
Proof. intros a b H1 H2. unfold oweight, emptyb. rewrite H1, H2. auto. Qed.
Lemma widen_step : forall z a q b, wfo a -> wfo b -> odim a = odim b ->
  q = a \/ q = oct_cache_closure (N:=N) a ->
  ((forall v, gamo (widen_shape N f z q b) v <-> gamo a v) /\ oweight (widen_shape N f z q b) <= oweight a)
  \/ oweight (widen_shape N f z q b) < oweight a.
Proof.
  intros z a q b Wa Wb Hd Hq.
  assert (Wq : wfo q) by (destruct Hq; subst; auto using cache_wfo).
  assert (Hdq : odim q = odim a) by (destruct Hq; subst; auto; apply (proj1 (cache_dim (N:=N) a))).
  assert (Gq : forall v, gamo q v <-> gamo a v) by (destruct Hq; subst; intros; [tauto|apply cache_gamo; auto]).
  assert (Hdr : odim (widen_shape N f z q b) = odim a).
  { unfold widen_shape. pose proof (proj1 (cached_dim (N:=N) z b)).
    destruct (orig q), (best (cached (N:=N) z b)); simpl; congruence. }
  assert (Wr := widen_wfo z q b Wq Wb (eq_trans Hdq Hd)).
  destruct (emptyb (odim a) a) eqn:Ea.
  - (* a empty *)
    assert (oweight a = 1 + matsize (odim a) * K) by (unfold oweight; rewrite Ea; auto).
    destruct (emptyb (odim a) (widen_shape N f z q b)) eqn:Er.
    + left. split.
      * intros v. split; intros G; exfalso.
        -- rewrite <- Hdr in Er. apply (proj1 (emptyb_spec _ Wr) Er v); auto.
        -- apply (proj1 (emptyb_spec _ Wa) Ea v); auto.
      * rewrite H, <- Hdr. apply oweight_le.
    + right. rewrite H. unfold oweight. rewrite Hdr, Er.
      destruct (orig _); [|lia]. pose proof (weight_le (matsize (odim a)) h). lia.
  - destruct (emptyb_false _ Wa Ea) as [v0 G0].
    assert (Oq : orig q = orig a).
    { destruct Hq; subst; auto. eapply cache_orig; eauto. }
    assert (Gr : gamo (widen_shape N f z q b) v0).
    { apply widen_sound; auto; [congruence|]. left. apply Gq; auto. }
    assert (Er : emptyb (odim a) (widen_shape N f z q b) = false).
    { destruct (emptyb (odim a) (widen_shape N f z q b)) eqn:Er; auto. rewrite <- Hdr in Er.
      exfalso. apply (proj1 (emptyb_spec _ Wr) Er v0); auto. }
    unfold oweight. rewrite Hdr, Ea, Er. clear Er Ea Gr Wr.
    assert (Ga : forall v, gamo a v <-> match orig a with Some m => gam (odim a) m v | None => False end)
      by (intros; apply gamo_orig; auto).
    unfold widen_shape in *. rewrite Oq in *.
    destruct (orig a) as [m1|] eqn:Oa.
    + destruct (best (cached (N:=N) z b)) as [m2|] eqn:B.
      * cbn [orig om set_mat]. destruct (weight_step (matsize (odim a)) m1 m2) as [[E1 E2]|L]; auto.
        left. split; [|lia]. intros v. unfold set_mat. rewrite gamo_single_m, Ga, Hdq.
        apply gam_cells; auto.
      * left. split; [intros; auto|]. rewrite Oq. lia.
    + exfalso. apply (Ga v0); auto.
Qed.

(** in any history of widenings, closures of the iterate interleaved or not,
    only boundedly many steps change the set of points *)
Lemma widen_history : forall n (z : nat -> Z) (r q a : nat -> oct),
  wfo (r 0) -> odim (r 0) = n ->
  (forall k, wfo (a k) /\ odim (a k) = n) ->
  (forall k, q k = r k \/ q k = oct_cache_closure (N:=N) (r k)) ->
  (forall k, r (S k) = widen_shape N f (z k) (q k) (a k)) ->
  forall t, exists s, length s <= 1 + matsize n * K /\
    forall k, k < t -> ~ In k s -> forall v, gamo (r (S k)) v <-> gamo (r k) v.
Proof.
  intros n z r q a W0 D0 Ha Hq Hr t.
  assert (I : forall k, wfo (r k) /\ odim (r k) = n).
  { induction k; [auto|]. destruct IHk as [W D]. destruct (Ha k) as [Wa Da]. rewrite Hr.
    assert (wfo (q k) /\ odim (q k) = n).
    { destruct (Hq k) as [->| ->]; [auto|]. split; [apply cache_wfo; auto|]. rewrite (proj1 (cache_dim (N:=N) (r k))). auto. }
    destruct H as [Wq Dq]. split.
    - apply widen_wfo; auto. congruence.
    - unfold widen_shape. pose proof (proj1 (cached_dim (N:=N) (z k) (a k))).
      destruct (orig (q k)), (best (cached (N:=N) (z k) (a k))); simpl; congruence. }
  destruct (decr_changes (fun k => oweight (r k)) (fun k => forall v, gamo (r (S k)) v <-> gamo (r k) v)) with (n := t) as [s [L P]].
  - intros k. destruct (I k) as [W D]. destruct (Ha k) as [Wa Da]. rewrite Hr. apply widen_step; auto. congruence.
  - exists s. split; auto. pose proof (oweight_le (r 0)). rewrite D0 in H. lia.
Qed.
End Widen.

Definition mu_fin (b : bound) : nat := match b with PInf => 0 | _ => 1 end.
Lemma mu_fin_f : forall x y, bwiden x y = x \/ mu_fin (bwiden x y) < mu_fin x.
Proof. intros. unfold bwiden. destruct (0 <=? bcmp x y)%Z; auto. destruct x; simpl; auto. Qed.

Definition mu_thr (ts : list bound) (b : bound) : nat :=
  match b with PInf => 0 | _ => 1 + length (filter (fun t => (bcmp b t <? 0)%Z) ts) end.
Lemma filter_len_le : forall {A} (f g : A -> bool) l, (forall x, f x = true -> g x = true) ->
  length (filter f l) <= length (filter g l).
Proof.
  induction l; intros H; simpl; auto. specialize (IHl H). destruct (f a) eqn:F.
  - rewrite (H a F). simpl. lia.
  - destruct (g a); simpl; lia.
Qed.
Lemma filter_len_le' : forall {A} (f g : A -> bool) l, (forall x, In x l -> f x = true -> g x = true) ->
  length (filter f l) <= length (filter g l).
Proof.
  induction l; intros H; simpl; auto. specialize (IHl (fun x I => H x (or_intror I))). destruct (f a) eqn:F.
  - rewrite (H a (or_introl eq_refl) F). simpl. lia.
  - destruct (g a); simpl; lia.
Qed.
Lemma filter_len_lt : forall {A} (f g : A -> bool) l t, (forall x, f x = true -> g x = true) ->
  In t l -> f t = false -> g t = true -> length (filter f l) < length (filter g l).
Proof.
  induction l; intros t H I F G; simpl in *; [tauto|]. destruct I as [->|I].
  - rewrite F, G. simpl. pose proof (filter_len_le f g l H). lia.
  - specialize (IHl t H I F G). destruct (f a) eqn:Fa.
    + rewrite (H a Fa). simpl. lia.
    + destruct (g a); simpl; lia.
Qed.
Lemma filter_length_le' : forall {A} (f : A -> bool) l, length (filter f l) <= length l.
Proof. induction l; simpl; auto. destruct (f a); simpl; lia. Qed.
Lemma bthreshold_in : forall ts y, bthreshold ts y = PInf \/ In (bthreshold ts y) ts.
Proof.
  induction ts; intros y; simpl; auto. destruct (bcmp y a <=? 0)%Z; auto. destruct (IHts y); auto.
Qed.
Lemma mu_thr_f : forall ts x y, bwiden_thr ts x y = x \/ mu_thr ts (bwiden_thr ts x y) < mu_thr ts x.
Proof.
  intros ts x y. unfold bwiden_thr. destruct (0 <=? bcmp x y)%Z eqn:H; auto. right.
  apply Z.leb_gt in H.
  assert (XP : x <> PInf).
  { intros ->. assert (~ le_bb y PInf). { apply bcmp_gt. rewrite bcmp_anti. lia. } apply H0. apply le_bb_PInf. }
  assert (LT : (bcmp x (bthreshold ts y) < 0)%Z).
  { assert (0 < bcmp (bthreshold ts y) x)%Z; [|rewrite bcmp_anti; lia]. apply bcmp_gt. intros L.
    assert (~ le_bb y x). { apply bcmp_gt. rewrite bcmp_anti. lia. }
    apply H0. apply le_bb_trans with (bthreshold ts y); auto. apply bthreshold_ge. }
  destruct (bthreshold_in ts y) as [E1|I]; [rewrite E1; destruct x; simpl; try lia; congruence|].
  set (t := bthreshold ts y) in *. clearbody t.
  assert (L : length (filter (fun u => (bcmp t u <? 0)%Z) ts) < length (filter (fun u => (bcmp x u <? 0)%Z) ts)).
  { apply filter_len_lt with t; auto.
    - intros u Hu. apply Z.ltb_lt in Hu. apply Z.ltb_lt.
      assert (0 < bcmp u x)%Z; [|rewrite bcmp_anti; lia]. apply bcmp_gt. intros L.
      assert (~ le_bb u t). { apply bcmp_gt. rewrite bcmp_anti. lia. }
      apply H0. apply le_bb_trans with x; auto. apply bcmp_le. lia.
    - apply Z.ltb_ge. assert (bcmp t t = 0)%Z; [|lia]. apply bcmp_eq. apply bequal_refl.
    - apply Z.ltb_lt. auto. }
  unfold mu_thr. destruct x, t; cbv iota; try lia; try congruence.
Qed.
Lemma mu_thr_le : forall ts b, mu_thr ts b <= length ts + 1.
Proof.
  intros. unfold mu_thr. destruct b; try lia;
  match goal with |- context [filter ?g ts] => pose proof (filter_length_le' g ts) end; lia.
Qed.

Lemma widening_terminates : forall (N : numtype) n (z : nat -> Z) (r q a : nat -> oct),
  wfo (r 0) -> odim (r 0) = n ->
  (forall k, wfo (a k) /\ odim (a k) = n) ->
  (forall k, z k <> oct_pre_widening /\ z k <> (- oct_pre_widening)%Z) ->
  (forall k, q k = r k \/ q k = oct_cache_closure (N:=N) (r k)) ->
  (forall k, r (S k) = oct_widening (N:=N) (z k) (q k) (a k)) ->
  forall t, exists s, length s <= 1 + matsize n /\
    forall k, k < t -> ~ In k s -> forall v, gamo (r (S k)) v <-> gamo (r k) v.
Proof.
  intros N n z r q a W0 D0 Ha Hz Hq Hr t. rewrite <- (Nat.mul_1_r (matsize n)).
  apply (widen_history (N:=N) bwiden bwiden_cover mu_fin 1) with (z:=z) (q:=q) (a:=a); auto.
  - intros b. destruct b; simpl; auto.
  - apply mu_fin_f.
  - intros k. rewrite Hr, widening_shape. destruct (Hz k) as [Z1 Z2].
    apply Z.eqb_neq in Z1. apply Z.eqb_neq in Z2. rewrite Z1, Z2. reflexivity.
Qed.
Lemma widening_thr_terminates : forall (N : numtype) n ts (z : nat -> Z) (r q a : nat -> oct),
  wfo (r 0) -> odim (r 0) = n ->
  (forall k, wfo (a k) /\ odim (a k) = n) ->
  (forall k, q k = r k \/ q k = oct_cache_closure (N:=N) (r k)) ->
  (forall k, r (S k) = oct_widening_thresholds (N:=N) (z k) (q k) (a k) ts) ->
  forall t, exists s, length s <= 1 + matsize n * (length ts + 1) /\
    forall k, k < t -> ~ In k s -> forall v, gamo (r (S k)) v <-> gamo (r k) v.
Proof.
  intros N n ts z r q a W0 D0 Ha Hq Hr t.
  set (ts' := map (fun s => bound_of_scalar (N:=N) s false false) ts).
  replace (length ts) with (length ts') by (unfold ts'; apply map_length).
  apply (widen_history (N:=N) (bwiden_thr ts') (bwiden_thr_cover ts') (mu_thr ts') (length ts' + 1)) with (z:=z) (q:=q) (a:=a); auto.
  - apply mu_thr_le.
  - apply mu_thr_f.
Qed.
Lemma widening_exo : forall z a b, exo a -> exo b -> odim a = odim b -> exo (oct_widening (N:=E) z a b).
Proof.
  intros z a b Xa Xb Hd. rewrite widening_shape. constructor.
  - apply widen_wfo; auto; try apply Xa; try apply Xb. destruct (_ || _); [apply bmax_cover|apply bwiden_cover].
  - pose proof (cached_exo z b Xb) as Xb'. pose proof (exo_c _ Xb'). pose proof (exo_c _ Xa).
    unfold widen_shape. destruct (orig a); auto. destruct (best (cached (N:=E) z b)); auto. simpl. discriminate.
Qed.
Lemma widening_thr_exo : forall z a b ts, exo a -> exo b -> odim a = odim b -> exo (oct_widening_thresholds (N:=E) z a b ts).
Proof.
  intros z a b ts Xa Xb Hd. rewrite widening_thr_shape. constructor.
  - apply widen_wfo; auto; try apply Xa; try apply Xb. apply bwiden_thr_cover.
  - pose proof (cached_exo z b Xb) as Xb'. pose proof (exo_c _ Xb'). pose proof (exo_c _ Xa).
    unfold widen_shape. destruct (orig a); auto. destruct (best (cached (N:=E) z b)); auto. simpl. discriminate.
Qed.
Lemma widening_sound : forall (N : numtype) z a b v, wfo a -> wfo b -> odim a = odim b ->
  gamo a v \/ gamo b v -> gamo (oct_widening (N:=N) z a b) v.
Proof.
  intros. rewrite widening_shape. apply widen_sound; auto.
  destruct (_ || _); [apply bmax_cover|apply bwiden_cover].
Qed.
Lemma widening_wfo : forall (N : numtype) z a b, wfo a -> wfo b -> odim a = odim b -> wfo (oct_widening (N:=N) z a b).
Proof.
  intros. rewrite widening_shape. apply widen_wfo; auto.
  destruct (_ || _); [apply bmax_cover|apply bwiden_cover].
Qed.
Lemma widening_thr_sound : forall (N : numtype) z a b ts v, wfo a -> wfo b -> odim a = odim b ->
  gamo a v \/ gamo b v -> gamo (oct_widening_thresholds (N:=N) z a b ts) v.
Proof. intros. rewrite widening_thr_shape. apply widen_sound; auto. apply bwiden_thr_cover. Qed.
Lemma widening_thr_wfo : forall (N : numtype) z a b ts, wfo a -> wfo b -> odim a = odim b ->
  wfo (oct_widening_thresholds (N:=N) z a b ts).
Proof. intros. rewrite widening_thr_shape. apply widen_wfo; auto. apply bwiden_thr_cover. Qed.

(** ** Narrowing *)
Definition bnarrow (x y : bound) : bound := if binfty x then y else x.
Section Narrow.
Context {N : numtype}.
Lemma narrowing_dim : forall z a b, odim (oct_narrowing (N:=N) z a b) = odim a /\ oint (oct_narrowing (N:=N) z a b) = oint a.
Proof.
  intros. unfold oct_narrowing. destruct (cached_dim (N:=N) z a).
  destruct (best (cached (N:=N) z a)), (best (cached (N:=N) z b)); simpl; auto.
Qed.
Lemma narrowing_exo : forall z a b, wfo a -> wfo b -> odim a = odim b -> exo (oct_narrowing (N:=N) z a b).
Proof.
  intros z a b Wa Wb Hd. unfold oct_narrowing.
  pose proof (cached_wfo (N:=N) z a Wa) as Wa'. pose proof (cached_wfo (N:=N) z b Wb) as Wb'.
  pose proof (proj1 (cached_dim (N:=N) z a)) as Da. pose proof (proj1 (cached_dim (N:=N) z b)) as Db.
  pose proof (wfo_int _ Wa').
  destruct (best (cached (N:=N) z a)) as [x|] eqn:Ba; [|apply exo_none; auto].
  destruct (best (cached (N:=N) z b)) as [y|] eqn:Bb; [|apply exo_none; auto].
  destruct (best_wf _ _ Wa' Ba) as [W1 D1]. destruct (best_wf _ _ Wb' Bb) as [W2 D2].
  rewrite Db, <- Hd, <- Da in *.
  apply exo_single_m; auto; [intros i j Hi Hj|intros i Hi]; unfold cellwise; destruct (binfty _); auto.
Qed.
Lemma narrowing_bounds : forall z a b v, wfo a -> wfo b -> odim a = odim b ->
  (gamo a v /\ gamo b v -> gamo (oct_narrowing (N:=N) z a b) v) /\
  (gamo (oct_narrowing (N:=N) z a b) v -> gamo a v).
Proof.
  intros z a b v Wa Wb Hd. unfold oct_narrowing.
  rewrite <- (cached_gamo (N:=N) z a), <- (cached_gamo (N:=N) z b) by auto.
  pose proof (cached_wfo (N:=N) z a Wa) as Wa'. pose proof (cached_wfo (N:=N) z b Wb) as Wb'.
  pose proof (proj1 (cached_dim (N:=N) z a)) as Da. pose proof (proj1 (cached_dim (N:=N) z b)) as Db.
  rewrite (gamo_best (cached (N:=N) z a)), (gamo_best (cached (N:=N) z b)) by auto.
  destruct (best (cached (N:=N) z a)) as [x|] eqn:Ba, (best (cached (N:=N) z b)) as [y|] eqn:Bb;
   try (split; [tauto|intros G; exfalso; eapply gamo_none; eauto]).
  destruct (best_wf _ _ Wa' Ba) as [W1 D1].
  unfold set_mat. rewrite gamo_single_m. rewrite Db, <- Hd, <- Da. split.
  - intros [G1 G2] i j Hi Hj. unfold cellwise. destruct (binfty _); auto.
  - intros G i j Hi Hj. specialize (G i j Hi Hj). specialize (W1 i j Hi Hj). unfold cellwise in G.
    destruct (x (matpos i j)); simpl in *; auto.
Qed.

Definition ispinf (b : bound) : bool := match b with PInf => true | _ => false end.
Definition ninf (s : nat) (m : hmat) : nat :=
  length (filter (fun p => ispinf (m p)) (seq 0 s)).
Definition nweight (z : Z) (a : oct) : nat :=
  match best (cached (N:=N) z a) with Some m => 1 + ninf (matsize (odim a)) m | None => 0 end.
Lemma ninf_le : forall s m, ninf s m <= s.
Proof. intros. unfold ninf. pose proof (filter_length_le' (fun p => ispinf (m p)) (seq 0 s)). rewrite seq_length in H. auto. Qed.
Lemma filter_len_same : forall {A} (f g : A -> bool) l, (forall x, In x l -> f x = true -> g x = true) ->
  length (filter f l) = length (filter g l) -> forall x, In x l -> g x = true -> f x = true.
Proof.
  intros A f g l H L x I G. destruct (f x) eqn:F; auto. exfalso.
  assert (length (filter f l) < length (filter g l)); [|lia]. clear L.
  assert (LE : forall l, (forall x, In x l -> f x = true -> g x = true) -> length (filter f l) <= length (filter g l)).
  { induction l0; intros H'; simpl; auto. specialize (IHl0 (fun x I => H' x (or_intror I))).
    destruct (f a) eqn:Fa; [rewrite (H' a (or_introl eq_refl) Fa); simpl; lia|destruct (g a); simpl; lia]. }
  revert H I. induction l; intros H I; simpl in *; [tauto|]. destruct I as [->|I].
  - rewrite F, G. simpl. pose proof (LE l (fun x I => H x (or_intror I))). lia.
  - specialize (IHl (fun x I => H x (or_intror I)) I). destruct (f a) eqn:Fa.
    + rewrite (H a (or_introl eq_refl) Fa). simpl. lia.
    + destruct (g a); simpl; lia.
Qed.
Lemma ninf_mono : forall s m m', (forall p, p < s -> le_bb (m' p) (m p)) -> ninf s m' <= ninf s m.
Proof.
  intros s m m' H. unfold ninf. assert (forall l, (forall p, In p l -> p < s) ->
    length (filter (fun p => ispinf (m' p)) l) <= length (filter (fun p => ispinf (m p)) l)).
  { induction l; intros L; simpl; auto. assert (IH := IHl (fun p I => L p (or_intror I))).
    specialize (H a (L a (or_introl eq_refl))).
    destruct (m' a), (m a); simpl in *; try lia; try tauto. }
  apply H0. intros p I. apply in_seq in I. lia.
Qed.
Lemma cache_ninf : forall n k m m', nndiag n m ->
  best (oct_cache_closure (N:=N) (mkOct (Some m) None n k)) = Some m' -> ninf (matsize n) m' <= ninf (matsize n) m.
Proof.
  intros n k m m' D H. unfold oct_cache_closure in H; simpl in H.
  destruct (hmat_close m n) as [c b] eqn:C. destruct b; simpl in H; [discriminate|]. inversion H; subst. clear H.
  unfold hmat_close in C. apply hmat_s_step_false in C. destruct C as [_ [H1 H2]].
  apply ninf_mono. intros p Hp. destruct (matpos_surj n p Hp) as (i & j & Hi & Hj & <-).
  destruct (Nat.eq_dec i j) as [->|d].
  - rewrite H1 by auto. specialize (D j Hi). apply le_bb_ge. intros r G. rewrite bsgn_ge0_ge in D.
    specialize (D r G). simpl. rewrite Q2R_0'. auto.
  - rewrite H2 by auto. eapply le_bb_trans; [apply hmat_s_prop_mle|apply hmat_fw_mle].
Qed.
Lemma cached_ninf : forall z n k m m', nndiag n m ->
  best (cached (N:=N) z (mkOct (Some m) None n k)) = Some m' -> ninf (matsize n) m' <= ninf (matsize n) m.
Proof.
  intros z n k m m' D H. unfold cached in H. destruct (0 <=? z)%Z; [eapply cache_ninf; eauto|].
  unfold best in H; simpl in H. inversion H; subst. auto.
Qed.
Lemma narrow_ninf : forall s x y, (forall p, p < s -> x p <> MInf) ->
  (forall p, p < s -> cellwise bnarrow x y p = x p) /\ ninf s (cellwise bnarrow x y) = ninf s x \/
  ninf s (cellwise bnarrow x y) < ninf s x.
Proof.
  intros s x y NM. set (f := fun p => ispinf (cellwise bnarrow x y p)). set (g := fun p => ispinf (x p)).
  assert (FG : forall p, In p (seq 0 s) -> f p = true -> g p = true).
  { intros p Ip. apply in_seq in Ip. specialize (NM p ltac:(lia)). unfold f, g, cellwise, bnarrow. destruct (x p); simpl; auto; congruence. }
  assert (L : length (filter f (seq 0 s)) <= length (filter g (seq 0 s))) by (apply filter_len_le'; auto).
  change (ninf s (cellwise bnarrow x y)) with (length (filter f (seq 0 s))).
  change (ninf s x) with (length (filter g (seq 0 s))).
  destruct (Nat.eq_dec (length (filter f (seq 0 s))) (length (filter g (seq 0 s)))) as [e|]; [left|right; lia].
  split; auto. intros p Hp.
  pose proof (filter_len_same f g (seq 0 s) FG e p) as F.
  assert (In p (seq 0 s)) by (apply in_seq; lia). specialize (F H).
  specialize (NM p Hp). unfold f, g, cellwise, bnarrow in *. destruct (x p); simpl in *; try congruence. specialize (F eq_refl).
  destruct (y p); simpl in F; congruence.
Qed.
Lemma narrow_step : forall z z' a b, wfo a -> wfo b -> odim a = odim b ->
  ((forall v, gamo (oct_narrowing (N:=N) z a b) v <-> gamo a v) /\ nweight z' (oct_narrowing (N:=N) z a b) <= nweight z a)
  \/ nweight z' (oct_narrowing (N:=N) z a b) < nweight z a.
Proof.
  intros z z' a b Wa Wb Hd. unfold nweight. rewrite (proj1 (narrowing_dim z a b)).
  pose proof (cached_wfo (N:=N) z a Wa) as Wa'. pose proof (cached_wfo (N:=N) z b Wb) as Wb'.
  pose proof (proj1 (cached_dim (N:=N) z a)) as Da. pose proof (proj1 (cached_dim (N:=N) z b)) as Db.
  assert (Ga : forall v, gamo a v <-> gamo (cached (N:=N) z a) v) by (intros; rewrite cached_gamo; tauto).
  assert (Z : forall n k, best (cached (N:=N) z' (mkOct None None n k)) = None).
  { intros. unfold cached. destruct (0 <=? z')%Z; reflexivity. }
  unfold oct_narrowing.
  destruct (best (cached (N:=N) z a)) as [x|] eqn:Ba.
  - destruct (best (cached (N:=N) z b)) as [y|] eqn:Bb.
    + destruct (best_wf _ _ Wa' Ba) as [W1 D1]. destruct (best_wf _ _ Wb' Bb) as [W2 D2].
      rewrite Db, <- Hd in *. rewrite Da in *.
      change (fun x0 y0 : bound => if binfty x0 then y0 else x0) with bnarrow.
      unfold set_mat. rewrite Da.
      assert (ND : nndiag (odim a) (cellwise bnarrow x y)).
      { intros i Hi. unfold cellwise, bnarrow. destruct (binfty _); auto. }
      destruct (best (cached (N:=N) z' (mkOct (Some (cellwise bnarrow x y)) None (odim a) (oint (cached (N:=N) z a))))) as [w|] eqn:Bw.
      * pose proof (cached_ninf _ _ _ _ _ ND Bw).
        assert (NMx : forall p, p < matsize (odim a) -> x p <> MInf).
        { intros p Hp. destruct (matpos_surj _ p Hp) as (i & j & Hi & Hj & <-). apply W1; auto. }
        destruct (narrow_ninf (matsize (odim a)) x y NMx) as [[E1 E2]|L]; [left|right; lia].
        split; [|lia]. intros v. rewrite gamo_single_m, Ga, gamo_best, Ba, Da by auto. apply gam_cells; auto.
      * right. lia.
    + right. unfold set_mat. rewrite Z. lia.
  - left. unfold set_mat. rewrite Z. split; [|lia]. intros v. rewrite Ga, (gamo_best (cached (N:=N) z a)), Ba by auto.
    split; [apply gamo_none|tauto].
Qed.
Lemma narrowing_terminates : forall n (z : nat -> Z) (r a : nat -> oct),
  wfo (r 0) -> odim (r 0) = n ->
  (forall k, wfo (a k) /\ odim (a k) = n) ->
  (forall k, r (S k) = oct_narrowing (N:=N) (z k) (r k) (a k)) ->
  forall t, exists s, length s <= 1 + matsize n /\
    forall k, k < t -> ~ In k s -> forall v, gamo (r (S k)) v <-> gamo (r k) v.
Proof.
  intros n z r a W0 D0 Ha Hr t.
  assert (I : forall k, wfo (r k) /\ odim (r k) = n).
  { induction k; [auto|]. destruct IHk as [W D]. destruct (Ha k) as [Wa Da]. rewrite Hr.
    split; [apply narrowing_exo; auto; congruence|]. rewrite (proj1 (narrowing_dim (z k) (r k) (a k))). auto. }
  destruct (decr_changes (fun k => nweight (z k) (r k)) (fun k => forall v, gamo (r (S k)) v <-> gamo (r k) v)) with (n := t) as [s [L P]].
  - intros k. destruct (I k) as [W D]. destruct (Ha k) as [Wa Da]. rewrite Hr. apply narrow_step; auto. congruence.
  - exists s. split; auto. unfold nweight in L. rewrite D0 in L. destruct (best _); [|lia].
    pose proof (ninf_le (matsize n) h). lia.
Qed.
End Narrow.

(** ** Perturbations *)
Section Eps.
Context {N : numtype}.
Lemma max_abs_ge0 : forall d m, le_rb 0 (max_abs d m).
Proof.
  intros. unfold max_abs. apply (for_inv (fun b => le_rb 0 b)).
  - simpl. rewrite Q2R_0'. lra.
  - intros i t _ H. destruct (binfty (m i)); auto.
    destruct (0 <=? bsgn (m i))%Z; apply bmax_spec; auto.
Qed.
Lemma badd_up : forall x t, le_rb 0 t -> le_bb x (badd (N:=N) x t).
Proof.
  intros x t H. apply le_bb_rb. intros y Hy. replace y with (y + 0)%R by ring. apply badd_sound; auto.
Qed.
Lemma eps_ge0 : forall d m e, le_rb 0 e ->
  le_rb 0 (bmul (N:=N) (max_abs d m) (bound_of_scalar (N:=N) e false false)).
Proof.
  intros d m e He. pose proof (max_abs_ge0 d m) as H.
  assert (H0 : le_rb 0 (bound_of_scalar (N:=N) e false false)) by (apply bconv_sound; auto).
  replace 0%R with (0 * 0)%R by ring. apply bmul_case1; auto; [apply bsgn_ge0_iff; auto|lra].
Qed.
Lemma add_epsilon_sound : forall a e v, wfo a -> le_rb 0 e -> gamo a v -> gamo (oct_add_epsilon (N:=N) a e) v.
Proof.
  intros a e v W He G. unfold oct_add_epsilon. rewrite gamo_orig in G by auto.
  destruct (orig a) as [m|] eqn:O; [|tauto]. unfold set_mat. rewrite gamo_single_m.
  eapply gam_mono2; eauto. intros. apply badd_up. apply eps_ge0; auto.
Qed.
Lemma add_epsilon_exo : forall a e, wfo a -> le_rb 0 e -> exo (oct_add_epsilon (N:=N) a e).
Proof.
  intros a e W He. unfold oct_add_epsilon. pose proof (wfo_int _ W).
  destruct (orig a) as [m|] eqn:O; [|apply exo_none; auto].
  destruct (orig_wf _ _ W O) as [W1 D1]. apply exo_single_m; auto.
  - intros i j Hi Hj. apply badd_not_MInf; auto. eapply le_rb_not_MInf. apply eps_ge0; auto.
  - intros x Hx. apply bsgn_ge0_iff. eapply le_rb_mono; [|apply badd_up; apply eps_ge0; auto].
    apply bsgn_ge0_iff. apply D1; auto.
Qed.
Lemma eps_cover : forall t, le_rb 0 t -> cover (fun x y => if (bcmp x y <? 0)%Z then badd (N:=N) y t else x).
Proof.
  intros t Ht x y. destruct (bcmp x y <? 0)%Z eqn:C.
  - apply Z.ltb_lt in C. pose proof (badd_up y t Ht). split; auto. apply le_bb_trans with y; auto.
    apply bcmp_le. lia.
  - apply Z.ltb_ge in C. split; [apply le_bb_refl|]. apply bcmp_le. rewrite bcmp_anti. lia.
Qed.
Lemma add_epsilon_bin_sound : forall a b e v, wfo a -> wfo b -> odim a = odim b -> le_rb 0 e ->
  gamo a v \/ gamo b v -> gamo (oct_add_epsilon_bin (N:=N) a b e) v.
Proof.
  intros a b e v Wa Wb Hd He G. unfold oct_add_epsilon_bin.
  destruct (orig a) as [m1|] eqn:Oa.
  - destruct (orig b) as [m2|] eqn:Ob.
    + rewrite gamo_orig, Oa in G by auto. rewrite gamo_orig, Ob, <- Hd in G by auto.
      unfold set_mat. rewrite gamo_single_m. apply cover_gam; auto. apply eps_cover. apply eps_ge0; auto.
    + destruct G as [G|G]; auto. rewrite gamo_orig, Ob in G by auto. tauto.
  - destruct G as [G|G]; auto. rewrite gamo_orig, Oa in G by auto. tauto.
Qed.
End Eps.

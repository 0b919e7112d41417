(** Octagons: boxes, bounds of variables, interval tests, constraints, forget. *)
From Coq Require Import Arith Lia List ZArith QArith Qreals Reals Lra Bool.
From Verif Require Import Bound BoundFacts Util Itv ItvFacts Linexpr OctMat OctIdx OctClose OctWalk OctInc OctStrong OctGeom OctGeom2 Oct OctFacts OctFacts2.
Import ListNotations.
Open Scope nat_scope.

(** from half-matrix cells to all pairs of literals *)
Lemma cells_full : forall n (m : hmat) (F : nat -> nat -> bound),
  (forall i j, i < 2 * n -> j <= or1 i -> m (matpos i j) = F i j) ->
  (forall i j, F (xor1 j) (xor1 i) = F i j) ->
  forall i j, i < 2 * n -> j < 2 * n -> m (matpos2 i j) = F i j.
Proof.
  intros n m F H S i j Hi Hj. destruct (matpos2_cases i j) as [[L E0]|[L E0]]; rewrite E0.
  - apply H; auto.
  - rewrite H; auto using xor1_lt.
Qed.
Lemma or1_lt2 : forall n i j, i < 2 * n -> j <= or1 i -> j < 2 * n.
Proof. intros n i j Hi Hj. pose proof (or1_lt _ _ Hi). lia. Qed.

(** ** Scalars *)
Definition in_u (r : R) (b : uitv) : Prop := ge_rb r (fst b) /\ le_rb r (snd b).
Section Scal.
Context {N : numtype}.
Lemma bos_up : forall x s, le_rb x s -> le_rb (2 * x) (bound_of_scalar (N:=N) s false true).
Proof. intros. unfold bound_of_scalar. apply bmul_2_sound. apply bconv_sound. auto. Qed.
Lemma bos_lo : forall x s, ge_rb x s -> le_rb (- 2 * x) (bound_of_scalar (N:=N) s true true).
Proof.
  intros. unfold bound_of_scalar. replace (-2 * x)%R with (2 * (- x))%R by ring. apply bmul_2_sound. apply bconv_sound.
  apply bneg_le. rewrite Ropp_involutive. auto.
Qed.
Lemma bos_up1 : forall x s, le_rb x s -> le_rb x (bound_of_scalar (N:=N) s false false).
Proof. intros. unfold bound_of_scalar. apply bconv_sound. auto. Qed.
Lemma bos_lo1 : forall x s, ge_rb x s -> le_rb (- x) (bound_of_scalar (N:=N) s true false).
Proof.
  intros. unfold bound_of_scalar. apply bconv_sound.
  apply bneg_le. rewrite Ropp_involutive. auto.
Qed.
Lemma bconv_not_MInf : forall b, b <> MInf -> bconv (N:=N) b <> MInf.
Proof. intros b H. destruct b; simpl; auto. apply rnd_not_MInf. Qed.
Lemma bmul2_not_MInf : forall b, b <> MInf -> bmul_2 (N:=N) b <> MInf.
Proof. intros b H. destruct b; simpl; auto. apply rnd_not_MInf. Qed.
Lemma bos_not_MInf : forall (s : bound) (neg mul2 : bool), (if neg then s <> PInf else s <> MInf) ->
  bound_of_scalar (N:=N) s neg mul2 <> MInf.
Proof.
  intros s neg mul2 H. unfold bound_of_scalar.
  assert ((if neg then bneg s else s) <> MInf) by (destruct neg, s; simpl in *; congruence).
  destruct mul2; [apply bmul2_not_MInf|]; apply bconv_not_MInf; auto.
Qed.
End Scal.
Lemma bos_up_iff : forall x s, le_rb (2 * x) (bound_of_scalar (N:=E) s false true) <-> le_rb x s.
Proof. intros. unfold bound_of_scalar. destruct s as [|q|]; simpl; try tauto. rewrite Q2R_two. lra. Qed.
Lemma bos_lo_iff : forall x s, le_rb (- 2 * x) (bound_of_scalar (N:=E) s true true) <-> ge_rb x s.
Proof. intros. unfold bound_of_scalar. destruct s as [|q|]; simpl; try tauto. rewrite Q2R_two, Q2R_opp. lra. Qed.

(** ** Octagons of boxes *)
Section Box.
Context {N : numtype}.
Variable t : list uitv.
Definition box_cell (i j : nat) : bound :=
  if Nat.eqb j (xor1 i) then
    let b := nth (i / 2) t (MInf, PInf) in
    if Nat.eqb (i mod 2) 0 then bound_of_scalar (N:=N) (fst b) true true
    else bound_of_scalar (N:=N) (snd b) false true
  else if Nat.eqb i j then Fin 0 else PInf.
Lemma box_cells : forall n i j, i < 2 * n -> j <= or1 i -> box_matrix (N:=N) n t (matpos i j) = box_cell i j.
Proof.
  intros n. unfold box_matrix.
  assert (G : forall k, k <= n -> forall i j, i < 2 * n -> j <= or1 i ->
    for_ 0 k (fun i m =>
      let b := nth i t (MInf, PInf) in
      upd (upd m (matpos (2 * i) (2 * i + 1)) (bound_of_scalar (N:=N) (fst b) true true))
        (matpos (2 * i + 1) (2 * i)) (bound_of_scalar (N:=N) (snd b) false true)) (hmat_top n) (matpos i j) =
    if Nat.ltb (i / 2) k then box_cell i j else if Nat.eqb i j then Fin 0 else PInf).
  { induction k; intros Hk i j Hi Hj.
    - rewrite for_empty by lia. simpl. apply top_cells; auto.
    - rewrite (for_split 0 k (S k)) by lia. rewrite for_step by lia. rewrite for_empty by lia. cbv zeta.
      pose proof (IHk ltac:(lia) i j Hi Hj) as IH. set (mm := for_ 0 k _ _) in *. clearbody mm. clear IHk.
      destruct (Nat.eq_dec (matpos i j) (matpos (2 * k + 1) (2 * k))) as [e1|d1].
      { rewrite e1, upd_same. apply matpos_inj in e1; auto; [|rewrite or1_odd; lia]. destruct e1 as [-> ->].
        unfold box_cell. rewrite xor1_odd, Nat.eqb_refl, div2_odd, mod2_odd. simpl.
        destruct (Nat.ltb_spec k (S k)); try lia. auto. }
      rewrite upd_other by auto.
      destruct (Nat.eq_dec (matpos i j) (matpos (2 * k) (2 * k + 1))) as [e2|d2].
      { rewrite e2, upd_same. apply matpos_inj in e2; auto; [|rewrite or1_even; lia]. destruct e2 as [-> ->].
        unfold box_cell. rewrite xor1_even, Nat.eqb_refl, div2_even, mod2_even. simpl.
        destruct (Nat.ltb_spec k (S k)); try lia. auto. }
      rewrite upd_other by auto. rewrite IH.
      destruct (Nat.ltb_spec (i / 2) k), (Nat.ltb_spec (i / 2) (S k)); auto; try lia.
      assert (Ek : i / 2 = k) by lia. unfold box_cell. destruct (Nat.eqb_spec j (xor1 i)) as [->|]; auto.
      exfalso. idx_cases i; rewrite ?div2_even, ?div2_odd, ?xor1_even, ?xor1_odd in *; subst; tauto. }
  intros i j Hi Hj. rewrite G by auto. assert (i / 2 < n) by (apply div2_lt; auto).
  destruct (Nat.ltb_spec (i / 2) n); auto; lia.
Qed.
Lemma box_cell_sym : forall i j, box_cell (xor1 j) (xor1 i) = box_cell i j.
Proof.
  intros i j. unfold box_cell. rewrite xor1_invol.
  destruct (Nat.eqb_spec j (xor1 i)) as [->|d].
  - rewrite xor1_invol, Nat.eqb_refl. auto.
  - destruct (Nat.eqb_spec (xor1 i) j); [congruence|].
    destruct (Nat.eqb_spec i j) as [->|]; [rewrite Nat.eqb_refl; auto|].
    destruct (Nat.eqb_spec (xor1 j) (xor1 i)) as [e|]; auto. apply xor1_inj in e. congruence.
Qed.
Lemma box_cells2 : forall n i j, i < 2 * n -> j < 2 * n -> box_matrix (N:=N) n t (matpos2 i j) = box_cell i j.
Proof. intros n. apply cells_full; [apply box_cells|apply box_cell_sym]. Qed.
Lemma box_gam : forall n v, gam n (box_matrix (N:=N) n t) v <->
  (forall x, x < n -> le_rb (- 2 * v x) (bound_of_scalar (N:=N) (fst (nth x t (MInf, PInf))) true true) /\
                      le_rb (2 * v x) (bound_of_scalar (N:=N) (snd (nth x t (MInf, PInf))) false true)).
Proof.
  intros n v. split.
  - intros G x Hx. pose proof (G (2 * x) (2 * x + 1)) as G1. pose proof (G (2 * x + 1) (2 * x)) as G2.
    rewrite box_cells in G1 by (rewrite ?or1_even; lia). rewrite box_cells in G2 by (rewrite ?or1_odd; lia).
    unfold box_cell in *. rewrite xor1_even, xor1_odd, !Nat.eqb_refl, ?mod2_odd, ?mod2_even, ?div2_even, ?div2_odd, ?lit_odd, ?lit_even in *.
    change (Nat.eqb 0 0) with true in G1. change (Nat.eqb 1 0) with false in G2. cbv iota zeta in G1, G2. rewrite or1_even in G1. rewrite or1_odd in G2. split.
    + replace (-2 * v x)%R with (- v x - v x)%R by ring. apply G1; lia.
    + replace (2 * v x)%R with (v x - - v x)%R by ring. apply G2; lia.
  - intros H i j Hi Hj. rewrite box_cells by auto. unfold box_cell.
    destruct (Nat.eqb_spec j (xor1 i)) as [->|]; [|destruct (Nat.eqb_spec i j); [subst|exact I]].
    + assert (Hx : i / 2 < n) by (apply div2_lt; auto). destruct (H _ Hx) as [H1 H2]. rewrite lit_xor1.
      destruct (par_cases i) as [x [-> | ->]]; rewrite ?mod2_odd, ?mod2_even, ?div2_even, ?div2_odd, ?lit_odd, ?lit_even in *; simpl.
      * replace (- v x - v x)%R with (-2 * v x)%R by ring. auto.
      * replace (- - v x - - v x)%R with (2 * v x)%R by ring. auto.
    + simpl. rewrite Q2R_0'. lra.
Qed.
End Box.

(** the points of a box given by user intervals *)
Definition box_pts (n : nat) (t : option (list uitv)) (v : nat -> R) : Prop :=
  match t with
  | None => False
  | Some t => forall x, x < n -> in_u (v x) (nth x t (MInf, PInf))
  end.
Definition wf_box (n : nat) (t : option (list uitv)) : Prop :=
  match t with
  | None => True
  | Some t => length t = n /\ forall b, In b t -> fst b <> PInf /\ snd b <> MInf
  end.
Lemma in_u_cmp : forall r b, in_u r b -> (bcmp (fst b) (snd b) <= 0)%Z.
Proof.
  intros r [l u] [H1 H2]; simpl in *. apply bcmp_le. destruct l, u; simpl in *; auto; try tauto.
  apply Qle_Q2R. lra.
Qed.
Section OfBox.
Context {N : numtype}.
Lemma of_box_dim : forall i r t, odim (oct_of_box (N:=N) i r t) = i + r /\ oint (oct_of_box (N:=N) i r t) = i.
Proof.
  intros. unfold oct_of_box. destruct t; auto. simpl. destruct (existsb _ _); auto.
  destruct (hmat_s_step _ _) as [m b]. destruct b; auto.
Qed.
Lemma box_wfm : forall n t, (forall b, In b t -> fst b <> PInf /\ snd b <> MInf) -> wfm n (box_matrix (N:=N) n t).
Proof.
  intros n t H i j Hi Hj. rewrite box_cells by auto. unfold box_cell.
  assert (F : fst (nth (i / 2) t (MInf, PInf)) <> PInf /\ snd (nth (i / 2) t (MInf, PInf)) <> MInf).
  { destruct (nth_in_or_default (i / 2) t ((MInf, PInf) : uitv)) as [I|D]; [auto|]. rewrite D. simpl. split; discriminate. }
  destruct (Nat.eqb j (xor1 i)).
  - destruct (Nat.eqb (i mod 2) 0); apply bos_not_MInf; tauto.
  - destruct (Nat.eqb i j); discriminate.
Qed.
Lemma of_box_wfo : forall i r t, wf_box (i + r) t -> wfo (oct_of_box (N:=N) i r t).
Proof.
  intros i r t H. unfold oct_of_box. destruct t as [t|]; [|apply wfo_none; lia]. destruct H as [L H].
  simpl odim. destruct (existsb _ _); [apply wfo_none; lia|].
  destruct (hmat_s_step _ _) as [m b] eqn:S. destruct b; [apply wfo_none; lia|].
  apply wfo_single_c; [| |simpl; lia].
  - eapply s_step_wf; eauto. apply box_wfm; auto.
  - eapply s_step_diag; eauto.
Qed.
Lemma of_box_sound : forall i r t v, wf_box (i + r) t -> box_pts (i + r) t v -> gamo (oct_of_box (N:=N) i r t) v.
Proof.
  intros i r t v W H. unfold oct_of_box. destruct t as [t|]; simpl in H; [|tauto]. destruct W as [L W].
  simpl odim.
  destruct (existsb _ _) eqn:Ex.
  - exfalso. apply existsb_exists in Ex. destruct Ex as [b [I C]].
    rewrite firstn_all2 in I by lia. apply In_nth with (d := (MInf, PInf)) in I. destruct I as [x [Hx E0]].
    assert (Hx2 : x < i + r) by (rewrite <- L; exact Hx). clear Hx. rename Hx2 into Hx. specialize (H x Hx). apply in_u_cmp in H. change (nth x t (MInf, PInf)) with (@nth (bound*bound) x t (MInf, PInf)) in H. rewrite E0 in H. apply Z.ltb_lt in C. lia.
  - destruct (hmat_s_step _ _) as [m b] eqn:S.
    assert (G : gam (i + r) (box_matrix (N:=N) (i + r) t) v).
    { apply box_gam. intros x Hx. destruct (H x Hx). split; [apply bos_lo|apply bos_up]; auto. }
    destruct (s_step_sound _ _ v _ _ G S) as [-> G2]. unfold set_mat; simpl. rewrite gamo_single_c. auto.
Qed.
End OfBox.
Lemma box_tri : forall n (t : list uitv), (forall b : uitv, In b t -> (bcmp (fst b) (snd b) <= 0)%Z) -> tri n (box_matrix (N:=E) n t).
Proof.
  intros n t H i k j r1 r2 Hi Hk Hj. rewrite !box_cells2 by auto. unfold box_cell.
  assert (F : (bcmp (fst (nth (i / 2) t ((MInf, PInf) : uitv))) (snd (nth (i / 2) t ((MInf, PInf) : uitv))) <= 0)%Z).
  { destruct (nth_in_or_default (i / 2) t ((MInf, PInf) : uitv)) as [I|D]; [auto|]. rewrite D. simpl. lia. }
  destruct (Nat.eqb_spec k (xor1 i)) as [->|d1].
  - rewrite div2_xor1, xor1_invol. destruct (Nat.eqb_spec j i) as [->|d2].
    + pose proof (xor1_neq i). destruct (Nat.eqb_spec i (xor1 i)); [congruence|]. rewrite Nat.eqb_refl.
      set (b := nth (i / 2) t ((MInf, PInf) : uitv)) in *. clearbody b. destruct b as [l u]. cbn [fst snd] in *.
      apply bcmp_le in F. simpl (ge_rb _ (Fin 0)). rewrite Q2R_0'. intros G1 G2.
      assert (FF : forall a b, ge_rb a (bound_of_scalar (N:=E) l true true) -> ge_rb b (bound_of_scalar (N:=E) u false true) -> (0 <= a + b)%R).
      { unfold bound_of_scalar. intros a b. destruct l as [|q|], u as [|q'|]; simpl in *; try tauto.
        rewrite !Q2R_two, Q2R_opp. apply Qle_Q2R in F. lra. }
      destruct (par_cases i) as [x [-> | ->]]; rewrite ?xor1_even, ?xor1_odd, ?mod2_even, ?mod2_odd in *;
        cbn [Nat.eqb] in G1, G2.
      * apply FF; auto.
      * rewrite Rplus_comm. apply FF; auto.
    + destruct (Nat.eqb_spec (xor1 i) j) as [<-|d3].
      * intros G1 G2. rewrite Nat.eqb_refl. simpl in G2. rewrite Q2R_0' in G2. apply ge_rb_le with r1; [lra|auto].
      * simpl. tauto.
  - destruct (Nat.eqb_spec i k) as [<-|d2]; [|simpl; tauto].
    intros G1 G2. simpl in G1. rewrite Q2R_0' in G1. apply ge_rb_le with r2; [lra|auto].
Qed.
Lemma of_box_exo : forall i r t, wf_box (i + r) t -> exo (oct_of_box (N:=E) i r t).
Proof.
  intros i r t W. unfold oct_of_box. destruct t as [t|]; [|apply exo_none; lia]. destruct W as [L W].
  simpl odim.
  destruct (existsb _ _) eqn:Ex; [apply exo_none; lia|].
  destruct (hmat_s_step _ _) as [m b] eqn:S. destruct b; [apply exo_none; lia|].
  apply exo_single_c; [|simpl; lia]. simpl odim. apply s_step_exact in S; auto; [apply box_wfm; auto|].
  intros _. apply box_tri. intros b I. destruct (Z.leb_spec (bcmp (fst b) (snd b)) 0); auto. exfalso.
  assert (existsb (fun b => (0 <? bcmp (fst b) (snd b))%Z) (firstn (i + r) t) = true); [|congruence].
  apply existsb_exists. exists b. rewrite firstn_all2 by lia. split; auto. apply Z.ltb_lt; auto.
Qed.
Lemma of_box_exact : forall i r t v, wf_box (i + r) t ->
  (gamo (oct_of_box (N:=E) i r t) v <-> box_pts (i + r) t v).
Proof.
  intros i r t v W. split; [|apply of_box_sound; auto].
  unfold oct_of_box. destruct t as [t|]; simpl odim; [|intros G; exfalso; eapply gamo_none; eauto].
  destruct (existsb _ _) eqn:Ex; [intros G; exfalso; eapply gamo_none; eauto|].
  destruct (hmat_s_step _ _) as [m b] eqn:S. destruct b; [intros G; exfalso; eapply gamo_none; eauto|].
  unfold set_mat; simpl. rewrite gamo_single_c. intros G. apply (s_step_back _ _ _ _ S) in G.
  rewrite box_gam in G. intros x Hx. destruct (G x Hx) as [G1 G2].
  split; [apply bos_lo_iff|apply bos_up_iff]; auto.
Qed.

(** ** Bounds of variables *)
Section Bounds.
Context {N U : numtype}.
Lemma sup_sound : forall x b, le_rb (2 * x) b -> le_rb x (scalar_of_upper (U:=U) b true).
Proof.
  intros x b H. unfold scalar_of_upper. destruct (binfty b) eqn:B; [exact I|].
  replace x with ((2 * x) / 2)%R by field. apply bdiv_2_sound. auto.
Qed.
Lemma inf_sound : forall x b, le_rb (- 2 * x) b -> ge_rb x (scalar_of_lower (U:=U) b true).
Proof.
  intros x b H. unfold scalar_of_lower. destruct (binfty b) eqn:B; [exact I|].
  apply bneg_ge. replace (- x)%R with ((- 2 * x) / 2)%R by field. apply bdiv_2_sound. auto.
Qed.
Lemma gam_unary : forall n m v d, gam n m v -> d < n ->
  le_rb (- 2 * v d) (m (matpos (2 * d) (2 * d + 1))) /\ le_rb (2 * v d) (m (matpos (2 * d + 1) (2 * d))).
Proof.
  intros n m v d G Hd. pose proof (G (2 * d) (2 * d + 1)) as G1. pose proof (G (2 * d + 1) (2 * d)) as G2.
  rewrite ?lit_odd, ?lit_even, ?or1_even, ?or1_odd in *. split.
  - replace (-2 * v d)%R with (- v d - v d)%R by ring. apply G1; lia.
  - replace (2 * v d)%R with (v d - - v d)%R by ring. apply G2; lia.
Qed.
Lemma itv_sound : forall n m v d, gam n m v -> d < n ->
  in_u (v d) (interval_of_bounds (U:=U) (m (matpos (2 * d) (2 * d + 1))) (m (matpos (2 * d + 1) (2 * d))) true).
Proof.
  intros n m v d G Hd. destruct (gam_unary n m v d G Hd). split; [apply inf_sound|apply sup_sound]; auto.
Qed.
Lemma bound_dimension_sound : forall z a d v, wfo a -> d < odim a -> gamo a v ->
  in_u (v d) (oct_bound_dimension (N:=N) (U:=U) z a d).
Proof.
  intros z a d v W Hd G. unfold oct_bound_dimension.
  rewrite <- (cached_gamo (N:=N) z a v W), gamo_best in G by (apply cached_wfo; auto).
  rewrite (proj1 (cached_dim z a)) in G. destruct (best (cached z a)); [|tauto].
  apply itv_sound with (odim a); auto.
Qed.
Lemma nth_map_seq : forall {A} (f : nat -> A) n d x, d < n -> nth d (map f (seq 0 n)) x = f d.
Proof.
  intros. rewrite nth_indep with (d' := f 0) by (rewrite map_length, seq_length; auto).
  rewrite map_nth, seq_nth by auto. auto.
Qed.
Lemma to_box_nth : forall z a d, d < odim a ->
  nth d (oct_to_box (N:=N) (U:=U) z a) (MInf, PInf) = oct_bound_dimension (N:=N) (U:=U) z a d.
Proof.
  intros z a d Hd. unfold oct_to_box, oct_bound_dimension.
  pose proof (proj1 (cached_dim (N:=N) z a)) as D.
  destruct (best (cached z a)); (etransitivity; [apply nth_map_seq; rewrite D; auto|reflexivity]).
Qed.
Lemma to_box_length : forall z a, length (oct_to_box (N:=N) (U:=U) z a) = odim a.
Proof.
  intros. unfold oct_to_box. destruct (best _); rewrite map_length, seq_length; apply (proj1 (cached_dim z a)).
Qed.
Lemma sat_interval_sound : forall z a d i v, wfo a -> d < odim a ->
  oct_sat_interval (N:=N) (U:=U) z a d i = true -> gamo a v -> in_u (v d) i.
Proof.
  intros z a d i v W Hd H G.
  unfold oct_sat_interval in H.
  rewrite <- (cached_gamo (N:=N) z a v W), gamo_best in G by (apply cached_wfo; auto).
  rewrite (proj1 (cached_dim z a)) in G. destruct (best (cached z a)); [|tauto].
  pose proof (itv_sound _ _ _ d G Hd) as [H1 H2].
  apply andb_true_iff in H. destruct H as [C1 C2]. apply Z.leb_le in C1. apply Z.leb_le in C2.
  rewrite bcmp_anti in C1. split.
  - eapply ge_rb_bb; [|apply H1]. apply bcmp_le. lia.
  - eapply le_rb_mono; [apply H2|]. apply bcmp_le. lia.
Qed.
End Bounds.

(** exact numbers *)
Lemma in_u_exact : forall r lo hi, lo <> MInf -> hi <> MInf ->
  (in_u r (interval_of_bounds (U:=E) lo hi true) <-> le_rb (- 2 * r) lo /\ le_rb (2 * r) hi).
Proof.
  intros r lo hi Hl Hh. unfold in_u, interval_of_bounds, scalar_of_lower, scalar_of_upper; simpl.
  destruct lo as [|l|], hi as [|h|]; simpl; try congruence; try tauto; rewrite ?Q2R_opp, ?Q2R_half; split; intros [H1 H2]; split; auto; lra.
Qed.
Lemma uitv_bottom_empty : forall r, ~ in_u r uitv_bottom.
Proof. intros r [H1 H2]. simpl in *. unfold Q2R in *. simpl in *. lra. Qed.
Lemma bound_dimension_exact : forall z a d r, (0 <= z)%Z -> exo a -> d < odim a ->
  (in_u r (oct_bound_dimension (N:=E) (U:=E) z a d) <-> exists v, gamo a v /\ v d = r).
Proof.
  intros z a d r Hz X Hd. split.
  - unfold oct_bound_dimension. intros H. destruct (best (cached z a)) as [m|] eqn:B; [|exfalso; eapply uitv_bottom_empty; eauto].
    pose proof (closed_ex z a m Hz X B) as S.
    rewrite in_u_exact in H; try (apply (sc_wf _ _ S); rewrite ?or1_even, ?or1_odd; lia).
    destruct (project_unary (odim a) m S (2 * d) r) as [v [G L]]; [lia| | |].
    + rewrite xor1_even, matpos2_half by (rewrite or1_even; lia). tauto.
    + rewrite xor1_even, matpos2_half by (rewrite or1_odd; lia). tauto.
    + exists v. rewrite lit_even in L. split; auto. rewrite <- (cached_gamo (N:=E) z) by apply X.
      rewrite gamo_best by (apply cached_wfo; apply X). rewrite B, (proj1 (cached_dim z a)). auto.
  - intros [v [G <-]]. apply bound_dimension_sound; auto. apply X.
Qed.
Lemma in_u_le : forall b i, (exists r, in_u r b) -> (forall r, in_u r b -> in_u r i) ->
  le_bb (fst i) (fst b) /\ le_bb (snd b) (snd i).
Proof.
  intros [l u] [l' u'] [r0 [G1 G2]] H; simpl in *. split.
  - destruct l as [|q|]; simpl in *; try tauto.
    + destruct l' as [|q'|]; simpl; auto.
      * destruct (H (Rmin r0 (Q2R q' - 1))) as [F _]; [split; simpl; auto; apply le_rb_le with r0; auto; apply Rmin_l|].
        simpl in F. pose proof (Rmin_r r0 (Q2R q' - 1)). lra.
      * destruct (H r0) as [F _]; [split; auto|]. simpl in F. auto.
    + destruct (H (Q2R q)) as [F _]; [split; simpl; [lra|apply le_rb_le with r0; auto]|].
      destruct l' as [|q'|]; simpl in *; auto. apply Qle_Q2R; auto.
  - destruct u as [|q|]; simpl in *; try tauto.
    + destruct (H (Q2R q)) as [_ F]; [split; simpl; [apply ge_rb_le with r0; auto|lra]|].
      destruct u' as [|q'|]; simpl in *; auto. apply Qle_Q2R; auto.
    + destruct u' as [|q'|]; simpl; auto.
      * destruct (H r0) as [_ F]; [split; auto|]. simpl in F. auto.
      * destruct (H (Rmax r0 (Q2R q' + 1))) as [_ F]; [split; simpl; auto; apply ge_rb_le with r0; auto; apply Rmax_l|].
        simpl in F. pose proof (Rmax_r r0 (Q2R q' + 1)). lra.
Qed.
Lemma sat_interval_exact : forall z a d i, (0 <= z)%Z -> exo a -> d < odim a ->
  (oct_sat_interval (N:=E) (U:=E) z a d i = true <-> forall v, gamo a v -> in_u (v d) i).
Proof.
  intros z a d i Hz X Hd. split.
  { intros H v. apply (sat_interval_sound (N:=E) (U:=E) z a d i v); auto. apply X. }
  intros H. pose proof (bound_dimension_exact z a d) as BE. unfold oct_bound_dimension in BE. unfold oct_sat_interval.
  destruct (best (cached z a)) as [m|] eqn:B; auto.
  set (b := interval_of_bounds _ _ _) in *.
  assert (NE : exists r, in_u r b).
  { destruct (sc_nonempty _ _ (closed_ex z a m Hz X B)) as [v G]. exists (v d). apply BE; auto. exists v. split; auto.
    rewrite <- (cached_gamo (N:=E) z) by apply X.
    rewrite gamo_best by (apply cached_wfo; apply X). rewrite B, (proj1 (cached_dim z a)). auto. }
  destruct (in_u_le b i NE) as [L1 L2].
  { intros r Hr. apply BE in Hr; auto. destruct Hr as [v [G <-]]. auto. }
  apply andb_true_iff. split; apply Z.leb_le.
  - rewrite bcmp_anti. apply bcmp_le in L1. lia.
  - apply bcmp_le; auto.
Qed.

(** ** Unconstrained dimensions *)
Lemma unconstrained_sound : forall a d v r, wfo a -> d < odim a ->
  oct_is_dimension_unconstrained a d = true -> gamo a v -> gamo a (vset v d r).
Proof.
  intros a d v r W Hd H. unfold oct_is_dimension_unconstrained in H. rewrite !gamo_best by auto.
  destruct (best a) as [m|] eqn:B; [|tauto]. destruct (best_wf a m W B) as [WF ND].
  rewrite forallb_forall in H. intros G.
  assert (C : forall i k, i < 2 * odim a -> k / 2 = d -> i <> k -> m (matpos2 i k) = PInf).
  { intros i k Hi Hk D. assert (I : In i (seq 0 (2 * odim a))) by (apply in_seq; lia). specialize (H i I).
    apply andb_true_iff in H. destruct H as [H1 H2].
    assert (Hk' : k < 2 * odim a) by (destruct (par_cases k) as [x [-> | ->]]; rewrite ?div2_even, ?div2_odd in Hk; lia).
    pose proof (wfm2 _ _ i k WF Hi Hk') as NM.
    assert (binfty (m (matpos2 i k)) = true).
    { destruct (lit_of_var k d Hk) as [->| ->].
      - apply orb_true_iff in H1. destruct H1 as [H1|H1]; auto. apply Nat.eqb_eq in H1. congruence.
      - rewrite xor1_even in *. apply orb_true_iff in H2. destruct H2 as [H2|H2]; auto. apply Nat.eqb_eq in H2. congruence. }
    destruct (m (matpos2 i k)); simpl in *; congruence. }
  apply gam_okm. apply gam_okm in G. intros i j Hi Hj. destruct (Nat.eq_dec i j) as [->|D].
  { replace (lit (vset v d r) j - lit (vset v d r) j)%R with 0%R by ring. rewrite matpos2_diag. apply bsgn_ge0. apply ND; auto. }
  destruct (Nat.eq_dec (j / 2) d) as [e|n1]; [rewrite C; simpl; auto|].
  destruct (Nat.eq_dec (i / 2) d) as [e|n2].
  { rewrite <- matpos2_coh by auto. rewrite C; [exact I|apply xor1_lt; auto|rewrite div2_xor1; auto|].
    intros F. apply xor1_inj in F. congruence. }
  rewrite !lit_vset_other by auto. apply G; auto.
Qed.
Lemma unconstrained_complete : forall a d v, wfo a -> d < odim a -> gamo a v ->
  (forall r, gamo a (vset v d r)) -> oct_is_dimension_unconstrained a d = true.
Proof.
  intros a d v W Hd G H. unfold oct_is_dimension_unconstrained.
  rewrite gamo_best in G by auto.
  assert (H' : forall r, match best a with Some m => gam (odim a) m (vset v d r) | None => False end).
  { intros r. rewrite <- gamo_best by auto. auto. } clear H.
  destruct (best a) as [m|] eqn:B; [|tauto]. destruct (best_wf a m W B) as [WF ND].
  apply forallb_forall. intros i Hi. apply in_seq in Hi.
  assert (C : forall k, k / 2 = d -> binfty (m (matpos2 i k)) || Nat.eqb i k = true).
  { intros k Hk. apply orb_true_iff. destruct (Nat.eqb_spec i k) as [->|D]; [auto|left].
    assert (Hk' : k < 2 * odim a) by (destruct (par_cases k) as [x [-> | ->]]; rewrite ?div2_even, ?div2_odd in Hk; lia).
    destruct (m (matpos2 i k)) as [|q|] eqn:Em; auto. exfalso.
    assert (L : exists r, (lit (vset v d r) k - lit (vset v d r) i = Q2R q + 1)%R).
    { destruct (Nat.eq_dec (i / 2) d) as [e|n1].
      - destruct (same_var i k ltac:(congruence)) as [| ->]; [congruence|].
        exists (if Nat.eqb (k mod 2) 0 then ((Q2R q + 1) / 2)%R else (- ((Q2R q + 1) / 2))%R).
        rewrite lit_xor1. unfold lit. rewrite Hk, vset_same. destruct (Nat.eqb (k mod 2) 0); field.
      - exists (if Nat.eqb (k mod 2) 0 then (Q2R q + 1 + lit v i)%R else (- (Q2R q + 1 + lit v i))%R).
        rewrite (lit_vset_other v d _ i) by auto. unfold lit at 1. rewrite Hk, vset_same.
        destruct (Nat.eqb (k mod 2) 0); ring. }
    destruct L as [r L]. pose proof (gam_full _ _ _ i k (H' r) ltac:(lia) Hk') as F. rewrite L, Em in F. simpl in F. lra. }
  apply andb_true_iff. split; apply C; [apply div2_even|apply div2_odd].
Qed.

(** ** Constraints *)
Lemma odd_sel_lit : forall v i, (Q2R (odd_sel i (-1) 1)%Q * v (i / 2)%nat)%R = lit v i.
Proof.
  intros v i. unfold odd_sel, lit. destruct (par_cases i) as [x [-> | ->]]; rewrite ?mod2_even, ?mod2_odd; simpl;
  unfold Q2R; simpl; lra.
Qed.
Lemma odd_sel_lit2 : forall v i, (Q2R (odd_sel i 1 (-1))%Q * v (i / 2)%nat)%R = (- lit v i)%R.
Proof.
  intros v i. unfold odd_sel, lit. destruct (par_cases i) as [x [-> | ->]]; rewrite ?mod2_even, ?mod2_odd; simpl;
  unfold Q2R; simpl; lra.
Qed.
Ltac inv_f2 := repeat match goal with
  | H : Forall2 _ _ (_ :: _) |- _ => inversion H; clear H; subst
  | H : Forall2 _ _ [] |- _ => inversion H; clear H; subst
  | H : (fst (Some _, _) <> None -> _) |- _ => specialize (H ltac:(simpl; discriminate)); simpl in H
  end.
Lemma sparse0_val : forall c v r, expr_val (mkLin (Scal (Fin c)) (Sparse [])) v r <-> r = Q2R c.
Proof.
  intros. unfold expr_val; simpl. split.
  - intros (c0 & r1 & -> & (cs & F & ->) & ->). inversion F; subst. simpl. ring.
  - intros ->. exists (Q2R c), 0%R. split; auto. split; [|ring]. exists []. split; [constructor|]. reflexivity.
Qed.
Lemma sparse1_val : forall c d k v r, expr_val (mkLin (Scal (Fin c)) (Sparse [(Some d, Scal (Fin k))])) v r <->
  r = (Q2R c + Q2R k * v d)%R.
Proof.
  intros. unfold expr_val; simpl. split.
  - intros (c0 & r1 & -> & (cs & F & ->) & ->). inv_f2. subst. simpl. ring.
  - intros ->. exists (Q2R c), (Q2R k * v d)%R. split; auto. split; auto. exists [Q2R k]. split.
    + constructor; [simpl; auto|constructor].
    + simpl. ring.
Qed.
Lemma sparse2_val : forall c d k d' k' v r,
  expr_val (mkLin (Scal (Fin c)) (Sparse [(Some d, Scal (Fin k)); (Some d', Scal (Fin k'))])) v r <->
  r = (Q2R c + Q2R k * v d + Q2R k' * v d')%R.
Proof.
  intros. unfold expr_val; simpl. split.
  - intros (c0 & r1 & -> & (cs & F & ->) & ->). inv_f2. subst. simpl. ring.
  - intros ->. exists (Q2R c), (Q2R k * v d + Q2R k' * v d')%R. split; auto. split; [|ring]. exists [Q2R k; Q2R k']. split.
    + constructor; [simpl; auto|]. constructor; [simpl; auto|constructor].
    + simpl. ring.
Qed.
Section Cons.
Context {U : numtype}.
(** meaning of one exported constraint *)
Lemma lincons_of_bound_sound : forall i j q v, i <> j -> (lit v j - lit v i <= Q2R q)%R ->
  (forall p, rnd U p <> PInf) ->
  sat_cons (lincons_of_bound (U:=U) i j (Fin q)) v.
Proof.
  intros i j q v D H F. unfold lincons_of_bound. rewrite (proj2 (Nat.eqb_neq i j) D).
  unfold sat_cons. simpl lc_expr. simpl lc_typ. simpl lc_mod.
  destruct (Nat.eqb_spec i (xor1 j)) as [->|D2].
  - unfold scalar_of_upper; simpl. pose proof (rnd_ge U (Q2R q / 2) (q / 2)) as RG. rewrite Q2R_half in RG. specialize (RG (Rle_refl _)).
    destruct (rnd U (q / 2)) as [|c|] eqn:Er; simpl in RG; [tauto| |exfalso; eapply F; eauto].
    eexists. split; [apply sparse1_val; reflexivity|]. simpl. rewrite odd_sel_lit, lit_xor1. rewrite lit_xor1 in H. lra.
  - unfold scalar_of_upper; simpl. pose proof (rnd_ge U (Q2R q) q (Rle_refl _)) as RG.
    destruct (rnd U q) as [|c|] eqn:Er; simpl in RG; [tauto| |exfalso; eapply F; eauto].
    eexists. split; [apply sparse2_val; reflexivity|]. simpl. rewrite odd_sel_lit, odd_sel_lit2. lra.
Qed.
End Cons.
Lemma lincons_of_bound_exact : forall i j q v, i <> j ->
  sat_cons (lincons_of_bound (U:=E) i j (Fin q)) v -> (lit v j - lit v i <= Q2R q)%R.
Proof.
  intros i j q v D. unfold lincons_of_bound. rewrite (proj2 (Nat.eqb_neq i j) D).
  unfold sat_cons. simpl lc_expr. simpl lc_typ. simpl lc_mod.
  destruct (Nat.eqb_spec i (xor1 j)) as [->|D2].
  - unfold scalar_of_upper; simpl. intros (r & H1 & H2). apply sparse1_val in H1. subst r.
    rewrite odd_sel_lit, Q2R_half, lit_xor1 in H2. rewrite lit_xor1. lra.
  - unfold scalar_of_upper; simpl. intros (r & H1 & H2). apply sparse2_val in H1. subst r.
    rewrite odd_sel_lit, odd_sel_lit2 in H2. lra.
Qed.
Lemma lincons_unsat_no : forall v, ~ sat_cons lincons_unsat v.
Proof.
  intros v (r & H1 & H2). unfold lincons_unsat in H1. simpl in H1. apply sparse0_val in H1. simpl in H2. subst r.
  unfold Q2R in H2; simpl in H2; lra.
Qed.
Lemma in_cells : forall {U} n m c, In c (flat_map (fun i => flat_map (fun j =>
      if Nat.eqb i j || binfty (m (matpos i j)) then [] else [lincons_of_bound (U:=U) i j (m (matpos i j))])
      (seq 0 (or1 i + 1))) (seq 0 (2 * n))) <->
  exists i j, i < 2 * n /\ j <= or1 i /\ i <> j /\ binfty (m (matpos i j)) = false /\
    c = lincons_of_bound (U:=U) i j (m (matpos i j)).
Proof.
  intros. rewrite in_flat_map. split.
  - intros (i & Hi & H). apply in_flat_map in H. destruct H as (j & Hj & H). apply in_seq in Hi. apply in_seq in Hj.
    exists i, j. destruct (Nat.eqb_spec i j); simpl in H; [tauto|]. destruct (binfty (m (matpos i j))); simpl in H; [tauto|].
    destruct H as [<-|[]]. repeat split; auto; lia.
  - intros (i & j & Hi & Hj & D & B & ->). exists i. split; [apply in_seq; lia|]. apply in_flat_map. exists j.
    split; [apply in_seq; lia|]. rewrite (proj2 (Nat.eqb_neq i j) D), B. simpl. auto.
Qed.
Lemma to_lincons_sound : forall (U : numtype) a v c, (forall p, rnd U p <> PInf) -> wfo a -> gamo a v ->
  In c (oct_to_lincons_array (U:=U) a) -> sat_cons c v.
Proof.
  intros U a v c F W G. unfold oct_to_lincons_array. rewrite gamo_best in G by auto.
  destruct (best a) as [m|] eqn:B; [|tauto]. intros I. apply in_cells in I.
  destruct I as (i & j & Hi & Hj & D & Bf & ->). specialize (G i j Hi Hj).
  destruct (m (matpos i j)) as [|q|]; simpl in Bf; try discriminate. apply lincons_of_bound_sound; auto.
Qed.
Lemma to_lincons_exact : forall a v, wfo a ->
  (gamo a v <-> forall c, In c (oct_to_lincons_array (U:=E) a) -> sat_cons c v).
Proof.
  intros a v W. split.
  { intros G c. apply (to_lincons_sound E); auto. simpl. discriminate. }
  rewrite gamo_best by auto. unfold oct_to_lincons_array. intros H.
  destruct (best a) as [m|] eqn:B.
  - destruct (best_wf a m W B) as [WF ND]. intros i j Hi Hj. destruct (Nat.eq_dec i j) as [->|D].
    { replace (lit v j - lit v j)%R with 0%R by ring. apply bsgn_ge0. apply ND; auto. }
    specialize (WF i j Hi Hj). destruct (m (matpos i j)) as [|q|] eqn:Em; try congruence; [|exact I].
    simpl. apply lincons_of_bound_exact; auto. apply H. apply in_cells. exists i, j. rewrite Em. auto.
  - apply (lincons_unsat_no v). apply H. simpl. auto.
Qed.

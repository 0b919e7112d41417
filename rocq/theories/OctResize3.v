(** oct_add_dimensions, oct_remove_dimensions, oct_permute_dimensions. *)
From Coq Require Import Arith Lia List ZArith QArith Qreals Reals Lra Bool Sorted.
From Verif Require Import Bound BoundFacts Util Itv ItvFacts Linexpr OctMat OctIdx OctClose OctWalk OctInc OctStrong OctGeom OctGeom2 Oct OctFacts OctFacts2 OctFacts3 OctForget OctResize OctResize2.
Import ListNotations.
Open Scope nat_scope.
#[local] Arguments Nat.div : simpl never.
#[local] Arguments Nat.modulo : simpl never.
#[local] Arguments Nat.mul : simpl never.
#[local] Arguments Nat.leb : simpl never.
#[local] Arguments Nat.ltb : simpl never.
#[local] Arguments xor1 : simpl never.
#[local] Arguments or1 : simpl never.
#[local] Arguments matpos : simpl never.
#[local] Arguments matpos2 : simpl never.
#[local] Arguments hmat_addrem_dimensions : simpl never.

(** ** Positions of the new variables *)
Lemma cle_S : forall a pos x, cle (a :: pos) x = (if Nat.leb a x then 1 else 0) + cle pos x.
Proof. intros. unfold cle. simpl. destruct (Nat.leb a x); auto. Qed.
Lemma clt_S : forall a pos x, clt (a :: pos) x = (if Nat.ltb a x then 1 else 0) + clt pos x.
Proof. intros. unfold clt. simpl. destruct (Nat.ltb a x); auto. Qed.
Lemma cle_le : forall pos x, cle pos x <= length pos.
Proof. induction pos; intros; [unfold cle; simpl; lia|]. rewrite cle_S. specialize (IHpos x). simpl. destruct (Nat.leb a x); lia. Qed.
Lemma cle_hi : forall pos x t, StronglySorted le pos -> t < length pos -> nth t pos 0 <= x -> t + 1 <= cle pos x.
Proof.
  induction pos; intros x t S Ht H; simpl in Ht; [lia|]. inversion S as [|? ? S' F]; subst. rewrite cle_S. destruct t; simpl in H.
  - destruct (Nat.leb_spec a x); lia.
  - rewrite Forall_forall in F. assert (a <= nth t pos 0) by (apply F, nth_In; lia).
    destruct (Nat.leb_spec a x); [|lia]. specialize (IHpos x t S' ltac:(lia) H). lia.
Qed.
Lemma cle_lo : forall pos x t, StronglySorted le pos -> t < length pos -> x < nth t pos 0 -> cle pos x <= t.
Proof.
  induction pos; intros x t S Ht H; simpl in Ht; [lia|]. inversion S as [|? ? S' F]; subst. rewrite Forall_forall in F. destruct t; simpl in H.
  - rewrite cle_none; [lia|]. constructor; auto. rewrite Forall_forall. intros y I. specialize (F y I). lia.
  - rewrite cle_S. specialize (IHpos x t S' ltac:(lia) H). destruct (Nat.leb a x); lia.
Qed.
Lemma new_not_old : forall pos x t, StronglySorted le pos -> t < length pos -> x + cle pos x <> t + nth t pos 0.
Proof.
  intros pos x t S Ht E0. destruct (Nat.lt_ge_cases x (nth t pos 0)).
  - pose proof (cle_lo pos x t S Ht H). lia.
  - pose proof (cle_hi pos x t S Ht H). lia.
Qed.
Lemma sorted_nth : forall pos s t, StronglySorted le pos -> s <= t -> t < length pos -> nth s pos 0 <= nth t pos 0.
Proof.
  induction pos; intros s t S L Ht; simpl in *; [lia|]. inversion S as [|? ? S' F]; subst. rewrite Forall_forall in F.
  destruct s, t; try lia; simpl.
  - apply F, nth_In. lia.
  - apply IHpos; auto; lia.
Qed.

(** ** Setting variables to zero *)
Definition zero_vars (nv : nat -> nat) (nb : nat) (mm : hmat) : hmat :=
  for_ 0 nb (fun i mm => let v := 2 * nv i in upd (upd mm (matpos (v + 1) v) (Fin 0)) (matpos v (v + 1)) (Fin 0)) mm.
Lemma zero_vars_cells : forall nv nb mm i j, j <= or1 i ->
  zero_vars nv nb mm (matpos i j) =
  if (j =? xor1 i) && existsb (fun t => nv t =? i / 2) (seq 0 nb) then Fin 0 else mm (matpos i j).
Proof.
  intros nv nb mm i j H. unfold zero_vars. induction nb.
  - rewrite for_empty by lia. simpl. rewrite andb_false_r. auto.
  - rewrite (for_split 0 nb (S nb)) by lia. rewrite for_step by lia. rewrite for_empty by lia. cbv zeta.
    set (m1 := for_ 0 nb _ _) in *. clearbody m1. rewrite seq_S, existsb_app. simpl. rewrite orb_false_r.
    destruct (Nat.eq_dec (matpos i j) (matpos (2 * nv nb) (2 * nv nb + 1))) as [e|d1].
    { rewrite e, upd_same. apply matpos_inj in e; auto; [|rewrite or1_even; lia]. destruct e as [-> ->].
      rewrite xor1_even, div2_even, !Nat.eqb_refl, orb_true_r. auto. }
    rewrite upd_other by auto.
    destruct (Nat.eq_dec (matpos i j) (matpos (2 * nv nb + 1) (2 * nv nb))) as [e|d2].
    { rewrite e, upd_same. apply matpos_inj in e; auto; [|rewrite or1_odd; lia]. destruct e as [-> ->].
      rewrite xor1_odd, div2_odd, !Nat.eqb_refl, orb_true_r. auto. }
    rewrite upd_other by auto. rewrite IHnb. destruct (Nat.eqb_spec j (xor1 i)) as [->|]; auto. simpl.
    destruct (Nat.eqb_spec (nv nb) (i / 2)) as [e|]; [|rewrite orb_false_r; auto]. exfalso.
    symmetry in e. destruct (lit_of_var i _ e) as [->| ->]; rewrite ?xor1_even, ?xor1_odd in *; tauto.
Qed.
Lemma zero_vars_gam : forall n nv nb mm w, (forall t, t < nb -> nv t < n) ->
  (forall t i, t < nb -> i / 2 = nv t -> mm (matpos i (xor1 i)) = PInf) ->
  (gam n (zero_vars nv nb mm) w <-> gam n mm w /\ forall t, t < nb -> w (nv t) = 0%R).
Proof.
  intros n nv nb mm w HL HP. split.
  - intros G. split.
    + intros i j Hi Hj. specialize (G i j Hi Hj). rewrite zero_vars_cells in G by auto.
      destruct (Nat.eqb_spec j (xor1 i)) as [e|]; auto. rewrite e in *. destruct (existsb _ _) eqn:E0; auto.
      apply existsb_exists in E0. destruct E0 as [t [It T]]. apply in_seq in It. apply Nat.eqb_eq in T. rewrite (HP t); auto; [exact I|lia].
    + intros t Ht. specialize (HL t Ht).
      assert (X : existsb (fun t0 => nv t0 =? nv t) (seq 0 nb) = true).
      { apply existsb_exists. exists t. rewrite Nat.eqb_refl. split; auto. apply in_seq. lia. }
      pose proof (G (2 * nv t) (2 * nv t + 1)) as G1. pose proof (G (2 * nv t + 1) (2 * nv t)) as G2.
      rewrite or1_even in G1. rewrite or1_odd in G2.
      rewrite zero_vars_cells in G1 by (rewrite or1_even; lia). rewrite zero_vars_cells in G2 by (rewrite or1_odd; lia).
      rewrite ?xor1_even, ?xor1_odd, ?div2_even, ?div2_odd, X, !Nat.eqb_refl, ?lit_even, ?lit_odd in *. simpl in *.
      specialize (G1 ltac:(lia) ltac:(lia)). specialize (G2 ltac:(lia) ltac:(lia)). rewrite Q2R_0' in *. lra.
  - intros [G Z] i j Hi Hj. rewrite zero_vars_cells by auto. destruct (Nat.eqb_spec j (xor1 i)) as [->|]; [|apply G; auto].
    destruct (existsb _ _) eqn:E0; [|apply G; auto]. apply existsb_exists in E0. destruct E0 as [t [I T]]. apply in_seq in I.
    apply Nat.eqb_eq in T. simpl. rewrite Q2R_0', lit_xor1.
    assert (X : lit w i = 0%R); [|lra]. unfold lit. rewrite <- T, Z by lia. destruct (Nat.eqb _ _); lra.
Qed.

Section Add.
Variables (a : oct) (pos : list nat).
Hypothesis NE : pos <> [].
Hypothesis S : StronglySorted le pos.
Hypothesis B : forall p, In p pos -> p <= odim a.
Lemma add_ok : okpos (pos ++ [odim a]) true 1 0.
Proof. apply okpos_add; auto; [|lia]. intros p I. specialize (B p I). lia. Qed.
Lemma add_V : forall x, V pos 1 true x = Some (x + cle pos x).
Proof. intros. unfold V. rewrite vmap_add by (auto; intros; lia). f_equal. lia. Qed.
Lemma add_copied : forall dst m, copied pos 1 true (fun r => r < 2 * odim a) m dst (hmat_addrem_dimensions dst m pos 1 (odim a) true).
Proof. intros. apply addrem_spec; auto using add_ok. apply (okpos_app 1 true _ (odim a)). apply add_ok. Qed.
Lemma add_lmap : forall i, i < 2 * odim a -> exists i', i' < 2 * (odim a + length pos) /\ lmap pos 1 true i i'.
Proof.
  intros i Hi. destruct (lit_split i) as [e1 e2]. exists (2 * (i / 2 + cle pos (i / 2)) + i mod 2). split.
  - pose proof (cle_le pos (i / 2)). pose proof (div2_lt _ _ Hi). lia.
  - eexists. split; [apply add_V|auto].
Qed.
Lemma add_gam : forall m w, gam (odim a + length pos) (hmat_addrem_dimensions (hmat_top (odim a + length pos)) m pos 1 (odim a) true) w <->
  gam (odim a) m (fun x => w (x + cle pos x)).
Proof.
  intros m w. split.
  - apply (gam_back pos 1 true (odim a) add_ok m _ _ (add_copied _ m)); [apply add_lmap|].
    intros x y _ E0. rewrite add_V in E0. inversion E0; auto.
  - apply (gam_forth pos 1 true (odim a) add_ok m _ _ (add_copied _ m)).
    + intros x y _ E0. rewrite add_V in E0. inversion E0; auto.
    + apply top_gam.
Qed.
Lemma add_wf : forall m, wfm (odim a) m -> nndiag (odim a) m ->
  let mm := hmat_addrem_dimensions (hmat_top (odim a + length pos)) m pos 1 (odim a) true in
  wfm (odim a + length pos) mm /\ nndiag (odim a + length pos) mm.
Proof.
  intros m W D mm. apply (wf_forth pos 1 true (odim a) add_ok m _ _ (add_copied (hmat_top (odim a + length pos)) m)); auto.
  intros i' j' Hi Hj. right. rewrite top_cells2 by auto. split.
  - destruct (Nat.eqb i' j'); discriminate.
  - intros ->. rewrite Nat.eqb_refl. simpl. lia.
Qed.
Lemma add_sclosed : forall m, sclosed (odim a) m ->
  sclosed (odim a + length pos) (hmat_addrem_dimensions (hmat_top (odim a + length pos)) m pos 1 (odim a) true).
Proof.
  intros m C. apply (sclosed_sup pos 1 true (odim a) add_ok m _ _ (add_copied (hmat_top (odim a + length pos)) m)); auto.
  intros. apply top_cells2; auto.
Qed.
Lemma add_new_lt : forall t, t < length pos -> t + nth t pos 0 < odim a + length pos.
Proof. intros t Ht. assert (nth t pos 0 <= odim a) by (apply B, nth_In; auto). lia. Qed.
Lemma add_new_cell : forall m t i, t < length pos -> i / 2 = t + nth t pos 0 ->
  hmat_addrem_dimensions (hmat_top (odim a + length pos)) m pos 1 (odim a) true (matpos i (xor1 i)) = PInf.
Proof.
  intros m t i Ht Hi. rewrite <- matpos2_half by apply xor1_le_or1.
  assert (Hi' : i < 2 * (odim a + length pos)).
  { pose proof (add_new_lt t Ht). destruct (lit_split i). lia. }
  rewrite (copied2_other pos 1 true (odim a) add_ok m (hmat_top (odim a + length pos)) _ (add_copied _ m)).
  - rewrite top_cells2 by auto using xor1_lt. destruct (Nat.eqb_spec i (xor1 i)) as [e|]; auto.
    symmetry in e. apply xor1_neq in e. tauto.
  - intros k l _ _ Lk _. apply lmap_div in Lk. destruct Lk as [Lk _]. rewrite add_V in Lk. inversion Lk as [E0].
    apply (new_not_old pos (k / 2) t S Ht). congruence.
Qed.
End Add.

Lemma zero_vars_wf : forall n nv nb mm, wfm n mm -> nndiag n mm -> wfm n (zero_vars nv nb mm) /\ nndiag n (zero_vars nv nb mm).
Proof.
  intros n nv nb mm W D. split.
  - intros i j Hi Hj. rewrite zero_vars_cells by auto. destruct (_ && _); [discriminate|auto].
  - intros x Hx. rewrite zero_vars_cells by apply or1_ge. destruct (Nat.eqb_spec x (xor1 x)) as [e|]; [symmetry in e; apply xor1_neq in e; tauto|].
    simpl. auto.
Qed.
Definition dimchange_add_ok (n : nat) (pos : list nat) : Prop :=
  pos <> [] /\ StronglySorted le pos /\ forall p, In p pos -> p <= n.
Lemma add_dimensions_dim : forall a pos ni p, odim (oct_add_dimensions a pos ni p) = odim a + length pos /\
  oint (oct_add_dimensions a pos ni p) = oint a + ni.
Proof. intros. unfold oct_add_dimensions. destruct (_ && _); auto. Qed.
Lemma add_dimensions_exact : forall a pos ni p w, wfo a -> dimchange_add_ok (odim a) pos ->
  (gamo (oct_add_dimensions a pos ni p) w <->
   gamo a (fun x => w (x + cle pos x)) /\ (p = true -> forall t, t < length pos -> w (t + nth t pos 0) = 0%R)).
Proof.
  intros a pos ni p w W (NE & S & B). rewrite (gamo_best a) by auto. unfold oct_add_dimensions.
  destruct (best a) as [m|].
  2: { split; [|tauto]. intros G. exfalso. destruct (_ && _); eapply gamo_none; eauto. }
  set (mm := hmat_addrem_dimensions _ _ _ _ _ _).
  set (mp := if p then _ else mm).
  assert (X : gam (odim a + length pos) mp w <-> gam (odim a) m (fun x => w (x + cle pos x)) /\
     (p = true -> forall t, t < length pos -> w (t + nth t pos 0) = 0%R)).
  { unfold mp. destruct p.
    - change (for_ 0 (length pos) _ mm) with (zero_vars (fun i => i + nth i pos 0) (length pos) mm).
      rewrite zero_vars_gam.
      + unfold mm. rewrite add_gam by auto. tauto.
      + intros. apply add_new_lt; auto.
      + intros. unfold mm. apply add_new_cell with t; auto.
    - unfold mm. rewrite add_gam by auto. split; [|tauto]. intros; split; auto; discriminate. }
  rewrite <- X. destruct (_ && _); [apply gamo_single_c|apply gamo_single_m].
Qed.
Lemma add_dimensions_wfo : forall a pos ni p, wfo a -> dimchange_add_ok (odim a) pos -> ni <= length pos -> wfo (oct_add_dimensions a pos ni p).
Proof.
  intros a pos ni p W (NE & S & B) Hn. pose proof (wfo_int _ W). unfold oct_add_dimensions.
  destruct (best a) as [m|] eqn:Bm.
  2: { destruct (_ && _); apply wfo_none; lia. }
  destruct (best_wf a m W Bm) as [W1 W2]. destruct (add_wf a pos NE S B m W1 W2) as [A1 A2].
  assert (X : wfm (odim a + length pos) (if p then zero_vars (fun i => i + nth i pos 0) (length pos)
     (hmat_addrem_dimensions (hmat_top (odim a + length pos)) m pos 1 (odim a) true) else
     (hmat_addrem_dimensions (hmat_top (odim a + length pos)) m pos 1 (odim a) true)) /\
     nndiag (odim a + length pos) (if p then zero_vars (fun i => i + nth i pos 0) (length pos)
     (hmat_addrem_dimensions (hmat_top (odim a + length pos)) m pos 1 (odim a) true) else
     (hmat_addrem_dimensions (hmat_top (odim a + length pos)) m pos 1 (odim a) true))).
  { destruct p; auto. apply zero_vars_wf; auto. }
  destruct X. destruct (_ && _); [apply wfo_single_c|apply wfo_single_m]; auto; lia.
Qed.
Lemma add_dimensions_exo : forall a pos ni p, exo a -> dimchange_add_ok (odim a) pos -> ni <= length pos -> exo (oct_add_dimensions a pos ni p).
Proof.
  intros a pos ni p X D Hn. constructor; [apply add_dimensions_wfo; auto; apply X|].
  rewrite (proj1 (add_dimensions_dim a pos ni p)). destruct D as (NE & S & B). unfold oct_add_dimensions.
  destruct (ocl a) as [m|] eqn:O; simpl; [|discriminate]. destruct p; simpl; [discriminate|].
  unfold best. rewrite O. intros c E0. inversion E0. apply add_sclosed; auto. apply (exo_c _ X); auto.
Qed.

(** ** Removal *)
Section Rem.
Variables (dim : nat) (pos : list nat).
Hypothesis NE : pos <> [].
Hypothesis S : StronglySorted lt pos.
Hypothesis B : forall p, In p pos -> p < dim.
Lemma rem_ok : okpos (pos ++ [dim]) false 1 0.
Proof. apply okpos_rem; auto; [|lia]. intros p I. specialize (B p I). lia. Qed.
Lemma rem_V : forall x, ~ In x pos -> V pos 1 false x = Some (x - clt pos x).
Proof.
  intros x NI. unfold V. destruct (vmap_rem pos 0 0 x) as [y [Y1 Y2]]; auto; [intros; lia|lia|].
  rewrite Y1. f_equal. lia.
Qed.
Lemma rem_V_in : forall x, In x pos -> V pos 1 false x = None.
Proof. intros x I. unfold V. apply vmap_rem_in; auto. intros; lia. Qed.
Lemma rem_copied : forall dst m, copied pos 1 false (fun r => r < 2 * dim) m dst (hmat_addrem_dimensions dst m pos 1 dim false).
Proof. intros. apply addrem_spec; auto using rem_ok. apply (okpos_app 1 false _ dim). apply rem_ok. Qed.
Lemma rem_surj : forall i', i' < 2 * (dim - length pos) -> exists i, i < 2 * dim /\ lmap pos 1 false i i'.
Proof.
  intros i' Hi'. destruct (vmap_rem_surj pos dim 0 0 (i' / 2) rem_ok) as [x [X1 X2]]; [lia| |].
  - pose proof (div2_lt _ _ Hi'). lia.
  - destruct (lit_split i') as [e1 e2]. exists (2 * x + i' mod 2). split; [lia|]. exists (i' / 2).
    destruct (lit_mk x _ e2) as [-> ->]. auto.
Qed.
Lemma rem_tot : forall i, i < 2 * dim -> ~ In (i / 2) pos -> exists i', i' < 2 * (dim - length pos) /\ lmap pos 1 false i i'.
Proof.
  intros i Hi NI. destruct (lit_split i) as [e1 e2]. exists (2 * (i / 2 - clt pos (i / 2)) + i mod 2). split.
  2: { eexists. split; [apply rem_V; auto|auto]. }
  assert (X : i / 2 - clt pos (i / 2) < dim - length pos); [|lia].
  assert (Y : forall x, ~ In x pos -> x < dim -> x + length pos < dim + clt pos x).
  { clear - S B. intros x. assert (G : forall o, okpos (pos ++ [dim]) false 1 o -> ~ In x pos -> x < dim -> x + length pos < dim + clt pos x);
    [|apply (G 0); apply rem_ok]. clear S B. induction pos as [|p ps IH]; intros o K NI Hx; simpl in *.
    - unfold clt. simpl. lia.
    - destruct K as [K1 K2]. rewrite clt_S. assert (p <> x) by tauto. destruct (Nat.ltb_spec p x).
      + assert (x + length ps < dim + clt ps x); [|lia]. apply (IH (p + 1)); auto.
      + pose proof (rem_len _ _ _ K2). lia. }
  destruct (vmap_rem pos 0 0 (i / 2)) as [y [_ Y2]]; auto; [intros; lia|lia|].
  specialize (Y _ NI (div2_lt _ _ Hi)). lia.
Qed.
Lemma rem_gam : forall dst m w, gam (dim - length pos) (hmat_addrem_dimensions dst m pos 1 dim false) w <->
  psat dim m (fun x => negb (memb pos x)) (fun x => w (x - clt pos x)).
Proof.
  intros dst m w. pose proof (rem_copied dst m) as C.
  assert (LV : forall i i', lmap pos 1 false i i' -> lit (fun x => w (x - clt pos x)) i = lit w i' /\ ~ In (i / 2) pos).
  { intros i i' L. pose proof (lmap_div pos 1 false i i' L) as [L1 L2].
    assert (NI : ~ In (i / 2) pos) by (intros I; rewrite rem_V_in in L1 by auto; discriminate). split; auto.
    apply (lit_lmap pos 1 false w _ i i' L). rewrite rem_V in L1 by auto. inversion L1. congruence. }
  rewrite gam_okm. split.
  - intros G i j Hi Hj Ki Kj. apply negb_true_iff in Ki. apply negb_true_iff in Kj.
    destruct (rem_tot i Hi) as [i' [Hi' Li]]; [rewrite <- memb_In; congruence|].
    destruct (rem_tot j Hj) as [j' [Hj' Lj]]; [rewrite <- memb_In; congruence|].
    specialize (G i' j' Hi' Hj'). simpl in G. rewrite (copied2 pos 1 false dim rem_ok m dst _ C i i' j j') in G by auto.
    rewrite (proj1 (LV _ _ Li)), (proj1 (LV _ _ Lj)). auto.
  - intros P i' j' Hi' Hj'. destruct (rem_surj i' Hi') as [i [Hi Li]]. destruct (rem_surj j' Hj') as [j [Hj Lj]].
    rewrite (copied2 pos 1 false dim rem_ok m dst _ C i i' j j') by auto.
    destruct (LV _ _ Li) as [<- Ki], (LV _ _ Lj) as [<- Kj]. apply P; auto.
    + destruct (memb pos (i / 2)) eqn:M; auto. apply memb_In in M. tauto.
    + destruct (memb pos (j / 2)) eqn:M; auto. apply memb_In in M. tauto.
Qed.
Lemma rem_wf : forall dst m, wfm dim m -> nndiag dim m ->
  wfm (dim - length pos) (hmat_addrem_dimensions dst m pos 1 dim false) /\
  nndiag (dim - length pos) (hmat_addrem_dimensions dst m pos 1 dim false).
Proof.
  intros dst m W D. apply (wf_forth pos 1 false dim rem_ok m dst _ (rem_copied dst m)); auto.
  intros i' j' Hi' Hj'. left. destruct (rem_surj i' Hi') as [i [Hi Li]]. destruct (rem_surj j' Hj') as [j [Hj Lj]].
  exists i, j. auto.
Qed.
Lemma rem_sclosed : forall dst m, sclosed dim m -> sclosed (dim - length pos) (hmat_addrem_dimensions dst m pos 1 dim false).
Proof. intros. apply (sclosed_sub pos 1 false dim rem_ok m dst _ (rem_copied dst m)); auto. apply rem_surj. Qed.
End Rem.
Definition dimchange_rem_ok (n : nat) (pos : list nat) : Prop :=
  pos <> [] /\ StronglySorted lt pos /\ forall p, In p pos -> p < n.
(** number of removed integer dimensions consistent with the positions *)
Section RemOct.
Context {N : numtype}.
Lemma remove_dimensions_dim : forall z a pos ni, odim (oct_remove_dimensions (N:=N) z a pos ni) = odim a - length pos /\
  oint (oct_remove_dimensions (N:=N) z a pos ni) = oint a - ni.
Proof.
  intros. unfold oct_remove_dimensions. destruct (cached_dim (N:=N) z a) as [<- <-]. destruct (is_some _); auto.
Qed.
Lemma remove_gamo : forall z a pos ni w m, wfo a -> dimchange_rem_ok (odim a) pos -> best (cached (N:=N) z a) = Some m ->
  (gamo (oct_remove_dimensions (N:=N) z a pos ni) w <-> psat (odim a) m (fun x => negb (memb pos x)) (fun x => w (x - clt pos x))).
Proof.
  intros z a pos ni w m W (NE & S & B) Bm. unfold oct_remove_dimensions. rewrite Bm.
  destruct (cached_dim (N:=N) z a) as [-> _]. rewrite <- (rem_gam (odim a) pos NE S B junk).
  destruct (is_some _); [apply gamo_single_c|apply gamo_single_m].
Qed.
Lemma remove_sound : forall z a pos ni w v, wfo a -> dimchange_rem_ok (odim a) pos -> gamo a v ->
  (forall x, x < odim a -> ~ In x pos -> w (x - clt pos x) = v x) -> gamo (oct_remove_dimensions (N:=N) z a pos ni) w.
Proof.
  intros z a pos ni w v W D G H. rewrite <- (cached_gamo (N:=N) z a v W) in G. rewrite gamo_best in G by (apply cached_wfo; auto).
  rewrite (proj1 (cached_dim (N:=N) z a)) in G. destruct (best (cached (N:=N) z a)) as [m|] eqn:Bm; [|tauto].
  rewrite (remove_gamo z a pos ni w m W D Bm). intros i j Hi Hj Ki Kj.
  apply negb_true_iff in Ki. apply negb_true_iff in Kj.
  rewrite (lit_ext _ v i), (lit_ext _ v j).
  - apply gam_full with (odim a); auto.
  - apply H; [apply div2_lt; auto|rewrite <- memb_In; congruence].
  - apply H; [apply div2_lt; auto|rewrite <- memb_In; congruence].
Qed.
Lemma remove_wfo : forall z a pos ni, wfo a -> dimchange_rem_ok (odim a) pos -> oint a - ni <= odim a - length pos ->
  wfo (oct_remove_dimensions (N:=N) z a pos ni).
Proof.
  intros z a pos ni W (NE & S & B) Hi. unfold oct_remove_dimensions. pose proof (cached_wfo (N:=N) z a W) as W'.
  destruct (best (cached (N:=N) z a)) as [m|] eqn:Bm.
  - destruct (best_wf _ _ W' Bm) as [X1 X2]. destruct (cached_dim (N:=N) z a) as [D1 D2]. rewrite D1, D2 in *.
    destruct (rem_wf (odim a) pos NE S B junk m X1 X2).
    destruct (is_some _); [apply wfo_single_c|apply wfo_single_m]; auto.
  - destruct (cached_dim (N:=N) z a) as [D1 D2]. rewrite D1, D2. destruct (is_some _); apply wfo_none; auto.
Qed.
End RemOct.
Lemma remove_exact : forall z a pos ni w, (0 <= z)%Z -> exo a -> dimchange_rem_ok (odim a) pos ->
  (gamo (oct_remove_dimensions (N:=E) z a pos ni) w <->
   exists v, gamo a v /\ forall x, x < odim a -> ~ In x pos -> w (x - clt pos x) = v x).
Proof.
  intros z a pos ni w Hz X D. split.
  - intros G. destruct (best (cached (N:=E) z a)) as [m|] eqn:Bm.
    + rewrite (remove_gamo z a pos ni w m (exo_wf _ X) D Bm) in G.
      rewrite (psat_iff _ _ _ _ (closed_ex z a m Hz X Bm)) in G. destruct G as [v [G Hv]]. exists v. split.
      * rewrite <- (cached_gamo (N:=E) z) by apply X. rewrite gamo_best by (apply cached_wfo; apply X).
        rewrite Bm, (proj1 (cached_dim z a)). auto.
      * intros x _ NI. symmetry. apply Hv. destruct (memb pos x) eqn:M; auto. apply memb_In in M. tauto.
    + unfold oct_remove_dimensions in G. rewrite Bm in G. exfalso. destruct (is_some _); eapply gamo_none; eauto.
  - intros [v [G Hv]]. apply remove_sound with v; auto. apply X.
Qed.
Lemma remove_exo : forall z a pos ni, exo a -> dimchange_rem_ok (odim a) pos -> oint a - ni <= odim a - length pos ->
  exo (oct_remove_dimensions (N:=E) z a pos ni).
Proof.
  intros z a pos ni X D Hi. constructor; [apply remove_wfo; auto; apply X|].
  rewrite (proj1 (remove_dimensions_dim z a pos ni)). destruct D as (NE & S & B). unfold oct_remove_dimensions.
  pose proof (cached_exo z a X) as X'. destruct (cached_dim (N:=E) z a) as [D1 D2].
  destruct (ocl (cached z a)) as [m|] eqn:O; simpl; [|discriminate].
  unfold best. rewrite O. intros c E0. inversion E0. rewrite D1. apply rem_sclosed; auto. rewrite <- D1. apply (exo_c _ X'); auto.
Qed.

(** ** Permutation *)
Definition is_perm (n : nat) (perm : list nat) : Prop :=
  length perm = n /\ (forall i, i < n -> nth i perm 0 < n) /\ (forall i j, i < n -> j < n -> nth i perm 0 = nth j perm 0 -> i = j).
Section Perm.
Variables (n : nat) (perm : nat -> nat).
Hypothesis PL : forall i, i < n -> perm i < n.
Hypothesis PI : forall i j, i < n -> j < n -> perm i = perm j -> i = j.
Definition pl (l : nat) : nat := 2 * perm (l / 2) + l mod 2.
Lemma pl_xor : forall l, pl (xor1 l) = xor1 (pl l).
Proof.
  intros l. unfold pl. rewrite div2_xor1.
  destruct (par_cases l) as [a [-> | ->]]; rewrite ?xor1_even, ?xor1_odd, ?mod2_even, ?mod2_odd, ?Nat.add_0_r, ?xor1_even, ?xor1_odd; lia.
Qed.
Lemma pl_div : forall l, pl l / 2 = perm (l / 2) /\ pl l mod 2 = l mod 2.
Proof. intros l. unfold pl. destruct (lit_split l) as [_ B]. destruct (lit_mk (perm (l / 2)) _ B) as [-> ->]. auto. Qed.
Lemma pl_inj : forall i j, i < 2 * n -> j < 2 * n -> pl i = pl j -> i = j.
Proof.
  intros i j Hi Hj E0. unfold pl in E0. destruct (lit_split i), (lit_split j).
  assert (i / 2 = j / 2) by (apply PI; auto using div2_lt; lia). lia.
Qed.
Lemma pl_lt : forall i, i < 2 * n -> pl i < 2 * n.
Proof. intros i Hi. unfold pl. pose proof (PL _ (div2_lt _ _ Hi)). destruct (lit_split i). lia. Qed.
Lemma pl_cell : forall i j i' j', i < 2 * n -> j <= or1 i -> i' < 2 * n -> j' <= or1 i' ->
  matpos2 (pl i) (pl j) = matpos2 (pl i') (pl j') -> i = i' /\ j = j'.
Proof.
  intros i j i' j' Hi Hj Hi' Hj' E0. pose proof (or1_lt2 _ _ _ Hi Hj). pose proof (or1_lt2 _ _ _ Hi' Hj').
  destruct (matpos2_inj _ _ _ _ E0) as [[e1 e2]|[e1 e2]]; [auto using pl_inj|].
  rewrite <- pl_xor in e1, e2. apply pl_inj in e1; auto using xor1_lt. apply pl_inj in e2; auto using xor1_lt.
  subst i j. rewrite !pl_xor in E0. rewrite half_div, !div2_xor1 in Hj. rewrite half_div in Hj'.
  assert (V2 : j' / 2 = i' / 2) by lia. destruct (same_var _ _ V2) as [->| ->].
  - exfalso. rewrite !matpos2_diag in E0. apply matpos_inj in E0; auto using or1_ge. destruct E0 as [E0 _].
    apply xor1_neq in E0. auto.
  - rewrite xor1_invol. auto.
Qed.
Definition pcop (P : nat -> nat -> Prop) (src dst : hmat) : Prop :=
  forall i j, i < 2 * n -> j <= or1 i -> P i j -> dst (matpos2 (pl i) (pl j)) = src (matpos i j).
Lemma pcop_upd : forall P src dst i j, i < 2 * n -> j <= or1 i -> pcop P src dst ->
  pcop (fun r c => P r c \/ (r = i /\ c = j)) src (upd dst (matpos2 (pl i) (pl j)) (src (matpos i j))).
Proof.
  intros P src dst i j Hi Hj H r c Hr Hc Q. destruct (Nat.eq_dec (matpos2 (pl r) (pl c)) (matpos2 (pl i) (pl j))) as [e|d].
  - rewrite e, upd_same. apply pl_cell in e; auto. destruct e as [-> ->]. auto.
  - rewrite upd_other by auto. apply H; auto. destruct Q as [Q|[-> ->]]; auto. tauto.
Qed.
Lemma pcop_ext : forall (P Q : nat -> nat -> Prop) src dst, (forall i j, i < 2 * n -> j <= or1 i -> Q i j -> P i j) -> pcop P src dst -> pcop Q src dst.
Proof. intros P Q src dst H C i j Hi Hj q. apply C; auto. Qed.
Lemma pl2 : forall i, pl (2 * i) = 2 * perm i /\ pl (2 * i + 1) = 2 * perm i + 1.
Proof. intros i. unfold pl. rewrite div2_even, div2_odd, mod2_even, mod2_odd. lia. Qed.
Lemma permute_spec : forall src dst0, pcop (fun _ _ => True) src (hmat_permute dst0 src n n perm).
Proof.
  intros src dst0. unfold hmat_permute.
  apply pcop_ext with (fun r c => r / 2 < n); [intros; apply div2_lt; auto|].
  set (body := fun i (s : hmat * nat) => _).
  assert (G : let s := for_ 0 n body (dst0, 0) in pcop (fun r c => r / 2 < n) src (fst s) /\ snd s = matsize n).
  { apply (for_ind (fun k (s : hmat * nat) => pcop (fun r c => r / 2 < k) src (fst s) /\ snd s = matsize k)); [lia|split; [intros i j _ _ X; lia|reflexivity]|].
    intros i [d sp] Hi [H1 H2]. simpl in H1, H2. subst sp. unfold body.
    destruct (Nat.leb_spec (2 * n) (2 * perm i)) as [B|_]; [pose proof (PL i ltac:(lia)); lia|].
    set (inner := fun j (s : hmat * nat) => _).
    assert (IN : let s := for_ 0 (i + 1) inner (d, matsize i) in
      pcop (fun r c => r / 2 < i \/ (r / 2 = i /\ c / 2 < i + 1)) src (fst s) /\ snd s = matsize i + 2 * (i + 1)).
    { apply (for_ind (fun k (s : hmat * nat) => pcop (fun r c => r / 2 < i \/ (r / 2 = i /\ c / 2 < k)) src (fst s) /\ snd s = matsize i + 2 * k)).
      - lia.
      - split; [|simpl; lia]. simpl. eapply pcop_ext; [|exact H1]. simpl. intros; lia.
      - intros j [d1 sp] Hj [J1 J2]. simpl in J1, J2. subst sp. unfold inner.
        destruct (Nat.leb_spec (2 * n) (2 * perm j)) as [B|_]; [pose proof (PL j ltac:(lia)); lia|].
        cbv zeta. simpl fst; simpl snd. split; [|lia].
        destruct (pl2 i) as [P1 P2], (pl2 j) as [Q1 Q2].
        assert (A1 : matsize i + 2 * j = matpos (2 * i) (2 * j)) by (rewrite matpos_even; unfold matsize; lia).
        assert (A2 : matsize i + 2 * j + 1 = matpos (2 * i) (2 * j + 1)) by (rewrite matpos_even; unfold matsize; lia).
        assert (A3 : matsize i + 2 * j + 2 * (i + 1) = matpos (2 * i + 1) (2 * j)) by (rewrite matpos_odd; unfold matsize; lia).
        assert (A4 : matsize i + 2 * j + 2 * (i + 1) + 1 = matpos (2 * i + 1) (2 * j + 1)) by (rewrite matpos_odd; unfold matsize; lia).
        rewrite A4, A3, A2, A1, <- P2, <- Q2, <- P1, <- Q1. clear A1 A2 A3 A4 P1 P2 Q1 Q2.
        eapply pcop_ext; [|apply pcop_upd; [lia|rewrite or1_odd; lia|]; apply pcop_upd; [lia|rewrite or1_odd; lia|];
          apply pcop_upd; [lia|rewrite or1_even; lia|]; apply pcop_upd; [lia|rewrite or1_even; lia|]; exact J1].
        simpl. intros r c _ _ [L|[L1 L2]]; [auto 10|].
        destruct (Nat.eq_dec (c / 2) j) as [Ec|]; [|left; left; left; left; right; lia].
        destruct (lit_of_var r i L1) as [->| ->], (lit_of_var c j Ec) as [->| ->]; rewrite ?xor1_even; auto 10. }
    destruct (for_ 0 (i + 1) inner (d, matsize i)) as [d2 sp2]. simpl in IN |- *. destruct IN as [I1 I2]. subst sp2. split.
    - eapply pcop_ext; [|exact I1]. simpl. intros r c _ Hc Hr. rewrite half_div in Hc. lia.
    - unfold matsize. lia. }
  apply G.
Qed.
End Perm.

Lemma perm_surj : forall n l, is_perm n l -> forall y, y < n -> exists x, x < n /\ nth x l 0 = y.
Proof.
  intros n l (L & P1 & P2) y Hy.
  assert (ND : NoDup l).
  { apply (NoDup_nth l 0). intros i j Hi Hj. rewrite L in *. apply P2; auto. }
  assert (I1 : incl l (seq 0 n)).
  { intros z I. apply In_nth with (d := 0) in I. destruct I as [k [Hk <-]]. apply in_seq. rewrite L in Hk. specialize (P1 k Hk). lia. }
  assert (I2 : incl (seq 0 n) l) by (apply NoDup_length_incl; auto; rewrite seq_length; lia).
  specialize (I2 y ltac:(apply in_seq; lia)). apply In_nth with (d := 0) in I2. destruct I2 as [k [Hk Ek]]. exists k. split; auto. lia.
Qed.
Section PermOct.
Variables (n : nat) (l : list nat).
Hypothesis P : is_perm n l.
Notation perm := (fun i => nth i l 0).
Notation pl := (pl perm).
Lemma permute2 : forall src dst0 i j, i < 2 * n -> j < 2 * n ->
  hmat_permute dst0 src n n perm (matpos2 (pl i) (pl j)) = src (matpos2 i j).
Proof.
  intros src dst0 i j Hi Hj. destruct P as (L & P1 & P2). pose proof (permute_spec n perm P1 P2 src dst0) as C.
  destruct (Nat.eq_dec i j) as [->|D].
  - rewrite (matpos2_diag j). apply C; auto using or1_ge.
  - destruct (matpos2_cases i j) as [[H E0]|[H E0]]; rewrite E0.
    + apply C; auto.
    + rewrite <- matpos2_coh; [|intros e; apply D; apply (pl_inj n perm P2); auto].
      rewrite <- !pl_xor. apply C; auto using xor1_lt.
Qed.
Lemma pl_surj : forall i', i' < 2 * n -> exists i, i < 2 * n /\ pl i = i'.
Proof.
  intros i' Hi'. destruct (perm_surj n l P (i' / 2) (div2_lt _ _ Hi')) as [x [Hx Ex]]. destruct (lit_split i') as [e1 e2].
  exists (2 * x + i' mod 2). split; [lia|]. unfold OctResize3.pl. destruct (lit_mk x _ e2) as [-> ->]. lia.
Qed.
Lemma lit_pl : forall w i, lit w (pl i) = lit (fun x => w (nth x l 0)) i.
Proof. intros w i. unfold lit. destruct (pl_div perm i) as [-> ->]. auto. Qed.
Lemma permute_gam : forall src dst0 w, gam n (hmat_permute dst0 src n n perm) w <-> gam n src (fun x => w (nth x l 0)).
Proof.
  intros src dst0 w. rewrite !gam_okm. split; intros G i j Hi Hj.
  - rewrite <- (permute2 src dst0) by auto. rewrite <- !lit_pl. apply G; apply (pl_lt n perm); auto; apply P.
  - destruct (pl_surj i Hi) as [x [Hx <-]], (pl_surj j Hj) as [y [Hy <-]]. rewrite permute2, !lit_pl by auto. apply G; auto.
Qed.
Lemma permute_wf : forall src dst0, wfm n src -> nndiag n src ->
  wfm n (hmat_permute dst0 src n n perm) /\ nndiag n (hmat_permute dst0 src n n perm).
Proof.
  intros src dst0 W D. split.
  - intros i j Hi Hj. rewrite <- matpos2_half by auto. pose proof (or1_lt2 _ _ _ Hi Hj) as Hj'.
    destruct (pl_surj i Hi) as [x [Hx <-]], (pl_surj j Hj') as [y [Hy <-]]. rewrite permute2 by auto. eapply wfm2; eauto.
  - intros i Hi. destruct (pl_surj i Hi) as [x [Hx <-]]. rewrite <- matpos2_diag, permute2 by auto. rewrite matpos2_diag. auto.
Qed.
Lemma permute_sclosed : forall src dst0, sclosed n src -> sclosed n (hmat_permute dst0 src n n perm).
Proof.
  intros src dst0 S. constructor.
  - apply permute_wf; [apply S|apply sclosed_nndiag; auto].
  - intros i Hi. destruct (pl_surj i Hi) as [x [Hx <-]]. rewrite <- matpos2_diag, permute2 by auto. rewrite matpos2_diag. apply S; auto.
  - intros i' k' j' r1 r2 Hi Hk Hj. destruct (pl_surj i' Hi) as [i [Hi' <-]], (pl_surj j' Hj) as [j [Hj' <-]], (pl_surj k' Hk) as [k [Hk' <-]].
    rewrite !permute2 by auto. apply (sc_tri n src S); auto.
  - intros i' j' r1 r2 Hi Hj. destruct (pl_surj i' Hi) as [i [Hi' <-]], (pl_surj j' Hj) as [j [Hj' <-]].
    rewrite <- !pl_xor, !permute2 by auto using xor1_lt. apply (sc_str n src S); auto.
Qed.
End PermOct.
Lemma permute_dimensions_dim : forall a l, odim (oct_permute_dimensions a l) = odim a /\ oint (oct_permute_dimensions a l) = oint a.
Proof. intros. unfold oct_permute_dimensions. destruct (is_some _); auto. Qed.
Lemma permute_dimensions_exact : forall a l w, wfo a -> is_perm (odim a) l ->
  (gamo (oct_permute_dimensions a l) w <-> gamo a (fun x => w (nth x l 0))).
Proof.
  intros a l w W P. rewrite (gamo_best a) by auto. unfold oct_permute_dimensions. destruct (best a) as [m|].
  - rewrite <- (permute_gam _ _ P m junk). unfold set_mat. destruct (is_some _); [apply gamo_single_c|apply gamo_single_m].
  - split; [|tauto]. intros G. unfold set_mat in G. exfalso. destruct (is_some _); eapply gamo_none; eauto.
Qed.
Lemma permute_dimensions_wfo : forall a l, wfo a -> is_perm (odim a) l -> wfo (oct_permute_dimensions a l).
Proof.
  intros a l W P. pose proof (wfo_int _ W). unfold oct_permute_dimensions, set_mat. destruct (best a) as [m|] eqn:B.
  - destruct (best_wf a m W B) as [W1 W2]. destruct (permute_wf _ _ P m junk W1 W2).
    destruct (is_some _); [apply wfo_single_c|apply wfo_single_m]; auto.
  - destruct (is_some _); apply wfo_none; auto.
Qed.
Lemma permute_dimensions_exo : forall a l, exo a -> is_perm (odim a) l -> exo (oct_permute_dimensions a l).
Proof.
  intros a l X P. constructor; [apply permute_dimensions_wfo; auto; apply X|].
  rewrite (proj1 (permute_dimensions_dim a l)). unfold oct_permute_dimensions, set_mat, best.
  destruct (ocl a) as [m|] eqn:O; simpl; [|discriminate]. intros c E0. inversion E0.
  apply permute_sclosed; auto. apply (exo_c _ X); auto.
Qed.

(** Octagons: forget (existential projection of variables). *)
From Coq Require Import Arith Lia List ZArith QArith Qreals Reals Lra Bool.
From Verif Require Import Bound BoundFacts Util Itv ItvFacts Linexpr OctMat OctIdx OctClose OctWalk OctInc OctStrong OctGeom OctGeom2 Oct OctFacts OctFacts2 OctFacts3.
Import ListNotations.
Open Scope nat_scope.
#[local] Arguments Nat.div : simpl never.
#[local] Arguments Nat.mul : simpl never.
#[local] Arguments xor1 : simpl never.
#[local] Arguments or1 : simpl never.
#[local] Arguments matpos : simpl never.
#[local] Arguments matpos2 : simpl never.

Definition fcell (project : bool) (L : nat -> bool) (m : hmat) (i j : nat) : bound :=
  if (L (i / 2) || L (j / 2)) && negb (Nat.eqb i j) then
    if Nat.eqb (i / 2) (j / 2) then (if project then Fin 0 else PInf) else PInf
  else m (matpos i j).

(** the cells written by the first loop *)
Lemma forget_loop1 : forall d m k, k <= 2 * d ->
  forall i j, j <= or1 i ->
  for_ 0 k (fun k m => upd (upd m (matpos (2 * d) k) PInf) (matpos (2 * d + 1) k) PInf) m (matpos i j) =
  if Nat.eqb (i / 2) d && Nat.ltb j k then PInf else m (matpos i j).
Proof.
  induction k; intros Hk i j Hj.
  - rewrite for_empty by lia. rewrite andb_comm. reflexivity.
  - rewrite (for_split 0 k (S k)) by lia. rewrite for_step by lia. rewrite for_empty by lia.
    destruct (Nat.eq_dec (matpos i j) (matpos (2 * d + 1) k)) as [e|n1].
    { rewrite e, upd_same. apply matpos_inj in e; auto; [|rewrite or1_odd; lia]. destruct e as [-> ->].
      rewrite div2_odd, Nat.eqb_refl. destruct (Nat.ltb_spec k (S k)); [auto|lia]. }
    rewrite upd_other by auto.
    destruct (Nat.eq_dec (matpos i j) (matpos (2 * d) k)) as [e|n2].
    { rewrite e, upd_same. apply matpos_inj in e; auto; [|rewrite or1_even; lia]. destruct e as [-> ->].
      rewrite div2_even, Nat.eqb_refl. destruct (Nat.ltb_spec k (S k)); [auto|lia]. }
    rewrite upd_other by auto. rewrite IHk by (auto; lia).
    destruct (Nat.eqb_spec (i / 2) d) as [e|]; auto. simpl.
    destruct (Nat.ltb_spec j k), (Nat.ltb_spec j (S k)); auto; try lia.
    assert (j = k) by lia. subst j. destruct (lit_of_var i d e) as [->| ->]; rewrite ?xor1_even in *; tauto.
Qed.
Lemma forget_loop2 : forall d m k, 2 * d + 2 <= k ->
  forall i j, j <= or1 i ->
  for_ (2 * d + 2) k (fun k m => upd (upd m (matpos k (2 * d)) PInf) (matpos k (2 * d + 1)) PInf) m (matpos i j) =
  if Nat.eqb (j / 2) d && Nat.leb (2 * d + 2) i && Nat.ltb i k then PInf else m (matpos i j).
Proof.
  intros d m k. remember (k - (2 * d + 2)) as t eqn:Et. revert k Et. induction t; intros k Et Hk i j Hj.
  - rewrite for_empty by lia. assert (k = 2 * d + 2) by lia. subst k.
    destruct (Nat.leb_spec (2 * d + 2) i), (Nat.ltb_spec i (2 * d + 2)); try lia; rewrite ?andb_false_r; auto.
  - destruct k as [|k]; [lia|].
    rewrite (for_split (2 * d + 2) k (S k)) by lia. rewrite for_step by lia. rewrite for_empty by lia.
    assert (L1 : 2 * d + 1 <= or1 k) by (pose proof (or1_ge k); lia).
    assert (L2 : 2 * d <= or1 k) by lia.
    destruct (Nat.eq_dec (matpos i j) (matpos k (2 * d + 1))) as [e|n1].
    { rewrite e, upd_same. apply matpos_inj in e; auto. destruct e as [-> ->].
      rewrite div2_odd, Nat.eqb_refl. destruct (Nat.leb_spec (2 * d + 2) k), (Nat.ltb_spec k (S k)); auto; lia. }
    rewrite upd_other by auto.
    destruct (Nat.eq_dec (matpos i j) (matpos k (2 * d))) as [e|n2].
    { rewrite e, upd_same. apply matpos_inj in e; auto. destruct e as [-> ->].
      rewrite div2_even, Nat.eqb_refl. destruct (Nat.leb_spec (2 * d + 2) k), (Nat.ltb_spec k (S k)); auto; lia. }
    rewrite upd_other by auto. rewrite (IHt k) by (auto; lia).
    destruct (Nat.eqb_spec (j / 2) d) as [e|]; auto. simpl.
    destruct (Nat.leb_spec (2 * d + 2) i); auto. simpl.
    destruct (Nat.ltb_spec i k), (Nat.ltb_spec i (S k)); auto; try lia.
    assert (i = k) by lia. subst i. destruct (lit_of_var j d e) as [->| ->]; rewrite ?xor1_even in *; tauto.
Qed.
Lemma forget1_cells : forall n p d m, d < n -> forall i j, i < 2 * n -> j <= or1 i ->
  forget1 n p d m (matpos i j) = fcell p (Nat.eqb d) m i j.
Proof.
  intros n p d m Hd i j Hi Hj. unfold forget1, fcell. cbv zeta.
  destruct (Nat.eq_dec (matpos i j) (matpos (2 * d + 1) (2 * d))) as [e|n1].
  { rewrite e, upd_same. apply matpos_inj in e; auto; [|rewrite or1_odd; lia]. destruct e as [-> ->].
    rewrite div2_even, div2_odd, !Nat.eqb_refl. destruct (Nat.eqb_spec (2 * d + 1) (2 * d)); [lia|]. auto. }
  rewrite upd_other by auto.
  destruct (Nat.eq_dec (matpos i j) (matpos (2 * d) (2 * d + 1))) as [e|n2].
  { rewrite e, upd_same. apply matpos_inj in e; auto; [|rewrite or1_even; lia]. destruct e as [-> ->].
    rewrite div2_even, div2_odd, !Nat.eqb_refl. destruct (Nat.eqb_spec (2 * d) (2 * d + 1)); [lia|]. auto. }
  rewrite upd_other by auto. rewrite forget_loop2 by (auto; lia). rewrite forget_loop1 by auto.
  rewrite (Nat.eqb_sym d (i / 2)), (Nat.eqb_sym d (j / 2)).
  rewrite half_div in Hj.
  destruct (Nat.eqb_spec (j / 2) d) as [ej|nj].
  - destruct (Nat.eqb_spec (i / 2) d) as [ei|ni].
    + (* same variable: only diagonals remain *)
      assert (i = j).
      { destruct (lit_of_var i d ei) as [-> | ->], (lit_of_var j d ej) as [-> | ->]; rewrite ?xor1_even in *; auto; tauto. }
      subst j. rewrite Nat.eqb_refl. simpl. 
      destruct (Nat.leb_spec (2 * d + 2) i).
      { exfalso. destruct (lit_of_var i d ei) as [-> | ->]; rewrite ?xor1_even in *; lia. }
      destruct (Nat.ltb_spec i (2 * d)); auto.
      exfalso. destruct (lit_of_var i d ei) as [-> | ->]; rewrite ?xor1_even in *; lia.
    + simpl. destruct (Nat.leb_spec (2 * d + 2) i) as [L|L].
      * destruct (Nat.ltb_spec i (2 * n)); [|lia]. simpl.
        destruct (Nat.eqb_spec i j) as [->|]; [congruence|]. simpl.
        destruct (Nat.eqb_spec (i / 2) (j / 2)); auto. congruence.
      * exfalso. destruct (par_cases i) as [x [-> | ->]]; rewrite ?div2_even, ?div2_odd in *; lia.
  - simpl. destruct (Nat.eqb_spec (i / 2) d) as [ei|ni]; simpl; auto.
    destruct (Nat.eqb_spec i j) as [->|]; [congruence|]. simpl.
    destruct (Nat.eqb_spec (i / 2) (j / 2)); [congruence|].
    destruct (Nat.ltb_spec j (2 * d)) as [L|L]; auto. exfalso.
    destruct (par_cases j) as [x [-> | ->]]; rewrite ?div2_even, ?div2_odd in *; lia.
Qed.
Lemma fcell_fcell : forall n p L1 L2 m m', (forall i j, i < 2 * n -> j <= or1 i -> m' (matpos i j) = fcell p L1 m i j) ->
  forall i j, i < 2 * n -> j <= or1 i -> fcell p L2 m' i j = fcell p (fun x => L1 x || L2 x) m i j.
Proof.
  intros n p L1 L2 m m' H i j Hi Hj. unfold fcell. rewrite H by auto. unfold fcell.
  destruct (Nat.eqb_spec i j); rewrite ?andb_false_r, ?andb_true_r; auto. simpl.
  destruct (Nat.eqb (i / 2) (j / 2)); destruct (L1 (i / 2)), (L1 (j / 2)), (L2 (i / 2)), (L2 (j / 2)); simpl; auto.
Qed.
Definition memb (l : list nat) (x : nat) : bool := existsb (Nat.eqb x) l.
Lemma memb_In : forall l x, memb l x = true <-> In x l.
Proof.
  intros. unfold memb. rewrite existsb_exists. split.
  - intros [y [I E0]]. apply Nat.eqb_eq in E0. subst. auto.
  - intros I. exists x. rewrite Nat.eqb_refl. auto.
Qed.
Lemma forget_fold : forall n p l m, (forall d, In d l -> d < n) -> forall i j, i < 2 * n -> j <= or1 i ->
  fold_left (fun m d => forget1 n p d m) l m (matpos i j) = fcell p (memb l) m i j.
Proof.
  induction l; intros m H i j Hi Hj; simpl.
  - unfold fcell. simpl. auto.
  - rewrite IHl by (auto; intros; apply H; simpl; auto).
    rewrite (fcell_fcell n p (Nat.eqb a) (memb l) m).
    + unfold fcell, memb. simpl. rewrite (Nat.eqb_sym a (i / 2)), (Nat.eqb_sym a (j / 2)). auto.
    + intros. apply forget1_cells; auto. apply H; simpl; auto.
    + auto.
    + auto.
Qed.
Definition fcell2 (project : bool) (L : nat -> bool) (m : hmat) (i j : nat) : bound :=
  if (L (i / 2) || L (j / 2)) && negb (Nat.eqb i j) then
    if Nat.eqb (i / 2) (j / 2) then (if project then Fin 0 else PInf) else PInf
  else m (matpos2 i j).
Lemma fcells2 : forall n p L m m', (forall i j, i < 2 * n -> j <= or1 i -> m' (matpos i j) = fcell p L m i j) ->
  forall i j, i < 2 * n -> j < 2 * n -> m' (matpos2 i j) = fcell2 p L m i j.
Proof.
  intros n p L m m' H i j Hi Hj. destruct (Nat.eq_dec i j) as [->|D].
  - rewrite matpos2_diag, H by (auto; apply or1_ge). unfold fcell, fcell2. rewrite Nat.eqb_refl, !andb_false_r.
    rewrite matpos2_diag. auto.
  - destruct (matpos2_cases i j) as [[Hh E0]|[Hh E0]]; rewrite E0.
    + rewrite H by auto. unfold fcell, fcell2. rewrite E0. auto.
    + rewrite H; auto using xor1_lt. unfold fcell, fcell2. rewrite E0, !div2_xor1.
      rewrite (Nat.eqb_sym (j / 2)), (orb_comm (L (j / 2))).
      destruct (Nat.eqb_spec i j); [tauto|]. destruct (Nat.eqb_spec (xor1 j) (xor1 i)) as [e|]; auto.
      apply xor1_inj in e. congruence.
Qed.
(** points of the result, from the cells *)
Lemma forget_gam : forall n p L m m' v, nndiag n m -> (forall x, L x = true -> x < n) ->
  (forall i j, i < 2 * n -> j <= or1 i -> m' (matpos i j) = fcell p L m i j) ->
  (gam n m' v <-> (p = true -> forall x, L x = true -> v x = 0%R) /\ psat n m (fun x => negb (L x)) v).
Proof.
  intros n p L m m' v D HL H. pose proof (fcells2 n p L m m' H) as C. rewrite (gam_okm n m' v). split.
  - intros G. split.
    + intros -> x Lx. specialize (HL x Lx). pose proof (G (2 * x) (2 * x + 1)) as G1. pose proof (G (2 * x + 1) (2 * x)) as G2.
      rewrite C in G1, G2 by lia. unfold fcell2 in *. rewrite ?div2_even, ?div2_odd, ?lit_even, ?lit_odd, Lx, Nat.eqb_refl in *.
      destruct (Nat.eqb_spec (2 * x) (2 * x + 1)); [lia|]. destruct (Nat.eqb_spec (2 * x + 1) (2 * x)); [lia|].
      specialize (G1 ltac:(lia) ltac:(lia)). specialize (G2 ltac:(lia) ltac:(lia)). simpl in G1, G2. rewrite Q2R_0' in *. lra.
    + intros i j Hi Hj Li Lj. specialize (G i j Hi Hj). simpl in G. rewrite C in G by auto. unfold fcell2 in G.
      apply negb_true_iff in Li. apply negb_true_iff in Lj. rewrite Li, Lj in G. simpl in G. auto.
  - intros [Z P] i j Hi Hj. rewrite C by auto. unfold fcell2. destruct (Nat.eqb_spec i j) as [->|Dij].
    + rewrite andb_false_r. replace (lit v j - lit v j)%R with 0%R by ring. rewrite matpos2_diag. apply bsgn_ge0. apply D; auto.
    + rewrite andb_true_r. destruct (L (i / 2)) eqn:Li; simpl.
      * destruct (Nat.eqb_spec (i / 2) (j / 2)) as [e|]; [|exact I]. destruct p; [|exact I].
        simpl. rewrite Q2R_0'. rewrite (lit_ext v (fun _ => 0%R) i), (lit_ext v (fun _ => 0%R) j).
        { unfold lit. destruct (Nat.eqb (i mod 2) 0), (Nat.eqb (j mod 2) 0); lra. }
        -- rewrite <- e. apply Z; auto.
        -- apply Z; auto.
      * destruct (L (j / 2)) eqn:Lj.
        -- destruct (Nat.eqb_spec (i / 2) (j / 2)) as [e|]; [congruence|exact I].
        -- apply P; auto; [rewrite Li|rewrite Lj]; auto.
Qed.
Lemma psat_iff : forall n m L v, sclosed n m ->
  (psat n m (fun x => negb (L x)) v <-> exists w, gam n m w /\ forall x, L x = false -> w x = v x).
Proof.
  intros n m L v S. split.
  - intros P. destruct (extend_all n m S _ v P) as [w [G W]]. exists w. split; auto. intros x Lx. apply W. rewrite Lx. auto.
  - intros [w [G W]] i j Hi Hj Li Lj. apply negb_true_iff in Li. apply negb_true_iff in Lj.
    rewrite (lit_ext v w i), (lit_ext v w j) by (symmetry; apply W; auto).
    apply gam_full with n; auto.
Qed.
Lemma psat_sound : forall n m L v w, gam n m w -> (forall x, L x = false -> w x = v x) -> psat n m (fun x => negb (L x)) v.
Proof.
  intros n m L v w G W i j Hi Hj Li Lj. apply negb_true_iff in Li. apply negb_true_iff in Lj.
  rewrite (lit_ext v w i), (lit_ext v w j) by (symmetry; apply W; auto).
  apply gam_full with n; auto.
Qed.
Lemma forget_sclosed : forall n L m m', sclosed n m ->
  (forall i j, i < 2 * n -> j <= or1 i -> m' (matpos i j) = fcell false L m i j) -> sclosed n m'.
Proof.
  intros n L m m' S H. pose proof (fcells2 n false L m m' H) as C.
  assert (C' : forall i j, i < 2 * n -> j < 2 * n -> m' (matpos2 i j) =
     if (L (i / 2) || L (j / 2)) && negb (Nat.eqb i j) then PInf else m (matpos2 i j)).
  { intros. rewrite C by auto. unfold fcell2. destruct (_ && _); auto. destruct (Nat.eqb _ _); auto. }
  constructor.
  - intros i j Hi Hj. rewrite <- matpos2_half by auto. assert (Hj' := or1_lt2 _ _ _ Hi Hj). rewrite C' by auto.
    destruct (_ && _); [discriminate|]. apply (sc_wf2 n m S); auto.
  - intros x Hx. rewrite H by (auto; apply or1_ge). unfold fcell. rewrite Nat.eqb_refl, andb_false_r. apply (sc_diag n m S); auto.
  - intros i k j r1 r2 Hi Hk Hj. rewrite !C' by auto. 
    destruct (Nat.eqb_spec i k) as [->|d1].
    { rewrite andb_false_r. rewrite (sc_diag2 n m S) by auto. simpl. rewrite Q2R_0'. intros G1 G2. apply ge_rb_le with r2; auto. lra. }
    destruct (Nat.eqb_spec k j) as [->|d2].
    { rewrite andb_false_r. rewrite (sc_diag2 n m S) by auto. simpl. rewrite Q2R_0'. intros G1 G2.
      destruct (Nat.eqb_spec i j); [congruence|]. simpl in G1. apply ge_rb_le with r1; auto. lra. }
    simpl. rewrite !andb_true_r. intros G1 G2.
    destruct (L (i / 2)) eqn:Li; [simpl in G1; tauto|]. destruct (L (j / 2)) eqn:Lj; [rewrite orb_true_r in G2; simpl in G2; tauto|].
    destruct (L (k / 2)) eqn:Lk; [simpl in G2; tauto|]. simpl in *. apply (sc_tri n m S i k j); auto.
  - intros i j r1 r2 Hi Hj. assert (Hi' := xor1_lt _ _ Hi). assert (Hj' := xor1_lt _ _ Hj). rewrite !C' by auto.
    rewrite !div2_xor1.
    pose proof (xor1_neq i). pose proof (xor1_neq j).
    destruct (Nat.eqb_spec i (xor1 i)); [congruence|]. destruct (Nat.eqb_spec (xor1 j) j); [congruence|]. simpl.
    rewrite !andb_true_r, !orb_diag. destruct (L (i / 2)) eqn:Li; [simpl; tauto|]. destruct (L (j / 2)) eqn:Lj; [simpl; tauto|].
    simpl. apply (sc_str n m S i j); auto.
Qed.
Lemma forget_wf : forall n p L m m', wfm n m /\ nndiag n m ->
  (forall i j, i < 2 * n -> j <= or1 i -> m' (matpos i j) = fcell p L m i j) -> wfm n m' /\ nndiag n m'.
Proof.
  intros n p L m m' [W D] H. split.
  - intros i j Hi Hj. rewrite H by auto. unfold fcell. destruct (_ && _); [destruct (Nat.eqb _ _); [destruct p|]; discriminate|auto].
  - intros x Hx. rewrite H by (auto; apply or1_ge). unfold fcell. rewrite Nat.eqb_refl, andb_false_r. auto.
Qed.

Section Forget.
Context {N : numtype}.
Lemma forget_dim : forall z a l p, odim (oct_forget_array (N:=N) z a l p) = odim a /\ oint (oct_forget_array (N:=N) z a l p) = oint a.
Proof.
  intros. unfold oct_forget_array. destruct (cached_dim (N:=N) z a).
  destruct (best (cached (N:=N) z a)); auto. destruct (is_some _); [destruct p|]; auto.
Qed.
Lemma forget_wfo : forall z a l p, wfo a -> (forall d, In d l -> d < odim a) -> wfo (oct_forget_array (N:=N) z a l p).
Proof.
  intros z a l p W H. unfold oct_forget_array. pose proof (cached_wfo (N:=N) z a W) as W'. pose proof (wfo_int _ W').
  pose proof (proj1 (cached_dim (N:=N) z a)) as Da.
  destruct (best (cached (N:=N) z a)) as [m|] eqn:B; [|apply wfo_none; auto].
  destruct (forget_wf (odim (cached (N:=N) z a)) p (memb l) m (fold_left (fun m d => forget1 (odim (cached (N:=N) z a)) p d m) l m)) as [F1 F2].
  { apply (best_wf _ _ W' B). }
  { apply forget_fold. rewrite Da. auto. }
  destruct (is_some _); [destruct p|]; try apply wfo_single_m; try apply wfo_single_c; auto.
Qed.
Lemma forget_gamo : forall z a l p v m, (forall d, In d l -> d < odim a) -> wfo a ->
  best (cached (N:=N) z a) = Some m ->
  (gamo (oct_forget_array (N:=N) z a l p) v <->
   (p = true -> forall x, In x l -> v x = 0%R) /\ psat (odim a) m (fun x => negb (memb l x)) v).
Proof.
  intros z a l p v m H W B. unfold oct_forget_array. pose proof (cached_wfo (N:=N) z a W) as W'.
  pose proof (proj1 (cached_dim (N:=N) z a)) as Da. rewrite B. rewrite Da.
  pose proof (forget_gam (odim a) p (memb l) m (fold_left (fun m d => forget1 (odim a) p d m) l m) v) as F.
  rewrite <- Da in F at 1. specialize (F (proj2 (best_wf _ _ W' B))).
  specialize (F (fun x I => H x (proj1 (memb_In l x) I)) (forget_fold (odim a) p l m H)).
  set (mm := fold_left _ _ _) in *. clearbody mm.
  assert (X : gamo (if is_some (ocl (cached (N:=N) z a)) then if p then set_mat (cached (N:=N) z a) (Some mm) None else set_mat (cached (N:=N) z a) None (Some mm)
     else set_mat (cached (N:=N) z a) (Some mm) None) v <-> gam (odim a) mm v).
  { unfold set_mat. rewrite Da. destruct (is_some _); [destruct p|]; try apply gamo_single_m; try apply gamo_single_c. }
  rewrite X, F. setoid_rewrite memb_In. tauto.
Qed.
Lemma forget_sound : forall z a l p v w, wfo a -> (forall d, In d l -> d < odim a) -> gamo a w ->
  (forall x, ~ In x l -> v x = w x) -> (p = true -> forall x, In x l -> v x = 0%R) ->
  gamo (oct_forget_array (N:=N) z a l p) v.
Proof.
  intros z a l p v w W H G Hv Hp.
  rewrite <- (cached_gamo (N:=N) z a w W) in G. rewrite gamo_best in G by (apply cached_wfo; auto).
  rewrite (proj1 (cached_dim (N:=N) z a)) in G.
  destruct (best (cached (N:=N) z a)) as [m|] eqn:B; [|tauto].
  rewrite (forget_gamo z a l p v m H W B). split; auto. apply psat_sound with w; auto.
  intros x Lx. symmetry. apply Hv. intros I. apply memb_In in I. congruence.
Qed.
End Forget.
Lemma forget_exact : forall z a l p v, (0 <= z)%Z -> exo a -> (forall d, In d l -> d < odim a) ->
  (gamo (oct_forget_array (N:=E) z a l p) v <->
   (exists w, gamo a w /\ forall x, ~ In x l -> v x = w x) /\ (p = true -> forall x, In x l -> v x = 0%R)).
Proof.
  intros z a l p v Hz X H. split.
  - intros G. destruct (best (cached (N:=E) z a)) as [m|] eqn:B.
    + rewrite (forget_gamo z a l p v m H (exo_wf _ X) B) in G. destruct G as [G1 G2]. split; auto.
      rewrite (psat_iff _ _ _ _ (closed_ex z a m Hz X B)) in G2. destruct G2 as [w [G W]]. exists w. split.
      * rewrite <- (cached_gamo (N:=E) z) by apply X. rewrite gamo_best by (apply cached_wfo; apply X).
        rewrite B, (proj1 (cached_dim z a)). auto.
      * intros x I. symmetry. apply W. destruct (memb l x) eqn:M; auto. apply memb_In in M. tauto.
    + unfold oct_forget_array in G. rewrite B in G. exfalso. eapply gamo_none; eauto.
  - intros [[w [G W]] Z]. apply forget_sound with w; auto. apply X.
Qed.
Lemma forget_exo : forall z a l p, exo a -> (forall d, In d l -> d < odim a) -> exo (oct_forget_array (N:=E) z a l p).
Proof.
  intros z a l p X H. constructor; [apply forget_wfo; auto; apply X|].
  rewrite (proj1 (forget_dim z a l p)). unfold oct_forget_array.
  pose proof (cached_exo z a X) as X'. pose proof (proj1 (cached_dim (N:=E) z a)) as Da.
  destruct (best (cached z a)) as [m|] eqn:B; [|simpl; discriminate]. rewrite Da.
  destruct (ocl (cached z a)) as [c|] eqn:O; simpl; [|discriminate]. destruct p; simpl; [discriminate|].
  intros c' Ec. inversion Ec; subst. unfold best in B. rewrite O in B. inversion B; subst.
  apply forget_sclosed with (memb l) m; [rewrite <- Da; apply (exo_c _ X'); auto|]. apply forget_fold; auto.
Qed.

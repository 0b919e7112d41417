(** Operations on abstract values with named variables (Abs1.v), seen by names. *)
From Coq Require Import Arith ZArith Bool List Lia Sorted Permutation Reals.
From Verif Require Import Linexpr ApCore ApCoreDim ApEnv ApEnvFacts ApEnvFacts2 PropApEnv ApCheck PropApCheck OctResize2 OctResize3 BoxDims Abs1 Abs1Facts.
Import ListNotations.
Local Open Scope nat_scope.

Section Ops.
Context {V : Type} (ops : vops V) (ex : bool) (D : dom0) (inv : dv D -> Prop) (gam : dv D -> (nat -> R) -> Prop) (DS : dspec ex D inv gam).
Notation good := (ApEnvFacts.good ops).
Notation env := (environment V).
Notation outn := (outn ex D inv gam).
Notation fit := (fit D inv).
(** the valuations of a value; a well formed value *)
Definition val (a : abs1 D) (rho : V -> R) : Prop := gam (snd a) (at_env (fst a) rho).
Definition wf1 (a : abs1 D) : Prop := good (fst a) /\ fit (fst a) (snd a).
(** the result has the environment [e] and the valuations [P] *)
Definition gives (r : option (bool * abs1 D)) (e : env) (P : (V -> R) -> Prop) : Prop :=
  exists b, r = Some (false, (e, b)) /\ wf1 (e, b) /\ forall rho, (P rho -> val (e, b) rho) /\ (ex = true -> val (e, b) rho -> P rho).
Definition refused (r : option (bool * abs1 D)) (e : env) : Prop := exists b, r = Some (true, (e, b)) /\ wf1 (e, b) /\ forall rho, val (e, b) rho.
Lemma fail_refused : forall e : env, good e -> refused (fail1 D e) e.
Proof. intros e G. destruct (top_fit ex D inv gam DS e) as (F & T). exists (snd (top1 D e)). split. reflexivity. split. split; auto. intros rho. apply T. Qed.
Lemma ret_gives : forall (e : env) r P, good e -> outn e r P -> gives (ret D e r) e P.
Proof. intros e [x b] P G (X & F & H). simpl in *. subst x. exists b. split. reflexivity. split. split; auto. exact H. Qed.
Lemma gives_iff : forall r e (P Q : (V -> R) -> Prop), (forall rho, P rho <-> Q rho) -> gives r e P -> gives r e Q.
Proof. intros r e P Q E (b & A & B & C). exists b. split; auto. split; auto. intros rho. destruct (C rho). rewrite <- (E rho). auto. Qed.
Lemma outn_iff : forall (e : env) r (P Q : (V -> R) -> Prop), (forall rho, P rho <-> Q rho) -> outn e r P -> outn e r Q.
Proof. intros e r P Q E (A & B & C). split; auto. split; auto. intros rho. destruct (C rho). rewrite <- (E rho). auto. Qed.
Lemma val_agree : forall (a : abs1 D) rho sg, (forall x, In x (e_vars (fst a)) -> rho x = sg x) -> wf1 a -> val a rho -> val a sg.
Proof. intros a rho sg A (G & F) H. apply (gam_ext ex D inv gam DS (fst a) _ (at_env (fst a) rho)); auto. intros x _. apply at_agree; auto. Qed.
Lemma binary_names : forall (e : env) a b, fit e a -> fit e b -> outn e (a0_binary D (d_meet D) a b) (fun rho => gam a (at_env e rho) /\ gam b (at_env e rho)).
Proof.
  intros e a b (I1 & A1 & B1) (I2 & A2 & B2). unfold a0_binary, d_dim. assert (CK : check_abstract2 (d_int D a, d_real D a) (d_int D b, d_real D b) = true). { apply C47_abstracts. congruence. } rewrite CK.
  destruct (s_meet _ _ _ _ DS a b I1 I2 ltac:(congruence) ltac:(congruence)) as (R1 & R2 & R3 & R4). split; auto. split. split; auto. split; simpl; congruence. intros rho. apply R4.
Qed.
Theorem meet_gives : forall a b, wf1 a -> wf1 b -> fst a = fst b -> gives (meet1 ops D a b) (fst a) (fun rho => val a rho /\ val b rho).
Proof.
  intros [e a] [e' b] (G & F1) (_ & F2) E. simpl in E. subst e'. unfold meet1, binary1. simpl. rewrite (proj2 (C44_is_eq ops e e) eq_refl). apply ret_gives; auto. apply binary_names; auto.
Qed.
Theorem join_gives : forall a b, wf1 a -> wf1 b -> fst a = fst b -> exists c, join1 ops D a b = Some (false, (fst a, c)) /\ wf1 (fst a, c) /\ (forall rho, val a rho \/ val b rho -> val (fst a, c) rho) /\
  (ex = true -> forall d, wf1 (fst a, d) -> (forall rho, val a rho \/ val b rho -> val (fst a, d) rho) -> forall rho, val (fst a, c) rho -> val (fst a, d) rho).
Proof.
  intros [e a] [e' b] (G & F1) (_ & F2) E. simpl in E. subst e'. unfold join1, binary1. simpl. rewrite (proj2 (C44_is_eq ops e e) eq_refl). unfold a0_binary, d_dim. pose proof F1 as (I1 & A1 & B1). pose proof F2 as (I2 & A2 & B2). simpl in *.
  assert (CK : check_abstract2 (d_int D a, d_real D a) (d_int D b, d_real D b) = true). { apply C47_abstracts. congruence. } rewrite CK.
  destruct (s_join _ _ _ _ DS a b I1 I2 ltac:(congruence) ltac:(congruence)) as ((R1 & R2 & R3) & R4 & R5). exists (d_join D a b). split. reflexivity.
  assert (FJ : fit e (d_join D a b)) by (split; auto; split; congruence). split. split; auto. unfold val. simpl. split. intros rho. apply R4.
  intros X d (_ & FD) H rho K. pose proof FD as (I3 & A3 & B3). simpl in *. apply (R5 X d I3 ltac:(congruence) ltac:(congruence)); auto. intros v [U|U]; destruct (val_of ops e v (fun _ => 0%R) G) as (sg & S & _).
  - apply (gam_ext ex D inv gam DS e _ (at_env e sg)); auto. apply H. left. apply (gam_ext ex D inv gam DS e _ v); auto. intros x L. symmetry; auto.
  - apply (gam_ext ex D inv gam DS e _ (at_env e sg)); auto. apply H. right. apply (gam_ext ex D inv gam DS e _ v); auto. intros x L. symmetry; auto.
Qed.
Theorem binary_refused : forall op a b, wf1 a -> fst a <> fst b -> refused (binary1 ops D op a b) (fst a).
Proof. intros op [e a] [e' b] (G & F) N. unfold binary1. simpl in *. destruct (environment_is_eq ops e e') eqn:E. apply C44_is_eq in E. tauto. apply fail_refused; auto. Qed.

(** ** Change of environment *)
Lemma dimchange2_union : forall (e1 e2 : env) ca cr, good e1 -> good e2 -> environment_dimchange2 ops e1 e2 = Some (ca, cr) -> exists u c2, good u /\ sub e1 u /\ sub e2 u /\ (forall x, In x (e_vars u) <-> In x (e_vars e1) \/ In x (e_vars e2)) /\
  change_ok e1 u ca /\ change_ok e2 u c2 /\ cr = option_map (option_map (fun c => mkDC (dc_int c) (dimchange_add_invert (dc_pos c)))) c2.
Proof.
  intros e1 e2 ca cr G1 G2 H. unfold environment_dimchange2 in H. destruct (check_compatibility ops e1 e2) eqn:C; [discriminate|]. fold (union ops e1 e2) in H. injection H as <- <-. exists (union ops e1 e2), (if same_size (union ops e1 e2) e2 then None else Some (lce_change ops e2 (union ops e1 e2))).
  assert (G : good (union ops e1 e2)) by (apply union_good; auto). destruct (union_sub ops e1 e2) as (S1 & S2). split; auto. split; auto. split; auto. split.
  - pose proof (union_is ops e1 e2 G1 G2 C) as (_ & U1 & U2). intros x. unfold e_vars. rewrite !in_app_iff. rewrite U1, U2. tauto.
  - split. apply lce_change_moves; auto. split. apply lce_change_moves; auto. destruct (same_size (union ops e1 e2) e2); reflexivity.
Qed.
Lemma change_add : forall (e1 u : env) a ca pr, good e1 -> good u -> sub e1 u -> fit e1 a -> change_ok e1 u (Some (Some ca)) ->
  outn u (a0_add D a ca pr) (fun rho => gam a (at_env e1 rho) /\ (pr = true -> forall x, In x (e_vars u) -> ~ In x (e_vars e1) -> rho x = 0%R)).
Proof. intros e1 u a ca pr G1 G S F M. apply (add_names ops ex D inv gam DS); auto. apply (moves_fits ops); auto. Qed.
Theorem change_environment_gives : forall a nenv pr, wf1 a -> good nenv -> ~ clash (fst a) nenv ->
  gives (change_environment ops D a nenv pr) nenv (fun rho => exists sg, val a sg /\ (forall x, In x (e_vars (fst a)) -> In x (e_vars nenv) -> sg x = rho x) /\ (pr = true -> forall x, In x (e_vars nenv) -> ~ In x (e_vars (fst a)) -> rho x = 0%R)).
Proof.
  intros [e1 a] e2 pr (G1 & FA) G2 NC. simpl in *. unfold change_environment. simpl. pose proof (C45_dimchange2 ops e1 e2 G1 G2) as K. destruct (environment_dimchange2 ops e1 e2) as [[ca cr]|] eqn:E; [|tauto]. clear K.
  destruct (dimchange2_union e1 e2 ca cr G1 G2 E) as (u & c2 & G & S1 & S2 & U & M1 & M2 & ->). clear E.
  (* the first step, then the second one *)
  assert (ST1 : match ca with Some None => False | _ => True end) by (destruct ca as [[c|]|]; auto). assert (ST2 : match c2 with Some None => False | _ => True end) by (destruct c2 as [[c|]|]; auto).
  set (b := match ca with Some (Some c) => a0_add D a c pr | _ => (false, a) end).
  assert (B : outn u b (fun rho => gam a (at_env e1 rho) /\ (pr = true -> forall x, In x (e_vars u) -> ~ In x (e_vars e1) -> rho x = 0%R))).
  { unfold b. destruct ca as [[c|]|]; [|tauto|]. apply change_add; auto. simpl in M1. subst u. split; auto. split; auto. intros rho. simpl. split. tauto. intros X H. split; auto. tauto. }
  assert (R : outn e2 (match c2 with Some (Some c) => a0_remove D (snd b) (mkDC (dc_int c) (dimchange_add_invert (dc_pos c))) | _ => (false, snd b) end)
    (fun rho => exists sg, gam (snd b) (at_env u sg) /\ forall x, In x (e_vars e2) -> sg x = rho x)).
  { destruct B as (_ & FB & _). destruct c2 as [[c|]|]; [|tauto|]. simpl in M2. apply (remove_names ops ex D inv gam DS); auto. apply (moves_fits ops); auto. simpl in M2. subst u. split; auto. split; auto. intros rho. simpl. split.
    intros (sg & H & Q). apply (gam_ext ex D inv gam DS e2 _ (at_env e2 sg)); auto. intros x _. apply at_agree; auto. intros _ H. exists rho. auto. }
  assert (EQ : gives (ret D e2 (match c2 with Some (Some c) => a0_remove D (snd b) (mkDC (dc_int c) (dimchange_add_invert (dc_pos c))) | _ => (false, snd b) end)) e2
    (fun rho => exists sg, val (e1, a) sg /\ (forall x, In x (e_vars e1) -> In x (e_vars e2) -> sg x = rho x) /\ (pr = true -> forall x, In x (e_vars e2) -> ~ In x (e_vars e1) -> rho x = 0%R))).
  { apply ret_gives; auto. destruct B as (_ & FB & HB). destruct R as (R1 & R2 & R3). split; auto. split; auto. intros rho. destruct (R3 rho) as (P & Q). split.
    - intros (sg & H1 & H2 & H3). apply P. destruct (val_of ops e2 (at_env e2 rho) sg G2) as (tau & T1 & T2). exists tau.
      assert (T3 : forall x, In x (e_vars e2) -> tau x = rho x). { intros x X. apply In_nth_error in X. destruct X as (d & X). rewrite <- (at_var e2 d x tau X). rewrite T1 by (apply (var_lt e2 d x X)). apply at_var; auto. }
      split; auto. apply HB. split. apply (gam_ext ex D inv gam DS e1 _ (at_env e1 sg)); auto. intros d _. apply at_agree. intros x X. destruct (in_dec (fun x y => match Z.eq_dec (cmp ops x y) 0 with left e => left (proj1 (cmp_eq _ ops x y) e) | right n => right (fun e => n (proj2 (cmp_eq _ ops x y) e)) end) x (e_vars e2)) as [I|I].
      rewrite T3 by auto. auto. symmetry. auto. intros X x I N. apply U in I. destruct I as [I|I]; [tauto|]. rewrite T3 by auto. auto.
    - intros X H. destruct (Q X H) as (sg & H1 & H2). destruct (HB sg) as (_ & HB2). destruct (HB2 X H1) as (H3 & H4). exists sg. split; auto. split. intros x I J. auto. intros Z x I N. rewrite <- (H2 x I). apply H4; auto. apply U; auto. }
  clear R. unfold b in EQ. destruct B as (B1 & _). unfold b in B1. clear b. destruct ca as [[c|]|]; [|tauto|]; destruct c2 as [[c'|]|]; try tauto; simpl option_map; cbv iota beta; unfold a0_dimchange2; auto.
  - destruct (a0_add D a c pr) as [x b]. simpl in B1. subst x. simpl snd in EQ. destruct (a0_remove D b _) as [y b']. simpl. exact EQ.
  - destruct (a0_add D a c pr) as [x b]. simpl in B1. subst x. exact EQ.
Qed.
Theorem change_environment_refused : forall a nenv pr, wf1 a -> good nenv -> clash (fst a) nenv -> refused (change_environment ops D a nenv pr) nenv.
Proof.
  intros [e1 a] e2 pr (G1 & _) G2 C. simpl in *. unfold change_environment. simpl. unfold environment_dimchange2. destruct (check_compatibility ops e1 e2) eqn:K. apply fail_refused; auto. exact (False_ind _ (compat_no_clash ops e1 e2 G1 G2 K C)).
Qed.

(** ** Unification *)
Theorem unify_gives : forall a b, wf1 a -> wf1 b -> ~ clash (fst a) (fst b) -> exists e, is_union ops (fst a) (fst b) e /\ gives (unify1 ops D a b) e (fun rho => val a rho /\ val b rho).
Proof.
  intros [e1 a] [e2 b] WA WB NC. pose proof WA as (G1 & FA). pose proof WB as (G2 & FB). simpl in *. unfold unify1. simpl. destruct (environment_is_eq ops e1 e2) eqn:E.
  - apply C44_is_eq in E. subst e2. exists e1. split. { split; auto. split; intros x; tauto. } apply meet_gives; auto.
  - pose proof (C44_lce ops e1 e2 G1 G2) as L. destruct (environment_lce ops e1 e2) as [[[e c1] c2]|] eqn:H; [|tauto]. destruct L as (U & _). exists e. split; auto. destruct (C45_lce ops e1 e2 e c1 c2 G1 G2 H) as (M1 & M2). pose proof U as (G & U1 & U2).
    assert (S1 : sub e1 e) by (split; intros x X; [apply U1|apply U2]; auto). assert (S2 : sub e2 e) by (split; intros x X; [apply U1|apply U2]; auto).
    set (r1 := match c1 with Some (Some c) => a0_add D a c false | _ => (false, a) end). set (r2 := match c2 with Some (Some c) => a0_add D b c false | _ => (false, b) end).
    assert (A1 : outn e r1 (fun rho => gam a (at_env e1 rho))).
    { unfold r1. destruct c1 as [[c|]|]; [|destruct M1|]. apply (outn_iff e _ (fun rho => gam a (at_env e1 rho) /\ (false = true -> forall x, In x (e_vars e) -> ~ In x (e_vars e1) -> rho x = 0%R))). intros rho; split; [tauto|]. intros X; split; auto. discriminate. apply change_add; auto. simpl in M1. subst e1. split; auto. }
    assert (A2 : outn e r2 (fun rho => gam b (at_env e2 rho))).
    { unfold r2. destruct c2 as [[c|]|]; [|destruct M2|]. apply (outn_iff e _ (fun rho => gam b (at_env e2 rho) /\ (false = true -> forall x, In x (e_vars e) -> ~ In x (e_vars e2) -> rho x = 0%R))). intros rho; split; [tauto|]. intros X; split; auto. discriminate. apply change_add; auto. simpl in M2. subst e2. split; auto. }
    assert (K : outn e (let '(x1, v1) := r1 in let '(x2, v2) := r2 in let '(x, v) := a0_binary D (d_meet D) v1 v2 in (x1 || x2 || x, v)) (fun rho => gam a (at_env e1 rho) /\ gam b (at_env e2 rho))).
    { destruct r1 as [x1 v1], r2 as [x2 v2]. destruct A1 as (X1 & F1 & H1), A2 as (X2 & F2 & H2). simpl in X1, X2, F1, F2, H1, H2. subst x1 x2. destruct (binary_names e v1 v2 F1 F2) as (X & F & HH). destruct (a0_binary D (d_meet D) v1 v2) as [x v]. simpl in *. subst x. split; auto. split; auto. intros rho. simpl. destruct (HH rho) as (P & Q). destruct (H1 rho), (H2 rho). split; [tauto|]. intros X K. destruct (Q X K). auto. }
    assert (RG := ret_gives e _ _ G K). clear K A1 A2.
    destruct c1 as [[c|]|]; [|destruct M1|]; (destruct c2 as [[c'|]|]; [|destruct M2|]); clearbody r1 r2; destruct r1 as [x1 v1], r2 as [x2 v2]; destruct (a0_binary D (d_meet D) v1 v2); exact RG.
Qed.

(** ** Renaming *)
Theorem rename_gives : forall a l (f : V -> V), wf1 a -> NoDup (map fst l) -> (forall x, In x (map fst l) -> In x (e_vars (fst a))) -> (forall x, In x (e_vars (fst a)) -> renamed l x (f x)) -> NoDup (map f (e_vars (fst a))) ->
  exists e, (forall y, In y (e_int e) <-> exists x, In x (e_int (fst a)) /\ y = f x) /\ (forall y, In y (e_real e) <-> exists x, In x (e_real (fst a)) /\ y = f x) /\
    gives (rename_array ops D a l) e (fun rho => val a (fun x => rho (f x))).
Proof.
  intros [e a] l f (G & F) ND IN RN NF. simpl in *. unfold rename_array. simpl. pose proof (C45_rename ops e l G ND) as K. destruct (environment_rename ops e l) as [[e' perm]|].
  - destruct K as (G' & P & LI & LD & _ & T & M). assert (MF : forall x v, nth_error (e_vars e) x = Some v -> nth_error (e_vars e') (nth x perm 0) = Some (f v)). { intros x v X. apply (M x v); auto. apply RN. eapply nth_error_In; eauto. }
    assert (INT : forall (u : env) d v, good u -> nth_error (e_vars u) d = Some v -> (In v (e_int u) <-> d < length (e_int u)) /\ (In v (e_real u) <-> length (e_int u) <= d)).
    { intros u d v GU X. pose proof GU as (_ & _ & DJ). unfold e_vars in X. destruct (Nat.lt_ge_cases d (length (e_int u))) as [L|L].
      - rewrite nth_error_app1 in X by auto. apply nth_error_In in X. split; split; auto; try lia. intros R. exfalso. apply (DJ v); auto.
      - rewrite nth_error_app2 in X by auto. apply nth_error_In in X. split; split; auto; try lia. intros R. exfalso. apply (DJ v); auto. }
    assert (BACK : forall d' y, nth_error (e_vars e') d' = Some y -> exists d x, d < e_dim e /\ nth d perm 0 = d' /\ nth_error (e_vars e) d = Some x /\ y = f x).
    { intros d' y Y. destruct (var_lt _ _ _ Y) as (L & _). rewrite LD in L. destruct (perm_surj _ _ P d' L) as (d & DL & DE). destruct (lt_var e d DL) as (x & X). exists d, x. split; auto. split; auto. split; auto. assert (Z := MF d x X). rewrite DE in Z. congruence. }
    exists e'. split; [|split].
    + intros y. split. * intros Y. assert (IY : In y (e_vars e')) by (apply in_app_iff; auto). apply In_nth_error in IY. destruct IY as (d' & IY). destruct (BACK d' y IY) as (d & x & DL & DE & X & ->). exists x. split; auto. apply (INT e' d' _ G' IY) in Y. apply (INT e d x G X). apply T; auto. rewrite DE. lia.
      * intros (x & X & ->). assert (IX : In x (e_vars e)) by (apply in_app_iff; auto). apply In_nth_error in IX. destruct IX as (d & IX). assert (Z := MF d x IX). apply (INT e' _ _ G' Z). rewrite LI. apply T. apply (var_lt e d x IX). apply (INT e d x G IX); auto.
    + intros y. split. * intros Y. assert (IY : In y (e_vars e')) by (apply in_app_iff; auto). apply In_nth_error in IY. destruct IY as (d' & IY). destruct (BACK d' y IY) as (d & x & DL & DE & X & ->). exists x. split; auto. apply (INT e' d' _ G' IY) in Y. apply (INT e d x G X). specialize (T d DL). lia.
      * intros (x & X & ->). assert (IX : In x (e_vars e)) by (apply in_app_iff; auto). apply In_nth_error in IX. destruct IX as (d & IX). assert (Z := MF d x IX). apply (INT e' _ _ G' Z). rewrite LI. destruct (var_lt e d x IX) as (DL & _). specialize (T d DL). apply (INT e d x G IX) in X. lia.
    + apply ret_gives; auto. apply (permute_names ex D inv gam DS e e' a perm f); auto.
  - exfalso. destruct K as [(x & X & N)|K]. apply N; auto. apply (K (map f (e_vars e))); auto. clear - RN. induction (e_vars e) as [|x q IH]; simpl; constructor. apply RN; left; auto. apply IH. intros y Y. apply RN; right; auto.
Qed.

(** ** Forgetting variables *)
Lemma dims_of_ok : forall (e : env) tvar, good e -> (forall x, In x tvar -> In x (e_vars e)) -> exists l, dims_of ops e tvar = Some l /\ length l = length tvar /\ (forall d, In d l <-> exists x, In x tvar /\ nth_error (e_vars e) d = Some x) /\ (NoDup tvar -> NoDup l).
Proof.
  intros e tvar G. induction tvar as [|x q IH]; intros I; simpl. exists []. split; auto. split; auto. split; [|constructor]. intros d. split. intros []. intros (x & [] & _).
  destruct IH as (l & -> & LL & L & ND). intros y Y. apply I. right; auto. destruct (dim_of_var ops e x) as [d|] eqn:E. 2: { apply (dim_none ops) in E. exfalso. apply E, I. left; auto. } exists (d :: l). split; auto. split. simpl; auto. apply (dim_iff ops e x d G) in E. split.
  - intros d'. simpl. rewrite L. split. intros [<-|(y & Y & Z)]; eauto. intros (y & [<-|Y] & Z). left. apply (var_inj ops e d d' x G); auto. right. eauto.
  - intros N. inversion N; subst. constructor; auto. intros K. apply L in K. destruct K as (y & Y & Z). assert (x = y) by congruence. subst. auto.
Qed.
Lemma dims_of_none : forall (e : env) tvar, dims_of ops e tvar = None <-> exists x, In x tvar /\ ~ In x (e_vars e).
Proof.
  intros e tvar. induction tvar as [|x q IH]; simpl. split. discriminate. intros (x & [] & _). destruct (dim_of_var ops e x) as [d|] eqn:E.
  - apply (dim_some ops) in E. apply nth_error_In in E. destruct (dims_of ops e q); [split; [discriminate|]|]. intros (y & [<-|Y] & N). tauto. assert (Some l = None) by (apply IH; eauto). discriminate.
    split; auto. intros _. destruct (proj1 IH eq_refl) as (y & Y & N). eauto.
  - split; auto. intros _. exists x. split; auto. apply (dim_none ops) in E. auto.
Qed.
Theorem forget_gives : forall a tvar pr, wf1 a -> (forall x, In x tvar -> In x (e_vars (fst a))) ->
  gives (forget1 ops D a tvar pr) (fst a) (fun rho => exists sg, val a sg /\ forall x, In x (e_vars (fst a)) -> (~ In x tvar -> rho x = sg x) /\ (In x tvar -> pr = true -> rho x = 0%R)).
Proof.
  intros [e a] tvar pr (G & F) I. simpl in *. unfold forget1. simpl. destruct (dims_of_ok e tvar G I) as (l & -> & LL & L & _). apply ret_gives; auto. unfold a0_forget, d_dim. assert (DDE := fit_dd D inv e a F). pose proof F as (IA & A & B). simpl in *. destruct l as [|d0 l'] eqn:EL.
  - assert (tvar = []) by (destruct tvar; auto; discriminate). subst tvar. split; auto. split; auto. intros rho. simpl. split. intros (sg & H & E). apply (gam_ext ex D inv gam DS e _ (at_env e sg)); auto. intros d _. apply at_agree. intros x X. symmetry. apply E; auto. intros _ H. exists rho. split; auto. intros x X. split; auto. intros [].
  - rewrite <- EL in *. clear d0 l' EL. assert (LT : forall t, In t l -> t < dd a). { intros t T. apply L in T. destruct T as (x & _ & X). rewrite DDE. apply (var_lt e t x X). }
    assert (CK : check_dim_array (d_int D a, d_real D a) l = true). { apply C47_dims. exact LT. } rewrite CK. destruct (s_forget _ _ _ _ DS a l pr IA LT) as (R1 & R2 & R3 & R4). split; auto. split. split; auto. split; simpl; congruence. intros rho. simpl. destruct (R4 (at_env e rho)) as (P & Q). split.
    + intros (sg & H & E). apply P. exists (at_env e sg). split; auto. rewrite DDE. intros d LD. destruct (lt_var e d LD) as (x & X). rewrite !(at_var _ _ _ _ X). destruct (E x (nth_error_In _ _ X)) as (E1 & E2). split. intros N. apply E1. intros K. apply N. apply L. eauto. intros K. apply E2. apply L in K. destruct K as (y & Y & Z). congruence.
    + intros X H. destruct (Q X H) as (v & H1 & H2). destruct (val_of ops e v rho G) as (sg & S1 & _). exists sg. split. apply (gam_ext ex D inv gam DS e _ v); auto. intros x LX. symmetry; auto. intros x IX. apply In_nth_error in IX. destruct IX as (d & IX). destruct (var_lt _ _ _ IX) as (LD & _). rewrite DDE in H2. destruct (H2 d LD) as (H3 & H4).
      assert (RX := at_var e d x rho IX). assert (SX := at_var e d x sg IX). rewrite S1 in SX by auto. rewrite <- RX, <- SX. split. intros N. apply H3. intros K. apply N. apply L in K. destruct K as (y & Y & Z). congruence. intros K. apply H4. apply L. eauto.
Qed.
Theorem forget_refused : forall a tvar pr, wf1 a -> (exists x, In x tvar /\ ~ In x (e_vars (fst a))) -> refused (forget1 ops D a tvar pr) (fst a).
Proof. intros [e a] tvar pr (G & F) X. simpl in *. unfold forget1. simpl. rewrite (proj2 (dims_of_none e tvar) X). apply fail_refused; auto. Qed.

(** ** Minimisation of the environment *)
Lemma uncon_in : forall (e : env) a x, fit e a -> (In x (uncon_vars D (e, a)) <-> exists d, d < e_dim e /\ d_uncon D a d = true /\ nth_error (e_vars e) d = Some x).
Proof.
  intros e a x F. unfold uncon_vars. simpl. change (d_int D a + d_real D a) with (dd a). rewrite (fit_dd D inv e a F). rewrite in_concat. split.
  - intros (l & L & X). apply in_map_iff in L. destruct L as (d & <- & L). apply in_seq in L. destruct (d_uncon D a d) eqn:U; [|destruct X]. destruct (nth_error (e_vars e) d) as [v|] eqn:N; [|destruct X]. destruct X as [<-|[]]. exists d. split; [lia|auto].
  - intros (d & L & U & N). exists [x]. split; [|left; auto]. apply in_map_iff. exists d. rewrite U, N. split; auto. apply in_seq. lia.
Qed.
Lemma uncon_nodup : forall (e : env) a, good e -> NoDup (uncon_vars D (e, a)).
Proof.
  intros e a G. unfold uncon_vars. simpl. generalize (d_int D a + d_real D a) as n. intros n. assert (K : forall m o, NoDup (concat (map (fun i => if d_uncon D a i then match nth_error (e_vars e) i with Some v => [v] | None => [] end else []) (seq o m))) /\
    forall x, In x (concat (map (fun i => if d_uncon D a i then match nth_error (e_vars e) i with Some v => [v] | None => [] end else []) (seq o m))) -> exists d, o <= d /\ nth_error (e_vars e) d = Some x).
  { induction m as [|m IH]; intros o; simpl. split. constructor. intros x []. destruct (IH (S o)) as (I1 & I2). assert (I3 : forall x, In x (concat (map (fun i => if d_uncon D a i then match nth_error (e_vars e) i with Some v => [v] | None => [] end else []) (seq (S o) m))) -> exists d, o <= d /\ nth_error (e_vars e) d = Some x).
    { intros x X. destruct (I2 x X) as (d & L & N). exists d. split; auto. lia. } destruct (d_uncon D a o); [|split; auto]. destruct (nth_error (e_vars e) o) as [v|] eqn:E; [|split; auto]. simpl. split.
    constructor; auto. intros K. destruct (I2 v K) as (d & L & N). assert (o = d) by (apply (var_inj ops e o d v); auto). lia. intros x [<-|X]; eauto. }
  apply (K n 0).
Qed.
Lemma uncon_all : forall a l v w, inv a -> (forall d, In d l -> d < dd a /\ d_uncon D a d = true) -> gam a v -> (forall x, x < dd a -> ~ In x l -> w x = v x) -> gam a w.
Proof.
  intros a l v w I. revert v. induction l as [|d q IH]; intros v U H E. apply (s_ext _ _ _ _ DS a v); auto. intros x L. symmetry. auto.
  apply (IH (fun x => if x =? d then w d else v x)). intros d' K. apply U. right; auto. destruct (U d (or_introl eq_refl)) as (LD & UD). apply (s_uncon _ _ _ _ DS a d v); auto. intros x _ N. apply Nat.eqb_neq in N. rewrite N. auto.
  intros x L N. destruct (Nat.eqb_spec x d) as [->|NE]; auto. apply E; auto. intros [K|K]; auto.
Qed.
Theorem minimize_gives : forall a, wf1 a -> exists e, (forall x, In x (e_int e) <-> In x (e_int (fst a)) /\ ~ In x (uncon_vars D a)) /\ (forall x, In x (e_real e) <-> In x (e_real (fst a)) /\ ~ In x (uncon_vars D a)) /\
  gives (minimize_environment ops D a) e (val a).
Proof.
  intros [e a] WA. pose proof WA as (G & F). simpl in *. unfold minimize_environment. destruct (uncon_vars D (e, a)) as [|x0 q] eqn:EU.
  - exists e. split. intros x; tauto. split. intros x; tauto. exists a. split; [reflexivity|]. split; [exact WA|]. intros rho; split; auto.
  - rewrite <- EU. assert (ND := uncon_nodup e a G). assert (IN : forall x, In x (uncon_vars D (e, a)) -> In x (e_vars e)). { intros x X. apply (uncon_in e a x F) in X. destruct X as (d & _ & _ & X). eapply nth_error_In; eauto. }
    destruct (C44_remove_partial ops e _ G ND IN) as (e' & R & G' & E1 & E2). simpl. rewrite R. exists e'. split; auto. split; auto.
    assert (NC : ~ clash e e'). { destruct G as (_ & _ & DJ). intros (x & [[P Q]|[P Q]]). apply E2 in Q. apply (DJ x); tauto. apply E1 in P. apply (DJ x); tauto. }
    assert (EV : forall x, In x (e_vars e') <-> In x (e_vars e) /\ ~ In x (uncon_vars D (e, a))) by (intros x; unfold e_vars; rewrite !in_app_iff, E1, E2; tauto).
    destruct (change_environment_gives (e, a) e' false WA G' NC) as (b & B1 & B2 & B3). exists b. split; auto. split; auto. intros rho. destruct (B3 rho) as (P & Q). split.
    + intros H. apply P. exists rho. split; auto. split; auto. discriminate.
    + intros X H. destruct (Q X H) as (sg & S1 & S2 & _). unfold val in *. simpl in *. assert (DDE := fit_dd D inv e a F).
      apply (uncon_all a (filter (fun d => d_uncon D a d) (seq 0 (e_dim e))) (at_env e sg)); auto. apply F. intros d K. apply filter_In in K. destruct K as (K & U). apply in_seq in K. rewrite DDE. split; auto. lia.
      rewrite DDE. intros d L N. destruct (lt_var e d L) as (x & NX). rewrite !(at_var _ _ _ _ NX). symmetry. assert (IX := nth_error_In _ _ NX). apply S2; auto. apply EV. split; auto. intros K. apply N. apply filter_In. split. apply in_seq; lia.
      apply (uncon_in e a x F) in K. destruct K as (d' & _ & U & NX'). rewrite (var_inj ops e d d' x G NX NX'). auto.
Qed.

(** ** Expansion *)
Definition vset (rho : V -> R) (x : V) (r : R) : V -> R := fun y => if (cmp ops y x =? 0)%Z then r else rho y.
Lemma vset_same : forall rho x r, vset rho x r x = r.
Proof. intros. unfold vset. rewrite (proj2 (cmp_eq _ ops x x) eq_refl). reflexivity. Qed.
Lemma vset_other : forall rho x r y, y <> x -> vset rho x r y = rho y.
Proof. intros rho x r y N. unfold vset. destruct (Z.eqb_spec (cmp ops y x) 0) as [E|E]; auto. apply (cmp_eq _ ops) in E. tauto. Qed.
Lemma expand_names : forall (e : env) a d var tvar, good e -> fit e a -> nth_error (e_vars e) d = Some var -> tvar <> [] ->
  let e' := if d <? length (e_int e) then mkEnv (e_int e ++ tvar) (e_real e) else mkEnv (e_int e) (e_real e ++ tvar) in
  outn e' (a0_expand D a d (length tvar)) (fun rho => gam a (at_env e rho) /\ forall y, In y tvar -> gam a (at_env e (vset rho var (rho y)))).
Proof.
  intros e a d var tvar G F ED NE e'. assert (DDE := fit_dd D inv e a F). pose proof F as (IA & A & B). destruct (var_lt _ _ _ ED) as (LD & _). unfold a0_expand, d_dim. destruct (length tvar) as [|n'] eqn:EN. destruct tvar; [congruence|discriminate]. rewrite <- EN. clear n' EN.
  assert (CK : check_dim_array (d_int D a, d_real D a) [d] = true). { apply C47_dims. intros x [<-|[]]. simpl. change (d_int D a + d_real D a) with (dd a). lia. } rewrite CK.
  rewrite <- DDE in LD. destruct (s_expand _ _ _ _ DS a d (length tvar) IA LD) as (R1 & R2 & R3 & R4). split; auto. split. { split; auto. simpl. rewrite R2, R3, A, B. unfold e'. destruct (d <? length (e_int e)); simpl; rewrite app_length; auto. }
  set (off := if d <? d_int D a then d_int D a else dd a) in *. set (sh := fun x => if x <? off then x else x + length tvar) in *.
  assert (E1 : forall x rho, x < e_dim e -> at_env e' rho (sh x) = at_env e rho x).
  { intros x rho L. unfold at_env, at_list. replace (nth_error (e_vars e') (sh x)) with (nth_error (e_vars e) x); auto. unfold sh, off, e', e_vars in *. rewrite A, DDE. unfold e_dim in *. destruct (d <? length (e_int e)); simpl.
    - rewrite <- app_assoc. destruct (Nat.ltb_spec x (length (e_int e))). rewrite !nth_error_app1 by auto. auto. rewrite !nth_error_app2 by lia. f_equal. lia.
    - destruct (Nat.ltb_spec x (length (e_int e) + length (e_real e))); [|lia]. rewrite app_assoc. symmetry. apply nth_error_app1. rewrite app_length. lia. }
  assert (E2 : forall k y rho, nth_error tvar k = Some y -> at_env e' rho (off + k) = rho y).
  { intros k y rho K. unfold at_env, at_list. replace (nth_error (e_vars e') (off + k)) with (Some y); auto. symmetry. assert (KL : k < length tvar) by (apply nth_error_Some; congruence). unfold off, e', e_vars in *. rewrite A, DDE. unfold e_dim. destruct (d <? length (e_int e)); simpl.
    - rewrite <- app_assoc. rewrite nth_error_app2 by lia. rewrite nth_error_app1 by lia. replace (length (e_int e) + k - length (e_int e)) with k by lia. auto.
    - rewrite app_assoc. rewrite nth_error_app2 by (rewrite app_length; lia). rewrite app_length. replace (length (e_int e) + length (e_real e) + k - (length (e_int e) + length (e_real e))) with k by lia. auto. }
  intros rho. simpl. destruct (R4 (at_env e' rho)) as (P & Q).
  assert (Q1 : gam a (fun x => at_env e' rho (sh x)) <-> gam a (at_env e rho)). { apply (gam_exti ex D inv gam DS e); auto. }
  assert (Q2 : forall k y, nth_error tvar k = Some y -> (gam a (fun x => if x =? d then at_env e' rho (off + k) else at_env e' rho (sh x)) <-> gam a (at_env e (vset rho var (rho y))))).
  { intros k y K. apply (gam_exti ex D inv gam DS e); auto. intros x L. rewrite (E2 k y rho K), E1 by auto. destruct (lt_var e x L) as (u & U). rewrite !(at_var _ _ _ _ U). destruct (Nat.eqb_spec x d) as [->|N]. assert (u = var) by congruence. subst u. rewrite vset_same; auto. rewrite vset_other; auto. intros ->. apply N. apply (var_inj ops e x d var); auto. }
  split.
  - intros (H1 & H2). apply P. split. apply Q1; auto. intros k K. destruct (nth_error tvar k) as [y|] eqn:Y. 2: { apply nth_error_None in Y. lia. } apply (Q2 k y Y). apply H2. eapply nth_error_In; eauto.
  - intros X H. destruct (Q X H) as (H1 & H2). split. apply Q1; auto. intros y Y. apply In_nth_error in Y. destruct Y as (k & Y). apply (Q2 k y Y). apply H2. apply nth_error_Some. congruence.
Qed.
Theorem expand_gives : forall a var tvar, wf1 a -> In var (e_vars (fst a)) -> NoDup tvar -> (forall x, In x tvar -> ~ In x (e_vars (fst a))) ->
  exists e, good e /\ (forall x, In x (e_int e) <-> In x (e_int (fst a)) \/ (In var (e_int (fst a)) /\ In x tvar)) /\ (forall x, In x (e_real e) <-> In x (e_real (fst a)) \/ (In var (e_real (fst a)) /\ In x tvar)) /\
    gives (expand1 ops D a var tvar) e (fun rho => val a rho /\ forall y, In y tvar -> val a (vset rho var (rho y))).
Proof.
  intros [e a] var tvar WA IV ND DJ. pose proof WA as (G & F). simpl in *. unfold expand1. destruct tvar as [|y0 q] eqn:ET.
  - exists e. split; auto. split. intros x; simpl; tauto. split. intros x; simpl; tauto. exists a. split; [reflexivity|]. split; [exact WA|]. intros rho. simpl. split; [tauto|]. intros _ H. split; auto. intros y [].
  - rewrite <- ET in *. assert (NE : tvar <> []) by congruence. clear y0 q ET. cbn [fst snd]. destruct (dim_of_var ops e var) as [d|] eqn:ED. 2: { apply (dim_none ops) in ED. tauto. } assert (NDV := ED). apply (dim_iff ops e var d G) in NDV.
    assert (EX := expand_names e a d var tvar G F NDV NE). cbv zeta in EX. destruct (a0_expand D a d (length tvar)) as [x b]. destruct EX as (X & FB & H). simpl in X, FB, H. subst x.
    assert (TY := dim_int ops e var d G ED).
    assert (AP : forall vi vr e', e' = mkEnv (e_int e ++ vi) (e_real e ++ vr) -> vi ++ vr = tvar -> match environment_add_perm ops e vi vr with Some (nenv, perm) => good nenv /\ length (e_int nenv) = length (e_int e') /\ e_dim nenv = e_dim e' /\ is_perm (e_dim e') perm /\ (forall x v, nth_error (e_vars e') x = Some v -> nth_error (e_vars nenv) (nth x perm 0) = Some v) /\
      (forall x, In x (e_int nenv) <-> In x (e_int e) \/ In x vi) /\ (forall x, In x (e_real nenv) <-> In x (e_real e) \/ In x vr) | None => False end).
    { intros vi vr e' -> EV. assert (NN : NoDup ((e_int e ++ vi) ++ e_real e ++ vr)). { apply (Permutation_NoDup (l := e_vars e ++ tvar)). rewrite <- EV. unfold e_vars. rewrite <- !app_assoc. apply Permutation_app_head. rewrite !app_assoc. apply Permutation_app_tail. apply Permutation_app_comm.
        pose proof (good_nodup ops e G) as NV. clear - NV ND DJ. induction (e_vars e) as [|z l IH]; simpl; auto. inversion NV; subst. constructor. rewrite in_app_iff. intros [K|K]; auto. apply (DJ z K). left; auto. apply IH; auto. intros x X K. apply (DJ x X). right; auto. }
      pose proof (C45_add_perm ops e vi vr) as C. pose proof (C44_add ops e vi vr) as C'. destruct (environment_add_perm ops e vi vr) as [[nenv perm]|]. destruct C as (C1 & C2 & C3). rewrite C1 in C'. destruct C' as (G' & I1 & I2 & _ & L1 & L2). split; auto. unfold e_dim at 2. simpl. rewrite !app_length. split; auto. unfold e_dim at 1. split. lia.
      split. { unfold e_dim in *. simpl. rewrite !app_length. rewrite L1, L2 in C2. auto. } split; auto. rewrite C in C'. tauto. }
    assert (FIN : forall nenv perm e', fit e' b -> good nenv -> length (e_int nenv) = length (e_int e') -> e_dim nenv = e_dim e' -> is_perm (e_dim e') perm -> (forall x v, nth_error (e_vars e') x = Some v -> nth_error (e_vars nenv) (nth x perm 0) = Some v) ->
       (forall rho, (gam a (at_env e rho) /\ (forall y, In y tvar -> gam a (at_env e (vset rho var (rho y)))) -> gam b (at_env e' rho)) /\ (ex = true -> gam b (at_env e' rho) -> gam a (at_env e rho) /\ forall y, In y tvar -> gam a (at_env e (vset rho var (rho y))))) ->
       gives (let '(y, value) := a0_permute D b perm in ret D nenv (false || y, value)) nenv (fun rho => val (e, a) rho /\ forall y, In y tvar -> val (e, a) (vset rho var (rho y)))).
    { intros nenv perm e' FE G' L1 L2 P M HH. assert (PN := permute_names ex D inv gam DS e' nenv b perm (fun x => x) FE P L1 L2 M). destruct (a0_permute D b perm) as [y value]. simpl orb. apply ret_gives; auto. destruct PN as (P1 & P2 & P3). split; auto. split; auto. intros rho. unfold val. simpl. destruct (P3 rho) as (U1 & U2). destruct (HH rho) as (W1 & W2). split; auto. }
    destruct (Nat.ltb_spec d (length (e_int e))) as [L|L].
    + destruct (Nat.leb_spec (length (e_int e)) d); [lia|]. specialize (AP tvar [] (mkEnv (e_int e ++ tvar) (e_real e))). simpl in AP. rewrite !app_nil_r in AP. specialize (AP eq_refl eq_refl). destruct (environment_add_perm ops e tvar []) as [[nenv perm]|]; [|tauto]. destruct AP as (G' & L1 & L2 & P & M & I1 & I2).
      exists nenv. split; auto. split. intros x. rewrite I1. tauto. split. intros x. rewrite I2. destruct G as (_ & _ & DI). split; [simpl; tauto|]. intros [K|(K & _)]; auto. exfalso. apply (DI var); auto. eapply FIN; eauto.
    + destruct (Nat.leb_spec (length (e_int e)) d); [|lia]. specialize (AP [] tvar (mkEnv (e_int e) (e_real e ++ tvar))). simpl in AP. rewrite !app_nil_r in AP. specialize (AP eq_refl eq_refl). destruct (environment_add_perm ops e [] tvar) as [[nenv perm]|]; [|tauto]. destruct AP as (G' & L1 & L2 & P & M & I1 & I2).
      exists nenv. split; auto. split. intros x. rewrite I1. destruct G as (_ & _ & DI). split; [simpl; tauto|]. intros [K|(K & _)]; auto. exfalso. apply (DI var); auto. split. intros x. rewrite I2. tauto. eapply FIN; eauto.
Qed.
Theorem expand_refused : forall a var tvar, wf1 a -> tvar <> [] -> ~ In var (e_vars (fst a)) \/ ~ NoDup tvar \/ (exists x, In x tvar /\ In x (e_vars (fst a))) -> refused (expand1 ops D a var tvar) (fst a).
Proof.
  intros [e a] var tvar (G & F) NE H. simpl in *. unfold expand1. destruct tvar as [|y0 q] eqn:ET; [congruence|]. rewrite <- ET in *. clear y0 q ET. cbn [fst snd]. destruct (dim_of_var ops e var) as [d|] eqn:ED. 2: apply fail_refused; auto.
  apply (dim_some ops) in ED. apply nth_error_In in ED. destruct H as [H|H]; [tauto|]. destruct (a0_expand D a d (length tvar)) as [x b].
  assert (K : forall vi vr, vi ++ vr = tvar -> environment_add_perm ops e vi vr = None).
  { intros vi vr EV. pose proof (C45_add_perm ops e vi vr) as C. pose proof (C44_add ops e vi vr) as C'. destruct (environment_add_perm ops e vi vr) as [[nenv perm]|]; auto. exfalso. destruct C as (C1 & _). rewrite C1 in C'. destruct C' as (_ & _ & _ & NN & _).
    assert (N2 : NoDup (e_vars e ++ tvar)). { apply (Permutation_NoDup (l := (e_int e ++ vi) ++ e_real e ++ vr)); auto. rewrite <- EV. unfold e_vars. rewrite <- !app_assoc. apply Permutation_app_head. rewrite !app_assoc. apply Permutation_app_tail. apply Permutation_app_comm. }
    destruct H as [H|(z & Z1 & Z2)]. apply H. apply (NoDup_app_l _ _ _ N2). clear - N2 Z1 Z2. induction (e_vars e) as [|u l IH]; simpl in *. tauto. inversion N2; subst. destruct Z2 as [<-|Z2]; auto. apply H1. apply in_app_iff; auto. }
  destruct (d <? length (e_int e)); rewrite K by (simpl; rewrite ?app_nil_r; auto); apply fail_refused; auto.
Qed.
End Ops.

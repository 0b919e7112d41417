(** Environments (/repo/apron/ap_environment.c): C44, C45.

    [good e]: both parts strictly sorted, no name in both.  The index of a name in e_vars is its
    dimension.  [cle pos x] counts the positions at most x: adding dimensions at pos moves the
    dimension x to x + cle pos x; [clt pos x] counts the positions below x: removing the
    dimensions pos moves x to x - clt pos x (see C18 and C27 for the domains). *)
From Coq Require Import Arith ZArith Bool List Lia Sorted Permutation.
From Verif Require Import ApCore ApCoreDim ApEnv ApEnvFacts ApEnvFacts2 OctResize2 OctResize3 BoxDims.
Import ListNotations.
Open Scope Z_scope.

(** Names for the examples: integers *)
Definition zops : vops Z.
Proof. refine (mkV Z (fun a b => a - b) _ _ _); intros; lia. Defined.
Definition env (i r : list Z) : environment Z := mkEnv i r.

Section Env.
Context {V : Type} (ops : vops V).
Local Notation good := (good ops).

(** ** C44 *)
Theorem C44_check : forall e : environment V, environment_check ops e = false <->
  StronglySorted (fun a b => cmp ops a b < 0) (e_int e) /\ StronglySorted (fun a b => cmp ops a b < 0) (e_real e) /\ forall x, In x (e_int e) -> In x (e_real e) -> False.
Proof. apply check_good. Qed.

(** every name is found at its place *)
Theorem C44_dim_of_var : forall (e : environment V) x d, good e -> (dim_of_var ops e x = Some d <-> nth_error (e_vars e) d = Some x).
Proof. apply dim_iff. Qed.

Lemma norm_good : forall a b : list V, environment_check ops (mkEnv (env_normalize ops a) (env_normalize ops b)) = false <-> NoDup (a ++ b).
Proof.
  intros a b. rewrite check_good. unfold ApEnvFacts.good. simpl. rewrite <- !check_iff, !norm_check. split.
  - intros (A & B & C). assert (D : forall x, In x a -> In x b -> False) by (intros x X Y; apply (C x); apply norm_in; auto). clear C. induction a as [|x q IH]; simpl; auto. inversion A; subst. constructor. rewrite in_app_iff. intros [K|K]; auto. apply (D x); simpl; auto. apply IH; auto. intros y Y Z. apply (D y); simpl; auto.
  - intros D. pose proof (NoDup_app_l _ _ _ D) as [A B]. split; auto. split; auto. intros x X Y. apply norm_in in X. apply norm_in in Y. clear A B. induction a as [|y q IH]; simpl in *. tauto. inversion D; subst. destruct X as [<-|X]; auto. apply H1. apply in_app_iff; auto.
Qed.

(** Adding names: the union, unless a name would be there twice *)
Theorem C44_add : forall (e : environment V) vi vr, match environment_add ops e vi vr with
  | Some e' => good e' /\ (forall x, In x (e_int e') <-> In x (e_int e) \/ In x vi) /\ (forall x, In x (e_real e') <-> In x (e_real e) \/ In x vr) /\ NoDup ((e_int e ++ vi) ++ e_real e ++ vr) /\
      length (e_int e') = (length (e_int e) + length vi)%nat /\ length (e_real e') = (length (e_real e) + length vr)%nat
  | None => ~ NoDup ((e_int e ++ vi) ++ e_real e ++ vr)
  end.
Proof.
  intros e vi vr. unfold environment_add, env_add. pose proof (norm_good (e_int e ++ vi) (e_real e ++ vr)) as N. destruct (environment_check ops _) eqn:E.
  - intros H. apply N in H. discriminate.
  - split. apply check_good; auto. simpl. split. intros x; rewrite norm_in, in_app_iff; tauto. split. intros x; rewrite norm_in, in_app_iff; tauto. split. tauto. rewrite !(Permutation_length (norm_perm ops _)), !app_length. auto.
Qed.

(** Removing different names which are all there: the difference *)
Theorem C44_remove_partial : forall (e : environment V) t, good e -> NoDup t -> (forall x, In x t -> In x (e_vars e)) ->
  exists e', environment_remove ops e t = Some (Some e') /\ good e' /\ (forall x, In x (e_int e') <-> In x (e_int e) /\ ~ In x t) /\ (forall x, In x (e_real e') <-> In x (e_real e) /\ ~ In x t).
Proof. intros e t G D I. exists (env_minus ops e t). split. apply remove_ok; auto. split. apply minus_good; auto. split; intros x; apply minus_in. Qed.
Theorem C44_remove_absent : forall (e : environment V) t x, good e -> In x t -> ~ In x (e_vars e) -> environment_remove ops e t = Some None.
Proof. apply remove_absent. Qed.

(** Inclusion and equality *)
Theorem C44_is_leq : forall e1 e2 : environment V, good e1 -> good e2 -> (environment_is_leq ops e1 e2 = true <-> (forall x, In x (e_int e1) -> In x (e_int e2)) /\ (forall x, In x (e_real e1) -> In x (e_real e2))).
Proof.
  intros e1 e2 (A1 & B1 & _) (A2 & B2 & _). unfold environment_is_leq. rewrite !andb_true_iff, !is_leq_iff by auto. split. intros [[[_ _] I] R]. split; auto.
  intros [I R]. repeat split; auto; apply Nat.leb_le; apply NoDup_incl_length; auto; eapply ss_NoDup; eauto.
Qed.
Lemma same_vars_iff : forall a b : list V, length a = length b -> (same_vars ops a b = true <-> a = b).
Proof.
  induction a as [|x q IH]; intros [|y r] L; simpl in *; try discriminate. tauto. destruct (cmp ops x y =? 0) eqn:E.
  - apply Z.eqb_eq in E. apply (cmp_eq _ ops) in E. subst. rewrite IH by lia. split; congruence.
  - apply Z.eqb_neq in E. split; [discriminate|]. intros H. inversion H; subst. rewrite cmp_refl in E. lia.
Qed.
Theorem C44_is_eq : forall e1 e2 : environment V, environment_is_eq ops e1 e2 = true <-> e1 = e2.
Proof.
  intros [i1 r1] [i2 r2]. unfold environment_is_eq, e_vars. simpl. rewrite !andb_true_iff, !Nat.eqb_eq. split.
  - intros [[A B] C]. apply same_vars_iff in C; [|rewrite !app_length; lia]. revert i2 A C. induction i1 as [|x q IH]; intros [|y i2] A C; simpl in *; try discriminate. congruence. inversion C; subst. injection A as A. specialize (IH i2 A H1). congruence.
  - intros E. inversion E; subst. split; auto. apply same_vars_iff; auto.
Qed.

(** Least common environment: the union, unless a name is an integer in one and a real in the other *)
Definition clash (e1 e2 : environment V) : Prop := exists x, In x (e_int e1) /\ In x (e_real e2) \/ In x (e_int e2) /\ In x (e_real e1).
Definition is_union (e1 e2 e : environment V) : Prop := good e /\ (forall x, In x (e_int e) <-> In x (e_int e1) \/ In x (e_int e2)) /\ (forall x, In x (e_real e) <-> In x (e_real e1) \/ In x (e_real e2)).
Lemma inter_false : forall a b : list V, env_is_inter_empty ops a b = false -> exists x, In x a /\ In x b.
Proof.
  induction a as [|x q IH]; intros b. destruct b; discriminate. induction b as [|y r IHb]; intros H. discriminate.
  change (env_is_inter_empty ops (x :: q) (y :: r)) with (if cmp ops x y =? 0 then false else if 0 <? cmp ops x y then env_is_inter_empty ops (x :: q) r else env_is_inter_empty ops q (y :: r)) in H.
  destruct (cmp ops x y =? 0) eqn:E. apply Z.eqb_eq in E. apply (cmp_eq _ ops) in E. subst. exists y. simpl; auto. destruct (0 <? cmp ops x y). destruct (IHb H) as (z & Z1 & Z2). exists z. split; auto. right; auto. destruct (IH _ H) as (z & Z1 & Z2). exists z. split; auto. right; auto.
Qed.
Lemma compat_clash : forall e1 e2 : environment V, check_compatibility ops e1 e2 = true -> clash e1 e2.
Proof. intros e1 e2 H. unfold check_compatibility in H. apply negb_true_iff, andb_false_iff in H. destruct H as [H|H]; apply inter_false in H; destruct H as (x & A & B); exists x; auto. Qed.
Lemma compat_no_clash : forall e1 e2 : environment V, good e1 -> good e2 -> check_compatibility ops e1 e2 = false -> ~ clash e1 e2.
Proof. intros e1 e2 G1 G2 H (x & [[A B]|[A B]]); apply compat_iff in H; auto; destruct H as [H1 H2]; [apply (H1 x)|apply (H2 x)]; auto. Qed.
Lemma union_is : forall e1 e2 : environment V, good e1 -> good e2 -> check_compatibility ops e1 e2 = false -> is_union e1 e2 (union ops e1 e2).
Proof. intros. split. apply union_good; auto. split; intros; apply lce_in. Qed.
Lemma lce_env : forall e1 e2 e c1 c2, good e1 -> good e2 -> environment_lce ops e1 e2 = Some (e, c1, c2) ->
  check_compatibility ops e1 e2 = false /\ e = union ops e1 e2 /\ c1 = (if same_size e e1 then None else Some (lce_change ops e1 e)) /\ c2 = (if same_size e e2 then None else Some (lce_change ops e2 e)).
Proof.
  intros e1 e2 e c1 c2 G1 G2 H. unfold environment_lce in H. destruct (check_compatibility ops e1 e2) eqn:C; [discriminate|]. split; auto. fold (union ops e1 e2) in H. pose proof (union_good ops e1 e2 G1 G2 C) as GU. destruct (union_sub ops e1 e2) as [S1 S2].
  pose proof (same_size_eq ops _ _ G1 GU S1) as Q1. pose proof (same_size_eq ops _ _ G2 GU S2) as Q2. inversion H as [[E K1 K2]]. clear H.
  assert (EU : (if same_size (union ops e1 e2) e1 then e1 else if same_size (union ops e1 e2) e2 then e2 else union ops e1 e2) = union ops e1 e2). { destruct (same_size (union ops e1 e2) e1). symmetry; auto. destruct (same_size (union ops e1 e2) e2); auto. symmetry; auto. }
  rewrite EU. auto.
Qed.
Theorem C44_lce : forall e1 e2 : environment V, good e1 -> good e2 -> match environment_lce ops e1 e2 with
  | Some (e, _, _) => is_union e1 e2 e /\ ~ clash e1 e2
  | None => clash e1 e2
  end.
Proof.
  intros e1 e2 G1 G2. destruct (environment_lce ops e1 e2) as [[[e c1] c2]|] eqn:H.
  - destruct (lce_env _ _ _ _ _ G1 G2 H) as (C & -> & _). split. apply union_is; auto. apply compat_no_clash; auto.
  - unfold environment_lce in H. destruct (check_compatibility ops e1 e2) eqn:C; [|discriminate]. apply compat_clash; auto.
Qed.
Definition subenv (e1 e2 : environment V) : Prop := (forall x, In x (e_int e1) -> In x (e_int e2)) /\ (forall x, In x (e_real e1) -> In x (e_real e2)).
Lemma same_size_sub : forall e1 e2, good e1 -> good e2 -> check_compatibility ops e1 e2 = false -> (same_size (union ops e1 e2) e1 = true <-> subenv e2 e1) /\ (same_size (union ops e1 e2) e2 = true <-> subenv e1 e2).
Proof.
  intros e1 e2 G1 G2 C. pose proof (union_good ops e1 e2 G1 G2 C) as GU. destruct (union_sub ops e1 e2) as [S1 S2]. split; split.
  - intros H. apply (same_size_eq ops) in H; auto. rewrite <- H. exact S2.
  - intros [I R]. replace (union ops e1 e2) with e1. apply same_size_refl. destruct e1 as [i1 r1]. unfold union. simpl in *. destruct G1 as (A & B & _), GU as (A' & B' & _). simpl in *. f_equal; apply (ss_ext ops); auto; intros x; rewrite lce_in; split; auto; intros [|]; auto.
  - intros H. apply (same_size_eq ops) in H; auto. rewrite <- H. exact S1.
  - intros [I R]. replace (union ops e1 e2) with e2. apply same_size_refl. destruct e2 as [i1 r1]. unfold union. simpl in *. destruct G2 as (A & B & _), GU as (A' & B' & _). simpl in *. f_equal; apply (ss_ext ops); auto; intros x; rewrite lce_in; split; auto; intros [|]; auto.
Qed.
Theorem C44_compare : forall e1 e2 : environment V, good e1 -> good e2 ->
  (environment_compare ops e1 e2 = -2 <-> clash e1 e2) /\ (environment_compare ops e1 e2 = 0 <-> e1 = e2) /\
  (environment_compare ops e1 e2 = -1 <-> subenv e1 e2 /\ ~ subenv e2 e1) /\ (environment_compare ops e1 e2 = 1 <-> subenv e2 e1 /\ ~ subenv e1 e2) /\
  (environment_compare ops e1 e2 = 2 <-> ~ clash e1 e2 /\ ~ subenv e1 e2 /\ ~ subenv e2 e1).
Proof.
  intros e1 e2 G1 G2. assert (ANTI : subenv e1 e2 -> subenv e2 e1 -> e1 = e2). { destruct e1 as [i1 r1], e2 as [i2 r2], G1 as (A & B & _), G2 as (A' & B' & _). intros [P Q] [P' Q']. simpl in *. f_equal; apply (ss_ext ops); auto; split; auto. }
  assert (REF : forall e : environment V, subenv e e) by (split; auto). assert (NC : subenv e1 e2 \/ subenv e2 e1 -> ~ clash e1 e2). { destruct G1 as (_ & _ & D1), G2 as (_ & _ & D2). intros [[P Q]|[P Q]] (x & [[K L]|[K L]]); [apply (D2 x)|apply (D2 x)|apply (D1 x)|apply (D1 x)]; auto. }
  assert (EQ : e1 = e2 <-> subenv e1 e2 /\ subenv e2 e1) by (split; [intros <-; auto|intros [? ?]; auto]). rewrite EQ.
  unfold environment_compare. pose proof (C44_lce e1 e2 G1 G2) as L. destruct (environment_lce ops e1 e2) as [[[e c1] c2]|] eqn:H.
  - destruct L as [_ L]. destruct (lce_env _ _ _ _ _ G1 G2 H) as (C & -> & E1 & E2). destruct (same_size_sub e1 e2 G1 G2 C) as [S1 S2]. clear - L E1 E2 S1 S2. revert L S1 S2. generalize (subenv e1 e2) (subenv e2 e1) (clash e1 e2). intros P Q K L S1 S2.
    rewrite E1, E2. destruct (same_size (union ops e1 e2) e1), (same_size (union ops e1 e2) e2); intuition (try congruence; try lia).
  - revert NC L. clear. generalize (subenv e1 e2) (subenv e2 e1) (clash e1 e2). intros P Q K NC L. intuition (try congruence; try lia).
Qed.

(** ** C45 *)
(** A change of dimension takes the names of e1 to the same names in e; the others are new. *)
Definition moves (e1 e : environment V) (c : dchange) : Prop :=
  box_add_ok (e_dim e1) (dc_pos c) /\ e_dim e = (e_dim e1 + length (dc_pos c))%nat /\ length (e_int e) = (length (e_int e1) + dc_int c)%nat /\
  (forall p, In p (firstn (dc_int c) (dc_pos c)) -> (p <= length (e_int e1))%nat) /\ (forall p, In p (skipn (dc_int c) (dc_pos c)) -> (length (e_int e1) <= p)%nat) /\
  forall x v, nth_error (e_vars e1) x = Some v -> nth_error (e_vars e) (x + cle (dc_pos c) x) = Some v.
Lemma posn_moves : forall e1 e : environment V, good e1 -> good e -> sub e1 e -> moves e1 e (mkDC (length (e_int e) - length (e_int e1)) (posn ops e1 e)).
Proof.
  intros e1 e G1 G S. destruct (posn_wf ops e1 e G1 G S) as (A & B & C & D & E & F). assert (L : (length (e_int e1) <= length (e_int e))%nat). { apply NoDup_incl_length; [|apply S]. eapply ss_NoDup. apply G1. }
  split. split; auto. simpl. split. lia. split. lia. split; auto. split; auto. intros x v. apply posn_shift; auto.
Qed.
Theorem C45_dimchange : forall e1 e : environment V, good e1 -> good e -> subenv e1 e -> exists c, environment_dimchange ops e1 e = Some (Some c) /\ moves e1 e c.
Proof. intros e1 e G1 G S. exists (mkDC (length (e_int e) - length (e_int e1)) (posn ops e1 e)). split. apply dimchange_ok; auto. apply posn_moves; auto. Qed.
(** of the least common environment; no change: the environment is the same *)
Definition change_ok (e1 e : environment V) (c : option (option dchange)) : Prop :=
  match c with None => e1 = e | Some None => False | Some (Some c) => moves e1 e c end.
Lemma lce_change_moves : forall e1 e : environment V, good e1 -> good e -> sub e1 e -> change_ok e1 e (if same_size e e1 then None else Some (lce_change ops e1 e)).
Proof.
  intros e1 e G1 G S. destruct (same_size e e1) eqn:E; simpl. symmetry. apply (same_size_eq ops); auto. destruct (both_ok ops e1 e G1 G S) as [_ ->]. apply posn_moves; auto.
Qed.
Theorem C45_lce : forall (e1 e2 e : environment V) c1 c2, good e1 -> good e2 -> environment_lce ops e1 e2 = Some (e, c1, c2) -> change_ok e1 e c1 /\ change_ok e2 e c2.
Proof.
  intros e1 e2 e c1 c2 G1 G2 H. destruct (lce_env _ _ _ _ _ G1 G2 H) as (C & -> & -> & ->). destruct (union_sub ops e1 e2). split; apply lce_change_moves; auto; apply union_good; auto.
Qed.
(** Change from any environment to another: dimensions are added, then removed.  The dimension
    x of e1 becomes x + cle a x; the dimension y which remains becomes y - clt r y. *)
Definition dims (c : option (option dchange)) : option (list nat) := match c with None => Some [] | Some (Some c) => Some (dc_pos c) | Some None => None end.
Theorem C45_dimchange2 : forall e1 e2 : environment V, good e1 -> good e2 -> match environment_dimchange2 ops e1 e2 with
  | None => clash e1 e2
  | Some (ca, cr) => exists a r, dims ca = Some a /\ dims cr = Some r /\ box_add_ok (e_dim e1) a /\ box_rem_ok (e_dim e1 + length a) r /\ (e_dim e1 + length a = e_dim e2 + length r)%nat /\
      forall z v, nth_error (e_vars e2) z = Some v -> exists y, (y < e_dim e1 + length a)%nat /\ ~ In y r /\ (y - clt r y = z)%nat /\ (forall x, nth_error (e_vars e1) x = Some v -> (x + cle a x = y)%nat) /\
        (~ In v (e_vars e1) -> forall x, (x < e_dim e1)%nat -> (x + cle a x <> y)%nat)
  end.
Proof.
  intros e1 e2 G1 G2. unfold environment_dimchange2. destruct (check_compatibility ops e1 e2) eqn:C. apply compat_clash; auto. fold (union ops e1 e2). set (e := union ops e1 e2). assert (G : good e) by (apply union_good; auto). destruct (union_sub ops e1 e2) as [S1 S2]. fold e in S1, S2.
  pose proof (lce_change_moves e1 e G1 G S1) as M1. pose proof (lce_change_moves e2 e G2 G S2) as M2. set (c1 := if same_size e e1 then None else Some (lce_change ops e1 e)) in *. set (c2 := if same_size e e2 then None else Some (lce_change ops e2 e)) in *.
  assert (N : forall e0 c, change_ok e0 e c -> exists a, dims c = Some a /\ box_add_ok (e_dim e0) a /\ e_dim e = (e_dim e0 + length a)%nat /\ forall x v, nth_error (e_vars e0) x = Some v -> nth_error (e_vars e) (x + cle a x) = Some v).
  { intros e0 [[c|]|] K; simpl in K. destruct K as (K1 & K2 & _ & _ & _ & K6). exists (dc_pos c). auto. tauto. subst e0. exists []. split; auto. split. split. constructor. intros p []. split. simpl; lia. intros x v X. unfold cle. simpl. rewrite Nat.add_0_r. auto. }
  destruct (N e1 c1 M1) as (a & A1 & A2 & A3 & A4). destruct (N e2 c2 M2) as (b & B1 & B2 & B3 & B4).
  exists a, (dimchange_add_invert b). split; [exact A1|]. split. { unfold c2 in B1. destruct (same_size e e2); simpl in *. inversion B1; auto. destruct (lce_change ops e2 e); simpl in *; [|discriminate]. inversion B1; auto. }
  split; [exact A2|]. split. { rewrite <- A3, B3. apply invert_wf; auto. } unfold dimchange_add_invert at 1. rewrite add_invert_length. split; [lia|].
  intros z v Z. exists (z + cle b z)%nat. pose proof (B4 z v Z) as W. destruct (invert_shift b z (proj1 B2)) as [I1 I2]. split. { assert (z + cle b z < length (e_vars e))%nat by (apply nth_error_Some; congruence). unfold e_vars in H. rewrite app_length in H. rewrite <- A3. unfold e_dim. lia. }
  split; auto. split. rewrite I2. lia. pose proof (good_nodup ops e G) as ND. rewrite NoDup_nth_error in ND. split.
  - intros x X. apply A4 in X. apply ND. apply nth_error_Some. congruence. congruence.
  - intros NI x X E. destruct (nth_error (e_vars e1) x) as [u|] eqn:U. 2: { apply nth_error_None in U. unfold e_vars in U. rewrite app_length in U. unfold e_dim in X. lia. } pose proof (A4 x u U) as K. rewrite E in K. rewrite W in K. inversion K; subst u. apply NI. eapply nth_error_In; eauto.
Qed.
(** Permutations: adding names behind the integer and the real ones, then permuting *)
Theorem C45_add_perm : forall (e : environment V) vi vr, match environment_add_perm ops e vi vr with
  | None => environment_add ops e vi vr = None
  | Some (e', perm) => environment_add ops e vi vr = Some e' /\ is_perm (e_dim e') perm /\
      forall x v, nth_error ((e_int e ++ vi) ++ e_real e ++ vr) x = Some v -> nth_error (e_vars e') (nth x perm 0%nat) = Some v
  end.
Proof.
  intros e vi vr. unfold environment_add_perm, environment_add, env_add. destruct (env_normalize_perm ops (e_int e ++ vi)) as [i p] eqn:E1. destruct (env_normalize_perm ops (e_real e ++ vr)) as [r q] eqn:E2.
  destruct (norm_perm_ok ops _ _ _ E1) as (-> & _ & _). destruct (norm_perm_ok ops _ _ _ E2) as (-> & _ & _). destruct (environment_check ops _); auto. split; auto. destruct (both_perm ops _ _ _ _ _ _ E1 E2) as [P Q]. split; auto.
  unfold e_dim. simpl. rewrite !(Permutation_length (norm_perm ops _)). auto.
Qed.
Lemma Forall2_length : forall A B (R : A -> B -> Prop) l m, Forall2 R l m -> length l = length m.
Proof. intros A B R l m H. induction H; simpl; auto. Qed.
(** Renaming [l], pairs of an old and a new name *)
Theorem C45_rename : forall (e : environment V) l, good e -> NoDup (map fst l) -> match environment_rename ops e l with
  | Some (e', perm) => good e' /\ is_perm (e_dim e) perm /\ length (e_int e') = length (e_int e) /\ e_dim e' = e_dim e /\ (forall x, In x (map fst l) -> In x (e_vars e)) /\
      (forall x, (x < e_dim e)%nat -> ((nth x perm 0 < length (e_int e))%nat <-> (x < length (e_int e))%nat)) /\
      forall x v w, nth_error (e_vars e) x = Some v -> (In (v, w) l \/ ~ In v (map fst l) /\ w = v) -> nth_error (e_vars e') (nth x perm 0%nat) = Some w
  | None => (exists x, In x (map fst l) /\ ~ In x (e_vars e)) \/
            forall ws, Forall2 (fun v w => In (v, w) l \/ ~ In v (map fst l) /\ w = v) (e_vars e) ws -> ~ NoDup ws
  end.
Proof.
  intros e l G D. unfold environment_rename. pose proof (rename_loop_ok ops e G l (repeat None (e_dim e)) (repeat_length _ _) D) as R. destruct (rename_loop ops e l (repeat None (e_dim e))) as [arr|] eqn:E; [|left; auto].
  pose proof (rename_values ops e l arr G D E) as F. set (vs := map _ (combine arr (e_vars e))) in *. set (n := length (e_int e)). destruct R as (_ & I & _).
  destruct (env_normalize_perm ops (firstn n vs)) as [i p] eqn:E1. destruct (env_normalize_perm ops (skipn n vs)) as [r q] eqn:E2. destruct (norm_perm_ok ops _ _ _ E1) as (-> & IP & _). destruct (norm_perm_ok ops _ _ _ E2) as (-> & IQ & _).
  assert (LV : length vs = e_dim e). { rewrite <- (Forall2_length _ _ _ _ _ F). unfold e_vars, e_dim. apply app_length. } assert (LF : length (firstn n vs) = n). { rewrite firstn_length, LV. unfold n, e_dim. lia. }
  pose proof (norm_good (firstn n vs) (skipn n vs)) as N. rewrite firstn_skipn in N. destruct (environment_check ops _) eqn:C.
  - right. intros ws W. assert (ws = vs). { clear - W F D. revert ws W. induction F; intros ws W; inversion W; subst; auto. f_equal; auto. eapply renamed_fun; eauto. } subst. intros ND. apply N in ND. discriminate.
  - split. apply check_good; auto. destruct (both_perm ops _ _ _ _ _ _ E1 E2) as [P Q]. rewrite LF, firstn_skipn in *. split. rewrite skipn_length, LV in P. replace (n + (e_dim e - n))%nat with (e_dim e) in P by (unfold n, e_dim; lia). auto.
    unfold e_dim at 1. simpl. rewrite !(Permutation_length (norm_perm ops _)), LF, skipn_length, LV. split; auto. split. unfold n, e_dim; lia. split; auto. split.
    { intros x LX. destruct IP as (IP1 & IP2 & _). destruct IQ as (IQ1 & _). rewrite skipn_length, LV in IQ1. fold n. destruct (Nat.lt_ge_cases x n) as [XN|XN]. rewrite app_nth1 by lia. split; auto. rewrite app_nth2 by lia. rewrite (nth_indep _ 0%nat (n + 0)%nat) by (rewrite map_length; unfold n, e_dim in *; lia). rewrite map_nth. lia. }
    intros x v w X W. unfold e_vars. simpl. apply Q. clear - F X W D. revert x X. induction F; intros [|x0] X; simpl in *; try discriminate. inversion X; subst. f_equal. eapply renamed_fun; eauto. auto.
Qed.

(** Least common environment of an array *)
Theorem C44_lce_array : forall t : list (environment V), Forall good t -> match environment_lce_array ops t with
  | Some (e, cs) => good e /\ (forall x, In x (e_int e) <-> exists e1, In e1 t /\ In x (e_int e1)) /\ (forall x, In x (e_real e) <-> exists e1, In e1 t /\ In x (e_real e1)) /\ Forall2 (fun e1 c => change_ok e1 e c) t cs
  | None => exists e1 e2 x, In e1 t /\ In e2 t /\ In x (e_int e1) /\ In x (e_real e2)
  end.
Proof.
  intros t G. unfold environment_lce_array, env_lce_array. set (e := mkEnv _ _).
  assert (SI : Forall (ApEnvFacts.ss ops) (map e_int t)). { apply Forall_map. eapply Forall_impl; [|exact G]. intros a A. apply A. } assert (SR : Forall (ApEnvFacts.ss ops) (map e_real t)). { apply Forall_map. eapply Forall_impl; [|exact G]. intros a A. apply A. }
  destruct (lce_array_spec ops _ (map e_int t) SI (le_n _)) as [A1 A2]. destruct (lce_array_spec ops _ (map e_real t) SR (le_n _)) as [B1 B2].
  assert (II : forall x, In x (e_int e) <-> exists e1, In e1 t /\ In x (e_int e1)). { intros x. unfold e. cbn [e_int]. rewrite A2, in_concat. split. intros (l & L & X). apply in_map_iff in L. destruct L as (e1 & <- & L). eauto. intros (e1 & L & X). exists (e_int e1). split; auto. apply in_map; auto. }
  assert (RR : forall x, In x (e_real e) <-> exists e1, In e1 t /\ In x (e_real e1)). { intros x. unfold e. cbn [e_real]. rewrite B2, in_concat. split. intros (l & L & X). apply in_map_iff in L. destruct L as (e1 & <- & L). eauto. intros (e1 & L & X). exists (e_real e1). split; auto. apply in_map; auto. }
  destruct (environment_check ops e) eqn:C.
  - unfold environment_check in C. replace (env_check ops (e_int e)) with false in C by (symmetry; apply check_iff; exact A1). replace (env_check ops (e_real e)) with false in C by (symmetry; apply check_iff; exact B1). apply negb_true_iff, inter_false in C. destruct C as (x & X & Y). apply II in X. apply RR in Y. destruct X as (e1 & ? & ?), Y as (e2 & ? & ?). exists e1, e2, x. auto.
  - apply check_good in C. split; auto. split; auto. split; auto. rewrite Forall_forall in G. assert (S : forall e1, In e1 t -> sub e1 e). { intros e1 K. split; intros x X; [apply II|apply RR]; eauto. }
    assert (K : forall l, incl l t -> Forall2 (fun e1 c => change_ok e1 e c) l (map (fun e1 => if same_size e e1 then None else Some (lce_change ops e1 e)) l)). { induction l as [|e1 q IH]; intros K; simpl; constructor. apply lce_change_moves; auto. apply G, K; left; auto. apply S, K; left; auto. apply IH. intros z Z. apply K; right; auto. }
    apply K. apply incl_refl.
Qed.
End Env.

(** ** Examples and refutations *)
Lemma zgood : forall e : environment Z, environment_check zops e = false -> good zops e.
Proof. intros. apply check_good; auto. Qed.
Example C44_add_ex : environment_add zops (env [2; 5] [3]) [4; 1] [9] = Some (env [1; 2; 4; 5] [3; 9]) /\ environment_add zops (env [2; 5] [3]) [3] [] = None /\ environment_add zops (env [2; 5] []) [7; 7] [] = None.
Proof. repeat split. Qed.
Example C44_remove_ex : environment_remove zops (env [2; 5] [3; 4]) [4; 2] = Some (Some (env [5] [3])) /\ environment_remove zops (env [2; 5] [3; 4]) [4; 7] = Some None.
Proof. split; reflexivity. Qed.
Example C44_lce_ex : environment_lce zops (env [2; 5] [7]) (env [1; 5] [6; 8]) = Some (env [1; 2; 5] [6; 7; 8], Some (Some (mkDC 1 [0; 2; 3]%nat)), Some (Some (mkDC 1 [1; 3]%nat))) /\
  environment_lce zops (env [2; 5] [7]) (env [7] []) = None /\ environment_compare zops (env [2; 5] [7]) (env [5] []) = 1 /\ environment_compare zops (env [2] []) (env [2] [4]) = -1.
Proof. repeat split. Qed.
Example C44_lce_array_ex : option_map fst (environment_lce_array zops [env [2; 5] [7]; env [1; 5] [6; 8]; env [] [0; 7]]) = Some (env [1; 2; 5] [0; 6; 7; 8]).
Proof. reflexivity. Qed.
Example C45_dimchange_ex : environment_dimchange zops (env [2; 5] [7]) (env [1; 2; 5] [6; 7; 8]) = Some (Some (mkDC 1 [0; 2; 3]%nat)).
Proof. reflexivity. Qed.
Example C45_dimchange2_ex : environment_dimchange2 zops (env [2; 5] [7]) (env [1; 5] [6; 8]) = Some (Some (Some (mkDC 1 [0; 2; 3]%nat)), Some (Some (mkDC 1 [1; 4]%nat))).
Proof. reflexivity. Qed.
Example C45_add_perm_ex : environment_add_perm zops (env [2; 5] [7]) [1] [3; 9] = Some (env [1; 2; 5] [3; 7; 9], [1; 2; 0; 4; 3; 5]%nat).
Proof. reflexivity. Qed.
Example C45_rename_ex : environment_rename zops (env [2; 5] [7]) [(2, 8); (7, 1)] = Some (env [5; 8] [1], [1; 0; 2]%nat) /\ environment_rename zops (env [2; 5] [7]) [(2, 5); (5, 2)] = Some (env [2; 5] [7], [1; 0; 2]%nat) /\
  environment_rename zops (env [2; 5] [7]) [(2, 7)] = None /\ environment_rename zops (env [2; 5] [7]) [(3, 4)] = None.
Proof. repeat split. Qed.
Example good_ex : good zops (env [2; 5] [7]) /\ good zops (env [1; 5] [6; 8]) /\ good zops (env [1; 2; 5] [6; 7; 8]).
Proof. repeat split; apply zgood; reflexivity. Qed.

(** Removing a name given twice: an assertion fails, or the answer is NULL as for an absent name *)
Theorem C44_remove_twice_refuted : exists (e : environment Z) t, good zops e /\ (forall x, In x t -> In x (e_vars e)) /\ environment_remove zops e t = None.
Proof. exists (env [1; 2; 3] []), [1; 1]. split. apply zgood; reflexivity. split. intros x X. simpl in *. intuition lia. reflexivity. Qed.
Theorem C44_remove_twice_null_refuted : exists (e : environment Z) t, good zops e /\ (forall x, In x t -> In x (e_vars e)) /\ environment_remove zops e t = Some None.
Proof. exists (env [1; 2] []), [1; 1]. split. apply zgood; reflexivity. split. intros x X. simpl in *. intuition lia. reflexivity. Qed.
(** A change of dimension although a name of the first environment is not in the second *)
Theorem C45_dimchange_refuted : exists e1 e : environment Z, good zops e1 /\ good zops e /\ ~ subenv e1 e /\ exists c, environment_dimchange zops e1 e = Some (Some c).
Proof.
  exists (env [2; 3] []), (env [1; 2] [9]). split; [apply zgood; reflexivity|]. split; [apply zgood; reflexivity|]. split. intros [H _]. specialize (H 3 ltac:(simpl; auto)). simpl in H. lia. eexists. reflexivity.
Qed.
(** ... or the array of positions is written outside of its bounds *)
Theorem C45_dimchange_bounds_refuted : exists e1 e : environment Z, good zops e1 /\ good zops e /\ ~ subenv e1 e /\ environment_dimchange zops e1 e = None.
Proof.
  exists (env [2; 3] []), (env [1; 2] []). split; [apply zgood; reflexivity|]. split; [apply zgood; reflexivity|]. split. intros [H _]. specialize (H 3 ltac:(simpl; auto)). simpl in H. lia. reflexivity.
Qed.
Print Assumptions C44_check.
Print Assumptions C44_add.
Print Assumptions C44_remove_partial.
Print Assumptions C44_remove_absent.
Print Assumptions C44_is_leq.
Print Assumptions C44_is_eq.
Print Assumptions C44_lce.
Print Assumptions C44_compare.
Print Assumptions C44_lce_array.
Print Assumptions C45_dimchange.
Print Assumptions C45_lce.
Print Assumptions C45_dimchange2.
Print Assumptions C45_add_perm.
Print Assumptions C45_rename.

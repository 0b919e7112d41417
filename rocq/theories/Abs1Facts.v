(** Facts about abstract values with named variables (Abs1.v). *)
From Coq Require Import Arith ZArith Bool List Lia Sorted Permutation Reals.
From Verif Require Import Linexpr ApCore ApCoreDim ApEnv ApEnvFacts ApEnvFacts2 PropApEnv ApCheck PropApCheck OctResize2 OctResize3 BoxDims Abs1.
Import ListNotations.
Local Open Scope nat_scope.

(** What is asked from a domain: [gam a v] says that the point v belongs to a.  Each operation contains the set which
    it computes; with [ex] = true it is equal to it.  [inv] is kept by all operations. *)
Section Spec.
Context (ex : bool) (D : dom0) (inv : dv D -> Prop) (gam : dv D -> (nat -> R) -> Prop).
Definition dd (a : dv D) : nat := d_int D a + d_real D a.
Definition outc (r : dv D) (i j : nat) (P : (nat -> R) -> Prop) : Prop :=
  inv r /\ d_int D r = i /\ d_real D r = j /\ forall v, (P v -> gam r v) /\ (ex = true -> gam r v -> P v).
Record dspec : Prop := mkDS {
  s_ext : forall a v w, inv a -> (forall x, x < dd a -> v x = w x) -> gam a v -> gam a w;
  s_top : forall i j, outc (d_top D i j) i j (fun _ => True);
  s_meet : forall a b, inv a -> inv b -> d_int D a = d_int D b -> d_real D a = d_real D b -> outc (d_meet D a b) (d_int D a) (d_real D a) (fun v => gam a v /\ gam b v);
  s_join : forall a b, inv a -> inv b -> d_int D a = d_int D b -> d_real D a = d_real D b ->
    (inv (d_join D a b) /\ d_int D (d_join D a b) = d_int D a /\ d_real D (d_join D a b) = d_real D a) /\ (forall v, gam a v \/ gam b v -> gam (d_join D a b) v) /\
    (ex = true -> forall c, inv c -> d_int D c = d_int D a -> d_real D c = d_real D a -> (forall v, gam a v \/ gam b v -> gam c v) -> forall v, gam (d_join D a b) v -> gam c v);
  s_forget : forall a tdim pr, inv a -> (forall t, In t tdim -> t < dd a) ->
    outc (d_forget D a tdim pr) (d_int D a) (d_real D a) (fun w => exists v, gam a v /\ forall x, x < dd a -> (~ In x tdim -> w x = v x) /\ (In x tdim -> pr = true -> w x = 0%R));
  s_add : forall a pos ni pr, inv a -> box_add_ok (dd a) pos -> ni <= length pos ->
    outc (d_add D a pos ni pr) (d_int D a + ni) (d_real D a + (length pos - ni)) (fun w => gam a (fun x => w (x + cle pos x)) /\ (pr = true -> forall t, t < length pos -> w (t + nth t pos 0) = 0%R));
  s_remove : forall a pos ni, inv a -> box_rem_ok (dd a) pos -> ni <= length pos -> ni <= d_int D a -> length pos - ni <= d_real D a ->
    outc (d_remove D a pos ni) (d_int D a - ni) (d_real D a - (length pos - ni)) (fun w => exists v, gam a v /\ forall x, x < dd a -> ~ In x pos -> w (x - clt pos x) = v x);
  s_permute : forall a perm, inv a -> is_perm (dd a) perm -> outc (d_permute D a perm) (d_int D a) (d_real D a) (fun w => gam a (fun x => w (nth x perm 0)));
  s_expand : forall a d n, inv a -> d < dd a ->
    let off := if d <? d_int D a then d_int D a else dd a in let sh x := if x <? off then x else x + n in
    outc (d_expand D a d n) (if d <? d_int D a then d_int D a + n else d_int D a) (if d <? d_int D a then d_real D a else d_real D a + n)
      (fun w => gam a (fun x => w (sh x)) /\ forall k, k < n -> gam a (fun x => if x =? d then w (off + k) else w (sh x)));
  s_fold : forall a t0 ts, inv a -> box_fold_ok (dd a) t0 ts -> (t0 < d_int D a -> forall t, In t ts -> t < d_int D a) ->
    let r := d_fold D a t0 ts in
    (inv r /\ d_int D r = (if t0 <? d_int D a then d_int D a - length ts else d_int D a) /\ d_real D r = (if t0 <? d_int D a then d_real D a else d_real D a - length ts)) /\
    (forall t v w, In t (t0 :: ts) -> gam a v -> box_folded (dd a) t0 ts t v w -> gam r w) /\
    (ex = true -> forall c, inv c -> d_int D c = d_int D r -> d_real D c = d_real D r -> (forall t v w, In t (t0 :: ts) -> gam a v -> box_folded (dd a) t0 ts t v w -> gam c w) -> forall w, gam r w -> gam c w);
  s_uncon : forall a d v w, inv a -> d < dd a -> d_uncon D a d = true -> gam a v -> (forall x, x < dd a -> x <> d -> w x = v x) -> gam a w }.
End Spec.
Arguments outc ex {D}.
Arguments dd {D}.

Lemma nth_error_ext' : forall A (l m : list A), (forall d, nth_error l d = nth_error m d) -> l = m.
Proof. induction l as [|x q IH]; intros [|y r] H; auto; try (specialize (H 0); discriminate). assert (K := H 0). simpl in K. injection K as <-. f_equal. apply IH. intros d. apply (H (S d)). Qed.
Section Names.
Context {V : Type} (ops : vops V).
Notation good := (ApEnvFacts.good ops).
(** the point of a valuation of the variables *)
Definition at_list (l : list V) (rho : V -> R) (d : nat) : R := match nth_error l d with Some v => rho v | None => 0%R end.
Definition at_env (e : environment V) : (V -> R) -> nat -> R := at_list (e_vars e).
Lemma e_vars_len : forall e : environment V, length (e_vars e) = e_dim e.
Proof. intros. unfold e_vars, e_dim. apply app_length. Qed.
Lemma lt_var : forall (e : environment V) d, d < e_dim e -> exists v, nth_error (e_vars e) d = Some v.
Proof. intros e d L. destruct (nth_error (e_vars e) d) eqn:E; eauto. apply nth_error_None in E. rewrite e_vars_len in E. lia. Qed.
Lemma var_lt : forall (e : environment V) d v, nth_error (e_vars e) d = Some v -> d < e_dim e /\ In v (e_vars e).
Proof. intros e d v E. split. rewrite <- e_vars_len. apply nth_error_Some. congruence. eapply nth_error_In; eauto. Qed.
Lemma at_var : forall (e : environment V) d v rho, nth_error (e_vars e) d = Some v -> at_env e rho d = rho v.
Proof. intros e d v rho E. unfold at_env, at_list. rewrite E. reflexivity. Qed.
Lemma var_inj : forall (e : environment V) c d v, good e -> nth_error (e_vars e) c = Some v -> nth_error (e_vars e) d = Some v -> c = d.
Proof. intros e c d v G C E. pose proof (good_nodup ops e G) as ND. rewrite NoDup_nth_error in ND. apply ND. apply nth_error_Some; congruence. congruence. Qed.
(** each point is the point of a valuation, which may be chosen outside of the environment *)
Lemma val_of : forall (e : environment V) v rho, good e -> exists sg, (forall d, d < e_dim e -> at_env e sg d = v d) /\ forall x, ~ In x (e_vars e) -> sg x = rho x.
Proof.
  intros e v rho G. exists (fun x => match dim_of_var ops e x with Some d => v d | None => rho x end). split.
  - intros d L. destruct (lt_var e d L) as (x & X). rewrite (at_var _ _ _ _ X). apply (dim_iff ops e x d G) in X. rewrite X. reflexivity.
  - intros x N. apply (dim_none ops) in N. rewrite N. reflexivity.
Qed.
Lemma at_agree : forall (e : environment V) rho sg, (forall x, In x (e_vars e) -> rho x = sg x) -> forall d, at_env e rho d = at_env e sg d.
Proof. intros e rho sg A d. unfold at_env, at_list. destruct (nth_error (e_vars e) d) eqn:E; auto. apply A. eapply nth_error_In; eauto. Qed.

(** ** A change of dimension, seen by names *)
Lemma moves_at : forall (e1 e : environment V) c rho x, moves e1 e c -> x < e_dim e1 -> at_env e rho (x + cle (dc_pos c) x) = at_env e1 rho x.
Proof. intros e1 e c rho x M L. destruct (lt_var e1 x L) as (v & E). rewrite (at_var _ _ _ _ E). destruct M as (_ & _ & _ & _ & _ & M). apply at_var. auto. Qed.
Lemma invert_nth : forall pos t, t < length pos -> In (t + nth t pos 0) (dimchange_add_invert pos).
Proof. intros pos t L. unfold dimchange_add_invert. assert (E := add_invert_nth pos 0 t L). replace (t + nth t pos 0) with (nth t (add_invert_from 0 pos) 0) by lia. apply nth_In. rewrite add_invert_length. exact L. Qed.
Lemma invert_cases : forall (e1 e : environment V) c y, moves e1 e c -> y < e_dim e -> (exists x, x < e_dim e1 /\ y = x + cle (dc_pos c) x /\ ~ In y (dimchange_add_invert (dc_pos c)) /\ y - clt (dimchange_add_invert (dc_pos c)) y = x) \/
  exists t, t < length (dc_pos c) /\ y = t + nth t (dc_pos c) 0 /\ In y (dimchange_add_invert (dc_pos c)).
Proof.
  intros e1 e c y M L. destruct M as ((S & B) & DM & _). rewrite DM in L. destruct (add_cover _ _ y S B L) as [(x & X & ->)|(t & T & ->)].
  - left. exists x. destruct (invert_shift (dc_pos c) x S) as (I & E). split; auto. split; auto. split; auto. rewrite E. lia.
  - right. exists t. split; auto. split; auto. apply invert_nth; auto.
Qed.
Lemma moves_new : forall (e1 e : environment V) c t, good e -> moves e1 e c -> t < length (dc_pos c) -> exists v, nth_error (e_vars e) (t + nth t (dc_pos c) 0) = Some v /\ ~ In v (e_vars e1).
Proof.
  intros e1 e c t G M T. pose proof M as ((S & B) & DM & _ & _ & _ & F). assert (L : t + nth t (dc_pos c) 0 < e_dim e). { specialize (B _ (nth_In (dc_pos c) 0 T)). lia. }
  destruct (lt_var e _ L) as (v & E). exists v. split; auto. intros I. apply In_nth_error in I. destruct I as (x & X). assert (K := F x v X). assert (Q := var_inj e _ _ v G K E). destruct (invert_shift (dc_pos c) x S) as (NI & _). apply NI. rewrite Q. apply invert_nth; auto.
Qed.
Lemma moves_var : forall (e1 e : environment V) c v, moves e1 e c -> In v (e_vars e) -> ~ In v (e_vars e1) -> exists t, t < length (dc_pos c) /\ nth_error (e_vars e) (t + nth t (dc_pos c) 0) = Some v.
Proof.
  intros e1 e c v M I N. apply In_nth_error in I. destruct I as (y & Y). destruct (var_lt _ _ _ Y) as (L & _). destruct (invert_cases e1 e c y M L) as [(x & X & -> & _)|(t & T & -> & _)]; eauto.
  exfalso. destruct (lt_var e1 x X) as (u & U). destruct M as (_ & _ & _ & _ & _ & F). assert (K := F x u U). apply N. assert (u = v) by congruence. subst u. eapply nth_error_In; eauto.
Qed.
Lemma moves_sub : forall (e1 e : environment V) c v, moves e1 e c -> In v (e_vars e1) -> In v (e_vars e).
Proof. intros e1 e c v M I. apply In_nth_error in I. destruct I as (x & X). destruct M as (_ & _ & _ & _ & _ & F). eapply nth_error_In. eapply F; eauto. Qed.
Lemma sub_real : forall e1 e : environment V, good e1 -> sub e1 e -> length (e_real e1) <= length (e_real e) /\ length (e_int e1) <= length (e_int e).
Proof. intros e1 e (A & B & _) (I & J). split; apply NoDup_incl_length; auto; eapply ss_NoDup; eauto. Qed.
Definition fits (e1 e : environment V) (c : dchange) : Prop := dc_int c <= length (dc_pos c) /\ length (e_real e) = length (e_real e1) + (length (dc_pos c) - dc_int c).
Lemma moves_fits : forall (e1 e : environment V) c, good e1 -> sub e1 e -> moves e1 e c -> fits e1 e c.
Proof. intros e1 e c G S M. destruct (sub_real e1 e G S) as (A & B). destruct M as (_ & M & L & _). unfold e_dim in M. split; lia. Qed.
Lemma moves_id : forall (e1 e : environment V) c, moves e1 e c -> dc_pos c = [] -> e_vars e = e_vars e1.
Proof.
  intros e1 e c M Z. destruct M as (_ & DM & _ & _ & _ & F). rewrite Z in *. simpl in DM. apply nth_error_ext'. intros d. destruct (nth_error (e_vars e1) d) as [v|] eqn:E.
  - apply F in E. unfold cle in E. simpl in E. rewrite Nat.add_0_r in E. auto.
  - apply nth_error_None in E. apply nth_error_None. rewrite e_vars_len in *. lia.
Qed.
(** the requests of the changes of dimension are accepted *)
Lemma moves_request : forall (e1 e : environment V) c, moves e1 e c -> add_request (length (e_int e1), length (e_real e1)) (dc_int c) (dc_pos c).
Proof.
  intros e1 e c ((S & B) & _ & _ & F1 & F2 & _). split; auto. split. intros p P. apply B in P. unfold e_dim in P. simpl. lia. intros i L. simpl. split; intros K.
  - apply F1. replace (nth i (dc_pos c) 0) with (nth i (firstn (dc_int c) (dc_pos c)) 0). apply nth_In. rewrite firstn_length. lia. rewrite <- (firstn_skipn (dc_int c) (dc_pos c)) at 2. rewrite app_nth1; auto. rewrite firstn_length. lia.
  - apply F2. assert (LF : length (firstn (dc_int c) (dc_pos c)) = dc_int c) by (rewrite firstn_length; lia). rewrite <- (firstn_skipn (dc_int c) (dc_pos c)) at 1. rewrite app_nth2 by lia. apply nth_In. rewrite skipn_length. lia.
Qed.
Lemma moves_invert_request : forall (e1 e : environment V) c, moves e1 e c -> fits e1 e c -> remove_request (length (e_int e), length (e_real e)) (dc_int c) (dimchange_add_invert (dc_pos c)).
Proof.
  intros e1 e c M (F1 & F2). pose proof (moves_request e1 e c M) as (_ & _ & R). destruct M as (OK & DM & LI & _). destruct (invert_wf _ _ OK) as (S & B). split; auto. simpl. split. intros p P. apply B in P. unfold e_dim in *. lia.
  unfold dimchange_add_invert. rewrite add_invert_length. intros i L. rewrite add_invert_nth by auto. destruct (R i L) as (R1 & R2). simpl in *. split; intros K. specialize (R1 K). lia. specialize (R2 K). lia.
Qed.
End Names.

Section Ops.
Context {V : Type} (ops : vops V) (ex : bool) (D : dom0) (inv : dv D -> Prop) (gam : dv D -> (nat -> R) -> Prop) (DS : dspec ex D inv gam).
Notation good := (ApEnvFacts.good ops).
(** a value with its dimensions, and the valuations in it *)
Definition fit (e : environment V) (a : dv D) : Prop := inv a /\ d_int D a = length (e_int e) /\ d_real D a = length (e_real e).
Definition outn (e : environment V) (r : bool * dv D) (P : (V -> R) -> Prop) : Prop :=
  fst r = false /\ fit e (snd r) /\ forall rho, (P rho -> gam (snd r) (at_env e rho)) /\ (ex = true -> gam (snd r) (at_env e rho) -> P rho).
Lemma fit_dd : forall (e : environment V) a, fit e a -> dd a = e_dim e.
Proof. intros e a (_ & A & B). unfold dd, e_dim. lia. Qed.
Lemma gam_ext : forall (e : environment V) a v w, fit e a -> (forall x, x < e_dim e -> v x = w x) -> gam a v -> gam a w.
Proof. intros e a v w F E. apply (s_ext _ _ _ _ DS); [apply F|]. rewrite (fit_dd e a F). auto. Qed.
Lemma gam_exti : forall (e : environment V) a v w, fit e a -> (forall x, x < e_dim e -> v x = w x) -> (gam a v <-> gam a w).
Proof. intros e a v w F E. split; eapply gam_ext; eauto. intros x L. symmetry. auto. Qed.
Lemma top_fit : forall e : environment V, fit e (snd (top1 D e)) /\ forall v, gam (snd (top1 D e)) v.
Proof. intros e. destruct (s_top _ _ _ _ DS (length (e_int e)) (length (e_real e))) as (A & B & C & G). simpl. split. split; auto. intros v. apply G; auto. Qed.

Lemma add_names : forall (e1 e : environment V) a c pr, fit e1 a -> good e -> moves e1 e c -> fits e1 e c ->
  outn e (a0_add D a c pr) (fun rho => gam a (at_env e1 rho) /\ (pr = true -> forall x, In x (e_vars e) -> ~ In x (e_vars e1) -> rho x = 0%R)).
Proof.
  intros e1 e a c pr FT G M (F1 & F2). pose proof (moves_request e1 e c M) as RQ. unfold a0_add, d_dim. pose proof FT as (I & A & B). destruct (dc_pos c) as [|p0 ps] eqn:EP.
  - simpl in F1. assert (EV := moves_id e1 e c M EP). split; auto. split. { split; auto. destruct M as (_ & DM & LI & _). rewrite EP in DM. simpl in *. unfold e_dim in DM. lia. }
    intros rho. unfold at_env. simpl. rewrite EV. split; [tauto|]. intros _ K. split; auto. intros _ x X N. tauto.
  - rewrite <- EP in *. clear p0 ps EP. assert (CK : check_dimchange_add (d_int D a, d_real D a) (dc_int c) (dc_pos c) = true). { rewrite A, B. apply C47_add_partial; auto. } rewrite CK. simpl.
    assert (OK : box_add_ok (dd a) (dc_pos c)) by (rewrite (fit_dd e1 a FT); apply M). destruct (s_add _ _ _ _ DS a (dc_pos c) (dc_int c) pr I OK F1) as (R1 & R2 & R3 & R4).
    assert (FR : fit e (d_add D a (dc_pos c) (dc_int c) pr)). { split; auto. destruct M as (_ & _ & M & _). split; lia. } split; auto. split; auto. intros rho. simpl. destruct (R4 (at_env e rho)) as (P & Q).
    assert (E1 : gam a (fun x => at_env e rho (x + cle (dc_pos c) x)) <-> gam a (at_env e1 rho)). { apply (gam_exti e1); auto. intros x L. apply moves_at; auto. }
    assert (E2 : (forall t, t < length (dc_pos c) -> at_env e rho (t + nth t (dc_pos c) 0) = 0%R) <-> forall x, In x (e_vars e) -> ~ In x (e_vars e1) -> rho x = 0%R).
    { split. intros H x X N. destruct (moves_var e1 e c x M X N) as (t & T & E). rewrite <- (at_var e _ x rho E). auto. intros H t T. destruct (moves_new ops e1 e c t G M T) as (x & E & N). rewrite (at_var e _ x rho E). apply H; auto. eapply nth_error_In; eauto. }
    split. intros (H1 & H2). apply P. split. apply E1; auto. intros Z. apply E2; auto. intros X H. destruct (Q X H) as (Q1 & Q2). split. apply E1; auto. intros Z. apply E2; auto.
Qed.
Lemma remove_names : forall (e1 e : environment V) a c, fit e a -> good e -> moves e1 e c -> fits e1 e c ->
  outn e1 (a0_remove D a (mkDC (dc_int c) (dimchange_add_invert (dc_pos c)))) (fun rho => exists sg, gam a (at_env e sg) /\ forall x, In x (e_vars e1) -> sg x = rho x).
Proof.
  intros e1 e a c FT G M F. pose proof (moves_invert_request e1 e c M F) as RQ. destruct F as (F1 & F2). unfold a0_remove, d_dim. cbn [dc_pos dc_int]. pose proof FT as (I & A & B). assert (LI : length (dimchange_add_invert (dc_pos c)) = length (dc_pos c)) by (unfold dimchange_add_invert; apply add_invert_length).
  destruct (dimchange_add_invert (dc_pos c)) as [|p0 ps] eqn:EP.
  - simpl in LI. assert (Z : dc_pos c = []) by (destruct (dc_pos c); auto; discriminate). assert (EV := moves_id e1 e c M Z). split; auto. split. { split; auto. destruct M as (_ & DM & L & _). rewrite Z in *. simpl in *. unfold e_dim in DM. lia. }
    intros rho. simpl. split. intros (sg & H & E). apply (gam_ext e _ (at_env e sg)); auto. intros x _. unfold at_env, at_list. rewrite EV. destruct (nth_error (e_vars e1) x) eqn:N; auto. apply E. eapply nth_error_In; eauto.
    intros _ H. exists rho. split; auto. unfold at_env in *. rewrite EV. exact H.
  - rewrite <- EP in *. clear p0 ps EP. assert (CK : check_dimchange_remove (d_int D a, d_real D a) (dc_int c) (dimchange_add_invert (dc_pos c)) = true). { rewrite A, B. apply C47_remove_partial; auto. lia. } rewrite CK. simpl.
    assert (OK : box_rem_ok (dd a) (dimchange_add_invert (dc_pos c))). { rewrite (fit_dd e a FT). destruct M as (M & DM & _). rewrite DM. apply invert_wf; auto. }
    assert (LE : dc_int c <= d_int D a) by (destruct M as (_ & _ & M & _); lia).
    destruct (s_remove _ _ _ _ DS a (dimchange_add_invert (dc_pos c)) (dc_int c) I OK ltac:(lia) LE ltac:(lia)) as (R1 & R2 & R3 & R4).
    assert (FR : fit e1 (d_remove D a (dimchange_add_invert (dc_pos c)) (dc_int c))). { split; auto. destruct M as (_ & _ & M & _). split; lia. } split; auto. split; auto. intros rho. simpl. destruct (R4 (at_env e1 rho)) as (P & Q). split.
    + intros (sg & H & E). apply P. exists (at_env e sg). split; auto. rewrite (fit_dd e a FT). intros y L N. destruct (invert_cases e1 e c y M L) as [(x & X & EY & _ & EC)|(t & T & -> & K)]; [|tauto]. rewrite EC, EY. rewrite (moves_at e1 e c sg x M X).
      destruct (lt_var e1 x X) as (u & U). rewrite !(at_var _ _ _ _ U). symmetry. apply E. eapply nth_error_In; eauto.
    + intros X H. destruct (Q X H) as (v & H1 & H2). destruct (val_of ops e v rho G) as (sg & S1 & _). exists sg. split. apply (gam_ext e _ v); auto. intros x L. symmetry. auto.
      intros x I1. apply In_nth_error in I1. destruct I1 as (d & N). destruct (var_lt _ _ _ N) as (L & _). rewrite <- (at_var _ _ _ rho N). rewrite <- (at_var e (d + cle (dc_pos c) d) x sg) by (destruct M as (_ & _ & _ & _ & _ & M); auto).
      assert (LD : d + cle (dc_pos c) d < e_dim e). { destruct M as (_ & _ & _ & _ & _ & M). apply (var_lt e _ x). auto. } rewrite S1 by auto. destruct M as ((SP & _) & _). destruct (invert_shift (dc_pos c) d SP) as (NI & EC). rewrite (fit_dd e a FT) in H2. rewrite <- (H2 _ LD NI). rewrite EC. f_equal. lia.
Qed.
Lemma permute_names : forall (e e' : environment V) a perm f, fit e a -> is_perm (e_dim e) perm -> length (e_int e') = length (e_int e) -> e_dim e' = e_dim e ->
  (forall x v, nth_error (e_vars e) x = Some v -> nth_error (e_vars e') (nth x perm 0) = Some (f v)) -> outn e' (a0_permute D a perm) (fun rho => gam a (at_env e (fun x => rho (f x)))).
Proof.
  intros e e' a perm f FT P LI LD N. pose proof FT as (I & A & B). unfold a0_permute, d_dim. assert (CK : check_dimperm (d_int D a, d_real D a) perm = true). { apply C47_perm_partial. simpl. destruct P as (P1 & P2 & _). rewrite A, B. unfold e_dim in *. split; auto. intros p X. apply (In_nth _ _ 0) in X. destruct X as (i & L & <-). rewrite P1 in *. auto. }
  rewrite CK. rewrite <- (fit_dd e a FT) in P. destruct (s_permute _ _ _ _ DS a perm I P) as (R1 & R2 & R3 & R4). unfold e_dim in LD. split; auto. split. split; auto. simpl. split; lia. intros rho. simpl. destruct (R4 (at_env e' rho)) as (Q1 & Q2).
  assert (E : gam a (fun x => at_env e' rho (nth x perm 0)) <-> gam a (at_env e (fun x => rho (f x)))). { apply (gam_exti e); auto. intros x L. destruct (lt_var e x L) as (v & U). rewrite (at_var e _ _ _ U). rewrite (at_var e' _ _ _ (N x v U)). auto. } tauto.
Qed.
End Ops.

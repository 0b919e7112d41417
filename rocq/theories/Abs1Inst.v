(** Level 1 over boxes: the domain meets the requirements of Abs1Facts.v.
    The functions of level 0 are those of Box.v, called without destruction of the argument, as ap_abstract1.c does in its non destructive forms.  Where the model of level 0 has an abort
    (None), the value given here is the argument: the theorems on level 1 which use such a function are about
    calls which do not abort, and the others show that it does not happen. *)
From Coq Require Import Arith ZArith QArith Bool List Lia Sorted Reals Lra.
From Verif Require Import Bound BoundFacts Itv ItvFacts Linexpr LinexprFacts ItvLin ApCore ApCoreDim ApEnv ApEnvFacts ApCheck OctResize2 OctResize3 Box BoxFacts BoxOps BoxMeet BoxDims PropApCore Generic GenericFacts BoxSubst PropBox PropGeneric.
From Verif Require Import Abs1 Abs1Facts.
Import ListNotations.
Local Open Scope nat_scope.

(** ** Boxes *)
Definition box_d0 (N : numtype) (algo : Z) : dom0 :=
  mkD0 box bx_int bx_real box_top box_meet box_join
    (fun a l => match box_meet_lincons_array (N:=N) algo a l with Some b => b | None => a end)
    (fun a l dest => box_assign_linexpr_array (N:=N) a l dest)
    (fun a l dest => match box_substitute_linexpr_array N algo false a l dest with Some (b, _) => b | None => a end)
    box_forget_array (box_add_dimensions false) (box_remove_dimensions false) box_permute_dimensions (box_expand false) box_fold
    (fun a b => match box_widening a b with Some r => r | None => a end) box_is_dimension_unconstrained.
Lemma box_dspec : forall N algo, dspec true (box_d0 N algo) nebox gbox.
Proof.
  intros N algo. constructor; cbn [box_d0 dv d_int d_real d_top d_meet d_join d_forget d_add d_remove d_permute d_expand d_fold d_uncon]; unfold outc, dd; cbn [dv d_int d_real box_d0].
  - intros a v w _ H G. apply (gbox_ext' a v w); auto. intros x L. symmetry. apply H. exact L.
  - intros i j. split. exact (box_built_ne N _ (bb_top N i j)). split; auto. split; auto. intros v. split; auto. intros _ d0 D0. split; exact I.
  - intros a b Na Nb A B. assert (SD : bx_dim a = bx_dim b) by (unfold bx_dim; congruence). destruct (meet_dim a b) as (D1 & D2). split. apply meet_nebox; auto. split; auto. split; auto. intros v. pose proof (meet_exact a b v SD). tauto.
  - intros a b Na Nb A B. assert (SD : same_dims a b) by (split; auto). destruct (join_dim a b) as (D1 & D2). split. split. apply join_nebox; auto. auto. split. intros v G. apply join_sound; auto. intros _ c _ C1 C2 H v G. apply (join_least a b c); auto. unfold bx_dim; congruence.
  - intros a tdim pr Na _. split. apply box_forget_nebox; auto. unfold box_forget_array. split. destruct (bx_p a); auto. split. destruct (bx_p a); auto. intros v. pose proof (box_forget_exact a tdim pr v Na). unfold box_forget_array in H. tauto.
  - intros a pos ni pr Na A L. split. apply box_add_nebox; auto. split; auto. split; auto. intros v. pose proof (C18_add_dimensions_exact false a pos ni pr v A L). tauto.
  - intros a pos ni Na A B C E. split. apply box_rem_nebox; auto. split; auto. split; auto. intros v. pose proof (box_rem_exact false a pos ni v). rewrite H; auto.
  - intros a perm Na A. split. apply box_permute_nebox; auto. unfold box_permute_dimensions. split. destruct (bx_p a); auto. split. destruct (bx_p a); auto. intros v. pose proof (box_permute_exact a perm (fun x => v (nth x perm 0)) v A (fun x _ => eq_refl)) as H. unfold box_permute_dimensions in H. tauto.
  - intros a d n Na L. split. apply box_expand_nebox; auto. assert (DI : bx_int (box_expand false a d n) = (if d <? bx_int a then bx_int a + n else bx_int a) /\ bx_real (box_expand false a d n) = (if d <? bx_int a then bx_real a else bx_real a + n)).
    { unfold box_expand. destruct (bx_p a) eqn:P, n; simpl; try (destruct (d <? bx_int a); simpl; lia). rewrite P. simpl. rewrite repeat_length. destruct (d <? bx_int a); simpl; lia. } destruct DI as (D1 & D2). split; auto. split; auto. intros v. pose proof (box_expand_exact false a d n v L) as H. unfold exp_shift, exp_off in H. tauto.
  - intros a t0 ts Na A T. split. split. apply box_fold_nebox; auto. { unfold box_fold. destruct (bx_p a) eqn:P, ts; simpl; try (destruct (t0 <? bx_int a); simpl; lia). } split. intros t v w I G H. eapply box_fold_sound; eauto. intros _ c _ C1 C2 H w G. apply (box_fold_best a t0 ts c A T Na); auto.
    rewrite <- (box_fold_dim a t0 ts A T). unfold bx_dim. rewrite C1, C2. reflexivity.
  - intros a d v w Na L U G H. destruct (proj1 (unconstrained_iff a d L Na) U) as (_ & X). apply (gbox_ext' a (upd v d (w d))); auto. intros x LX. unfold upd. destruct (Nat.eqb_spec x d) as [->|NE]; auto.
Qed.

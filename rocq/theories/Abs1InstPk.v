(** Level 1 over polyhedra: the domain meets the requirements of Abs1Facts.v.  The functions of level 0 are those
    of PkPoly.v, PkOps.v, PkUser.v, PkLinUser.v, called without destruction of the argument.  Level 0 returns also
    the argument in its new representation, dropped here: it has the same points (C69, C70, C73).  Where level 0
    aborts (None) the value given here is the argument; dspec shows that it does not happen for the functions of
    dspec. *)
From Coq Require Import Arith ZArith QArith Bool List Lia Sorted Reals Lra.
From Verif Require Import Linexpr OctResize2 OctResize3 BoxDims BoxOps ApCore ApCoreDim ApEnv PkCone PkVec PkCherni PkSpec PkMinimize PkPoly PkPolyFacts PkPolyMeet PkOps PkUser PkCanon PropPkPoly PropPkAssign PropPkDims PropPkUser PropPkCanon PkLinUser PropPkLin Abs1 Abs1Facts.
Import ListNotations.
Local Open Scope nat_scope.

Definition poly_d0 (lazy : bool) : dom0 :=
  mkD0 poly pint preal poly_top
    (fun a b => match pk_meet lazy false a b with Some (r, _, _) => r | None => a end)
    (fun a b => match pk_join lazy false false false a b with Some (r, _, _) => r | None => a end)
    (fun a l => match pk_meet_lincons_array lazy false a l with Some (r, _, _) => r | None => a end)
    (fun a l dest => match pk_asssub_linexpr_array true lazy false a l dest with Some (r, _) => r | None => a end)
    (fun a l dest => match pk_asssub_linexpr_array false lazy false a l dest with Some (r, _) => r | None => a end)
    (fun a t p => match pk_forget_array lazy false a t p with Some (r, _) => r | None => a end)
    (fun a pos ni pr => fst (pk_add_dimensions (negb lazy) false a pos ni pr))
    (fun a pos ni => fst (pk_remove_dimensions (negb lazy) false a pos ni))
    (fun a perm => fst (pk_permute_dimensions (negb lazy) false a perm))
    (fun a d n => fst (pk_expand (negb lazy) (negb lazy) false a d n))
    (fun a t0 ts => fst (pk_fold (negb lazy) (negb lazy) false a t0 ts))
    (fun a b => match pk_widening false a b with Some (r, _, _) => r | None => a end)
    (fun a d => fst (pk_is_dimension_unconstrained a d)).
(** a polyhedron is determined by the affine inequalities it satisfies *)
Lemma poly_closed : forall pd, wfp pd -> forall x, (forall a0 a, (forall y, points pd y -> (0 <= affine (pdim pd) a0 a y)%R) -> (0 <= affine (pdim pd) a0 a x)%R) -> points pd x.
Proof.
  intros pd Wd x L. apply (hull_closed pd (pint pd) (preal pd) (points pd) x (repr_self pd Wd)). intros a V. specialize (L (a 0) (fun i => a (S i))).
  assert (AE : forall y, affine (pdim pd) (a 0) (fun i => a (S i)) y = dt (S (pdim pd)) a (homog y)). { intros y. rewrite affine_dt. rewrite !(dt_sym _ _ (homog y)). apply dt_ext. intros [|i] _; reflexivity. }
  assert (DE : d1 (pint pd) (preal pd) = S (pdim pd)) by reflexivity. rewrite DE in *. rewrite <- AE. apply L. intros y Y. rewrite AE. apply V; auto.
Qed.
Lemma poly_dspec : forall lazy, dspec true (poly_d0 lazy) wfp points.
Proof.
  intros lazy. constructor; cbn [poly_d0 dv d_int d_real d_top d_meet d_join d_forget d_add d_remove d_permute d_expand d_fold d_uncon]; unfold outc, dd; cbn [dv d_int d_real poly_d0].
  - intros a v w W H G. apply (gamma_agree a v w); auto.
  - intros i j. destruct (C68_top i j) as (A & B & C & E). auto 10.
  - intros a b Wa Wb A B. destruct (C69_meet lazy a b Wa Wb (conj A B)) as (po & a' & b' & -> & (W & (D1 & D2) & P) & _). split; auto. split; auto. split; auto. intros v. split; intros; apply P; auto.
  - intros a b Wa Wb A B. destruct (C70_join lazy false false false a b Wa Wb (conj A B)) as (po & a' & b' & E & (W & (D1 & D2) & P1 & P2 & _) & _). rewrite E. split. auto. split. intros v [G|G]; auto. intros _ c Wc C1 C2 H v G.
    apply (C70_join_least lazy false false false a b c po a' b'); auto; split; congruence.
  - intros a tdim pr W H. destruct (C73_forget lazy false a tdim pr W H) as (po & pa' & -> & (W' & D1 & D2 & P) & _). split; auto. split; auto. split; auto. intros v. split; intros; apply P; auto.
  - intros a pos ni pr W A L. pose proof (C73_add_dimensions (negb lazy) false a pos ni pr W A L) as X. destruct (pk_add_dimensions (negb lazy) false a pos ni pr) as [po pa']. destruct X as ((W' & D1 & D2 & P) & _). cbn [fst]. split; auto. split; auto. split; auto. intros v. split; intros; apply P; auto.
  - intros a pos ni W A L B C. pose proof (C73_remove_dimensions (negb lazy) false a pos ni W A L B C) as X. destruct (pk_remove_dimensions (negb lazy) false a pos ni) as [po pa']. destruct X as ((W' & D1 & D2 & P) & _). cbn [fst]. split; auto. split; auto. split; auto. intros v. split; intros; apply P; auto.
  - intros a perm W A. pose proof (C73_permute_dimensions (negb lazy) false a perm W A) as X. destruct (pk_permute_dimensions (negb lazy) false a perm) as [po pa']. destruct X as ((W' & D1 & D2 & P) & _). cbn [fst]. split; auto. split; auto. split; auto. intros v. split; intros; apply P; auto.
  - intros a d n W L. pose proof (C73_expand (negb lazy) (negb lazy) false a d n W L) as X. cbv zeta in X. destruct (pk_expand (negb lazy) (negb lazy) false a d n) as [po pa']. destruct X as ((W' & D1 & D2 & P) & _). cbn [fst]. split; auto. split; auto. split; auto. intros v. split; intros; apply P; auto.
  - intros a t0 ts W A T. pose proof (C73_fold (negb lazy) (negb lazy) false a t0 ts W A T) as X. cbv zeta in X. destruct (pk_fold (negb lazy) (negb lazy) false a t0 ts) as [po pa']. destruct X as ((W' & D1 & D2) & P & Q & _). cbn [fst]. split. auto. split. intros t v w I G H. apply P. eauto.
    intros _ c Wc C1 C2 H w G. apply (poly_closed c Wc). intros a0 b V. assert (E : pdim c = pdim po) by (unfold pdim; congruence). rewrite E in *. apply Q; auto. intros u (t & v & I & GV & BF). apply V. eapply H; eauto.
  - intros a d v w W L U G H. destruct (pk_is_dimension_unconstrained a d) as [b po'] eqn:E. cbn [fst] in U. subst b. destruct (C78_unconstrained a d true po' W L E) as (_ & F & _). apply (gamma_agree a (fun j => if Nat.eqb j d then w d else v j)); auto. intros x LX. destruct (Nat.eqb_spec x d) as [->|NE]; auto. symmetry. apply H; auto. apply F; auto.
Qed.

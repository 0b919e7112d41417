(** newpolka: assignment and substitution of the expressions given by the user.  Models
    newpolka/pk_assign.c 449-510 (the conversion of the expressions), 529-668 (choice of the technique), 840-880.
    Simplified: the flags flag_exact and flag_best are not modelled here; in the generic case the argument is not
    modified in place.  The generic function calls the destructive meet, which aborts on an empty argument when
    the manager is not lazy (C69_meet_destructive_refuted): here the result is then the empty polyhedron, and the
    theorems do not speak about this case. *)
From Coq Require Import Arith ZArith QArith Qreals Bool List Lia Reals Lra.
Import ListNotations.
From Verif Require Import Bound BoundFacts Itv ItvFacts Linexpr LinexprFacts ItvLin ItvLinFacts ItvLinCons ItvLinInt ItvLinExact ItvLinApi ApCore ApCoreFacts ApCoreDim ApCheck PropApCheck OctResize2 OctResize3 BoxDims BoxSubst Generic GenericFacts PkCone PkVec PkCherni PkSpec PkMinimize PkPoly PkPolyFacts PkPolyLeq PkPolyMeet PkPolyTop PkLin PkOps PkRepr PkProj PkUser PkUserRow PkUserCons PkUserBound PkUserMeet PkUserGen PkUserSat PropPkPoly PropPkAssign PropPkUser PropPkDims PropGeneric.
Open Scope R_scope.

(** itv_linexpr_set_ap_linexpr0 then vector_set_itv_linexpr with mode 1: 484-494 *)
Definition pk_row (dim : nat) (e : linexpr) : pvec := vector_set_linexpr true dim (fst (ilin_of_linexpr (N:=exact_num) e)).
(** the functions of the manager called by the generic assignment: pk_resize.c, pk_meetjoin.c, pk_test.c *)
Definition pk_gdom (lazy destr : bool) : gdom :=
  mkGdom poly pint preal (fun po => fst (pk_is_bottom (negb lazy) po))
    (fun a pos k => (fst (pk_add_dimensions (negb lazy) destr a pos k false), false))
    (fun a perm => (fst (pk_permute_dimensions (negb lazy) true a perm), false))
    (fun a pos k => (fst (pk_remove_dimensions (negb lazy) true a pos k), false))
    (fun a b => (match pk_meet lazy true a b with Some (po, _, _) => po | None => pbottom (pint a) (preal a) end, false))
    (fun a l => match pk_meet_lincons_array lazy true a l with Some (po, _, x) => Some (po, x) | None => None end).
(** pk_assign_linexpr_array 840-860, pk_substitute_linexpr_array 861-881, poly_asssub_linexpr_array 529-600,
    poly_asssub_linexpr 601-668: result, argument *)
Definition pk_asssub_linexpr_array (assign lazy destr : bool) (pa : poly) (l : list (nat * linexpr)) (dest : option poly) : option (poly * poly) :=
  if forallb (fun p => linexpr_is_linear (snd p)) l then
    match l with
    | [(d, e)] => match poly_asssub_linexpr assign lazy destr pa d (pk_row (pdim pa) e) dest with Some (po, pa, _) => Some (po, pa) | None => None end
    | _ => match poly_asssub_linexpr_array assign lazy destr pa (map (fun p => (fst p, pk_row (pdim pa) (snd p))) l) dest with Some (po, pa, _) => Some (po, pa) | None => None end
    end
  else
    let pa := if lazy then pa else poly_chernikova pa in
    if isbot pa then Some (if destr then pa else pbottom (pint pa) (preal pa), pa)
    else match asssub_linexpr_array (pk_gdom lazy destr) assign pa l dest with
         | Some (po, _) => Some (if lazy then po else poly_chernikova po, pa)
         | None => None
         end.

(** ** The conversion *)
Lemma set_linexpr_den : forall n e, wf_dims n (il_terms e) -> let q := vector_set_linexpr true n e in lenS (S n) q /\ (0 < zn 0 q)%Z /\ forall v, rval n q v = IZR (zn 0 q) * (Q2R (lin_cst true e) + tsum (il_terms e) v).
Proof.
  intros n e (ND & DS) q. split. unfold q, vector_set_linexpr, lenS. simpl. rewrite map_length, seq_length. auto. set (l := lin_lcm true e).
  assert (H0 : (0 < if (Z.sgn (Qnum (lin_cst true e)) =? 0)%Z then 1 else rden (lin_cst true e))%Z) by (destruct (_ =? 0)%Z; [lia|apply rden_pos]).
  destruct (lcm_fold (il_terms e) _ H0) as (LP & LD & LT). fold (lin_lcm true e) in LP, LD, LT. fold l in LP, LD, LT.
  assert (LC : (rden (lin_cst true e) | l)%Z). { destruct (_ =? 0)%Z eqn:E in LD; auto. apply Z.eqb_eq in E. assert (Qnum (lin_cst true e) = 0%Z) by (destruct (Qnum (lin_cst true e)); simpl in E; auto; discriminate). assert (rden (lin_cst true e) = 1%Z). { unfold rden. replace (Qred (lin_cst true e)) with (0%Q). auto. change 0%Q with (Qred 0%Q). apply Qred_complete. unfold Qeq. rewrite H. reflexivity. } rewrite H1. apply Z.divide_1_l. }
  assert (Z0 : zn 0 q = l) by reflexivity. split. rewrite Z0; auto. intros v. rewrite Z0. unfold q, vector_set_linexpr. rewrite rval_cons. fold l.
  rewrite (sm_ext n (fun i => IZR (nth i (map (fill_terms l (il_terms e) (fun _ => 0%Z)) (seq 0 n)) 0%Z) * v i) (fun i => IZR (fill_terms l (il_terms e) (fun _ => 0%Z) i) * v i)).
  2: { intros i I. rewrite (nth_indep _ 0%Z (fill_terms l (il_terms e) (fun _ => 0%Z) 0%nat)) by (rewrite map_length, seq_length; auto). rewrite map_nth, seq_nth by auto. auto. }
  rewrite fill_sum; auto. rewrite sm_0 by (intros; ring). rewrite scale_rat by auto; ring.
  rewrite Forall_forall in *. intros t T. repeat split; auto.
Qed.
Lemma affine_sm : forall d a0 a x, affine d a0 a x = a0 + sm d (fun i => a i * x i).
Proof. induction d; intros; simpl. ring. rewrite IHd. ring. Qed.
Lemma value_rval : forall d (q : pvec) v, value d q v = rval d q v / IZR (zn 0 q).
Proof. intros. unfold value, rval. rewrite affine_sm. reflexivity. Qed.
Definition lin_ok (n : nat) (e : linexpr) : Prop := wf_linexpr n e /\ holes_last (le_terms e).
Lemma row_value : forall n e, lin_ok n e -> linexpr_is_linear e = true -> expr_ok n (pk_row n e) /\ forall v r, expr_val e v r <-> r = value n (pk_row n e) v.
Proof.
  intros n e (W & H) LN. assert (S : scalar_terms e). { unfold linexpr_is_linear in LN. destruct (is_scal (le_cst e)); [|discriminate]. unfold scalar_terms. apply Forall_forall. rewrite forallb_forall in LN. auto. }
  destruct (terms_shape n e W H S) as (A & B & WD). destruct (set_linexpr_den n _ WD) as (L0 & LP & RV). fold (pk_row n e) in L0, LP, RV. split.
  - split; auto. unfold lenS in L0. unfold pvec in *. lia.
  - intros v r. assert (U : forall r, expr_val e v r -> r = value n (pk_row n e) v).
    { intros s X. rewrite value_rval. rewrite RV. assert (LP' : 0 < IZR (zn 0 (pk_row n e))) by (apply IZR_lt; auto). apply (ilin_of_linexpr_sound (N:=exact_num)) in X; auto. destruct X as (x & t & X1 & X2 & ->). rewrite (tval_tsum v _ t A B X2).
      assert (EX : x = Q2R (lin_cst true (fst (ilin_of_linexpr (N:=exact_num) e)))).
      { unfold linexpr_is_linear in LN. destruct (is_scal (le_cst e)) eqn:SC; [|discriminate]. clear - X1 SC W. destruct W as (W & _). unfold ilin_of_linexpr in *. destruct (le_cst e) as [b|]; [|discriminate]. destruct b as [|q|]; simpl in W; try tauto. simpl in *. destruct (set_terms (N:=exact_num) (foreach (le_terms e))). simpl in *. unfold lin_cst. simpl. unfold in_itv in X1. destruct (bexact (Fin q)); simpl in *; rewrite Q2R_opp in X1; lra. }
      rewrite <- EX. field. lra. }
    destruct (C60_linear_value n e W H LN v) as (r0 & R0). assert (E0 := U r0 (proj2 (R0 r0) eq_refl)). rewrite R0, <- E0. tauto.
Qed.

(** ** The generic case *)
Definition pgam (a : poly) (v : nat -> R) : Prop := wfp a /\ points a v.
Lemma pk_gsound : forall lazy destr, gsound (pk_gdom lazy destr) wfp pgam (fun _ => True).
Proof.
  intros lazy destr. constructor; cbn [pk_gdom gd gd_int gd_real gd_is_bottom gd_add gd_permute gd_remove gd_meet gd_meet_lincons fst snd]; auto.
  - intros a v w H (W & G). split; auto. apply (gamma_agree a v w); auto. intros i L. symmetry. apply H. exact L.
  - intros a W B v (_ & G). destruct (pk_is_bottom (negb lazy) a) as [b a'] eqn:E. simpl in B. destruct (C68_is_bottom _ a b a' W E) as (_ & X & _). apply (X B v); auto.
  - intros a pos k W (A & B & _). pose proof (C73_add_dimensions (negb lazy) destr a pos k false W A B) as X. destruct (pk_add_dimensions (negb lazy) destr a pos k false) as [po pa']. simpl. destruct X as ((W' & D1 & D2 & P) & _). split; auto. split; auto. split; auto. intros w (_ & G). split; auto. apply P. split. exact G. discriminate.
  - intros a perm W A. pose proof (C73_permute_dimensions (negb lazy) true a perm W A) as X. destruct (pk_permute_dimensions (negb lazy) true a perm) as [po pa']. simpl. destruct X as ((W' & D1 & D2 & P) & _). split; auto. split; auto. split; auto. intros v w H (_ & G). split; auto. apply P. apply (gamma_agree a v); auto. intros i L. symmetry. apply H. exact L.
  - intros a pos k W (A & B & C & D & _). pose proof (C73_remove_dimensions (negb lazy) true a pos k W A B C D) as X. destruct (pk_remove_dimensions (negb lazy) true a pos k) as [po pa']. simpl. destruct X as ((W' & D1 & D2 & P) & _). split; auto. split; auto. split; auto. intros v w (_ & G) H. split; auto. apply P. exists v. split; auto.
  - intros a b Wa Wb D1 D2. pose proof (C69_meet_destructive lazy a b Wa Wb (conj D1 D2)) as X. destruct (pk_meet lazy true a b) as [[[po pa'] pb']|].
    + destruct X as ((W' & (E1 & E2) & P) & _). split; auto. split; auto. split; auto. intros v (_ & G1) (_ & G2). split; auto. apply P; auto.
    + destruct X as (_ & E). destruct (C68_bottom (pint a) (preal a)) as (W' & _). split; auto. split; auto. split; auto. intros v (_ & G) _. exfalso. apply (E v); auto.
  - intros a l r x W F H. assert (OK : Forall (cons_ok (pdim a)) l). { eapply Forall_impl; [|exact F]. simpl. intros c (M & T & (WE & S & _)). split. split. exact WE. destruct (le_terms (lc_expr c)) as [q|ts]. exact I. apply lin_sorted_iff in S. apply S. intros E. congruence. }
    destruct (C72_meet_lincons lazy true a l W OK) as (po & pa' & ex & E & W' & (D1 & D2) & _ & _ & P & _). rewrite E in H. injection H as <- <-. split; auto. split; auto. split; auto. intros v I (_ & G) S. split; auto.
Qed.

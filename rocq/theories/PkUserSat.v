(** Polyhedron of a box, satisfaction of an interval and of a linear constraint. *)
From Coq Require Import ZArith QArith Qreals Qround Reals Lra Bool List Lia Permutation.
Import ListNotations.
From Verif Require Import Bound BoundFacts Itv Linexpr LinexprFacts ItvFacts ItvLin ItvLinFacts ItvLinCons ItvLinInt ItvLinExact ItvLinApi PkCone PkVec PkCherni PkCherniFacts PkSimplify PkMinimize PkSpec PkPoly PkPolyFacts PkPolyLeq PkPolyMeet PkMatrix PkLin PkRepr PkProj Box BoxMeet PkOps PkAssign PkUser PkUserRow PkUserCons PkUserBound PkUserMeet PkUserGen PkPolyTop PropPkPoly.
Open Scope R_scope.

(** * Boxes *)
Lemma dim_len : forall dim d s c k, lenS (S dim) (dim_row dim d s c k). Proof. intros. unfold lenS, dim_row. simpl. rewrite map_length, seq_length. auto. Qed.
Lemma dim_rval : forall dim d s c k x, (d < dim)%nat -> rval dim (dim_row dim d s c k) x = IZR c + IZR k * x d.
Proof.
  intros dim d s c k x D. unfold rval. change (zn 1 (dim_row dim d s c k)) with c. f_equal.
  assert (E : forall i, (i < dim)%nat -> zn (i + 2) (dim_row dim d s c k) = if Nat.eqb i d then k else 0%Z). { intros i I. replace (i + 2)%nat with (S (S i)) by lia. unfold zn, dim_row. cbn [nth]. rewrite (nth_indep _ 0%Z ((fun j => if Nat.eqb j d then k else 0%Z) 0%nat)) by (rewrite map_length, seq_length; auto). rewrite (map_nth (fun j => if Nat.eqb j d then k else 0%Z)). rewrite seq_nth by auto. reflexivity. }
  assert (H : forall m, (m <= dim)%nat -> sm m (fun i => IZR (zn (i + 2) (dim_row dim d s c k)) * x i) = if Nat.ltb d m then IZR k * x d else 0).
  { induction m as [|m IH]; intros M; simpl. auto. rewrite IH by lia. rewrite E by lia. destruct (Nat.ltb_spec d m), (Nat.ltb_spec d (S m)), (Nat.eqb_spec m d); try lia; subst; ring. }
  rewrite H by lia. destruct (Nat.ltb_spec d dim); auto. lia.
Qed.
Lemma dim_holds : forall dim d s c k x, (d < dim)%nat -> (row_holds (dim_row dim d s c k) (homog x) <-> if (s =? 0)%Z then IZR c + IZR k * x d = 0 else 0 <= IZR c + IZR k * x d).
Proof. intros. rewrite (row_rval dim) by apply dim_len. rewrite dim_rval by auto. reflexivity. Qed.
Definition fits (isint : bool) (i : itv) (y : R) : Prop :=
  match sup i with Fin q => y <= Q2R q | _ => True end /\ match inf i with Fin q => if isint then - y < Q2R q + 1 else - y <= Q2R q | _ => True end.
Lemma rden_R : forall q, 0 < IZR (rden q). Proof. intros. apply (IZR_lt 0). apply rden_pos. Qed.
Lemma floor_R : forall n m, (0 < m)%Z -> IZR (n / m) <= IZR n / IZR m /\ IZR n / IZR m < IZR (n / m) + 1.
Proof.
  intros n m M. assert (0 < IZR m) by (apply (IZR_lt 0); auto). pose proof (Z.div_mod n m ltac:(lia)) as D. pose proof (Z.mod_pos_bound n m M) as B. assert (E : IZR n = IZR m * IZR (n / m) + IZR (n mod m)) by (rewrite <- mult_IZR, <- plus_IZR; f_equal; auto). assert (0 <= IZR (n mod m)) by (apply IZR_le; lia). assert (IZR (n mod m) < IZR m) by (apply IZR_lt; lia).
  split. apply (Rmult_le_reg_r (IZR m)); auto. replace (IZR n / IZR m * IZR m) with (IZR n) by (field; lra). nra. apply (Rmult_lt_reg_r (IZR m)); auto. replace (IZR n / IZR m * IZR m) with (IZR n) by (field; lra). nra.
Qed.
Lemma up_row : forall intdim dim d q, (d < dim)%nat -> exists r, vector_set_dim_bound Gt intdim dim d q = Some r /\ lenS (S dim) r /\ forall x, (row_holds r (homog x) -> x d <= Q2R q) /\ (x d <= Q2R q -> ((d < intdim)%nat -> is_integer (x d)) -> row_holds r (homog x)).
Proof.
  intros intdim dim d q D. unfold vector_set_dim_bound. pose proof (rden_R q) as M. destruct (Nat.ltb_spec d intdim); eexists; (split; [reflexivity|]); (split; [apply dim_len|]); intros x; rewrite dim_holds by auto; cbn [Z.eqb]; rewrite (rat_R q).
  - destruct (floor_R (rnum q) (rden q) (rden_pos q)) as (F1 & F2). split. intros; lra. intros X I. destruct (I H) as (z & Z). rewrite Z in *. rewrite <- mult_IZR, <- plus_IZR. apply IZR_le. assert (z < rnum q / rden q + 1)%Z by (apply lt_IZR; rewrite plus_IZR; lra). lia.
  - rewrite opp_IZR. split. intros X. apply (Rmult_le_reg_r (IZR (rden q))); auto. replace (_ / _ * _) with (IZR (rnum q)) by (field; lra). lra. intros X _. apply (Rmult_le_compat_r (IZR (rden q))) in X; [|lra]. replace (_ / _ * _) with (IZR (rnum q)) in X by (field; lra). lra.
Qed.
Lemma low_row : forall intdim dim d q, (d < dim)%nat -> exists r, vector_set_dim_bound Lt intdim dim d q = Some r /\ lenS (S dim) r /\ forall x, (row_holds r (homog x) -> if Nat.ltb d intdim then - x d < Q2R q + 1 else - x d <= Q2R q) /\ (- x d <= Q2R q -> row_holds r (homog x)).
Proof.
  intros intdim dim d q D. unfold vector_set_dim_bound. pose proof (rden_R q) as M. destruct (Nat.ltb_spec d intdim); eexists; (split; [reflexivity|]); (split; [apply dim_len|]); intros x; rewrite dim_holds by auto; cbn [Z.eqb]; rewrite (rat_R q).
  - destruct (floor_R (- rnum q) (rden q) (rden_pos q)) as (F1 & F2). rewrite opp_IZR in F1, F2. unfold Rdiv in *. rewrite opp_IZR. split; intros; lra.
  - split. intros X. apply (Rmult_le_reg_r (IZR (rden q))); auto. replace (_ / _ * _) with (IZR (rnum q)) by (field; lra). lra. intros X. apply (Rmult_le_compat_r (IZR (rden q))) in X; [|lra]. replace (_ / _ * _) with (IZR (rnum q)) in X by (field; lra). lra.
Qed.
Lemma eq_row : forall intdim dim d q, (d < dim)%nat -> match vector_set_dim_bound Eq intdim dim d q with
  | Some r => lenS (S dim) r /\ forall x, row_holds r (homog x) <-> x d = Q2R q
  | None => (d < intdim)%nat /\ forall z, IZR z <> Q2R q end.
Proof.
  intros intdim dim d q D. pose proof (rden_R q) as M. assert (R : forall x, row_holds (dim_row dim d 0 (rnum q) (- rden q)) (homog x) <-> x d = Q2R q).
  { intros x. rewrite dim_holds by auto. cbn [Z.eqb]. rewrite rat_R, opp_IZR. split. intros E. apply (Rmult_eq_reg_r (IZR (rden q))); try lra. replace (_ / _ * _) with (IZR (rnum q)) by (field; lra). lra. intros ->. field. lra. }
  unfold vector_set_dim_bound. destruct (Nat.ltb_spec d intdim). destruct (Z.eqb_spec (rden q) 1) as [E|E]. 1, 3: (split; [apply dim_len|exact R]). split; auto. intros z Z. apply E.
  assert (Q : (q == inject_Z z)%Q). { apply eqR_Qeq. rewrite <- Z. unfold Q2R. simpl. field. }
  unfold rden. rewrite (Qred_complete _ _ Q). unfold inject_Z, Qred. pose proof (Z.ggcd_gcd z 1) as G. pose proof (Z.ggcd_correct_divisors z 1) as GD. destruct (Z.ggcd z 1) as (g & a & b). simpl in *. rewrite Z.gcd_1_r in G. subst g. destruct GD as (_ & GD). destruct b; lia.
Qed.
Lemma cone_app2 : forall A B x, cone (A ++ B) x <-> cone A x /\ cone B x. Proof. intros. apply cone_app. Qed.
Lemma fill_itv_spec : forall intdim dim d i, (d < dim)%nat -> match fill_itv intdim dim d i with
  | Some m => Forall (lenS (S dim)) m /\ forall x, (cone m (homog x) -> fits (Nat.ltb d intdim) i (x d)) /\ (in_itv (x d) i -> ((d < intdim)%nat -> is_integer (x d)) -> cone m (homog x)) /\ ((intdim <= d)%nat -> fits false i (x d) -> cone m (homog x))
  | None => (d < intdim)%nat /\ forall y, in_itv y i -> ~ is_integer y end.
Proof.
  intros intdim dim d i D. unfold fill_itv. destruct (itv_is_point i) eqn:P.
  - pose proof (eq_row intdim dim d (bfinq (sup i)) D) as E. pose proof (point_val i) as V. destruct (vector_set_dim_bound Eq intdim dim d (bfinq (sup i))) as [r|].
    + destruct E as (L & E). split; auto. intros x. assert (C : cone [r] (homog x) <-> x d = Q2R (bfinq (sup i))). { rewrite <- E. rewrite cone_in. split. intros H. apply H. left; auto. intros H f [<-|[]]; auto. }
      rewrite C. rewrite <- (V _ P). unfold fits, in_itv, le_rb. apply point_iff in P. destruct P as (a & b & -> & -> & AB). split; [|split]; auto.
      * intros (A & B). split; auto. destruct (Nat.ltb d intdim); lra.
      * intros _ (A & B). auto.
    + destruct E as (E1 & E2). split; auto. intros y Y (z & Z). apply (V _ P) in Y. apply (E2 z). congruence.
  - set (A := match inf i with Fin q => match vector_set_dim_bound Lt intdim dim d q with Some r => [r] | None => [] end | _ => [] end). set (B := match sup i with Fin q => match vector_set_dim_bound Gt intdim dim d q with Some r => [r] | None => [] end | _ => [] end).
    assert (HA : Forall (lenS (S dim)) A /\ forall x, (cone A (homog x) -> match inf i with Fin q => if Nat.ltb d intdim then - x d < Q2R q + 1 else - x d <= Q2R q | _ => True end) /\ (match inf i with Fin q => - x d <= Q2R q | _ => True end -> cone A (homog x))).
    { unfold A. destruct (inf i) as [|q|]; try (split; [constructor|intros x; split; [auto|intros _; apply cone_in; intros f []]]). destruct (low_row intdim dim d q D) as (r & -> & L & H). split; auto. intros x. rewrite cone_in. destruct (H x) as (H1 & H2). split. intros K. apply H1. apply K. left; auto. intros K f [<-|[]]. auto. }
    assert (HB : Forall (lenS (S dim)) B /\ forall x, (cone B (homog x) -> match sup i with Fin q => x d <= Q2R q | _ => True end) /\ (match sup i with Fin q => x d <= Q2R q | _ => True end -> ((d < intdim)%nat -> is_integer (x d)) -> cone B (homog x))).
    { unfold B. destruct (sup i) as [|q|]; try (split; [constructor|intros x; split; [auto|intros _ _; apply cone_in; intros f []]]). destruct (up_row intdim dim d q D) as (r & -> & L & H). split; auto. intros x. rewrite cone_in. destruct (H x) as (H1 & H2). split. intros K. apply H1. apply K. left; auto. intros K I f [<-|[]]. auto. }
    destruct HA as (LA & HA), HB as (LB & HB). split. apply Forall_app; auto. intros x. destruct (HA x) as (A1 & A2), (HB x) as (B1 & B2). rewrite cone_app2. unfold fits. split; [|split].
    + intros (X & Y). split; [exact (B1 Y)|exact (A1 X)].
    + intros (I1 & I2) I. unfold le_rb in I1, I2. split. apply A2. clear - I1. destruct (inf i); auto. apply B2; auto. clear - I2. destruct (sup i); auto.
    + intros I (I1 & I2). split. apply A2. clear - I2. destruct (inf i); auto. apply B2; auto. intros; lia.
Qed.
Lemma fill_box_spec : forall intdim dim l d, (d + length l <= dim)%nat -> match fill_box intdim dim d l with
  | Some m => Forall (lenS (S dim)) m /\ forall x, (cone m (homog x) -> forall j, (j < length l)%nat -> fits (Nat.ltb (d + j) intdim) (nth j l itv_top) (x (d + j)%nat)) /\
      ((forall j, (j < length l)%nat -> in_itv (x (d + j)%nat) (nth j l itv_top)) -> (forall j, (j < intdim)%nat -> is_integer (x j)) -> cone m (homog x)) /\
      ((intdim <= d)%nat -> (forall j, (j < length l)%nat -> fits false (nth j l itv_top) (x (d + j)%nat)) -> cone m (homog x))
  | None => (0 < intdim)%nat /\ forall x, (forall j, (j < length l)%nat -> in_itv (x (d + j)%nat) (nth j l itv_top)) -> exists j, (j < intdim)%nat /\ ~ is_integer (x j) end.
Proof.
  intros intdim dim. induction l as [|i l IH]; intros d D; cbn [fill_box length] in *.
  - split. constructor. intros x. assert (C : cone [] (homog x)) by (apply cone_in; intros f []). split; [|split]; auto. intros _ j J; lia.
  - pose proof (fill_itv_spec intdim dim d i ltac:(lia)) as FI. specialize (IH (S d) ltac:(lia)). destruct (fill_itv intdim dim d i) as [m1|].
    + destruct FI as (L1 & F1). destruct (fill_box intdim dim (S d) l) as [m2|].
      * destruct IH as (L2 & F2). split. apply Forall_app; auto. intros x. destruct (F1 x) as (X1 & X2 & X3), (F2 x) as (Y1 & Y2 & Y3). rewrite cone_app2. split; [|split].
        -- intros (C1 & C2) [|j] J. rewrite Nat.add_0_r. auto. replace (d + S j)%nat with (S d + j)%nat by lia. apply Y1; auto. lia.
        -- intros H I. split. apply X2. specialize (H 0%nat ltac:(lia)). rewrite Nat.add_0_r in H. auto. auto. apply Y2; auto. intros j J. replace (S d + j)%nat with (d + S j)%nat by lia. apply (H (S j)); lia.
        -- intros I H. split. apply X3; auto. specialize (H 0%nat ltac:(lia)). rewrite Nat.add_0_r in H. auto. apply Y3; auto. intros j J. replace (S d + j)%nat with (d + S j)%nat by lia. apply (H (S j)); lia.
      * destruct IH as (I0 & IH). split; auto. intros x H. apply IH. intros j J. replace (S d + j)%nat with (d + S j)%nat by lia. apply (H (S j)); lia.
    + destruct FI as (I0 & FI). split. lia. intros x H. exists d. split; auto. apply (FI (x d)). specialize (H 0%nat ltac:(lia)). rewrite Nat.add_0_r in H. auto.
Qed.
Theorem of_box_spec : forall i r l, length l = (i + r)%nat -> exists Q, repr (pk_of_box i r l) i r Q /\
  (forall x, Q x -> forall j, (j < i + r)%nat -> fits (Nat.ltb j i) (nth j l itv_top) (x j)) /\
  (forall x, (forall j, (j < i + r)%nat -> in_itv (x j) (nth j l itv_top)) -> (forall j, (j < i)%nat -> is_integer (x j)) -> Q x) /\
  (i = 0%nat -> forall x, (forall j, (j < i + r)%nat -> fits false (nth j l itv_top) (x j)) -> Q x).
Proof.
  intros i r l L. pose proof (fill_box_spec i (i + r) l 0 ltac:(lia)) as F. unfold pk_of_box. rewrite L in F. destruct (fill_box i (i + r) 0 l) as [m|].
  - destruct F as (LM & F). assert (W : wfp (mkPoly i r (Some (positivity (i + r) :: m)) false None false None None 0 0 false false)). { apply C69_constraints_wf. eapply Forall_impl; [|exact LM]. intros c E. unfold lenS in E. unfold pvec in *. lia. }
    exists (poly_con m). split; [|split; [|split]].
    + split; [exact W|]. split; auto. split; auto. intros x. unfold gamma, cK. simpl. unfold poly_con. rewrite !cone_in. split. intros H f I. apply H. right; auto. intros H f [<-|I]; auto. apply (row_dt (S (i + r)) _ _ (len_pos _)). rewrite dt_pos1. simpl. lra.
    + intros x Q. destruct (F x) as (A & _). exact (A Q).
    + intros x H I. destruct (F x) as (_ & A & _). apply A; auto.
    + intros -> x H. destruct (F x) as (_ & _ & A). apply A; auto.
  - destruct F as (I0 & F). exists (fun _ => False). split; [|split; [|split]]; try tauto. apply repr_bot; auto. intros x H I. destruct (F x H) as (j & J & N). apply N. auto. intros; lia.
Qed.

(** * Satisfaction of an interval *)
Lemma ub_complete : forall n phi F q x0, (0 < n)%nat -> flin n phi -> fpos F -> generated n F (homog x0) -> (ub phi F (Fin q) <-> forall x, generated n F (homog x) -> phi (homog x) <= Q2R q).
Proof.
  intros n phi F q x0 N L P G. split. intros U x X. apply (ub_le n phi F (Fin q) x N L U P X).
  intros H f I. assert (NA : ~ att phi F PInf). { intros A. destruct (att_reach n phi F PInf x0 (Q2R q + 1) N L A P G Logic.I) as (x & X & Y). specialize (H x X). lra. }
  destruct (P f I) as (P1 & P2). destruct (Z.eq_dec (zn 1 f) 0) as [Z|Z].
  - split. split. intros Z0. destruct (Req_dec (phi (rw f)) 0); auto. exfalso. apply NA. exists f. auto. intros _. destruct (Rle_lt_dec (phi (rw f)) 0); auto. exfalso. apply NA. exists f. auto.
    rewrite Z. destruct (Rle_lt_dec (phi (rw f)) 0). lra. exfalso. apply NA. exists f. auto.
  - assert (PZ : 0 < IZR (zn 1 f)) by (apply (IZR_lt 0); lia). split. split; intros; exfalso; auto.
    set (z := lin2 (/ IZR (zn 1 f)) (rw f) 0 (rw f)). assert (Z0 : z 0%nat = 1) by (unfold z, lin2; rewrite rw0; field; lra). pose proof (homog_eta n z Z0) as V. assert (GZ : generated n F (homog (fun j => z (S j)))). { eapply generated_ext; eauto. apply generated_lin; try lra; try apply in_gen; auto. left. apply Rinv_0_lt_compat; auto. }
    specialize (H _ GZ). rewrite (proj2 L _ _ V) in H. unfold z in H. rewrite (proj1 L) in H. apply (Rmult_le_compat_r (IZR (zn 1 f))) in H; [|lra]. replace ((/ IZR (zn 1 f) * phi (rw f) + 0 * phi (rw f)) * IZR (zn 1 f)) with (phi (rw f)) in H by (field; lra). exact H.
Qed.
Lemma quo_le : forall a b q, (0 < b)%Z -> (Qle_bool (inject_Z a / inject_Z b) q = true <-> IZR a <= Q2R q * IZR b).
Proof.
  intros a b q B. assert (0 < IZR b) by (apply (IZR_lt 0); auto). assert (E : Q2R (inject_Z a / inject_Z b) = IZR a / IZR b). { rewrite Q2R_div. unfold Q2R, inject_Z. simpl. field. lra. unfold inject_Z, Qeq. simpl. lia. }
  rewrite Qle_bool_iff. split. intros H0. apply Qle_Rle in H0. rewrite E in H0. apply (Rmult_le_compat_r (IZR b)) in H0; [|lra]. replace (IZR a / IZR b * IZR b) with (IZR a) in H0 by (field; lra). auto.
  intros H0. apply Rle_Qle. rewrite E. apply (Rmult_le_reg_r (IZR b)); auto. replace (IZR a / IZR b * IZR b) with (IZR a) by (field; lra). auto.
Qed.
Lemma quo_ge : forall a b q, (0 < b)%Z -> (Qle_bool (- (inject_Z a / inject_Z b)) q = true <-> - IZR a <= Q2R q * IZR b).
Proof.
  intros a b q B. assert (0 < IZR b) by (apply (IZR_lt 0); auto). assert (E : Q2R (- (inject_Z a / inject_Z b)) = - (IZR a / IZR b)). { rewrite Q2R_opp, Q2R_div. unfold Q2R, inject_Z. simpl. field. lra. unfold inject_Z, Qeq. simpl. lia. }
  rewrite Qle_bool_iff. split. intros H0. apply Qle_Rle in H0. rewrite E in H0. apply (Rmult_le_compat_r (IZR b)) in H0; [|lra]. replace (- (IZR a / IZR b) * IZR b) with (- IZR a) in H0 by (field; lra). auto.
  intros H0. apply Rle_Qle. rewrite E. apply (Rmult_le_reg_r (IZR b)); auto. replace (- (IZR a / IZR b) * IZR b) with (- IZR a) by (field; lra). auto.
Qed.
Lemma coord_row : forall d f, (fun x : vec => x (S d)) (rw f) = IZR (zn (d + 2) f). Proof. intros. simpl. rewrite rv_zn. f_equal. f_equal. lia. Qed.
Lemma sat_gt : forall F d q, fpos F -> (generators_sat_bound F d q Gt = true <-> ub (fun x => x (S d)) F (Fin q)).
Proof.
  intros F d q P. unfold generators_sat_bound, ub. rewrite forallb_forall. split; intros H f I; specialize (H f I); destruct (P f I) as (P1 & P2); pose proof (coord_row d f) as E; cbv beta in E; unfold row_ub in *; rewrite ?E in *; set (a := zn (d + 2) f) in *; cbv zeta in *.
  - destruct (Z.eqb_spec (zn 0 f) 0) as [Z0|Z0]. apply Z.eqb_eq in H. rewrite H, (P1 Z0). repeat split; intros; lra.
    destruct (Z.eqb_spec (zn 1 f) 0) as [Z1|Z1]. rewrite orb_false_r in H. apply negb_true_iff in H. apply Z.ltb_ge in H. assert (IZR a <= 0) by (apply (IZR_le _ 0); auto). rewrite Z1. repeat split; intros; try contradiction; lra.
    apply quo_le in H; [|lia]. repeat split; intros; try contradiction. lra.
  - destruct H as ((R1 & R2) & R3). destruct (Z.eqb_spec (zn 0 f) 0) as [Z0|Z0]. apply Z.eqb_eq. apply eq_IZR. auto.
    destruct (Z.eqb_spec (zn 1 f) 0) as [Z1|Z1]. rewrite orb_false_r. apply negb_true_iff. apply Z.ltb_ge. apply le_IZR. auto. apply quo_le; auto. lia.
Qed.
Lemma sat_lt : forall F d q, fpos F -> (generators_sat_bound F d q Lt = true <-> ub (fopp (fun x => x (S d))) F (Fin q)).
Proof.
  intros F d q P. unfold generators_sat_bound, ub. rewrite forallb_forall. split; intros H f I; specialize (H f I); destruct (P f I) as (P1 & P2); pose proof (coord_row d f) as E; cbv beta in E; unfold row_ub, fopp in *; rewrite ?E in *; set (a := zn (d + 2) f) in *; cbv zeta in *.
  - destruct (Z.eqb_spec (zn 0 f) 0) as [Z0|Z0]. apply Z.eqb_eq in H. rewrite H, (P1 Z0). repeat split; intros; lra.
    destruct (Z.eqb_spec (zn 1 f) 0) as [Z1|Z1]. cbn [orb] in H. apply negb_true_iff in H. apply Z.ltb_ge in H. assert (0 <= IZR a) by (apply (IZR_le 0); auto). rewrite Z1. repeat split; intros; try contradiction; lra.
    apply quo_ge in H; [|lia]. repeat split; intros; try contradiction. lra.
  - destruct H as ((R1 & R2) & R3). destruct (Z.eqb_spec (zn 0 f) 0) as [Z0|Z0]. apply Z.eqb_eq. apply eq_IZR. specialize (R1 Z0). lra.
    destruct (Z.eqb_spec (zn 1 f) 0) as [Z1|Z1]. cbn [orb]. apply negb_true_iff. apply Z.ltb_ge. apply le_IZR. specialize (R2 Z1). lra. apply quo_ge; auto. lia.
Qed.
Lemma sat_eq : forall F d q, fpos F -> generators_sat_bound F d q Eq = generators_sat_bound F d q Gt && generators_sat_bound F d (- q) Lt.
Proof.
  intros F d q P. unfold generators_sat_bound. assert (K : forall (f g h : pvec -> bool), (forall x, In x F -> f x = g x && h x) -> forallb f F = forallb g F && forallb h F).
  { clear. intros f g h. induction F as [|x F IH]; intros H; cbn [forallb]. auto. rewrite IH by (intros; apply H; right; auto). rewrite (H x) by (left; auto). destruct (g x), (h x), (forallb g F), (forallb h F); auto. }
  apply K. clear K. intros f I. cbv zeta. destruct (P f I) as (P1 & P2).
  destruct (zn 0 f =? 0)%Z. rewrite andb_diag; auto. destruct (zn 1 f =? 0)%Z. rewrite orb_false_r. cbn [orb]. rewrite negb_orb. auto.
  set (x := (inject_Z (zn (d + 2) f) / inject_Z (zn 1 f))%Q). apply eq_true_iff_eq. rewrite andb_true_iff, !Qle_bool_iff, Qeq_bool_iff. split. intros ->. split; apply Qle_refl. intros (A1 & A2). apply Qle_antisym; auto. apply Qopp_le_compat in A2. rewrite !Qopp_involutive in A2. auto.
Qed.
Theorem sat_interval_spec : forall alg po d i0 i r (P : vec -> Prop), repr po i r P -> (d < i + r)%nat -> inf i0 <> MInf -> sup i0 <> MInf ->
  repr (snd (pk_sat_interval alg po d i0)) i r P /\ (fst (pk_sat_interval alg po d i0) = true <-> forall x, P x -> in_itv (x d) i0).
Proof.
  intros alg po d i0 i r P R D NI NS. unfold pk_sat_interval. destruct (get_F alg po i r P R) as (R1 & NB). fold (obtain_gen alg po) in R1, NB. set (pa := obtain_gen alg po) in *. clearbody pa. cbn [fst snd]. split; auto.
  destruct (pF pa) as [F|] eqn:EF. 2: { pose proof (repr_none _ _ _ _ R1 (NB eq_refl)) as N. split; auto. intros _ x X. destruct (N x X). }
  pose proof (repr_fpos _ _ _ _ _ R1 EF) as FP. destruct (repr_F_point _ _ _ _ _ R1 EF) as (x0 & X0).
  assert (GP : forall x, generated (S (i + r)) F (homog x) <-> P x). { intros x. destruct R1 as ((SW & _) & I1 & RR & G). rewrite <- G. unfold gamma. rewrite (cK_F pa F) by auto. unfold pn, pdim. rewrite I1, RR. reflexivity. }
  assert (L := coord_lin (S (i + r)) (S d) ltac:(lia)). assert (L' := flin_opp _ _ L). apply GP in X0.
  assert (HG : forall q, generators_sat_bound F d q Gt = true <-> forall x, P x -> x d <= Q2R q). { intros q. rewrite sat_gt by auto. rewrite (ub_complete (S (i + r)) _ F q x0); auto; try lia. split; intros H x X; apply (H x); apply GP; auto. }
  assert (HL : forall q, generators_sat_bound F d q Lt = true <-> forall x, P x -> - x d <= Q2R q). { intros q. rewrite sat_lt by auto. rewrite (ub_complete (S (i + r)) _ F q x0); auto; try lia. unfold fopp. split; intros H x X; apply (H x); apply GP; auto. }
  destruct (itv_is_point i0) eqn:PT.
  - rewrite sat_eq by auto. rewrite andb_true_iff, HG, HL. split. intros (A & B) x X. apply point_val; auto. specialize (A x X). specialize (B x X). rewrite Q2R_opp in B. lra.
    intros H. split; intros x X; specialize (H x X); apply point_val in H; auto; rewrite H. lra. rewrite Q2R_opp. lra.
  - rewrite andb_true_iff. unfold in_itv. destruct (inf i0) as [|a|]; [congruence| |]; destruct (sup i0) as [|b|]; try congruence; rewrite ?HL, ?HG; cbn [le_rb]; intuition; try (apply H; auto); try (destruct (H x); auto).
Qed.

(** * Satisfaction of a linear constraint *)
Lemma gens_weak : forall F q, do_generators_sat_vector F q true = true -> do_generators_sat_vector F q false = true.
Proof.
  intros F q. unfold do_generators_sat_vector. destruct (zn 0 q =? 0)%Z; auto. rewrite !forallb_forall. intros H f I. specialize (H f I). cbv zeta in *. apply andb_prop in H. destruct H as (A & B). rewrite A. simpl. destruct (zn 0 f =? 0)%Z; auto.
Qed.
Lemma gens_strict : forall n F q x, fpos F -> Forall (lenS n) F -> lenS n q -> (0 < n)%nat -> zn 0 q <> 0%Z -> do_generators_sat_vector F q true = true -> generated n F x -> 0 < dt n (rv (tl q)) x \/ (dt n (rv (tl q)) x = 0 /\ x 0%nat = 0).
Proof.
  intros n F q x P FL L N Q0 H. unfold do_generators_sat_vector in H. destruct (Z.eqb_spec (zn 0 q) 0) as [E|_]; [contradiction|]. rewrite forallb_forall in H. revert x.
  apply (gen_ind' n F (fun x => 0 < dt n (rv (tl q)) x \/ (dt n (rv (tl q)) x = 0 /\ x 0%nat = 0))).
  - intros x Z. right. split; [|auto]. rewrite (dt_ext n _ x (lin2 0 x 0 x)). rewrite dt_lin. ring. intros j J. unfold lin2. rewrite Z; auto. ring.
  - intros f x k y I K G IH V. rewrite (dt_ext n _ y _ V), dt_lin, (V 0%nat N). unfold lin2. rewrite rw0. rewrite Forall_forall in FL. rewrite <- (prod_dtn n q f) by auto. specialize (H f I). cbv zeta in H. destruct (P f I) as (P1 & P2). apply andb_prop in H. destruct H as (A & B). destruct (Z.eqb_spec (zn 0 f) 0) as [Z0|Z0].
    + apply Z.eqb_eq in B. rewrite B, (P1 Z0). destruct IH as [IH|(IH1 & IH2)]. left; lra. right. rewrite IH1, IH2. split; ring.
    + destruct K as [K|K]; [contradiction|]. cbn [andb] in B. apply negb_true_iff in B. apply Z.eqb_neq in B. apply Z.leb_le in A. assert (0 < IZR (vector_product f q)) by (apply (IZR_lt 0); lia). destruct (Req_dec k 0) as [->|NK]. destruct IH as [IH|(IH1 & IH2)]. left; lra. right. rewrite IH1, IH2. split; ring. left. assert (0 < k * IZR (vector_product f q)) by (apply Rmult_lt_0_compat; lra). destruct IH as [IH|(IH1 & IH2)]; lra.
Qed.
Lemma norm_int_strict : forall intdim n q v, lenS (S n) q -> zn 0 q = 1%Z -> zn 0 (vector_normalize_constraint_int intdim q) = 1%Z /\ (0 < rval n (vector_normalize_constraint_int intdim q) v -> 0 < rval n q v).
Proof.
  intros intdim n q v L Q0. assert (NR : zn 0 (vector_normalize q) = 1%Z /\ (0 < rval n (vector_normalize q) v -> 0 < rval n q v)).
  { destruct (rval_norm n q L) as (k & K & E). rewrite E. split. destruct q as [|a t]; [discriminate|]. destruct (normalize_spec a t) as (g & _ & t' & -> & _). exact Q0. intros H. nra. }
  unfold vector_normalize_constraint_int. destruct (_ && _ && _); auto. destruct (skip2 n q L) as (a & b & t & -> & LT). change (skipn 2 (a :: b :: t)) with t. change (zn 0 (a :: b :: t)) with a in *. change (zn 1 (a :: b :: t)) with b. subst a.
  set (g := vector_gcd t). destruct (g >? 1)%Z eqn:G; [|split; auto]. apply Z.gtb_lt in G. assert (GR : 0 < IZR g) by (apply IZR_lt; lia). change (1 =? 0)%Z with false. cbv iota. split. reflexivity.
  assert (D : forall i, (g | nth i t 0)%Z). { intros i. destruct (Nat.lt_ge_cases i (length t)) as [I|I]. unfold g. rewrite vector_gcd_spec. apply (proj1 (zgcd_divide t (zgcd t))). apply Z.divide_refl. apply nth_In; auto. rewrite nth_overflow by auto. apply Z.divide_0_r. }
  assert (EV : sm n (fun i => IZR (nth i t 0%Z) * v i) = IZR g * sm n (fun i => IZR (nth i (map (fun x => (x / g)%Z) t) 0%Z) * v i)).
  { rewrite <- sm_scal. apply sm_ext. intros i _. rewrite nth_map0 by (apply Z.div_0_l; lia). destruct (D i) as (z & Hz). rewrite Hz. rewrite Z.div_mul by lia. rewrite mult_IZR. ring. }
  rewrite !rval_cons, EV. pose proof (Z.div_mod b g ltac:(lia)) as DM. pose proof (Z.mod_pos_bound b g ltac:(lia)) as MB. intros H. assert (IZR b = IZR g * IZR (b / g) + IZR (b mod g)) by (rewrite <- mult_IZR, <- plus_IZR; f_equal; lia). assert (0 <= IZR (b mod g)) by (apply IZR_le; lia). nra.
Qed.
Lemma finish_strict : forall ty intdim n q v, lenS (S n) q -> ty <> CEq -> zn 0 (finish_lincons ty intdim q) = 1%Z /\ (0 < rval n (finish_lincons ty intdim q) v -> 0 < rval n q v).
Proof.
  intros ty intdim n q v L NE. unfold finish_lincons. destruct (norm_row _ _ L) as (L1 & _ & _). destruct (rval_norm n q L) as (k & K & EK). set (q1 := vector_normalize q) in *. clearbody q1.
  assert (ES : match ty with CEq => 0%Z | _ => 1%Z end = 1%Z) by (destruct ty; auto; congruence). rewrite ES. set (q2 := set_at 0 1%Z q1). assert (L2 : lenS (S n) q2) by (apply len_set_at; auto). assert (E2 : rval n q2 v = k * rval n q v) by (intros; unfold q2; rewrite rval_at0; auto). assert (Z2 : zn 0 q2 = 1%Z) by (unfold q2; rewrite zn_set_at by (unfold lenS in L1; lia); auto).
  set (q3 := match ty with CSup => if vector_is_integer intdim q2 then set_at 1 (zn 1 q2 - 1)%Z q2 else q2 | _ => q2 end).
  assert (L3 : lenS (S n) q3). { unfold q3. destruct ty; auto. destruct (vector_is_integer intdim q2); auto. apply len_set_at; auto. }
  assert (Z3 : zn 0 q3 = 1%Z). { unfold q3. destruct ty; auto. destruct (vector_is_integer intdim q2); auto. rewrite zn_set_at by (unfold lenS in L2; lia); auto. }
  assert (R3 : rval n q3 v <= k * rval n q v). { unfold q3. rewrite <- E2. destruct ty; try lra. destruct (vector_is_integer intdim q2); try lra. rewrite rval_at1 by auto. rewrite minus_IZR. lra. }
  destruct (norm_int_strict intdim n q3 v L3 Z3) as (A & B). split; auto. intros H. specialize (B H). assert (0 < k * rval n q v) by lra. destruct (Rlt_le_dec 0 (rval n q v)); auto. exfalso. nra.
Qed.
(** the test on a row, seen from the constraint *)
Lemma row_each : forall i n F c q strict v, fpos F -> Forall (lenS (S n)) F -> wfd n c -> qlc c -> flc c -> (ic_typ c = CEq -> cst_flag_ok (ic_expr c)) -> row_typ (ic_typ c) = true -> (ic_typ c = CSup -> strict = true) ->
  vector_set_lincons_sat i n c = Some q -> do_generators_sat_vector F q strict = true -> generated (S n) F (homog v) -> sat_each c v.
Proof.
  intros i n F c q strict v P FL (WD & WB) Q FG CF RT ST E H G. unfold vector_set_lincons_sat in E. destruct (match ic_typ c with CEq => _ | _ => _ end) eqn:EQ; [discriminate|]. destruct (binfty (inf (il_cst (ic_expr c)))) eqn:BI; [discriminate|]. inversion E; subst q; clear E.
  destruct (set_linexpr_spec false n (ic_expr c)) as (L0 & l & LP & RV). split; auto. set (q0 := vector_set_linexpr false n (ic_expr c)) in *. cbv iota in RV.
  destruct (finish_spec (ic_typ c) i n q0 L0) as (L1 & FS). cbv zeta in L1, FS. set (q1 := finish_lincons (ic_typ c) i q0) in *.
  assert (HW : do_generators_sat_vector F q1 false = true) by (destruct strict; [apply gens_weak|]; auto).
  assert (RX : relaxed (ic_typ c) (rval n q0 v)). { apply FS. apply (proj1 (gens_sat (S n) F q1 FL L1) HW); auto. }
  intros r (c0 & t & C0 & T & ->). apply tval_tsum in T; auto. subst t.
  assert (CI : - Q2R (lin_cst false (ic_expr c)) <= c0). { unfold lin_cst. destruct C0 as (C0 & _). destruct (inf (il_cst (ic_expr c))); simpl in *; try discriminate; try tauto. lra. }
  specialize (RV v). assert (ME : Q2R (lin_cst false (ic_expr c)) = Q2R (bfinq (inf (il_cst (ic_expr c))))) by reflexivity. set (m := Q2R (lin_cst false (ic_expr c))) in *. set (t := tsum (il_terms (ic_expr c)) v) in *. clearbody m t. destruct (ic_typ c) eqn:TY; try discriminate; simpl in *.
  - apply negb_false_iff in EQ. specialize (CF eq_refl EQ). apply point_iff in CF. destruct CF as (a & b & Ea & Eb & AB). unfold in_itv in C0. rewrite Ea, Eb in C0. simpl in C0. rewrite Ea in *. simpl in *. rewrite RV in RX. apply Rmult_integral in RX. destruct RX as [RX|RX]; lra.
  - rewrite RV in RX. assert (0 <= - m + t) by nra. lra.
  - rewrite (ST eq_refl) in H. destruct (finish_strict CSup i n q0 v L0 ltac:(discriminate)) as (Z1 & FP). fold q1 in Z1, FP. rewrite (rval_dt n q1 v) in FP.
    destruct (gens_strict (S n) F q1 (homog v) P FL L1 ltac:(lia) ltac:(lia) H G) as [X|(_ & X)]; [|simpl in X; lra]. specialize (FP X). rewrite RV in FP. assert (0 < - m + t) by nra. lra.
Qed.
Lemma bool_shape2 : forall c b, ic_typ (icons_bool c b) = CEq /\ cst_flag_ok (ic_expr (icons_bool c b)).
Proof. intros c b. split; auto. intros _. destruct b; reflexivity. Qed.
Theorem sat_lincons_sound : forall alg po c i r (P : vec -> Prop), repr po i r P -> user_wf (i + r) c -> scalar_terms (lc_expr c) \/ lc_typ c <> CEq ->
  exists b po', pk_sat_lincons alg po c = Some (b, po') /\ repr po' i r P /\ (b = true -> forall x, P x -> sat_all c x).
Proof.
  intros alg po c i r P R U SC. unfold pk_sat_lincons. destruct (get_F alg po i r P R) as (R1 & NB). fold (obtain_gen alg po) in R1, NB. set (pa := obtain_gen alg po) in *. clearbody pa.
  destruct (pF pa) as [F|] eqn:EF. 2: { pose proof (repr_none _ _ _ _ R1 (NB eq_refl)) as N. exists true, pa. split; auto. split; auto. intros _ x X. destruct (N x X). }
  destruct (row_typ (lc_typ c)) eqn:RT; cbn [negb]. 2: { exists false, pa. split; auto. split; auto. discriminate. }
  pose proof (repr_fpos _ _ _ _ _ R1 EF) as FP. assert (DI : pint pa = i /\ pdim pa = (i + r)%nat). { destruct R1 as (_ & A & B & _). split; auto. unfold pdim. congruence. } destruct DI as (DI & DD). rewrite DI, DD.
  assert (GP : forall x, generated (S (i + r)) F (homog x) <-> P x). { intros x. destruct R1 as ((SW & _) & I1 & RR & G). rewrite <- G. unfold gamma. rewrite (cK_F pa F) by auto. unfold pn. rewrite DD. reflexivity. }
  assert (LF : Forall (lenS (S (i + r))) F). { destruct R1 as ((SW & _) & _). pose proof (swf_F pa F SW EF) as LF. unfold pn in LF. rewrite DD in LF. exact LF. }
  destruct (user_shape (i + r) c U) as (S1 & S2 & _). set (ic := icons_of_lincons (N:=exact_num) c) in *. assert (TI : ic_typ ic = lc_typ c) by reflexivity.
  assert (CX : exists ic', (if forallb (fun p => is_scal (snd p)) (foreach (le_terms (lc_expr c))) then Some ic else quasilinearize_lincons (N:=exact_num) (matrix_to_box F) false ic) = Some ic' /\ wfd (i + r) ic' /\ qlc ic' /\ flc ic' /\ (ic_typ ic' = CEq -> cst_flag_ok (ic_expr ic')) /\ row_typ (ic_typ ic') = true /\ (ic_typ ic' = CSup -> lc_typ c = CSup) /\
     forall x, P x -> sat_each ic' x -> sat_each ic x).
  { destruct (forallb (fun p => is_scal (snd p)) (foreach (le_terms (lc_expr c)))) eqn:SB.
    - rewrite forallb_forall in SB. assert (ST : scalar_terms (lc_expr c)) by (apply Forall_forall; auto). exists ic. split; auto. split; auto. destruct U as (W & HL). destruct (terms_shape (i + r) (lc_expr c) W HL ST) as (T1 & T2 & T3). split; auto. split; auto. split. intros _. apply (user_flags (i + r) c). apply user_wf_ok. split; auto. rewrite TI. auto.
    - assert (NE : lc_typ c <> CEq). { destruct SC as [SC|SC]; auto. exfalso. assert (X : forallb (fun p => is_scal (snd p)) (foreach (le_terms (lc_expr c))) = true); [|congruence]. apply forallb_forall. unfold scalar_terms in SC. rewrite Forall_forall in SC. auto. }
      assert (NM : lc_typ c <> CEqMod) by (intros X; rewrite X in RT; discriminate).
      destruct (quasilinearize_lincons_total (N:=exact_num) (matrix_to_box F) false ic) as (ic' & Q & _). { intros X. rewrite TI in X. contradiction. }
      exists ic'. split; auto. destruct (qll_shape (i + r) _ _ _ _ S1 S2 Q) as (Q1 & Q2 & Q3). split; auto. split; auto. split; auto.
      assert (TC : (ic_typ ic' = CEq /\ cst_flag_ok (ic_expr ic')) \/ ic_typ ic' = lc_typ c). { unfold quasilinearize_lincons in Q. destruct (il_terms (ic_expr ic)). destruct (eval_cst ic); inversion Q; subst; auto; left; apply bool_shape2. inversion Q; subst. right. auto. }
      split. intros X. destruct TC as [(_ & TC)|TC]; auto. congruence. split. destruct TC as [(TC & _)|TC]; rewrite TC; auto. split. intros X. destruct TC as [(TC & _)|TC]; congruence.
      intros x X SE. eapply (quasilinearize_lincons_each (N:=exact_num)); [| |exact Q|exact SE]. eapply user_env; eauto. intros [Y|Y]; rewrite TI in Y; contradiction. }
  destruct CX as (ic' & -> & C1 & C2 & C3 & C4 & C5 & C6 & C7). destruct (vector_set_lincons_sat i (i + r) ic') as [q|] eqn:VS. 2: { exists false, pa. split; auto. split; auto. discriminate. }
  eexists _, pa. split. reflexivity. split; auto. intros T x X. eapply (icons_of_lincons_each (N:=exact_num) (i + r)). apply user_wf_ok; auto. apply C7; auto. eapply row_each; [exact FP|exact LF|exact C1|exact C2|exact C3|exact C4|exact C5| |exact VS|exact T|apply GP; auto]. intros Y. rewrite (C6 Y). auto.
Qed.
(** without integer dimension, for a large inequality or an equality with scalar coefficients, the test is complete *)
Theorem sat_lincons_complete : forall alg po c r (P : vec -> Prop), repr po 0 r P -> user_wf r c -> scalar_terms (lc_expr c) -> is_scal (le_cst (lc_expr c)) = true -> lc_typ c = CEq \/ lc_typ c = CSupEq ->
  (forall x, P x -> sat_all c x) -> exists po', pk_sat_lincons alg po c = Some (true, po').
Proof.
  intros alg po c r P R U ST SCC TY H. unfold pk_sat_lincons. destruct (get_F alg po 0 r P R) as (R1 & NB). fold (obtain_gen alg po) in R1, NB. set (pa := obtain_gen alg po) in *. clearbody pa.
  destruct (pF pa) as [F|] eqn:EF; [|eauto]. assert (RT : row_typ (lc_typ c) = true) by (destruct TY as [-> | ->]; auto). rewrite RT. cbn [negb].
  assert (DI : pint pa = 0%nat /\ pdim pa = r). { destruct R1 as (_ & A & B & _). split; auto. unfold pdim. rewrite A, B. auto. } destruct DI as (DI & DD). rewrite DI, DD.
  assert (GP : forall x, generated (S r) F (homog x) <-> P x). { intros x. destruct R1 as ((SW & _) & I1 & RR & G). rewrite <- G. unfold gamma. rewrite (cK_F pa F) by auto. unfold pn. rewrite DD. reflexivity. }
  assert (LF : Forall (lenS (S r)) F). { destruct R1 as ((SW & _) & _). pose proof (swf_F pa F SW EF) as LF. unfold pn in LF. rewrite DD in LF. exact LF. }
  assert (SB : forallb (fun p => is_scal (snd p)) (foreach (le_terms (lc_expr c))) = true). { apply forallb_forall. unfold scalar_terms in ST. rewrite Forall_forall in ST. auto. } rewrite SB. assert (U' := U). destruct U' as (W & HL). destruct (terms_shape r (lc_expr c) W HL ST) as (T1 & T2 & T3).
  assert (CS : exists q0, le_cst (lc_expr c) = Scal (Fin q0)). { destruct W as (W & _). destruct (le_cst (lc_expr c)) as [[| |]|]; try discriminate; simpl in W; try tauto. eauto. } destruct CS as (q0 & CS).
  set (ic := icons_of_lincons (N:=exact_num) c) in *. assert (E : il_cst (ic_expr ic) = mkItv (Fin (- q0)) (Fin q0) /\ il_eq (ic_expr ic) = true). { assert (B : bexact (N:=exact_num) (Fin q0) = true) by (unfold bexact; simpl; apply Qeq_bool_iff; apply Qeq_refl). unfold ic, icons_of_lincons, ilin_of_linexpr. rewrite CS. unfold itv_set_coeff. rewrite B. simpl. destruct (set_terms (N:=exact_num) (foreach (le_terms (lc_expr c)))). simpl. split; auto. }
  destruct E as (E1 & E2). unfold vector_set_lincons_sat. rewrite E1, E2. change (ic_typ ic) with (lc_typ c). cbn [inf sup binfty negb]. assert (EM : match lc_typ c with CEq => false | _ => false end = false) by (destruct (lc_typ c); auto). rewrite EM.
  destruct (set_linexpr_spec false r (ic_expr ic)) as (L0 & l & LP & RV). exact T3. set (q1 := vector_set_linexpr false r (ic_expr ic)) in *. destruct (finish_spec (lc_typ c) 0 r q1 L0) as (L1 & FS). cbv zeta in L1, FS. exists pa. f_equal. f_equal.
  assert (EF2 : match lc_typ c with CSup => true | _ => false end = false) by (destruct TY as [-> | ->]; auto). rewrite EF2. set (q2 := finish_lincons (lc_typ c) 0 q1) in *. apply (gens_sat (S r)); auto.
  destruct R1 as ((SW & PO) & _ & _ & GA). assert (PN : pn pa = S r) by (unfold pn; rewrite DD; auto).
  assert (LC : forall x, cK pa x -> cone [q2] x). { apply leq_cone; auto. congruence. rewrite PN. constructor; auto. intros x GX. apply GA in GX. unfold poly_con. rewrite cone_in. intros f [<-|[]]. apply FS; auto. intros j J; lia.
    assert (SA := H x GX (Q2R q0 + tsum (il_terms (ic_expr ic)) x)). rewrite RV. unfold lin_cst. rewrite E1. cbn [inf bfinq]. rewrite Q2R_opp, Ropp_involutive.
    assert (EV : expr_val (lc_expr c) x (Q2R q0 + tsum (il_terms (ic_expr ic)) x)). { apply (ilin_of_linexpr_exact r); auto. exists (Q2R q0), (tsum (il_terms (ic_expr ic)) x). split. change (fst (ilin_of_linexpr (N:=exact_num) (lc_expr c))) with (ic_expr ic). rewrite E1. unfold in_itv. simpl. rewrite Q2R_opp. lra. split; auto. apply tsum_tval; auto. }
    specialize (SA EV). destruct TY as [TY|TY]; rewrite TY in *; simpl in *. rewrite SA. ring. nra. }
  intros x G. rewrite <- PN in G. apply (cK_F pa F SW EF) in G. apply LC in G. rewrite cone_in in G. apply G. left; auto.
Qed.

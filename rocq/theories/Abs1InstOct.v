(** Level 1 over octagons: the domain meets the requirements of Abs1Facts.v, exactly with exact numbers and
    algorithm >= 0, as an over-approximation with any numbers and any option.  The functions of level 0 are those
    of Oct.v and OctTransfer.v, called without destruction of the argument; [tmp] is the scratch array of the
    manager.  ap_abstract0.c does not call the domain when there is no dimension to add (1221), to remove (1251) or
    to fold (1363): hence the cases of the empty list below. *)
From Coq Require Import Arith ZArith QArith Bool List Lia Sorted Reals Lra.
From Verif Require Import Bound Linexpr OctMat OctIdx OctGeom2 ApCore ApEnv Oct OctClose OctFacts OctFacts2 OctFacts3 OctForget OctResize2 OctResize3 OctExpand OctFold OctGuard5 OctTransfer BoxDims PropOctInv PropOctResize PropOctLattice PropOctBox.
From Verif Require Import Abs1 Abs1Facts.
Import ListNotations.
Local Open Scope nat_scope.

Definition oct_d0 (N : numtype) (algo : Z) (tmp : hmat) : dom0 :=
  mkD0 oct oint (fun a => odim a - oint a) oct_top oct_meet (oct_join (N:=N) algo)
    (fun a l => fst (oct_meet_lincons_array (N:=N) algo tmp a l))
    (fun a l dest => oct_assign_linexpr_array (N:=N) algo tmp a (map fst l) (map snd l) dest)
    (fun a l dest => oct_substitute_linexpr_array (N:=N) algo tmp a (map fst l) (map snd l) dest)
    (oct_forget_array (N:=N) algo)
    (fun a pos ni pr => match pos with [] => a | _ => oct_add_dimensions a pos ni pr end)
    (fun a pos ni => match pos with [] => a | _ => oct_remove_dimensions (N:=N) algo a pos ni end)
    oct_permute_dimensions oct_expand
    (fun a t0 ts => match ts with [] => a | _ => oct_fold (N:=N) algo a t0 ts end)
    (oct_widening (N:=N) algo) oct_is_dimension_unconstrained.
(** the invariant *)
Definition oinv (ex : bool) : oct -> Prop := if ex then exo else wfo.
Lemma oinv_wf : forall ex a, oinv ex a -> wfo a.
Proof. intros [|] a H; [apply exo_wf|]; exact H. Qed.
Lemma lit_ext : forall n v w, (forall x, x < n -> v x = w x) -> forall i, i < 2 * n -> lit v i = lit w i.
Proof. intros n v w H i L. unfold lit. rewrite (H (i / 2)). auto. apply Nat.div_lt_upper_bound; lia. Qed.
Lemma gamo_loc : forall a v w, (forall x, x < odim a -> v x = w x) -> gamo a v -> gamo a w.
Proof.
  intros a v w H (A & B & C). assert (K : forall m, gam (odim a) m v -> gam (odim a) m w). { intros m G i j I J. pose proof (or1_lt2 _ _ _ I J) as J'. rewrite <- (lit_ext (odim a) v w H i I), <- (lit_ext (odim a) v w H j J'). apply G; auto. }
  split; auto.
Qed.
Lemma gamo_loci : forall a v w, (forall x, x < odim a -> v x = w x) -> (gamo a v <-> gamo a w).
Proof. intros a v w H. split; apply gamo_loc; intros x L; auto. symmetry; auto. Qed.
Lemma oct_dspec : forall ex N algo tmp, (ex = true -> N = exact_num /\ (0 <= algo)%Z) -> dspec ex (oct_d0 N algo tmp) (oinv ex) gamo.
Proof.
  intros ex N algo tmp EX. constructor; cbn [oct_d0 dv d_int d_real d_top d_meet d_join d_forget d_add d_remove d_permute d_expand d_fold d_uncon]; unfold outc, dd; cbn [dv d_int d_real oct_d0].
  - intros a v w I H. pose proof (wfo_int _ (oinv_wf _ _ I)). apply gamo_loc. intros x L. apply H. lia.
  - intros i j. split. destruct ex; [apply top_exo|apply exo_wf, top_exo]. split; auto. split. simpl; lia. intros v. split; auto. intros _. split. right; discriminate. split. discriminate. intros c C. injection C as <-. apply top_gam.
  - intros a b Ia Ib A B. pose proof (oinv_wf _ _ Ia) as Wa. pose proof (oinv_wf _ _ Ib) as Wb. pose proof (wfo_int _ Wa). pose proof (wfo_int _ Wb). assert (SD : odim a = odim b) by lia. destruct (meet_dim a b) as (D1 & D2). rewrite D1, D2.
    split. destruct ex; [|apply exo_wf]; apply meet_wfo; auto. split; auto. split; auto. intros v. pose proof (C27_meet_exact a b Wa Wb SD v). tauto.
  - intros a b Ia Ib A B. pose proof (oinv_wf _ _ Ia) as Wa. pose proof (oinv_wf _ _ Ib) as Wb. pose proof (wfo_int _ Wa). pose proof (wfo_int _ Wb). assert (SD : odim a = odim b) by lia. destruct (join_dim (N:=N) algo a b) as (D1 & D2). rewrite D1, D2.
    split. split; auto. destruct ex. destruct (EX eq_refl) as (-> & _). apply join_exo; auto. apply join_wfo; auto. split. intros v G. apply join_sound; auto.
    intros -> c Ic C1 C2 H' v. destruct (EX eq_refl) as (-> & AL). pose proof (wfo_int _ (oinv_wf true _ Ic)). apply C27_join_best; auto. apply (oinv_wf true c Ic). lia.
  - intros a tdim pr Ia T. pose proof (oinv_wf _ _ Ia) as Wa. pose proof (wfo_int _ Wa). replace (oint a + (odim a - oint a)) with (odim a) in * by lia. destruct (forget_dim (N:=N) algo a tdim pr) as (D1 & D2). rewrite D1, D2.
    split. destruct ex. destruct (EX eq_refl) as (-> & _). apply forget_exo; auto. apply forget_wfo; auto. split; auto. split; auto. intros w. split.
    + intros (v & G & Hv). apply (C29_forget_sound N algo a tdim pr Wa T w (fun x => if x <? odim a then v x else w x)). apply (gamo_loc a v); auto. intros x L. destruct (Nat.ltb_spec x (odim a)); auto; lia.
      intros x NI. destruct (Nat.ltb_spec x (odim a)); auto. apply Hv; auto. intros P x I. apply Hv; auto.
    + intros X G. destruct (EX X) as (-> & AL). subst ex. apply (C29_forget_exact algo a tdim pr AL Ia T) in G. destruct G as ((v & G & Hv) & P). exists v. split; auto.
  - intros a pos ni pr Ia A L. pose proof (oinv_wf _ _ Ia) as Wa. pose proof (wfo_int _ Wa). replace (oint a + (odim a - oint a)) with (odim a) in * by lia. destruct pos as [|p pos].
    + split; auto. simpl in L. split. lia. split. simpl; lia. intros v. assert (E : gamo a v <-> gamo a (fun x => v (x + cle [] x))). { apply gamo_loci. intros x _. unfold cle; simpl. rewrite Nat.add_0_r. auto. } split. tauto. intros _ G. split. tauto. simpl; intros; lia.
    + assert (DO : dimchange_add_ok (odim a) (p :: pos)). { destruct A. split; auto. discriminate. } destruct (add_dimensions_dim a (p :: pos) ni pr) as (D1 & D2). rewrite D1, D2. split. destruct ex; [apply add_dimensions_exo|apply add_dimensions_wfo]; auto. split; auto. split. lia.
      intros w. pose proof (proj2 (C30_add_dimensions_exact a (p :: pos) ni pr Wa DO) w) as K. unfold cle. tauto.
  - intros a pos ni Ia A L1 L2 L3. pose proof (oinv_wf _ _ Ia) as Wa. pose proof (wfo_int _ Wa). replace (oint a + (odim a - oint a)) with (odim a) in * by lia. destruct pos as [|p pos].
    + split; auto. simpl in L1. split. lia. split. simpl; lia. intros w. split. intros (v & G & Hv). apply (gamo_loc a v); auto. intros x L. specialize (Hv x L (fun F => F)). unfold clt in Hv; simpl in Hv. rewrite Nat.sub_0_r in Hv. auto.
      intros _ G. exists w. split; auto. intros x _ _. unfold clt; simpl. rewrite Nat.sub_0_r. auto.
    + assert (DO : dimchange_rem_ok (odim a) (p :: pos)). { destruct A. split; auto. discriminate. } destruct (remove_dimensions_dim (N:=N) algo a (p :: pos) ni) as (D1 & D2). rewrite D1, D2. split. destruct ex. destruct (EX eq_refl) as (-> & _). apply remove_exo; auto; lia. apply remove_wfo; auto; lia. split; auto. split. lia.
      intros w. split. intros (v & G & Hv). apply (proj2 (C30_remove_dimensions_sound N algo a (p :: pos) ni Wa DO) v w); auto.
      intros X G. destruct (EX X) as (-> & AL). subst ex. apply (C30_remove_dimensions_exact algo a (p :: pos) ni AL Ia DO) in G. exact G.
  - intros a perm Ia P. pose proof (oinv_wf _ _ Ia) as Wa. pose proof (wfo_int _ Wa). replace (oint a + (odim a - oint a)) with (odim a) in * by lia. destruct (permute_dimensions_dim a perm) as (D1 & D2). rewrite D1, D2. split. destruct ex; [apply permute_dimensions_exo|apply permute_dimensions_wfo]; auto. split; auto. split; auto.
    intros w. destruct P as (P1 & P2 & P3). pose proof (proj2 (C30_permute_dimensions_exact a perm Wa P1 P2 P3) (fun x => w (nth x perm 0)) w (fun x => eq_refl)). tauto.
  - intros a d n Ia L. pose proof (oinv_wf _ _ Ia) as Wa. pose proof (wfo_int _ Wa). replace (oint a + (odim a - oint a)) with (odim a) in * by lia. destruct (OctExpand.expand_dim a d n) as (D1 & D2). rewrite D1, D2. split. destruct ex; [apply expand_exo|apply expand_wfo]; auto. split; auto. split. destruct (d <? oint a); lia.
    intros w. pose proof (proj2 (C37_expand_exact a d n Wa L) w). tauto.
  - intros a t0 ts Ia A T. pose proof (oinv_wf _ _ Ia) as Wa. pose proof (wfo_int _ Wa). replace (oint a + (odim a - oint a)) with (odim a) in * by lia. destruct ts as [|t ts].
    + assert (K : forall v, box_folded (odim a) t0 [] t0 v v). { intros v. split; auto. intros x _ _ _. unfold clt; simpl. rewrite Nat.sub_0_r. auto. }
      split. split; auto. split; destruct (t0 <? oint a); simpl; lia. split. intros t v w [<-|[]] G (E & F). apply (gamo_loc a v); auto. intros x L. destruct (Nat.eq_dec x t0) as [->|NE]; auto. specialize (F x L (fun F => F) NE). unfold clt in F; simpl in F. rewrite Nat.sub_0_r in F. auto.
      intros _ c _ _ _ Hc w G. apply (Hc t0 w w); simpl; auto.
    + assert (DO : fold_ok (odim a) t0 (t :: ts)). { destruct A. split; auto. discriminate. } destruct (fold_dim (N:=N) algo a t0 (t :: ts)) as (D1 & D2). pose proof (fold_len _ _ _ DO) as FL.
      assert (DD : (if t0 <? oint a then oint a - length (t :: ts) else oint a) <= odim a - length (t :: ts) /\ odim a - length (t :: ts) - (if t0 <? oint a then oint a - length (t :: ts) else oint a) = (if t0 <? oint a then odim a - oint a else odim a - oint a - length (t :: ts))).
      { destruct (Nat.ltb_spec t0 (oint a)) as [LT|GE]; [|lia]. assert (DI : fold_ok (oint a) t0 (t :: ts)). { split. discriminate. split. apply A. intros u [<-|U]; auto. } pose proof (fold_len _ _ _ DI). lia. }
      split. rewrite D1, D2. split. destruct ex. destruct (EX eq_refl) as (-> & _). apply fold_exo; auto. apply fold_wfo; auto. split; auto. apply DD.
      split. intros u v w I G F. apply (proj2 (C37_fold_sound N algo a t0 (t :: ts) Wa DO) u v w); auto.
      intros X c Ic C1 C2 Hc w. destruct (EX X) as (-> & AL). subst ex. rewrite D2 in C1. rewrite D1, D2 in C2. pose proof (wfo_int _ (oinv_wf true _ Ic)). apply (C37_fold_best algo a t0 (t :: ts) c AL Ia DO (oinv_wf true _ Ic)); auto. lia.
  - intros a d v w Ia L U G H. pose proof (oinv_wf _ _ Ia) as Wa. pose proof (wfo_int _ Wa). replace (oint a + (odim a - oint a)) with (odim a) in * by lia. pose proof (unconstrained_sound a d v (w d) Wa L U G) as K. apply (gamo_loc a _ w) in K; auto. intros x LX. unfold OctGeom.vset. destruct (Nat.eqb_spec x d) as [->|NE]; auto. symmetry; auto.
Qed.

(** Folding of named variables (Abs1.v, fold1). *)
From Coq Require Import Arith ZArith Bool List Lia Sorted Permutation Reals.
From Verif Require Import Linexpr ApCore ApCoreDim ApEnv ApEnvFacts ApEnvFacts2 PropApEnv ApCheck PropApCheck OctResize2 OctResize3 BoxDims Abs1 Abs1Facts Abs1Ops.
Import ListNotations.
Local Open Scope nat_scope.

(** ** Sorted lists of dimensions *)
Lemma ninsert_perm : forall x l, Permutation (ninsert x l) (x :: l).
Proof. intros x l. induction l as [|y q IH]; simpl; auto. destruct (x <=? y); auto. eapply perm_trans. apply perm_skip. exact IH. apply perm_swap. Qed.
Lemma nsort_perm : forall l, Permutation (nsort l) l.
Proof. induction l as [|x q IH]; simpl; auto. eapply perm_trans. apply ninsert_perm. apply perm_skip; auto. Qed.
Lemma ninsert_sorted : forall x l, StronglySorted le l -> StronglySorted le (ninsert x l).
Proof.
  intros x l S. induction S as [|y q S IH F]; simpl. repeat constructor. destruct (Nat.leb_spec x y) as [L|L].
  - constructor. constructor; auto. constructor; auto. rewrite Forall_forall in *. intros z Z. specialize (F z Z). lia.
  - constructor; auto. rewrite Forall_forall in *. intros z Z. apply (Permutation_in z (ninsert_perm x q)) in Z. destruct Z as [<-|Z]; [lia|auto].
Qed.
Lemma nsort_sorted : forall l, StronglySorted le (nsort l).
Proof. induction l as [|x q IH]; simpl. constructor. apply ninsert_sorted; auto. Qed.
Lemma sorted_strict : forall l, StronglySorted le l -> NoDup l -> StronglySorted lt l.
Proof.
  intros l S. induction S as [|x q S IH F]; intros N; inversion N; subst; constructor; auto. rewrite Forall_forall in *. intros y Y. specialize (F y Y). assert (x <> y) by (intros ->; tauto). lia.
Qed.
Lemma clt_perm : forall l m x, Permutation l m -> clt l x = clt m x.
Proof. intros l m x P. induction P; rewrite ?clt_S; try lia. Qed.
Lemma index_clt : forall l x, StronglySorted lt l -> In x l -> index_of x l = clt l x.
Proof.
  intros l x S. induction S as [|y q S IH F]; intros I. destruct I. rewrite Forall_forall in F. simpl. rewrite clt_S. destruct (Nat.eqb_spec x y) as [->|N].
  - rewrite Nat.ltb_irrefl. rewrite clt_none; auto. apply Forall_forall. intros z Z. specialize (F z Z). lia.
  - destruct I as [I|I]; [congruence|]. specialize (F x I). destruct (Nat.ltb_spec y x); [|lia]. rewrite IH; auto.
Qed.
Lemma clt_le_diff : forall l t0 y, StronglySorted lt l -> (forall z, In z l -> t0 < z) -> t0 < y -> clt l y + t0 < y.
Proof.
  intros l t0 y S. revert t0. induction S as [|z q S IH F]; intros t0 B L. unfold clt; simpl; lia. rewrite clt_S. rewrite Forall_forall in F. destruct (Nat.ltb_spec z y) as [K|K].
  - specialize (IH z F K). specialize (B z (or_introl eq_refl)). lia.
  - rewrite clt_none. lia. apply Forall_forall. intros u U. specialize (F u U). lia.
Qed.

(** ** The permutation after the folding *)
Section Arith.
Context (n dim t0 : nat) (ts rm : list nat).
Hypothesis OK : box_fold_ok n t0 ts.
Hypothesis SR : StronglySorted lt rm.
Hypothesis PM : Permutation (dim :: rm) (t0 :: ts).
Lemma fa_clt : forall y, (if dim <? y then 1 else 0) + clt rm y = (if t0 <? y then 1 else 0) + clt ts y.
Proof. intros y. rewrite <- !clt_S. apply clt_perm; auto. Qed.
Lemma fa_min : forall z, In z ts -> t0 < z.
Proof. destruct OK as (S & _). inversion S; subst. rewrite Forall_forall in *. auto. Qed.
Lemma fa_dim : dim = t0 \/ (In dim ts /\ t0 < dim).
Proof. assert (I : In dim (t0 :: ts)) by (apply (Permutation_in dim PM); left; auto). destruct I as [I|I]; auto. right. split; auto. apply fa_min; auto. Qed.
Lemma fa_ndim : ~ In dim rm.
Proof. assert (N : NoDup (dim :: rm)). { apply (Permutation_NoDup (Permutation_sym PM)). destruct OK as (S & _). clear - S. remember (t0 :: ts) as l. clear Heql. induction S; constructor; auto. rewrite Forall_forall in *. intros I. specialize (H a I). lia. } inversion N; auto. Qed.
Lemma fa_len : length rm = length ts.
Proof. apply Permutation_length in PM. simpl in PM. lia. Qed.
Lemma fa_rm : box_rem_ok n rm.
Proof. split; auto. intros p P. destruct OK as (_ & B). apply B. apply (Permutation_in p PM). right; auto. Qed.
Lemma fa_dn : dim < n.
Proof. destruct OK as (_ & B). apply B. apply (Permutation_in dim PM). left; auto. Qed.
Definition lastd : nat := dim - clt rm dim.
Lemma fa_last : t0 <= lastd /\ lastd < n - length ts.
Proof.
  unfold lastd. destruct (rem_back n rm dim fa_rm fa_dn fa_ndim) as (A & B). rewrite <- fa_len. split; auto. destruct fa_dim as [E|(I & L)].
  - rewrite clt_none. lia. apply Forall_forall. intros z Z. assert (In z (t0 :: ts)) by (apply (Permutation_in z PM); right; auto). destruct H as [H|H]. lia. apply fa_min in H. lia.
  - assert (K := fa_clt dim). rewrite Nat.ltb_irrefl in K. destruct (Nat.ltb_spec t0 dim); [|lia]. destruct OK as (S & _). inversion S; subst. assert (J := clt_le_diff ts t0 dim ltac:(auto) fa_min L). lia.
Qed.
(** the rotation, or the identity *)
Definition turn (r : nat) : nat := if r =? t0 then lastd else if (t0 <? r) && (r <=? lastd) then r - 1 else r.
Lemma turn_id : dim = t0 -> forall r, turn r = r.
Proof.
  intros E r. assert (L : lastd = t0). { unfold lastd. rewrite clt_none. lia. apply Forall_forall. intros z Z. assert (In z (t0 :: ts)) by (apply (Permutation_in z PM); right; auto). destruct H as [H|H]. lia. apply fa_min in H. lia. }
  unfold turn. rewrite L. destruct (Nat.eqb_spec r t0); auto. destruct (Nat.ltb_spec t0 r), (Nat.leb_spec r t0); simpl; lia.
Qed.
Lemma turn_other : forall y, y < n -> ~ In y (t0 :: ts) -> turn (y - clt ts y) = y - clt rm y.
Proof.
  intros y L N. assert (K := fa_clt y). assert (NT : y <> t0) by (intros ->; apply N; left; auto). assert (ND : y <> dim). { intros ->. apply N. apply (Permutation_in dim PM). left; auto. } assert (NS : ~ In y ts) by (intros Z; apply N; right; auto).
  assert (NR : ~ In y rm). { intros Z. apply N. apply (Permutation_in y PM). right; auto. } destruct OK as (S & _). inversion S as [|? ? S' _]; subst. destruct (rem_back n rm y fa_rm L NR) as (_ & LE).
  assert (OT : box_rem_ok n ts) by (split; auto; intros p P; destruct OK as (_ & B); apply B; right; auto). destruct (rem_back n ts y OT L NS) as (_ & LT). unfold turn. destruct (Nat.lt_ge_cases y t0) as [YT|YT].
  - assert (C0 : clt ts y = 0). { apply clt_none. apply Forall_forall. intros z Z. apply fa_min in Z. lia. } rewrite C0 in *. destruct (Nat.ltb_spec t0 y); [lia|]. destruct (Nat.ltb_spec dim y). destruct fa_dim as [|(_ & ?)]; lia. simpl in K. rewrite Nat.sub_0_r. destruct (Nat.eqb_spec y t0); [lia|]. destruct (Nat.ltb_spec t0 y); simpl; lia.
  - assert (Y : t0 < y) by lia. assert (J := clt_le_diff ts t0 y S' fa_min Y). destruct (Nat.ltb_spec t0 y); [|lia]. destruct (Nat.eqb_spec (y - clt ts y) t0); [lia|]. destruct (Nat.ltb_spec t0 (y - clt ts y)); [|lia]. simpl.
    destruct (Nat.ltb_spec dim y) as [DY|DY].
    + assert (ND' := fa_ndim). assert (MS := clt_mono_strict rm dim y SR DY ND'). destruct (Nat.leb_spec (y - clt ts y) lastd) as [LL|LL]; [|lia]. unfold lastd in LL. pose proof (rem_back n rm dim fa_rm fa_dn ND') as (_ & ?). lia.
    + assert (DY' : y < dim) by lia. assert (MS := clt_mono_strict rm y dim SR DY' NR). destruct (Nat.leb_spec (y - clt ts y) lastd) as [LL|LL]; [lia|]. unfold lastd in LL. pose proof (rem_back n rm dim fa_rm fa_dn fa_ndim) as (_ & ?). lia.
Qed.
Lemma turn_perm : is_perm (n - length ts) (rotation (n - length ts) t0 lastd) /\ forall r, r < n - length ts -> nth r (rotation (n - length ts) t0 lastd) 0 = turn r.
Proof.
  pose proof fa_last as (L1 & L2). assert (NT : forall r, r < n - length ts -> nth r (rotation (n - length ts) t0 lastd) 0 = turn r).
  { intros r L. unfold rotation. rewrite (nth_indep _ 0 (turn 0)) by (rewrite map_length, seq_length; auto). change (fun r0 : nat => if r0 =? t0 then lastd else if (t0 <? r0) && (r0 <=? lastd) then r0 - 1 else r0) with turn. rewrite (map_nth turn). rewrite seq_nth by auto. reflexivity. }
  split; auto. split. unfold rotation. rewrite map_length, seq_length; auto. split.
  - intros i L. rewrite NT by auto. unfold turn. destruct (i =? t0); auto. destruct (Nat.ltb_spec t0 i), (Nat.leb_spec i lastd); simpl; lia.
  - intros i j LI LJ. rewrite !NT by auto. unfold turn. destruct (Nat.eqb_spec i t0), (Nat.eqb_spec j t0), (Nat.ltb_spec t0 i), (Nat.leb_spec i lastd), (Nat.ltb_spec t0 j), (Nat.leb_spec j lastd); simpl; lia.
Qed.
End Arith.

Section Ops.
Context {V : Type} (ops : vops V) (ex : bool) (D : dom0) (inv : dv D -> Prop) (gam : dv D -> (nat -> R) -> Prop) (DS : dspec ex D inv gam).
Notation good := (ApEnvFacts.good ops).
Notation env := (environment V).
Notation fit := (fit D inv).
Notation val := (val D gam).
Notation wf1 := (wf1 ops D inv).

(** the valuations in which one of the folded variables takes the place of the first one *)
Definition folded (a : abs1 D) (x0 : V) (rest : list V) (rho : V -> R) : Prop :=
  exists t sg, In t (x0 :: rest) /\ val a sg /\ rho x0 = sg t /\ forall y, In y (e_vars (fst a)) -> ~ In y (x0 :: rest) -> rho y = sg y.
(** all of the same type *)
Definition one_type (e : env) (l : list V) : Prop := (forall x, In x l -> In x (e_int e)) \/ (forall x, In x l -> In x (e_real e)).
Lemma type_dim : forall (e : env) x d, good e -> nth_error (e_vars e) d = Some x -> (In x (e_int e) <-> d < length (e_int e)) /\ (In x (e_real e) <-> length (e_int e) <= d).
Proof.
  intros e d v GU X. pose proof GU as (_ & _ & DJ). unfold e_vars in X. destruct (Nat.lt_ge_cases v (length (e_int e))) as [L|L].
  - rewrite nth_error_app1 in X by auto. apply nth_error_In in X. split; split; auto; try lia. intros R. exfalso. apply (DJ d); auto.
  - rewrite nth_error_app2 in X by auto. apply nth_error_In in X. split; split; auto; try lia. intros R. exfalso. apply (DJ d); auto.
Qed.
Lemma minus_len : forall (l l' : list V) rest, NoDup l -> NoDup l' -> (forall x, In x l' <-> In x l /\ ~ In x rest) -> (forall x, In x l -> ~ In x rest) -> length l' = length l.
Proof. intros l l' rest N N' E H. apply Nat.le_antisymm; apply NoDup_incl_length; auto; intros x X. apply E in X. tauto. apply E. split; auto. Qed.

Theorem fold_gives : forall a x0 rest, wf1 a -> rest <> [] -> NoDup (x0 :: rest) -> one_type (fst a) (x0 :: rest) ->
  exists e b, (forall x, In x (e_int e) <-> In x (e_int (fst a)) /\ ~ In x rest) /\ (forall x, In x (e_real e) <-> In x (e_real (fst a)) /\ ~ In x rest) /\
    fold1 ops D a (x0 :: rest) = Some (false, (e, b)) /\ wf1 (e, b) /\ (forall rho, folded a x0 rest rho -> val (e, b) rho) /\
    (ex = true -> forall c, wf1 (e, c) -> (forall rho, folded a x0 rest rho -> val (e, c) rho) -> forall rho, val (e, b) rho -> val (e, c) rho).
Proof.
  intros [e a] x0 rest (G & F) NE ND TY. cbn [fst snd] in *. assert (IN : forall x, In x (x0 :: rest) -> In x (e_vars e)). { intros x X. unfold e_vars. apply in_app_iff. destruct TY as [T|T]; auto. }
  inversion ND as [|? ? N0 NR]; subst. destruct (C44_remove_partial ops e rest G NR (fun x X => IN x (or_intror X))) as (e' & RM & G' & E1 & E2).
  assert (EV : forall x, In x (e_vars e') <-> In x (e_vars e) /\ ~ In x rest) by (intros x; unfold e_vars; rewrite !in_app_iff, E1, E2; tauto).
  assert (SB : sub e' e) by (split; intros x X; [apply E1 in X|apply E2 in X]; tauto). pose proof (posn_moves ops e' e G' G SB) as M. set (c := mkDC (length (e_int e) - length (e_int e')) (posn ops e' e)) in *. pose proof (moves_fits ops e' e c G' SB M) as FT.
  destruct (dims_of_ok ops e rest G (fun x X => IN x (or_intror X))) as (l & DL & LL & DI & NDL). specialize (NDL NR).
  assert (I0 : In x0 (e_vars e)) by (apply IN; left; auto). destruct (dim_of_var ops e x0) as [dim|] eqn:ED. 2: { apply (dim_none ops) in ED. tauto. } assert (XD := ED). apply (dim_iff ops e x0 dim G) in XD.
  set (rm := dimchange_add_invert (dc_pos c)).
  (* the removed dimensions *)
  assert (RMI : forall y, In y rm <-> exists x, In x rest /\ nth_error (e_vars e) y = Some x).
  { intros y. split.
    - intros Y. assert (LY : y < e_dim e). { destruct M as (OK & DM & _). rewrite DM. apply (invert_wf _ _ OK). auto. } destruct (lt_var e y LY) as (x & X). exists x. split; auto. destruct (invert_cases e' e c y M LY) as [(z & _ & _ & N & _)|(t & T & -> & _)]; [tauto|].
      destruct (moves_new ops e' e c t G M T) as (v & EV1 & NV). assert (v = x) by congruence. subst v. destruct (in_dec (fun x y => match Z.eq_dec (cmp ops x y) 0 with left e => left (proj1 (cmp_eq _ ops x y) e) | right n => right (fun e => n (proj2 (cmp_eq _ ops x y) e)) end) x rest); auto. exfalso. apply NV. apply EV. split; auto. eapply nth_error_In; eauto.
    - intros (x & X & NX). destruct (var_lt _ _ _ NX) as (LY & _). destruct (invert_cases e' e c y M LY) as [(z & Z & -> & _)|(t & T & _ & K)]; auto. exfalso. destruct (lt_var e' z Z) as (u & U). destruct M as (_ & _ & _ & _ & _ & M). assert (K := M z u U). assert (u = x) by congruence. subst u. apply nth_error_In in U. apply EV in U. tauto. }
  assert (RMS : StronglySorted lt rm) by (apply (invert_wf (dc_pos c) (e_dim e')); apply M).
  assert (PL : Permutation l rm). { apply NoDup_Permutation; auto. clear - RMS. induction RMS; constructor; auto. rewrite Forall_forall in *. intros I. specialize (H a I). lia. intros d. rewrite DI, RMI. tauto. }
  assert (KEEP : forall y x, nth_error (e_vars e) y = Some x -> ~ In x rest -> nth_error (e_vars e') (y - clt rm y) = Some x).
  { intros y x NX NI. destruct (var_lt _ _ _ NX) as (LY & _). destruct (invert_cases e' e c y M LY) as [(z & Z & EY & _ & EC)|(t & T & EY & K)]. fold rm in EC. rewrite EC. destruct (lt_var e' z Z) as (u & U). destruct M as (_ & _ & _ & _ & _ & M). assert (K := M z u U). rewrite <- EY in K. assert (u = x) by congruence. subst; auto.
    exfalso. apply NI. apply RMI in K. destruct K as (x' & X' & NX'). congruence. }
  (* the array of dimensions *)
  set (tdim := nsort (dim :: l)). assert (PT : Permutation tdim (dim :: l)) by apply nsort_perm. assert (NDT : NoDup (dim :: l)). { constructor; auto. intros K. apply DI in K. destruct K as (x & X & NX). assert (x = x0) by congruence. subst. tauto. }
  assert (ST : StronglySorted lt tdim). { apply sorted_strict. apply nsort_sorted. apply (Permutation_NoDup (Permutation_sym PT)); auto. }
  assert (IT : forall d, In d tdim <-> exists x, In x (x0 :: rest) /\ nth_error (e_vars e) d = Some x). { intros d. split. intros K. apply (Permutation_in d PT) in K. destruct K as [<-|K]. exists x0. split; auto. left; auto. apply DI in K. destruct K as (x & X & NX). exists x. split; auto. right; auto. intros (x & [<-|X] & NX). apply (Permutation_in d (Permutation_sym PT)). left. apply (var_inj ops e dim d x0); auto. apply (Permutation_in d (Permutation_sym PT)). right. apply DI. eauto. }
  destruct tdim as [|t0 ts] eqn:ET. { apply Permutation_length in PT. discriminate. } assert (LTS : length ts = length rest). { apply Permutation_length in PT. simpl in PT. lia. }
  assert (OK : box_fold_ok (e_dim e) t0 ts). { split; auto. intros t T. apply IT in T. destruct T as (x & _ & NX). apply (var_lt e t x NX). }
  assert (PM : Permutation (dim :: rm) (t0 :: ts)). { eapply perm_trans. apply perm_skip. apply Permutation_sym. exact PL. apply Permutation_sym; auto. }
  assert (LRM : length rm = length ts) by (apply (fa_len dim t0 ts rm PM)). assert (LPOS : length (dc_pos c) = length ts). { rewrite <- LRM. unfold rm, dimchange_add_invert. rewrite add_invert_length. auto. }
  assert (DME : e_dim e' = e_dim e - length ts). { destruct M as (_ & DM & _). lia. }
  pose proof F as (IA & A & B). assert (DDE := fit_dd D inv e a F).
  assert (SAME : t0 < d_int D a -> forall t, In t ts -> t < d_int D a). { rewrite A. intros L t T. assert (TT : In t (t0 :: ts)) by (right; auto). apply IT in TT. destruct TT as (x & X & NX). assert (T0 : In t0 (t0 :: ts)) by (left; auto). apply IT in T0. destruct T0 as (z & ZI & NZ).
    destruct TY as [TI|TR]. apply (type_dim e x t G NX). auto. exfalso. specialize (TR z ZI). apply (type_dim e z t0 G NZ) in TR. lia. }
  rewrite <- DDE in OK. destruct (s_fold _ _ _ _ DS a t0 ts IA OK SAME) as ((R1 & R2 & R3) & R4 & R5). set (b := d_fold D a t0 ts) in *. rewrite DDE in OK.
  (* the dimensions of the result *)
  assert (FB : d_int D b = length (e_int e') /\ d_real D b = length (e_real e')).
  { rewrite R2, R3, A, B. pose proof G as (GI & GR & DJ). pose proof G' as (GI' & GR' & _). assert (T0 : In t0 (t0 :: ts)) by (left; auto). apply IT in T0. destruct T0 as (z & ZI & NZ). pose proof DME as DM. unfold e_dim in DM. destruct (type_dim e z t0 G NZ) as (TZ1 & TZ2). destruct (Nat.ltb_spec t0 (length (e_int e))) as [L|L].
    - assert (TI : forall x, In x (x0 :: rest) -> In x (e_int e)). { destruct TY as [TI|TR]; auto. specialize (TR z ZI). apply TZ2 in TR. lia. }
      assert (LR : length (e_real e') = length (e_real e)). { apply (minus_len _ _ rest); auto. eapply ss_NoDup; eauto. eapply ss_NoDup; eauto. intros x X K. apply (DJ x); auto. apply TI. right; auto. } assert (length ts <= length (e_int e)) by (destruct FT; lia || (destruct M as (_ & _ & M & _); lia)). lia.
    - assert (TR : forall x, In x (x0 :: rest) -> In x (e_real e)). { destruct TY as [TI|TR]; auto. specialize (TI z ZI). apply TZ1 in TI. lia. }
      assert (LI : length (e_int e') = length (e_int e)). { apply (minus_len _ _ rest); auto. eapply ss_NoDup; eauto. eapply ss_NoDup; eauto. intros x X K. apply (DJ x); auto. apply TR. right; auto. } lia. }
  assert (FITB : fit e' b) by (split; [exact R1|exact FB]).
  assert (CKF : check_fold (d_int D a, d_real D a) (t0 :: ts) = true).
  { apply C47_fold. split. discriminate. split; auto. simpl fst; simpl snd. split. intros t T. change (d_int D a + d_real D a) with (dd a). rewrite DDE. destruct OK as (_ & OK). auto. rewrite A. destruct TY as [TI|TR]; [left|right]; intros t T; apply IT in T; destruct T as (x & X & NX); apply (type_dim e x t G NX); auto. }
  destruct (turn_perm (e_dim e) dim t0 ts rm OK RMS PM) as (TP & TN). set (pm := rotation (e_dim e - length ts) t0 (lastd dim rm)) in *.
  assert (AF : a0_fold D a (t0 :: ts) = (false, b)). { unfold a0_fold, d_dim. rewrite CKF. assert (NTS : ts <> []) by (intros K; rewrite K in LTS; destruct rest; [congruence|discriminate]). clear - NTS. unfold b. clear b. destruct ts; [congruence|reflexivity]. }
  (* the value returned *)
  assert (RES : exists r, fold1 ops D (e, a) (x0 :: rest) = Some (false, (e', r)) /\ fit e' r /\ forall w, (gam b (fun x => w (nth x pm 0)) -> gam r w) /\ (ex = true -> gam r w -> gam b (fun x => w (nth x pm 0)))).
  { unfold fold1. destruct rest as [|x1 rest'] eqn:ER; [congruence|]. rewrite <- ER in *. clear x1 rest' ER. cbn [fst snd]. rewrite ED, RM, DL. fold tdim. rewrite ET. cbn [hd tl]. rewrite AF.
    destruct (Nat.eqb_spec dim t0) as [EQ|NQ].
    - exists b. split. reflexivity. split; auto. intros w. assert (X : gam b (fun x => w (nth x pm 0)) <-> gam b w). { apply (gam_exti ex D inv gam DS e'); auto. intros x L. rewrite DME in L. rewrite TN by auto. rewrite (turn_id (e_dim e) dim t0 ts rm OK PM EQ). auto. } tauto.
    - destruct (fa_dim (e_dim e) dim t0 ts rm OK PM) as [?|(ID & LT)]; [congruence|]. assert (IX : dim - S (index_of dim ts) = lastd dim rm).
      { unfold lastd. inversion ST; subst. rewrite index_clt by auto. assert (K := fa_clt dim t0 ts rm PM dim). rewrite Nat.ltb_irrefl in K. destruct (Nat.ltb_spec t0 dim); lia. } rewrite IX, DME. fold pm. unfold a0_permute, d_dim.
      assert (CKP : check_dimperm (d_int D b, d_real D b) pm = true). { apply C47_perm_partial. simpl. destruct FB as (FB1 & FB2). rewrite FB1, FB2. destruct TP as (P1 & P2 & _). unfold e_dim in *. split. lia. intros p P. apply (In_nth _ _ 0) in P. destruct P as (i & L & <-). rewrite P1 in *. auto. } rewrite CKP.
      assert (DDB : dd b = e_dim e - length ts) by (rewrite (fit_dd D inv e' b FITB); auto). rewrite <- DDB in TP. destruct (s_permute _ _ _ _ DS b pm R1 TP) as (Q1 & Q2 & Q3 & Q4). exists (d_permute D b pm). split. reflexivity. split. split; auto. destruct FB as (FB1 & FB2). split; congruence. exact Q4. }
  destruct RES as (r & RE & FR & RG). exists e', r. split; auto. split; auto. split. exact RE. split. split; auto.
  (* seen by names *)
  pose proof (fa_last (e_dim e) dim t0 ts rm OK RMS PM) as (LA1 & LA2).
  assert (X0' : nth_error (e_vars e') (lastd dim rm) = Some x0). { apply KEEP; auto. }
  assert (TT0 : nth t0 pm 0 = lastd dim rm). { rewrite TN by lia. unfold turn. rewrite Nat.eqb_refl. auto. }
  assert (OTH : forall y, y < e_dim e -> ~ In y (t0 :: ts) -> exists u, nth_error (e_vars e) y = Some u /\ ~ In u (x0 :: rest) /\ nth (y - clt ts y) pm 0 = y - clt rm y /\ nth_error (e_vars e') (y - clt rm y) = Some u).
  { intros y LY NY. destruct (lt_var e y LY) as (u & U). exists u. split; auto. assert (NU : ~ In u (x0 :: rest)). { intros K. apply NY. apply IT. eauto. } split; auto. assert (BK : y - clt ts y < e_dim e - length ts). { apply (rem_back (e_dim e) ts y); auto. destruct OK as (S & BB). inversion S; subst. split; auto. intros p P. apply BB. right; auto. intros K. apply NY. right; auto. }
    split. rewrite TN by auto. apply (turn_other (e_dim e)); auto. apply KEEP; auto. intros K. apply NU. right; auto. }
  unfold Abs1Ops.val. simpl. split.
  - intros rho (t & sg & T & H & E0 & EO). simpl in *. apply RG. assert (IX : In t (e_vars e)) by (apply IN; auto). apply In_nth_error in IX. destruct IX as (td & TD). apply (R4 td (at_env e sg)). apply IT. eauto. auto. rewrite DDE. split.
    + rewrite TT0. rewrite (at_var e' _ _ _ X0'), (at_var e _ _ _ TD). auto.
    + intros y LY NS NT. destruct (OTH y LY) as (u & U & NU & PN & U'). intros [K|K]; auto. rewrite PN. rewrite (at_var e' _ _ _ U'), (at_var e _ _ _ U). apply EO; auto. eapply nth_error_In; eauto.
  - intros X cc (_ & FC) INC rho H. simpl in FC. unfold Abs1Ops.val in *. simpl in *. destruct (RG (at_env e' rho)) as (_ & RGX). apply (RGX X) in H. clear RGX.
    destruct TP as (P1 & P2 & P3). assert (TP : is_perm (e_dim e - length ts) pm) by (split; auto). destruct (invert_ok (e_dim e - length ts) pm (repeat 0 (e_dim e - length ts)) TP (repeat_length _ _)) as (IP & I1 & I2). set (q := dimperm_invert (repeat 0 (e_dim e - length ts)) pm) in *.
    pose proof FC as (IC & C1 & C2). assert (DDC : dd cc = e_dim e - length ts) by (rewrite (fit_dd D inv e' cc FC); auto). assert (IPC : is_perm (dd cc) q) by (rewrite DDC; auto). destruct (s_permute _ _ _ _ DS cc q IC IPC) as (Q1 & Q2 & Q3 & Q4). destruct FB as (FB1 & FB2).
    assert (K : gam (d_permute D cc q) (fun x => at_env e' rho (nth x pm 0))).
    { apply (R5 X (d_permute D cc q)); auto; try congruence. intros td v w TD HV (W0 & W1). apply Q4. destruct (val_of ops e' (fun x => w (nth x q 0)) (fun _ => 0%R) G') as (tau & T1 & _). destruct (val_of ops e v (fun _ => 0%R) G) as (sg & S1 & _).
      apply (gam_ext ex D inv gam DS e' _ (at_env e' tau)); auto. apply INC. apply IT in TD. destruct TD as (t & TI & TD). exists t, sg. split; auto. simpl. split. unfold Abs1Ops.val; simpl. apply (gam_ext ex D inv gam DS e _ v); auto. intros x L. symmetry; auto. split.
      - destruct (var_lt _ _ _ X0') as (LX & _). rewrite <- (at_var e' _ x0 tau X0'). rewrite T1 by auto. rewrite <- TT0. rewrite I1 by lia. rewrite W0. destruct (var_lt _ _ _ TD) as (LT & _). rewrite <- (S1 td LT). rewrite (at_var e _ _ _ TD). auto.
      - intros y Y NY. apply In_nth_error in Y. destruct Y as (d & Y). destruct (var_lt _ _ _ Y) as (LD & _). assert (ND' : ~ In d (t0 :: ts)). { intros K. apply IT in K. destruct K as (z & Z & NZ). apply NY. congruence. } destruct (OTH d LD ND') as (u & U & NU & PN & U'). assert (u = y) by congruence. subst u.
        destruct (var_lt _ _ _ U') as (LU & _). rewrite <- (at_var e' _ y tau U'). rewrite T1 by auto. rewrite <- PN. rewrite I1. 2: { apply (rem_back (e_dim e) ts d); auto. destruct OK as (S & BB). inversion S; subst. split; auto. intros p P. apply BB. right; auto. intros K. apply ND'. right; auto. } rewrite DDE in W1. rewrite W1; auto. rewrite <- (S1 d LD). rewrite (at_var e _ _ _ Y). auto. intros K; apply ND'; right; auto. intros K; apply ND'; left; auto. }
    apply Q4 in K; auto. apply (gam_ext ex D inv gam DS e' _ (fun x => at_env e' rho (nth (nth x q 0) pm 0))); auto. intros x L. rewrite DME in L. rewrite I2; auto.
Qed.
End Ops.

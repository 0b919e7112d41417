(** Properties C31, C32, C33 and the expression part of C34. *)
From Coq Require Import Arith Lia List ZArith QArith Qround Qreals Reals Lra Bool.
From Verif Require Import Bound BoundFacts Util Itv Linexpr LinexprFacts OctMat OctIdx OctClose OctGeom OctGeom2 Oct OctFacts OctFacts2 OctFacts3 OctForget PropOctLattice
  OctTransfer OctUexpr OctGuard OctGuard2 OctGuard3 OctGuard4 OctGuard5 OctQuery OctAssign OctAssign2 OctAssign3 OctAssign4 OctAssign5 OctAssign6 OctSubst OctSubst2.
Import ListNotations.
Open Scope nat_scope.
Local Notation E := exact_num.

(** ** C31 *)
(** Any number type. For strict constraints the integer variables must hold
    integers, and the coefficients must be representable in the number type
    (see [C56] for what happens otherwise). *)
Theorem C31_meet_lincons_sound : forall (N : numtype) (algo : Z) (tmp : hmat) (a : oct) (cs : list lincons), wfo a ->
  (forall c, In c cs -> wf_linexpr (odim a) (lc_expr c)) ->
  forall v, gamo a v -> (forall c, In c cs -> sat_cons c v) ->
   (forall c, In c cs -> lc_typ c = CSup -> int_pts (oint a) v /\ repr_e (N:=N) (lc_expr c)) ->
   gamo (fst (oct_meet_lincons_array (N:=N) algo tmp a cs)) v.
Proof. intros. apply meet_lincons_sound; auto. Qed.
Print Assumptions C31_meet_lincons_sound.
Lemma repr_E : forall e, repr_e (N:=E) e.
Proof. intros e. split; intros; unfold repr_k; destruct (coeff_reduce _) as [[|q|]|]; auto; exists (- q)%Q; split; reflexivity. Qed.
(** octagonal equalities and inequalities: exactly the intersection *)
Theorem C31_meet_octagonal_exact : forall (algo : Z) (tmp : hmat) (a : oct) (cs : list lincons), exo a ->
  (forall c, In c cs -> wf_linexpr (odim a) (lc_expr c) /\ oct_expr (lc_expr c) /\ (lc_typ c = CEq \/ lc_typ c = CSupEq) /\ exists v r, expr_val (lc_expr c) v r) ->
  forall v, gamo (fst (oct_meet_lincons_array (N:=E) algo tmp a cs)) v <-> gamo a v /\ forall c, In c cs -> sat_cons c v.
Proof.
  intros algo tmp a cs X HC v. pose proof (exo_wf _ X) as W. split.
  - apply meet_lincons_exact; auto; try (intros; apply HC; auto). apply meet_lincons_flag. intros c Hc. destruct (HC c Hc) as (A & B & C & _). auto.
  - intros [G S]. apply meet_lincons_sound; auto; [intros; apply HC; auto|]. intros c Hc T. destruct (HC c Hc) as (_ & _ & [C|C] & _); congruence.
Qed.
Print Assumptions C31_meet_octagonal_exact.
(** whenever the exactness flag is set the result is the intersection *)
Theorem C31_meet_exact_flag : forall (algo : Z) (tmp : hmat) (a : oct) (cs : list lincons), wfo a ->
  (forall c, In c cs -> wf_linexpr (odim a) (lc_expr c) /\ exists v r, expr_val (lc_expr c) v r) ->
  snd (oct_meet_lincons_array (N:=E) algo tmp a cs) = true ->
  forall v, gamo (fst (oct_meet_lincons_array (N:=E) algo tmp a cs)) v -> gamo a v /\ forall c, In c cs -> sat_cons c v.
Proof. intros algo tmp a cs W HC F v. apply meet_lincons_exact; auto; intros; apply HC; auto. Qed.
Print Assumptions C31_meet_exact_flag.

(** deciding membership of a rational point *)
Definition qpt (l : list Q) : nat -> R := fun x => Q2R (nth x l 0%Q).
Definition qlit (l : list Q) (i : nat) : Q := if Nat.even i then nth (i / 2) l 0%Q else (- nth (i / 2) l 0)%Q.
Definition leqb (q : Q) (b : bound) : bool := match b with MInf => false | Fin p => Qle_bool q p | PInf => true end.
Definition gamb (n : nat) (m : hmat) (l : list Q) : bool :=
  forallb (fun i => forallb (fun j => leqb (qlit l j - qlit l i) (m (matpos i j))) (seq 0 (S (or1 i)))) (seq 0 (2 * n)).
Lemma lit_qpt : forall l i, lit (qpt l) i = Q2R (qlit l i).
Proof.
  intros l i. unfold qlit. destruct (par_cases i) as [k [-> | ->]]; [rewrite lit_even, div2_even|rewrite lit_odd, div2_odd].
  - replace (Nat.even (2 * k)) with true; auto. symmetry. apply Nat.even_spec. exists k. auto.
  - replace (Nat.even (2 * k + 1)) with false; [rewrite Q2R_opp; auto|]. rewrite Nat.even_add, Nat.even_mul. auto.
Qed.
Lemma gamb_ok : forall n m l, gamb n m l = true <-> gam n m (qpt l).
Proof.
  intros n m l. unfold gamb. rewrite forallb_forall. unfold gam. split.
  - intros H i j Hi Hj. specialize (H i). rewrite in_seq in H. specialize (H ltac:(lia)). rewrite forallb_forall in H. specialize (H j). rewrite in_seq in H. specialize (H ltac:(lia)).
    rewrite !lit_qpt, <- Q2R_minus. destruct (m (matpos i j)) as [|p|]; simpl in *; auto; [discriminate|]. apply Qle_Rle, Qle_bool_iff. auto.
  - intros H i Hi. apply in_seq in Hi. apply forallb_forall. intros j Hj. apply in_seq in Hj. specialize (H i j ltac:(lia) ltac:(lia)).
    rewrite !lit_qpt, <- Q2R_minus in H. destruct (m (matpos i j)) as [|p|]; simpl in *; auto. apply Qle_bool_iff, Rle_Qle. auto.
Qed.
Lemma gamo_single_b : forall m n k l, gamb n m l = true -> gamo (mkOct (Some m) None n k) (qpt l).
Proof. intros. apply gamo_single_m, gamb_ok. auto. Qed.
Lemma not_gamo_b : forall a l, wfo a -> match best a with Some m => gamb (odim a) m l | None => false end = false -> ~ gamo a (qpt l).
Proof. intros a l W H G. rewrite gamo_best in G by auto. destruct (best a) as [m|]; auto. apply gamb_ok in G. congruence. Qed.
Lemma gamo_qext : forall a v w, (forall x, v x = w x) -> gamo a v -> gamo a w.
Proof. intros a v w H (A & B & C). split; auto. split; intros m Hm; [specialize (B m Hm)|specialize (C m Hm)]; eapply gam_ext; eauto. Qed.

Definition junk : hmat := fun _ => Fin (7 # 3).
Definition sp (c : Q) (ts : list (nat * Q)) : linexpr := mkLin (Scal (Fin c)) (Sparse (map (fun t => (Some (fst t), Scal (Fin (snd t)))) ts)).
Definition cell (a : oct) (i j : nat) : bound := match best a with Some m => m (matpos2 i j) | None => MInf end.
(** x0 + x1 = 1 added to the triangle; 2 x0 - x1 >= 0 is not octagonal *)
Example C31_example :
  let cs := [mkCons CEq (sp (-1) [(0, 1%Q); (1, 1%Q)]) None] in
  exo exTri /\ (forall c, In c cs -> wf_linexpr 2 (lc_expr c) /\ oct_expr (lc_expr c)) /\
  snd (oct_meet_lincons_array (N:=E) 0 junk exTri cs) = true /\
  bequal (cell (fst (oct_meet_lincons_array (N:=E) 0 junk exTri cs)) 1 2) (Fin 1) = true /\
  bequal (cell (fst (oct_meet_lincons_array (N:=E) 0 junk exTri cs)) 2 1) (Fin (-1)) = true /\
  snd (oct_meet_lincons_array (N:=E) 0 junk exTri [mkCons CSupEq (sp 0 [(0, 2%Q); (1, (-1)%Q)]) None]) = false.
Proof.
  cbv zeta. split; [exact exTri_exo|]. split.
  - intros c [<-|[]]. split.
    + split; [exact I|]. simpl. split; [repeat constructor; simpl; auto|]. split; [repeat constructor; simpl; intuition discriminate|]. intros d [<-|[<-|[]]]; lia.
    + exists 0, 1. simpl. intros d k [H|[H|[]]]; injection H as <- <-; right; split; auto; left; reflexivity.
  - vm_compute. auto.
Qed.

(** ** C56: strict constraints on integer variables, when the number type cannot
    represent the coefficients *)
(** numbers with two fractional bits *)
Lemma quarter_up : forall q, le_bb (Fin q) (Fin (inject_Z (Qceiling (4 * q)) / 4)).
Proof. intros q. simpl. apply Qle_shift_div_l; [reflexivity|]. rewrite Qmult_comm. apply Qle_ceiling. Qed.
Definition quarters : numtype := mkNum (fun q => Fin (inject_Z (Qceiling (4 * q)) / 4)) quarter_up.
Definition exOne : oct := mkOct (om (lbox 1 1 1 1)) None 2 2.
Lemma exOne_wf : wfo exOne.
Proof. apply exo_wf. apply (okb_exo 2 2); auto. Qed.
Definition exStrict : lincons := mkCons CSup (sp 0 [(0, 9 # 8); (1, (-1)%Q)]) None.
(** 9/8 x - y > 0 holds at (1,1); yet the point is removed: the lower bound 1 of the
    rounded coefficient [1,5/4] is an integer, so e > 0 is strengthened to e >= 1 *)
Theorem C56_meet_strict_integer_refuted : exists (N : numtype) (algo : Z) (tmp : hmat) (a : oct) (c : lincons) (v : nat -> R),
  wfo a /\ wf_linexpr (odim a) (lc_expr c) /\ int_pts (oint a) v /\ gamo a v /\ sat_cons c v /\
  ~ gamo (fst (oct_meet_lincons_array (N:=N) algo tmp a [c])) v.
Proof.
  exists quarters, 0%Z, junk, exOne, exStrict, (qpt [1; 1]%Q).
  split; [exact exOne_wf|]. split.
  { split; [exact I|]. simpl. split; [repeat constructor; simpl; auto|]. split; [repeat constructor; simpl; intuition discriminate|]. intros d [<-|[<-|[]]]; lia. }
  split; [intros d Hd; exists 1%Z; assert (D : d = 0 \/ d = 1) by (simpl in Hd; lia); destruct D as [-> | ->]; unfold qpt, Q2R; simpl; lra|]. split.
  { apply (gamo_single_b _ 2 2). vm_compute. reflexivity. }
  split.
  { exists (1 / 8)%R. split; [|simpl; lra]. exists 0%R, (1 / 8)%R. split; [simpl; unfold Q2R; simpl; lra|]. split; [|lra].
    exists [9 / 8; -1]%R. split; [repeat constructor; simpl; intros _; unfold Q2R; simpl; lra|]. unfold qpt, Q2R. simpl. lra. }
  apply not_gamo_b.
  - apply meet_lincons_wfo; [exact exOne_wf|]. intros c [<-|[]]. split; [exact I|]. simpl. split; [repeat constructor; simpl; auto|]. split; [repeat constructor; simpl; intuition discriminate|]. intros d [<-|[<-|[]]]; lia.
  - vm_compute. reflexivity.
Qed.
Print Assumptions C56_meet_strict_integer_refuted.

(** ** C32 *)
(** x1 unbounded, -1/2 <= x2 <= 1/2 *)
Definition exHalf : oct := mkOct (Some (lmat
  [Fin 0; oo; oo; Fin 0;
   oo; oo; Fin 0; oo; oo; oo; oo; Fin 0;
   oo; oo; oo; oo; Fin 0; Fin 1; oo; oo; oo; oo; Fin 1; Fin 0])) None 3 0.
Lemma exHalf_exo : exo exHalf.
Proof. apply okb_exo; auto. Qed.
Definition exSum : linexpr := sp 0 [(1, 1%Q); (2, 1%Q)].
Lemma exSum_wf : wf_linexpr 3 exSum.
Proof. split; [exact I|]. simpl. split; [repeat constructor; simpl; auto|]. split; [repeat constructor; simpl; intuition discriminate|]. intros d [<-|[<-|[]]]; lia. Qed.
(** the soundness claim is false in general: x0 := x1 + x2 produces x0 + x1 <= 1/2 *)
Theorem C32_assign_refuted : exists (algo : Z) (tmp : hmat) (a : oct) (d : nat) (e : linexpr) (v : nat -> R) (r : R),
  exo a /\ d < odim a /\ wf_linexpr (odim a) e /\ gamo a v /\ expr_val e v r /\
  ~ gamo (oct_assign_linexpr (N:=E) algo tmp a d e None) (vset v d r).
Proof.
  exists 0%Z, junk, exHalf, 0, exSum, (qpt [0; 10; 0]%Q), 10%R.
  split; [exact exHalf_exo|]. split; [simpl; lia|]. split; [exact exSum_wf|]. split.
  { apply (gamo_single_b _ 3 0). vm_compute. reflexivity. }
  split.
  { exists 0%R, 10%R. split; [simpl; unfold Q2R; simpl; lra|]. split; [|lra].
    exists [1; 1]%R. split; [repeat constructor; simpl; intros _; unfold Q2R; simpl; lra|]. unfold qpt, Q2R. simpl. lra. }
  intros G. apply (gamo_qext _ _ (qpt [10; 10; 0]%Q)) in G.
  - revert G. apply not_gamo_b.
    + apply exo_wf, assign_exo; [exact exHalf_exo|simpl; lia|exact exSum_wf|exact I].
    + vm_compute. reflexivity.
  - intros x. unfold vset, qpt. destruct x as [|[|[|x]]]; simpl; auto; unfold Q2R; simpl; lra.
Qed.
Print Assumptions C32_assign_refuted.

(** what does hold.  Expressions with at most one variable, of coefficient 1 or -1,
    on any number type representing -1, 0 and 1 *)
Theorem C32_assign_unary_sound_partial : forall (N : numtype) (algo : Z) (tmp : hmat) (a : oct) (d : nat) (e : linexpr) (dest : option oct),
  exact_units N -> wfo a -> d < odim a -> wf_linexpr (odim a) e -> dest_ok a dest -> unary_expr e ->
  forall v r, gamo a v -> expr_val e v r -> in_dest dest (vset v d r) -> gamo (oct_assign_linexpr (N:=N) algo tmp a d e dest) (vset v d r).
Proof.
  intros N algo tmp a d e dest HU W Hd WE DO UN v r G HE HD. apply assign_sound; auto.
  intros dst u m UE GE _. exfalso. destruct (uexpr_spec (oint a) tmp e (odim a) dst u WE UE) as [US _]. revert GE. eapply not_general; eauto.
Qed.
Print Assumptions C32_assign_unary_sound_partial.
(** exact numbers: the smallest result, when the octagon is cached in closed form, or
    the variable does not occur in the expression, or the constant is a single number *)
Theorem C32_assign_unary_exact_partial : forall (algo : Z) (tmp : hmat) (a : oct) (d : nat) (e : linexpr) (dest : option oct),
  (0 <= algo)%Z -> exo a -> d < odim a -> wf_linexpr (odim a) e -> dest_ok a dest -> unary_expr e ->
  (not_in d e \/ pt_cst (le_cst e) \/ ocl a <> None) ->
  forall w, gamo (oct_assign_linexpr (N:=E) algo tmp a d e dest) w <->
    in_dest dest w /\ exists x, gamo a (vset w d x) /\ expr_val e (vset w d x) (w d).
Proof.
  intros algo tmp a d e dest HA X Hd WE DO UN CL w. split; [apply assign_exact; auto|].
  intros [HD (x & G & HE)]. pose proof (C32_assign_unary_sound_partial E algo tmp a d e dest exact_units_E (exo_wf _ X) Hd WE DO UN _ _ G HE) as S.
  assert (Q : forall y, vset (vset w d x) d (w d) y = w y) by (intros y; unfold vset; destruct (Nat.eqb_spec y d); subst; auto).
  apply (gamo_qext _ _ w Q). apply S. destruct dest as [o|]; simpl in *; auto. eapply gamo_qext; [|exact HD]. intros y. rewrite Q. auto.
Qed.
Print Assumptions C32_assign_unary_exact_partial.
(** any expression whose variables are all bounded in the octagon *)
Theorem C32_assign_bounded_sound_partial : forall (algo : Z) (tmp : hmat) (a : oct) (d : nat) (e : linexpr) (dest : option oct),
  (0 <= algo)%Z -> exo a -> d < odim a -> wf_linexpr (odim a) e -> dest_ok a dest -> bounded_terms a e ->
  forall v r, gamo a v -> expr_val e v r -> in_dest dest (vset v d r) -> gamo (oct_assign_linexpr (N:=E) algo tmp a d e dest) (vset v d r).
Proof.
  intros algo tmp a d e dest HA X Hd WE DO BT v r G HE HD. apply assign_sound; auto; [apply X|].
  intros dst u m UE GE B. pose proof (closed_ex algo a m HA X B) as SC. apply (bounded_ok tmp a e dst u m); auto.
  - intros w Gw. apply (cached_gamo (N:=E) algo); [apply X|]. rewrite gamo_best, B by (apply cached_wfo, X). rewrite (proj1 (cached_dim (N:=E) algo a)). auto.
  - unfold general in GE. intros T. rewrite T in GE. tauto.
Qed.
Print Assumptions C32_assign_bounded_sound_partial.
(** x0 := x1 + [0,1] on the triangle: x0 - x1 in [0,1], x1 keeps 0 <= x1 <= 1/2 *)
Definition exShift : linexpr := mkLin (Intv (Fin 0) (Fin 1)) (Sparse [(Some 1, Scal (Fin 1))]).
Lemma exShift_wf : wf_linexpr 2 exShift.
Proof. split; [split; discriminate|]. simpl. split; [repeat constructor; simpl; auto|]. split; [repeat constructor; simpl; tauto|]. intros d [<-|[]]; lia. Qed.
Lemma exShift_unary : unary_expr exShift.
Proof. exists 1. simpl. intros d k [H|[]]. injection H as <- <-. right. split; auto. left. reflexivity. Qed.
Lemma exShift_notin : not_in 0 exShift.
Proof. intros k H. discriminate. Qed.
Example C32_example : exo exTri /\ wf_linexpr 2 exShift /\ unary_expr exShift /\ not_in 0 exShift /\
  (let o := oct_assign_linexpr (N:=E) 0 junk exTri 0 exShift None in
   gamb 2 (match best o with Some m => m | None => junk end) [5 # 4; 1 # 2]%Q = true /\
   gamb 2 (match best o with Some m => m | None => junk end) [7 # 4; 1 # 2]%Q = false /\
   gamb 2 (match best o with Some m => m | None => junk end) [1; 3 # 4]%Q = false).
Proof. split; [exact exTri_exo|]. split; [exact exShift_wf|]. split; [exact exShift_unary|]. split; [exact exShift_notin|]. vm_compute. auto. Qed.
Example C32_example_bounded : bounded_terms (lbox 0 1 0 2) (sp 1 [(0, 2%Q); (1, 3%Q)]) /\
  (let o := oct_assign_linexpr (N:=E) 0 junk (lbox 0 1 0 2) 0 (sp 1 [(0, 2%Q); (1, 3%Q)]) None in
   gamb 2 (match best o with Some m => m | None => junk end) [9; 2]%Q = true /\
   gamb 2 (match best o with Some m => m | None => junk end) [10; 2]%Q = false).
Proof.
  split.
  - intros j k H. right. assert (K : (j = 0 \/ j = 1) /\ fin_coeff k).
    { unfold lin_coeff in H. destruct j as [|[|j]]; simpl in H; try discriminate; injection H as <-; simpl; auto. }
    destruct K as [J F]. split; auto. exists 2%R. intros v G. apply gamo_single_m in G.
    destruct (gam_unary 2 _ v 0 G ltac:(lia)) as [A1 A2]. destruct (gam_unary 2 _ v 1 G ltac:(lia)) as [A3 A4].
    cbv [lmat nth matpos] in *. simpl in *. unfold Q2R in *. simpl in *. apply Rabs_le. destruct J as [-> | ->]; lra.
  - vm_compute. auto.
Qed.

(** ** C33 *)
Theorem C33_substitute_sound : forall (N : numtype) (algo : Z) (tmp : hmat) (a : oct) (d : nat) (e : linexpr) (dest : option oct),
  wfo a -> d < odim a -> wf_linexpr (odim a) e -> dest_ok a dest ->
  forall w r, gamo a (vset w d r) -> expr_val e w r -> in_dest dest w -> gamo (oct_substitute_linexpr (N:=N) algo tmp a d e dest) w.
Proof. intros. apply subst_sound with r; auto. Qed.
Print Assumptions C33_substitute_sound.
Theorem C33_substitute_unary_exact : forall (algo : Z) (tmp : hmat) (a : oct) (d : nat) (e : linexpr) (dest : option oct),
  (0 <= algo)%Z -> exo a -> d < odim a -> wf_linexpr (odim a) e -> dest_ok a dest -> unary_expr e ->
  (not_in d e \/ pt_cst (le_cst e) \/ ocl a <> None) ->
  forall w, gamo (oct_substitute_linexpr (N:=E) algo tmp a d e dest) w <->
    in_dest dest w /\ exists r, gamo a (vset w d r) /\ expr_val e w r.
Proof.
  intros algo tmp a d e dest HA X Hd WE DO UN CL w. split; [apply subst_exact; auto|].
  intros [HD (r & G & HE)]. apply subst_sound with r; auto. apply X.
Qed.
Print Assumptions C33_substitute_unary_exact.
(** the triangle, x0 replaced by x1 + [0,1]: only x1 is constrained, x1 in [0,1/2]; then with [2,3] added instead, no point *)
Example C33_example : exo exTri /\ wf_linexpr 2 exShift /\ unary_expr exShift /\ not_in 0 exShift /\
  (let o := oct_substitute_linexpr (N:=E) 0 junk exTri 0 exShift None in
   gamb 2 (match best o with Some m => m | None => junk end) [100; 1 # 2]%Q = true /\
   gamb 2 (match best o with Some m => m | None => junk end) [100; 3 # 4]%Q = false) /\
  best (oct_substitute_linexpr (N:=E) 0 junk exTri 0 (mkLin (Intv (Fin 2) (Fin 3)) (le_terms exShift)) None) = None.
Proof. split; [exact exTri_exo|]. split; [exact exShift_wf|]. split; [exact exShift_unary|]. split; [exact exShift_notin|]. vm_compute. auto. Qed.

(** ** C34, constraints and expressions *)
Theorem C34_sat_bound_linexpr_sound : forall (N U : numtype) (algo : Z) (tmp : hmat) (a : oct) (c : lincons) (e : linexpr), wfo a ->
  wf_linexpr (odim a) (lc_expr c) -> ordered (lc_expr c) -> wf_linexpr (odim a) e ->
  (oct_sat_lincons (N:=N) algo tmp a c = true -> forall v r, gamo a v -> expr_val (lc_expr c) v r -> sat_typ (lc_typ c) (lc_mod c) r) /\
  (forall v r, gamo a v -> expr_val e v r -> in_u r (oct_bound_linexpr (N:=N) (U:=U) algo tmp a e)).
Proof.
  intros N U algo tmp a c e W WC OC WE. split.
  - intros H v r G HE. apply (sat_lincons_sound (N:=N) algo tmp a c v); auto.
  - intros v r G HE. apply (bound_linexpr_sound (N:=N) algo tmp a e v); auto.
Qed.
Print Assumptions C34_sat_bound_linexpr_sound.
Theorem C34_sat_bound_octagonal_exact : forall (algo : Z) (tmp : hmat) (a : oct) (c : lincons) (e : linexpr), (0 <= algo)%Z -> exo a ->
  wf_linexpr (odim a) (lc_expr c) -> ordered (lc_expr c) -> oct_expr (lc_expr c) -> lc_typ c = CEq \/ lc_typ c = CSupEq \/ lc_typ c = CSup ->
  wf_linexpr (odim a) e -> oct_expr e ->
  (oct_sat_lincons (N:=E) algo tmp a c = true <-> forall v r, gamo a v -> expr_val (lc_expr c) v r -> sat_typ (lc_typ c) (lc_mod c) r) /\
  (forall r, in_u r (oct_bound_linexpr (N:=E) (U:=E) algo tmp a e) <-> exists v, gamo a v /\ expr_val e v r).
Proof.
  intros algo tmp a c e HA X WC OC OE TC WE OEe. split; [split|].
  - intros H v r G HE. apply (sat_lincons_sound (N:=E) algo tmp a c v); auto. apply X.
  - intros H. destruct (oct_sat_lincons (N:=E) algo tmp a c) eqn:S; auto. exfalso.
    destruct (sat_lincons_exact algo tmp a c HA X WC OC OE) as (v & r & G & HE & NS); auto.
    + destruct TC as [-> |[-> | ->]]; exact I.
    + apply NS. apply (H v r G HE).
  - intros r. apply bound_linexpr_exact; auto.
Qed.
Print Assumptions C34_sat_bound_octagonal_exact.
(** x0 + x1 ranges over [1/2, 3/2] on the triangle (both bounds need several constraints) *)
Example C34_example_expr :
  let e := sp 0 [(0, 1%Q); (1, 1%Q)] in let b := oct_bound_linexpr (N:=E) (U:=E) 0 junk exTri e in
  bequal (fst b) (Fin (1 # 2)) && bequal (snd b) (Fin (3 # 2)) = true /\
  oct_sat_lincons (N:=E) 0 junk exTri (mkCons CSup (sp (-1 # 4) [(0, 1%Q); (1, 1%Q)]) None) = true /\
  oct_sat_lincons (N:=E) 0 junk exTri (mkCons CSup (sp (-1 # 2) [(0, 1%Q); (1, 1%Q)]) None) = false /\
  oct_expr e /\ ordered e /\ wf_linexpr 2 e.
Proof.
  cbv zeta. split; [vm_compute; reflexivity|]. split; [vm_compute; reflexivity|]. split; [vm_compute; reflexivity|]. split; [|split].
  - exists 0, 1. simpl. intros d k [H|[H|[]]]; injection H as <- <-; right; split; auto; left; reflexivity.
  - repeat constructor; simpl; auto.
  - split; [exact I|]. simpl. split; [repeat constructor; simpl; auto|]. split; [repeat constructor; simpl; intuition discriminate|]. intros d [<-|[<-|[]]]; lia.
Qed.

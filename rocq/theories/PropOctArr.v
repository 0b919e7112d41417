(** Properties C32 and C33 for several variables at once (oct_assign_linexpr_array, oct_substitute_linexpr_array). *)
From Coq Require Import Arith Lia List ZArith QArith Qround Qreals Reals Lra Bool.
From Verif Require Import Bound BoundFacts Util Itv Linexpr LinexprFacts OctMat OctIdx OctClose OctGeom OctGeom2 Oct OctFacts OctFacts2 OctFacts3 OctForget PropOctLattice
  OctTransfer OctUexpr OctGuard OctGuard2 OctGuard3 OctGuard4 OctGuard5 OctQuery OctAssign OctAssign2 OctAssign3 OctAssign4 OctAssign5 OctAssign6 OctAssignArr OctSubstArr PropOctTransfer.
Import ListNotations.
Open Scope nat_scope.
Local Notation E := exact_num.

(** [w] is the point [v] after the simultaneous assignment of the values [rs] to the variables [ds] *)
Definition assigned (v w : nat -> R) (ds : list nat) (rs : list R) : Prop :=
  (forall k, k < length ds -> w (nth k ds 0) = nth k rs 0%R) /\ (forall x, ~ In x ds -> w x = v x).
(** [rs] are values of the expressions, all of them evaluated in the same point [v] *)
Definition values_at (es : list linexpr) (v : nat -> R) (rs : list R) : Prop := Forall2 (fun e r => expr_val e v r) es rs.
Definition args_ok (a : oct) (ds : list nat) (es : list linexpr) : Prop :=
  NoDup ds /\ (forall d, In d ds -> d < odim a) /\ length es = length ds /\ (forall e, In e es -> wf_linexpr (odim a) e).

Lemma assigned_vsets : forall v w ds rs, NoDup ds -> length rs = length ds -> assigned v w ds rs -> forall x, vsets v ds rs x = w x.
Proof.
  intros v w ds rs ND L [A B] x. destruct (in_dec Nat.eq_dec x ds) as [I|I].
  - apply In_nth with (d := 0) in I. destruct I as (k & Hk & <-). rewrite vsets_nth, A; auto.
  - rewrite vsets_out, B; auto.
Qed.
Lemma values_nth : forall es v rs, values_at es v rs -> length rs = length es /\ forall k e, nth_error es k = Some e -> expr_val e v (nth k rs 0%R).
Proof.
  intros es v rs F. induction F as [|e r es rs H F [IH1 IH2]]; simpl; split; auto; try lia.
  - intros [|k] e H; discriminate.
  - intros [|k] e' H'; simpl in H'; [injection H' as <-; auto|apply IH2; auto].
Qed.
Lemma in_dest_ext : forall dest v w, (forall x, v x = w x) -> in_dest dest v -> in_dest dest w.
Proof. intros [o|] v w H; simpl; auto. apply gamo_qext; auto. Qed.
(** ** C32 *)
(** Two variables or more, any number type, any expressions: each combination of the values of
    the expressions, all evaluated before any variable is changed, is in the result.  The defect
    of the assignment to a single variable ([C32_assign_refuted]) does not show here: the cells
    read by mistake follow those of the temporary dimensions, which are zero. *)
Theorem C32_assign_array_sound : forall (N : numtype) (algo : Z) (tmp : hmat) (a : oct) (ds : list nat) (es : list linexpr) (dest : option oct),
  wfo a -> args_ok a ds es -> length ds <> 1 -> dest_ok a dest ->
  forall v w rs, gamo a v -> values_at es v rs -> assigned v w ds rs -> in_dest dest w -> gamo (oct_assign_linexpr_array (N:=N) algo tmp a ds es dest) w.
Proof.
  intros N algo tmp a ds es dest W (ND & LD & LE & WE) L1 DO v w rs G HV HA HD. destruct (values_nth es v rs HV) as [LR NV].
  pose proof (assigned_vsets v w ds rs ND ltac:(lia) HA) as Q. apply (gamo_qext _ (vsets v ds rs) w Q).
  apply (assign_array_ok algo tmp a ds es dest v rs); auto.
  - lia.
  - intros e t dst u m mm I UE T Z B SB. right. apply zeros_ok; auto. destruct ds; simpl in *; [|lia]. destruct es; [destruct I|simpl in LE; lia].
  - apply in_dest_ext with w; auto.
Qed.
Print Assumptions C32_assign_array_sound.
(** the result is a value of the same dimensions, whatever the expressions *)
Theorem C32_assign_array_wellformed : forall (N : numtype) (algo : Z) (tmp : hmat) (a : oct) (ds : list nat) (es : list linexpr) (dest : option oct),
  wfo a -> args_ok a ds es -> length ds <> 1 -> dest_ok a dest ->
  wfo (oct_assign_linexpr_array (N:=N) algo tmp a ds es dest) /\ odim (oct_assign_linexpr_array (N:=N) algo tmp a ds es dest) = odim a /\
  oint (oct_assign_linexpr_array (N:=N) algo tmp a ds es dest) = oint a.
Proof. intros N algo tmp a ds es dest W (A1 & A2 & A3 & A4) L DO. apply assign_array_wfo; auto. Qed.
Print Assumptions C32_assign_array_wellformed.

(** exchanging the two variables of the box [0,1] x [2,3]: the old values are used on both sides *)
Definition exX0 : linexpr := sp 0 [(0, 1%Q)].
Definition exX1 : linexpr := sp 0 [(1, 1%Q)].
Example C32_example_swap : args_ok (lbox 0 1 2 3) [0; 1] [exX1; exX0] /\ (forall e, In e [exX1; exX0] -> unary_expr e) /\
  (let o := oct_assign_linexpr_array (N:=E) 0 junk (lbox 0 1 2 3) [0; 1] [exX1; exX0] None in
   gamb 2 (match best o with Some m => m | None => junk end) [3; 1]%Q = true /\
   gamb 2 (match best o with Some m => m | None => junk end) [5 # 2; 0]%Q = true /\
   gamb 2 (match best o with Some m => m | None => junk end) [1; 3]%Q = false /\
   gamb 2 (match best o with Some m => m | None => junk end) [3; 3]%Q = false).
Proof.
  split; [|split].
  - split; [repeat constructor; simpl; intuition discriminate|]. split; [intros d [<-|[<-|[]]]; simpl; lia|]. split; auto. intros e [<-|[<-|[]]];
      (split; [exact I|]; simpl; split; [repeat constructor; simpl; auto|]; split; [repeat constructor; simpl; tauto|]; intros d [<-|[]]; lia).
  - intros e [<-|[<-|[]]]; [exists 1|exists 0]; simpl; intros d k [H|[]]; injection H as <- <-; right; (split; [auto|left; reflexivity]).
  - vm_compute. auto.
Qed.

(** the expression of [C32_assign_refuted], x0 := x1 + x2, together with x2 := x2: the lost point is kept *)
Definition exKeep : linexpr := sp 0 [(2, 1%Q)].
Example C32_example_general : args_ok exHalf [0; 2] [exSum; exKeep] /\
  (let o := oct_assign_linexpr_array (N:=E) 0 junk exHalf [0; 2] [exSum; exKeep] None in
   gamb 3 (match best o with Some m => m | None => junk end) [10; 10; 0]%Q = true /\
   gamb 3 (match best o with Some m => m | None => junk end) [10; 10; 1]%Q = false) /\
  gamb 3 (match best (oct_assign_linexpr (N:=E) 0 junk exHalf 0 exSum None) with Some m => m | None => junk end) [10; 10; 0]%Q = false.
Proof.
  split; [|vm_compute; auto].
  split; [repeat constructor; simpl; intuition discriminate|]. split; [intros d [<-|[<-|[]]]; simpl; lia|]. split; auto. intros e [<-|[<-|[]]]; [exact exSum_wf|].
  split; [exact I|]. simpl. split; [repeat constructor; simpl; auto|]. split; [repeat constructor; simpl; tauto|]. intros d [<-|[]]; lia.
Qed.

(** ** C33 *)
(** Two variables or more, any number type, any expressions: the result contains each point that
    the simultaneous assignment, for some values of the expressions, sends into the argument. *)
Theorem C33_substitute_array_sound : forall (N : numtype) (algo : Z) (tmp : hmat) (a : oct) (ds : list nat) (es : list linexpr) (dest : option oct),
  wfo a -> args_ok a ds es -> length ds <> 1 -> dest_ok a dest ->
  forall v w rs, gamo a w -> values_at es v rs -> assigned v w ds rs -> in_dest dest v ->
  gamo (oct_substitute_linexpr_array (N:=N) algo tmp a ds es dest) v /\ wfo (oct_substitute_linexpr_array (N:=N) algo tmp a ds es dest).
Proof.
  intros N algo tmp a ds es dest W (ND & LD & LE & WE) L1 DO v w rs G HV HA HD. destruct (values_nth es v rs HV) as [LR NV].
  pose proof (assigned_vsets v w ds rs ND ltac:(lia) HA) as Q. apply (subst_array_ok algo tmp a ds es dest v rs); auto; [lia|].
  revert G. apply gamo_qext. intros x. rewrite Q. auto.
Qed.
Print Assumptions C33_substitute_array_sound.
(** what the exchange of the two variables sends into [0,1] x [2,3] *)
Example C33_example_swap : args_ok (lbox 0 1 2 3) [0; 1] [exX1; exX0] /\
  (let o := oct_substitute_linexpr_array (N:=E) 0 junk (lbox 0 1 2 3) [0; 1] [exX1; exX0] None in
   gamb 2 (match best o with Some m => m | None => junk end) [3; 1]%Q = true /\
   gamb 2 (match best o with Some m => m | None => junk end) [5 # 2; 0]%Q = true /\
   gamb 2 (match best o with Some m => m | None => junk end) [1; 3]%Q = false /\
   gamb 2 (match best o with Some m => m | None => junk end) [3; 3]%Q = false).
Proof. split; [apply C32_example_swap|]. vm_compute. auto. Qed.

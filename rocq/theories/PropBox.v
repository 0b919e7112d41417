(** Properties C13 and C15-C21: the box domain. *)
From Coq Require Import Arith Lia List ZArith QArith Qround Qreals Reals Lra Bool Sorted.
From Verif Require Import Bound BoundFacts Util Itv ItvFacts ItvFacts2 ItvHistory Linexpr LinexprFacts OctResize2 OctResize3 ItvLin ItvLinFacts ItvLinCons ItvLinInt ItvLinApi PropItvLin
  PropOctTransfer Box BoxizeFacts BoxFacts BoxDims BoxOps BoxMeet BoxGen.
Import ListNotations.
Open Scope Z_scope.
Local Notation E := exact_num.

(** deciding membership of a rational point *)
Definition gboxb (a : box) (l : list Q) : bool :=
  match bx_p a with None => false | Some p => forallb (fun d => leqb (- nth d l 0)%Q (inf (p d)) && leqb (nth d l 0%Q) (sup (p d))) (seq 0 (bx_dim a)) end.
Lemma leqb_ok : forall q b, leqb q b = true <-> le_rb (Q2R q) b.
Proof. intros q [|p|]; simpl; try tauto. split; [discriminate|tauto]. rewrite Qle_bool_iff. split. apply Qle_Rle. apply Rle_Qle. Qed.
Lemma gboxb_ok : forall a l, gboxb a l = true <-> gbox a (qpt l).
Proof.
  intros a l. unfold gboxb, gbox. destruct (bx_p a) as [p|]; [|split; [discriminate|tauto]]. rewrite forallb_forall. split.
  - intros H d D. specialize (H d). rewrite in_seq in H. specialize (H ltac:(lia)). apply andb_true_iff in H. destruct H as [A B]. apply leqb_ok in A, B. rewrite Q2R_opp in A. split; auto.
  - intros H d D. apply in_seq in D. destruct (H d ltac:(lia)) as [A B]. apply andb_true_iff. split; apply leqb_ok; auto. rewrite Q2R_opp. auto.
Qed.
(** boxes given by lists of intervals *)
Definition bx (i r : nat) (l : list (Q * Q)) : box := mkBox i r (Some (fun d => match nth_error l d with Some (a, b) => mkItv (Fin (- a)) (Fin b) | None => itv_top end)).

(** ** C13 *)
(** Any number of rounds.  The coefficients of the variables are scalars of the number type, or
    the arithmetic is exact. *)
Theorem C13_meet_lincons_sound_partial : forall (N : numtype) (algo : Z) (a b : box) (l : list lincons) (v : nat -> R),
  Forall (fun c => user_ok (N:=N) (bx_dim a) c /\ (N = E \/ repr_terms (N:=N) (lc_expr c))) l ->
  box_meet_lincons_array (N:=N) algo a l = Some b ->
  (forall d, (d < bx_int a)%nat -> exists z, v d = IZR z) -> gbox a v -> Forall (fun c => sat_cons c v) l -> gbox b v /\ box_is_bottom b = false.
Proof.
  intros N algo a b l v F H I G S. assert (X : gbox b v) by (eapply meet_lincons_sound; eauto). split; auto.
  unfold gbox, box_is_bottom in *. destruct (bx_p b); auto; tauto.
Qed.
Print Assumptions C13_meet_lincons_sound_partial.
(** the result is included in the argument *)
Theorem C13_meet_lincons_reductive : forall (N : numtype) (algo : Z) (a b : box) (l : list lincons) (v : nat -> R),
  box_meet_lincons_array (N:=N) algo a l = Some b -> gbox b v -> gbox a v.
Proof. intros. eapply meet_lincons_red; eauto. Qed.
Print Assumptions C13_meet_lincons_reductive.
(** with interval coefficients and rounding a solution is lost: [3,4] x + 1 >= 0 on [-1,1] with
    two fractional bits; the lower bound -1/3 is rounded to -1/4 *)
Theorem C13_meet_lincons_refuted : exists (N : numtype) (a b : box) (c : lincons) (v : nat -> R),
  user_ok (N:=N) (bx_dim a) c /\ box_meet_lincons_array (N:=N) 0 a [c] = Some b /\ bx_int a = 0%nat /\ gbox a v /\ sat_cons c v /\ ~ gbox b v.
Proof.
  exists quarters, (bx 0 1 [((-1)%Q, 1%Q)]). eexists.
  exists (mkCons CSupEq (mkLin (Scal (Fin 1)) (Sparse [(Some 0%nat, Intv (Fin 3) (Fin 4))])) None), (qpt [(-1#3)%Q]).
  split. { split. split; simpl; auto. split. repeat constructor; simpl; intros; discriminate. split. repeat constructor; simpl; intuition lia. unfold bx_dim; simpl; intuition lia.
    split. { eexists _, []. rewrite app_nil_r. split; [reflexivity|]. split; repeat constructor; discriminate. } intro X; discriminate. }
  split. reflexivity. split. reflexivity. split. { apply gboxb_ok. reflexivity. } split.
  { exists 0%R. split; [|simpl; lra]. exists 1%R, (-1)%R. split. simpl; rq. split; [|lra]. exists [3%R]. split; [|simpl; unfold qpt; rq].
    constructor; [|constructor]. intros _. simpl. split; rq. }
  intro G. match type of G with gbox ?b _ => assert (X : gboxb b [(-1#3)%Q] = true) by (apply gboxb_ok; exact G) end. vm_compute in X. discriminate.
Qed.
Print Assumptions C13_meet_lincons_refuted.
(** 2x + y <= 4, x >= 1 on [0,10]^2: x in [1,2], y in [0,2] *)
Definition c13 : list lincons := [mkCons CSupEq (sp 4 [(0%nat, (-2)%Q); (1%nat, (-1)%Q)]) None; mkCons CSupEq (sp (-1) [(0%nat, 1%Q)]) None].
Lemma c13_ok : forall c, In c c13 -> user_ok (N:=E) 2 c.
Proof.
  intros c [<-|[<-|[]]]; (split; [split; simpl; auto; split; [repeat constructor; simpl; auto|split; [repeat constructor; simpl; intuition lia|simpl; intuition lia]]|]);
  (split; [eexists _, []; rewrite app_nil_r; split; [reflexivity|split; repeat constructor; discriminate]|intro X; discriminate]).
Qed.
Example C13_example : Forall (fun c => user_ok (N:=E) 2 c /\ (E = E \/ repr_terms (N:=E) (lc_expr c))) c13 /\
  exists b, box_meet_lincons_array (N:=E) 3 (bx 0 2 [(0, 10); (0, 10)]%Q) c13 = Some b /\
    gboxb b [1; 2]%Q = true /\ gboxb b [2; 0]%Q = true /\ gboxb b [21#10; 0]%Q = false /\ gboxb b [1; 21#10]%Q = false /\ gboxb b [9#10; 1]%Q = false.
Proof.
  split. { apply Forall_forall. intros c C. split; auto. apply c13_ok; auto. }
  eexists. split; [reflexivity|]. vm_compute. auto.
Qed.

(** ** C15 *)
(** the boxes built by the operations of the domain.  The side conditions are those of the
    functions of the API; expressions are defined at every point (no empty interval coefficient) *)
Inductive box_built (N : numtype) : box -> Prop :=
| bb_bottom : forall i r, box_built N (box_bottom i r)
| bb_top : forall i r, box_built N (box_top i r)
| bb_of_box : forall i r t, (forall d, (d < i + r)%nat -> fst (t d) <> PInf /\ snd (t d) <> MInf) -> box_built N (box_of_box (N:=N) i r t)
| bb_meet : forall a b, box_built N a -> box_built N b -> same_dims a b -> box_built N (box_meet a b)
| bb_join : forall a b, box_built N a -> box_built N b -> same_dims a b -> box_built N (box_join a b)
| bb_widening : forall a b r, box_built N a -> box_built N b -> same_dims a b -> box_widening a b = Some r -> box_built N r
| bb_add_rays : forall a l, box_built N a -> Forall (ray_ok (bx_dim a)) l -> box_built N (box_add_ray_array a l)
| bb_forget : forall a tdim pr, box_built N a -> box_built N (box_forget_array a tdim pr)
| bb_add_dims : forall ip a pos ni pr, box_built N a -> box_add_ok (bx_dim a) pos -> (ni <= length pos)%nat -> box_built N (box_add_dimensions ip a pos ni pr)
| bb_rem_dims : forall ip a pos ni, box_built N a -> box_rem_ok (bx_dim a) pos -> (ni <= length pos)%nat -> (ni <= bx_int a)%nat -> (length pos - ni <= bx_real a)%nat ->
    box_built N (box_remove_dimensions ip a pos ni)
| bb_permute : forall a perm, box_built N a -> is_perm (bx_dim a) perm -> box_built N (box_permute_dimensions a perm)
| bb_expand : forall ip a d n, box_built N a -> (d < bx_dim a)%nat -> box_built N (box_expand ip a d n)
| bb_fold : forall a t0 ts, box_built N a -> box_fold_ok (bx_dim a) t0 ts -> fold_types a t0 ts -> box_built N (box_fold a t0 ts)
| bb_assign : forall a asn dest, box_built N a -> Forall (fun t => wf_expr (bx_dim a) (snd t) /\ expr_total (snd t)) asn ->
    (forall b, dest = Some b -> box_built N b) -> (forall b, dest = Some b -> bx_dim b = bx_dim a) -> box_built N (box_assign_linexpr_array (N:=N) a asn dest)
| bb_meet_lincons : forall algo a b l, box_built N a -> Forall (fun c => meet_cons_ok (N:=N) (bx_dim a) c /\ expr_total (lc_expr c)) l ->
    box_meet_lincons_array (N:=N) algo a l = Some b -> box_built N b.
Lemma box_built_ne : forall N a, box_built N a -> nebox a.
Proof.
  intro N. fix IH 2. intros a H. destruct H.
  - exact I.
  - unfold nebox; simpl. intros d D. exists 0%R. split; simpl; auto.
  - apply of_box_nebox. auto.
  - apply meet_nebox; auto. destruct H1. unfold bx_dim. congruence.
  - apply join_nebox; auto.
  - eapply widening_nebox; [exact H1| | |exact H2]; auto.
  - apply add_ray_nebox; auto.
  - apply box_forget_nebox; auto.
  - apply box_add_nebox; auto.
  - apply box_rem_nebox; auto.
  - apply box_permute_nebox; auto.
  - apply box_expand_nebox; auto.
  - apply box_fold_nebox; auto.
  - apply assign_nebox; auto. destruct dest; auto.
  - eapply meet_lincons_nebox; [|apply IH; exact H|]; eauto.
Qed.
Theorem C15_is_bottom_iff : forall N a, box_built N a -> (box_is_bottom a = true <-> forall v, ~ gbox a v).
Proof. intros. apply is_bottom_iff. eapply box_built_ne; eauto. Qed.
Print Assumptions C15_is_bottom_iff.
Theorem C15_is_top_iff : forall N a, box_built N a -> (box_is_top a = true <-> forall v, gbox a v).
Proof. intros. apply is_top_iff. eapply box_built_ne; eauto. Qed.
Print Assumptions C15_is_top_iff.
Theorem C15_is_leq_iff : forall N a b, box_built N a -> box_built N b -> bx_dim a = bx_dim b -> (box_is_leq a b = true <-> forall v, gbox a v -> gbox b v).
Proof. intros. apply is_leq_iff; auto. eapply box_built_ne; eauto. Qed.
Print Assumptions C15_is_leq_iff.
Theorem C15_is_eq_iff : forall N a b, box_built N a -> box_built N b -> bx_dim a = bx_dim b -> (box_is_eq a b = true <-> forall v, gbox a v <-> gbox b v).
Proof. intros. apply is_eq_iff; auto; eapply box_built_ne; eauto. Qed.
Print Assumptions C15_is_eq_iff.
Theorem C15_is_unconstrained_iff : forall N a d, box_built N a -> (d < bx_dim a)%nat ->
  (box_is_dimension_unconstrained a d = true <-> (exists v, gbox a v) /\ forall v x, gbox a v -> gbox a (upd v d x)).
Proof. intros. apply unconstrained_iff; auto. eapply box_built_ne; eauto. Qed.
Print Assumptions C15_is_unconstrained_iff.
(** without the condition on the coefficients: x := [1,-1] (an empty interval) *)
Theorem C15_empty_coefficient_refuted : exists (a : box) (e : linexpr), wf_expr (bx_dim a) e /\ box_built E a /\
  let b := box_assign_linexpr_array (N:=E) a [(0%nat, e)] None in box_is_bottom b = false /\ forall v, ~ gbox b v.
Proof.
  exists (box_top 0 1), (mkLin (Intv (Fin 1) (Fin (-1))) (Sparse [])). split.
  - split. split; simpl. split; discriminate. split. constructor. split. constructor. simpl; tauto. exists [], []. auto.
  - split. constructor. cbv zeta. split. reflexivity. intros v G. specialize (G 0%nat ltac:(unfold bx_dim; simpl; lia)). vm_compute in G. destruct G as [G1 G2]. lra.
Qed.
Print Assumptions C15_empty_coefficient_refuted.
Example C15_example : let a := box_of_box (N:=E) 1 1 (fun _ => (Fin (1#2), Fin (5#2))) in
  box_built E a /\ box_is_leq a (box_top 1 1) = true /\ box_is_leq (box_top 1 1) a = false /\ gboxb a [1; 1#2]%Q = true /\ gboxb a [1#2; 1#2]%Q = false.
Proof. cbv zeta. split. { constructor. intros; split; discriminate. } vm_compute. auto. Qed.

(** ** C16 *)
Theorem C16_meet_exact : forall a b v, same_dims a b -> (gbox (box_meet a b) v <-> gbox a v /\ gbox b v).
Proof. intros. apply meet_exact. apply same_dims_dim; auto. Qed.
Print Assumptions C16_meet_exact.
Theorem C16_meet_array_exact : forall l a v, Forall (same_dims a) l -> (gbox (box_meet_array a l) v <-> gbox a v /\ Forall (fun b => gbox b v) l).
Proof. intros. apply meet_list_exact; auto. Qed.
Print Assumptions C16_meet_array_exact.
Theorem C16_join_best : forall N a b, box_built N a -> box_built N b -> same_dims a b ->
  (forall v, gbox a v \/ gbox b v -> gbox (box_join a b) v) /\
  forall c, bx_dim c = bx_dim a -> (forall v, gbox a v -> gbox c v) -> (forall v, gbox b v -> gbox c v) -> forall v, gbox (box_join a b) v -> gbox c v.
Proof. intros N a b A B D. split. intros; apply join_sound; auto. intros; eapply join_least; eauto using box_built_ne. Qed.
Print Assumptions C16_join_best.
Theorem C16_join_array_best : forall N l a, Forall (box_built N) (a :: l) -> Forall (same_dims a) l ->
  (forall b v, In b (a :: l) -> gbox b v -> gbox (box_join_array a l) v) /\
  forall c, bx_dim c = bx_dim a -> (forall b v, In b (a :: l) -> gbox b v -> gbox c v) -> forall v, gbox (box_join_array a l) v -> gbox c v.
Proof.
  intros N l a B D. inversion B; subst. split.
  - intros b v [->|I] G; apply join_list_sound; auto. right. apply Exists_exists. eauto.
  - intros c C H v G. eapply join_list_least; eauto. eapply box_built_ne; eauto. eapply Forall_impl; [|eassumption]. intros; eapply box_built_ne; eauto.
Qed.
Print Assumptions C16_join_array_best.
Example C16_example : let a := bx 0 2 [(0, 1); (0, 3)]%Q in let b := bx 0 2 [(2, 4); (1, 2)]%Q in
  same_dims a b /\ gboxb (box_join a b) [3#2; 3]%Q = true /\ gboxb (box_join a b) [5; 1]%Q = false /\
  box_is_bottom (box_meet a b) = true /\ gboxb (box_meet a (bx 0 2 [(1#2, 4); (1, 2)]%Q)) [1; 2]%Q = true.
Proof. cbv zeta. split. split; reflexivity. vm_compute. auto. Qed.

(** ** C17 *)
Theorem C17_widening_upper : forall a b r v, same_dims a b -> box_widening a b = Some r -> gbox a v \/ gbox b v -> gbox r v.
Proof. exact widening_sound. Qed.
Print Assumptions C17_widening_upper.
(** it returns unless the second argument is empty and the first one is not *)
Theorem C17_widening_returns : forall a b, box_widening a b = None <-> (box_is_bottom a = false /\ box_is_bottom b = true).
Proof.
  intros a b. rewrite widening_returns. unfold box_is_bottom. destruct (bx_p a), (bx_p b); split; intros [A B]; split; congruence.
Qed.
Print Assumptions C17_widening_returns.
(** each history h(k+1) = h(k) widened by y(k): at most 2 changes per dimension and one *)
Theorem C17_widening_stabilises : forall N i r (h y : nat -> box), box_built N (h O) -> bx_int (h O) = i -> bx_real (h O) = r ->
  (forall k, box_built N (y k) /\ bx_int (y k) = i /\ bx_real (y k) = r) -> (forall k, box_widening (h k) (y k) = Some (h (S k))) ->
  forall n, exists s, (length s <= 2 * (i + r) + 1)%nat /\ forall k, (k < n)%nat -> ~ In k s -> forall v, gbox (h (S k)) v <-> gbox (h k) v.
Proof.
  intros N i r h y H0 A B HY HW n. eapply widening_history; eauto. eapply box_built_ne; eauto. intro k. destruct (HY k) as (X & Y & Z). split; auto. eapply box_built_ne; eauto.
Qed.
Print Assumptions C17_widening_stabilises.
Example C17_example : exists r, box_widening (bx 0 2 [(0, 1); (0, 3)]%Q) (bx 0 2 [(0, 2); (1, 3)]%Q) = Some r /\ gboxb r [1000; 3]%Q = true /\ gboxb r [1000; 4]%Q = false /\ gboxb r [-1; 0]%Q = false.
Proof. eexists. split. reflexivity. vm_compute. auto. Qed.

(** ** C18 *)
(** [pos]: where the new dimensions go; [cle pos x] of them are inserted at or before [x] *)
Theorem C18_add_dimensions_exact : forall inplace a pos ni project w, box_add_ok (bx_dim a) pos -> (ni <= length pos)%nat ->
  (gbox (box_add_dimensions inplace a pos ni project) w <->
   gbox a (fun x => w (x + cle pos x)%nat) /\ (project = true -> forall t, (t < length pos)%nat -> w (t + nth t pos 0)%nat = 0%R)).
Proof.
  intros. rewrite box_add_exact by auto. split. intros (A & B & C); auto. intros [A B]. split; auto. split; auto. unfold gbox in A. destruct (bx_p a); [discriminate|tauto].
Qed.
Print Assumptions C18_add_dimensions_exact.
Theorem C18_remove_dimensions_exact : forall N inplace a pos ni w, box_built N a -> box_rem_ok (bx_dim a) pos -> (ni <= length pos)%nat -> (ni <= bx_int a)%nat -> (length pos - ni <= bx_real a)%nat ->
  (gbox (box_remove_dimensions inplace a pos ni) w <-> exists v, gbox a v /\ forall x, (x < bx_dim a)%nat -> ~ In x pos -> w (x - clt pos x)%nat = v x).
Proof. intros. apply box_rem_exact; auto. eapply box_built_ne; eauto. Qed.
Print Assumptions C18_remove_dimensions_exact.
Theorem C18_permute_dimensions_exact : forall a perm v w, is_perm (bx_dim a) perm -> (forall x, (x < bx_dim a)%nat -> w (nth x perm O) = v x) ->
  (gbox (box_permute_dimensions a perm) w <-> gbox a v).
Proof. exact box_permute_exact. Qed.
Print Assumptions C18_permute_dimensions_exact.
Theorem C18_forget_exact : forall N a tdim project w, box_built N a ->
  (gbox (box_forget_array a tdim project) w <->
   exists v, gbox a v /\ forall x, (x < bx_dim a)%nat -> (~ In x tdim -> w x = v x) /\ (In x tdim -> project = true -> w x = 0%R)).
Proof. intros. apply box_forget_exact. eapply box_built_ne; eauto. Qed.
Print Assumptions C18_forget_exact.
(** expand: [d] and each of its copies satisfy the constraints of [d] *)
Theorem C18_expand_exact : forall inplace a d n w, (d < bx_dim a)%nat ->
  (gbox (box_expand inplace a d n) w <-> gbox a (fun x => w (exp_shift a d n x)) /\
    forall k, (k < n)%nat -> gbox a (fun x => if Nat.eqb x d then w (exp_off a d + k)%nat else w (exp_shift a d n x))).
Proof. exact box_expand_exact. Qed.
Print Assumptions C18_expand_exact.
(** fold: contains each point in which one of the folded dimensions replaces the first one, and
    is the smallest such box *)
Theorem C18_fold_best : forall N a t0 ts, box_built N a -> box_fold_ok (bx_dim a) t0 ts -> fold_types a t0 ts ->
  (forall t v w, In t (t0 :: ts) -> gbox a v -> box_folded (bx_dim a) t0 ts t v w -> gbox (box_fold a t0 ts) w) /\
  forall c, bx_dim c = (bx_dim a - length ts)%nat -> (forall t v w, In t (t0 :: ts) -> gbox a v -> box_folded (bx_dim a) t0 ts t v w -> gbox c w) ->
    forall w, gbox (box_fold a t0 ts) w -> gbox c w.
Proof.
  intros N a t0 ts B O T. split. intros; eapply box_fold_sound; eauto. intros c C H w G. eapply box_fold_best; eauto. eapply box_built_ne; eauto.
Qed.
Print Assumptions C18_fold_best.
(** two integers and a real; insertion, removal, rotation, expansion, folding *)
Example C18_example : let a := bx 2 1 [(0, 1); (10, 20); (5, 6)]%Q in
  box_add_ok 3 [0; 2]%nat /\ box_rem_ok 3 [1]%nat /\ box_fold_ok 3 0 [1]%nat /\ fold_types a 0 [1]%nat /\
  gboxb (box_add_dimensions true a [0; 2]%nat 2 true) [0; 1; 15; 0; 6]%Q = true /\
  gboxb (box_add_dimensions true a [0; 2]%nat 2 true) [0; 1; 15; 1; 6]%Q = false /\
  gboxb (box_remove_dimensions false a [1]%nat 1) [1; 5]%Q = true /\ gboxb (box_permute_dimensions a [1; 0; 2]%nat) [20; 0; 6]%Q = true /\
  gboxb (box_expand true a 0 2) [1; 10; 0; 1; 5]%Q = true /\ gboxb (box_expand true a 0 2) [1; 10; 0; 2; 5]%Q = false /\
  gboxb (box_fold a 0 [1]%nat) [10; 5]%Q = true /\ gboxb (box_fold a 0 [1]%nat) [21; 5]%Q = false.
Proof.
  cbv zeta. split. { split. repeat constructor. intros p [<-|[<-|[]]]; lia. } split. { split. repeat constructor. intros p [<-|[]]; lia. }
  split. { split. repeat constructor. intros p [<-|[<-|[]]]; lia. } split. { unfold fold_types; simpl. intuition lia. }
  vm_compute. repeat (split; [reflexivity|]). reflexivity.
Qed.

(** ** C19 *)
(** the parallel assignment contains the image of every point, and with [dest] those of them
    which are in [dest] *)
Theorem C19_assign_sound_partial : forall (N : numtype) a asn dest v w, Forall (fun t => wf_expr (bx_dim a) (snd t)) asn ->
  (forall d e, In (d, e) asn -> expr_val e v (w d)) -> (forall d, ~ In d (map fst asn) -> w d = v d) ->
  gbox a v -> (forall b, dest = Some b -> bx_dim b = bx_dim a /\ gbox b w) ->
  gbox (box_assign_linexpr_array (N:=N) a asn dest) w.
Proof. intros N a asn dest v w F H1 H2 G D. eapply assign_sound; eauto. split; auto. destruct dest; auto. Qed.
Print Assumptions C19_assign_sound_partial.
(** scalar coefficients, distinct variables, exact numbers: the smallest box *)
Theorem C19_assign_best : forall a asn b, box_built E a -> Forall (fun t => wf_expr (bx_dim a) (snd t) /\ scalar_terms (snd t) /\ expr_total (snd t)) asn -> NoDup (map fst asn) ->
  bx_dim b = bx_dim a -> (forall v w, gbox a v -> assigned asn v w -> gbox b w) ->
  forall w, gbox (box_assign_linexpr_array (N:=E) a asn None) w -> gbox b w.
Proof. intros. eapply assign_best; eauto. eapply box_built_ne; eauto. Qed.
Print Assumptions C19_assign_best.
(** an empty [dest] is ignored: the argument is returned, although no image is in [dest] *)
Theorem C19_empty_dest_refuted : exists a e b, box_built E a /\ box_built E b /\ same_dims a b /\ wf_expr (bx_dim a) e /\ expr_total e /\
  (forall v, ~ gbox b v) /\ exists w, gbox (box_assign_linexpr_array (N:=E) a [(0%nat, e)] (Some b)) w.
Proof.
  exists (box_top 0 1), (mkLin (Scal (Fin 1)) (Sparse [])), (box_bottom 0 1). split. constructor. split. constructor. split. split; reflexivity.
  split. { split. split; simpl; auto. split. constructor. split. constructor. simpl; tauto. exists [], []. auto. }
  split. { intro v. exists (1 + 0)%R. exists 1%R, 0%R. split. simpl; rq. split; auto. exists []. split; auto. }
  split. { intros v G. exact G. } exists (fun _ => 0%R). intros d D. simpl. split; simpl; auto.
Qed.
Print Assumptions C19_empty_dest_refuted.
(** x, y := y + 1, 2x - y *)
Definition asn19 : list (nat * linexpr) := [(0%nat, sp 1 [(1%nat, 1%Q)]); (1%nat, sp 0 [(0%nat, 2%Q); (1%nat, (-1)%Q)])].
Example C19_example : let a := bx 0 2 [(0, 1); (2, 3)]%Q in let b := box_assign_linexpr_array (N:=E) a asn19 None in
  assigned asn19 (qpt [1; 2]%Q) (fun d => match d with O => 3 | 1%nat => 0 | _ => qpt [1; 2]%Q d end)%R /\
  gboxb b [3; 0]%Q = true /\ gboxb b [4; -3]%Q = true /\ gboxb b [2; 0]%Q = false /\ gboxb b [3; 1#2]%Q = false.
Proof.
  cbv zeta. split; [split|vm_compute; auto].
  - intros d e [H|[H|[]]]; inversion H; subst; simpl; unfold sp; simpl.
    + exists 1%R, 2%R. split. simpl; rq. split; [|lra]. exists [1%R]. split; [|unfold qpt; simpl; rq]. constructor; [|constructor]. intros _. simpl. rq.
    + exists 0%R, 0%R. split. simpl; rq. split; [|lra]. exists [2; -1]%R. split; [|unfold qpt; simpl; rq]. constructor; [|constructor; [|constructor]]; intros _; simpl; rq.
  - intros [|[|d]] H; simpl in *; tauto.
Qed.

(** ** C20 *)
Theorem C20_bound_dimension_exact : forall N a d x, box_built N a -> (d < bx_dim a)%nat ->
  (ge_rb x (fst (box_bound_dimension a d)) /\ le_rb x (snd (box_bound_dimension a d)) <-> exists v, gbox a v /\ v d = x).
Proof. intros. apply bound_dimension_exact; auto. eapply box_built_ne; eauto. Qed.
Print Assumptions C20_bound_dimension_exact.
Theorem C20_bound_linexpr_sound : forall (N : numtype) a e v r, wf_expr (bx_dim a) e -> gbox a v -> expr_val e v r ->
  ge_rb r (fst (box_bound_linexpr (N:=N) a e)) /\ le_rb r (snd (box_bound_linexpr (N:=N) a e)).
Proof. intros N. exact (bound_linexpr_sound (N:=N)). Qed.
Print Assumptions C20_bound_linexpr_sound.
Theorem C20_bound_linexpr_exact : forall a e x, wf_expr (bx_dim a) e -> scalar_terms e -> expr_total e -> box_built E a ->
  (ge_rb x (fst (box_bound_linexpr (N:=E) a e)) /\ le_rb x (snd (box_bound_linexpr (N:=E) a e)) <-> exists v, gbox a v /\ expr_val e v x).
Proof. intros. apply bound_linexpr_exact; auto. eapply box_built_ne; eauto. Qed.
Print Assumptions C20_bound_linexpr_exact.
Theorem C20_sat_interval_iff : forall N a d i, box_built N a -> (d < bx_dim a)%nat ->
  (box_sat_interval a d i = true <-> forall v, gbox a v -> ge_rb (v d) (fst i) /\ le_rb (v d) (snd i)).
Proof. intros. apply sat_interval_iff; auto. eapply box_built_ne; eauto. Qed.
Print Assumptions C20_sat_interval_iff.
(** whatever the values chosen in the interval coefficients *)
Theorem C20_sat_lincons_sound : forall (N : numtype) a c v, user_ok (N:=N) (bx_dim a) c -> box_sat_lincons (N:=N) a c = Some true -> gbox a v -> sat_all c v.
Proof. intros N. exact (sat_lincons_sound (N:=N)). Qed.
Print Assumptions C20_sat_lincons_sound.
Theorem C20_sat_lincons_complete : forall a c, box_built E a -> wf_expr (bx_dim a) (lc_expr c) -> scalar_terms (lc_expr c) -> expr_total (lc_expr c) ->
  lc_typ c <> CEqMod -> (forall v, gbox a v -> sat_all c v) -> box_sat_lincons (N:=E) a c = Some true.
Proof. intros. apply sat_lincons_complete; auto. eapply box_built_ne; eauto. Qed.
Print Assumptions C20_sat_lincons_complete.
(** conversion to constraints and from intervals *)
Theorem C20_to_lincons_exact : forall N a v, box_built N a -> (Forall (fun c => sat_cons c v) (box_to_lincons_array a) <-> gbox a v).
Proof. intros. apply to_lincons_exact. eapply box_built_ne; eauto. Qed.
Print Assumptions C20_to_lincons_exact.
Theorem C20_of_box_sound : forall (N : numtype) i r t v, (forall d, (d < i)%nat -> exists z, v d = IZR z) ->
  (forall d, (d < i + r)%nat -> ge_rb (v d) (fst (t d)) /\ le_rb (v d) (snd (t d))) -> gbox (box_of_box (N:=N) i r t) v.
Proof. exact of_box_sound. Qed.
Print Assumptions C20_of_box_sound.
(** adding rays and lines *)
Theorem C20_add_rays_best : forall N a l, box_built N a -> Forall (ray_ok (bx_dim a)) l ->
  (forall v w, gbox a v -> ray_reach l v w -> gbox (box_add_ray_array a l) w) /\
  forall b, bx_dim b = bx_dim a -> (forall v w, gbox a v -> ray_reach l v w -> gbox b w) -> forall w, gbox (box_add_ray_array a l) w -> gbox b w.
Proof. intros N a l B F. split. intros; eapply add_ray_sound; eauto. intros; eapply add_ray_best; eauto. eapply box_built_ne; eauto. Qed.
Print Assumptions C20_add_rays_best.
Example C20_example : let a := bx 0 2 [(0, 1); (2, 3)]%Q in
  uitv_is_leq (box_bound_linexpr (N:=E) a (sp 1 [(0%nat, 2%Q); (1%nat, (-1)%Q)])) (Fin (-2), Fin 1) = true /\
  box_sat_lincons (N:=E) a (mkCons CSup (sp 0 [(0%nat, (-1)%Q); (1%nat, 1%Q)]) None) = Some true /\
  box_sat_lincons (N:=E) a (mkCons CSup (sp 1 [(0%nat, 1%Q); (1%nat, (-1)%Q)]) None) = Some false /\
  length (box_to_lincons_array a) = 4%nat /\ gboxb (box_add_ray_array a [(false, sp 0 [(0%nat, (-1)%Q)])]) [-7; 2]%Q = true /\
  gboxb (box_add_ray_array a [(false, sp 0 [(0%nat, (-1)%Q)])]) [7; 2]%Q = false.
Proof. vm_compute. repeat (split; [reflexivity|]). reflexivity. Qed.

(** ** C21 *)
(** every dimension is bounded on both sides or on none *)
Theorem C21_generators_exact_partial : forall N a p v, box_built N a -> bx_p a = Some p ->
  (forall d, (d < bx_dim a)%nat -> binfty (inf (p d)) = binfty (sup (p d))) ->
  (generated (bx_dim a) (box_to_generator_array a) v <-> gbox a v).
Proof. intros N a p v B P H. eapply generators_exact; eauto. eapply box_built_ne; eauto. Qed.
Print Assumptions C21_generators_exact_partial.
(** x >= 1: the generators are the vertex 0 and the ray 1 *)
Theorem C21_generators_refuted : exists a, box_built E a /\ (exists v, generated (bx_dim a) (box_to_generator_array a) v /\ ~ gbox a v).
Proof.
  exists (box_of_box (N:=E) 0 1 (fun _ => (Fin 1, PInf))). split. { constructor. intros; split; discriminate. }
  exists (fun _ => 0%R). split.
  - exists [0; 1]%R. split. constructor. intros _; lra. constructor; [|constructor]. intros; lra.
    split. simpl. lra. intros [|d] D; [|unfold bx_dim in D; simpl in D; lia]. simpl. rq.
  - intro G. specialize (G 0%nat ltac:(unfold bx_dim; simpl; lia)). simpl in G. destruct G as [G _]. simpl in G. rq.
Qed.
Print Assumptions C21_generators_refuted.
(** and x >= 0 loses all points but 0 *)
Theorem C21_generators_incomplete_refuted : exists a, box_built E a /\ (exists v, gbox a v /\ ~ generated (bx_dim a) (box_to_generator_array a) v).
Proof.
  exists (box_of_box (N:=E) 0 1 (fun _ => (Fin 0, PInf))). split. { constructor. intros; split; discriminate. }
  exists (fun _ => 1%R). split.
  - intros d D. simpl. split; simpl; auto. rq.
  - intros (ws & F & M & C). specialize (C 0%nat ltac:(unfold bx_dim; simpl; lia)). simpl in *. inversion F as [|? w1 ? l1 H1 F1]; subst. inversion F1 as [|? w2 ? l2 H2 F2]; subst. inversion F2; subst. simpl in *. rq.
Qed.
Print Assumptions C21_generators_incomplete_refuted.
Example C21_example : let a := mkBox 0 2 (Some (fun d => if Nat.eqb d 0 then mkItv (Fin 0) (Fin 2) else itv_top)) in
  map g_typ (box_to_generator_array a) = [GLine; GVertex; GVertex] /\ map (fun g => (g_coef g 0%nat, g_coef g 1%nat)) (box_to_generator_array a) = [(0, 1); (0, 0); (2, 0)]%Q.
Proof. vm_compute. auto. Qed.

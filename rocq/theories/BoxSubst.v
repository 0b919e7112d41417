(** Parallel substitution in boxes: box_assign.c 55-66, the generic function on the operations
    of boxes. *)
From Coq Require Import Arith ZArith QArith Qreals Reals Lra Lia Bool List Sorted.
From Verif Require Import Bound BoundFacts Itv Linexpr LinexprFacts OctResize2 OctResize3 ItvLin ItvLinFacts ItvLinApi ItvLinInt Box BoxFacts BoxDims BoxOps BoxMeet PropBox ApCore ApCoreFacts ApCoreDim PropApCore Generic GenericFacts.
Import ListNotations.
Open Scope nat_scope.
#[local] Arguments Nat.leb : simpl never.
#[local] Arguments Nat.ltb : simpl never.
#[local] Arguments Nat.eqb : simpl never.

(** The manager's table: box_representation.c 195-270 (dimension, is_bottom), box_resize.c 8-125,
    box_meetjoin.c 20-47 and 171-209 with the flag "exact" each function sets. [destr]: whether
    the first insertion works in place. *)
Definition box_gdom (N : numtype) (algo : Z) (destr : bool) : gdom :=
  mkGdom box bx_int bx_real box_is_bottom
    (fun a pos k => (box_add_dimensions destr a pos k false, true))
    (fun a perm => (box_permute_dimensions a perm, true))
    (fun a pos k => (box_remove_dimensions true a pos k, true))
    (fun a b => (box_meet a b, true))
    (fun a l => match box_meet_lincons_array (N:=N) algo a l with Some b => Some (b, box_is_bottom a) | None => None end).
(** box_substitute_linexpr_array *)
Definition box_substitute_linexpr_array (N : numtype) (algo : Z) (destr : bool) (a : box) (asn : list (nat * linexpr)) (dest : option box) : option (box * bool) :=
  asssub_linexpr_array (box_gdom N algo destr) false a asn dest.

Definition repr_coeff (N : numtype) (c : coeff) : Prop := N = exact_num \/ exists q q', c = Scal (Fin q) /\ rnd N q = Fin q' /\ (q' == q)%Q.
Lemma dense_lin : forall l i d c, In (d, c) (dense_terms i l) -> i <= d /\ nth_error l (d - i) = Some c.
Proof.
  induction l as [|x l IH]; intros i d c H; [destruct H|]. simpl in H. destruct H as [H|H]. inversion H; subst. rewrite Nat.sub_diag. auto.
  apply IH in H. destruct H as [H1 H2]. split. lia. replace (d - i) with (S (d - S i)) by lia. auto.
Qed.
Lemma sparse_lin : forall ts d c, NoDup (term_dims ts) -> In (d, c) (sparse_terms ts) -> sp_coeff ts d = Some c.
Proof.
  induction ts as [|[[x|] k] ts IH]; intros d c ND H; simpl in *; try tauto. apply NoDup_cons_iff in ND. destruct ND as [N1 N2]. destruct H as [H|H]. inversion H; subst. rewrite Nat.eqb_refl; auto.
  destruct (Nat.eqb_spec x d) as [->|E]; auto. exfalso. apply N1. clear - H. induction ts as [|[[y|] k'] ts IH]; simpl in *; try tauto. destruct H as [H|H]. inversion H; auto. auto.
Qed.
Lemma foreach_lin : forall n e d c, wf_terms n (le_terms e) -> In (d, c) (foreach (le_terms e)) -> lin_coeff e d = Some c.
Proof.
  intros n [k [l|ts]] d c W H; simpl in *. apply dense_lin in H. rewrite Nat.sub_0_r in H. apply H. apply sparse_lin; auto. apply W.
Qed.
Lemma gexpr_box : forall N n c, lc_mod c = None -> lc_typ c = CEq -> gexpr_ok n (repr_coeff N) (lc_expr c) -> meet_cons_ok (N:=N) n c.
Proof.
  intros N n c M T (W & S & F & K). split.
  - split; auto. split. destruct (le_terms (lc_expr c)) as [l|ts]. exact I. apply lin_sorted_iff in S. apply S. intro X. congruence.
  - assert (Z : forall l', (forall d k, In (d, k) l' -> lin_coeff (lc_expr c) d = Some k) -> N = exact_num \/ Forall (fun p : nat * coeff => exists q q', snd p = Scal (Fin q) /\ rnd N q = Fin q' /\ (q' == q)%Q) l').
    { clear - K. induction l' as [|[d k] l' IH]; intro H. right; constructor. destruct (K d k) as [E|E]; auto. apply H; simpl; auto. destruct IH as [E'|E']; auto. intros; apply H; simpl; auto. }
    destruct (Z (foreach (le_terms (lc_expr c)))); auto. intros d' k' I. apply (foreach_lin n); auto. apply W.
Qed.
Lemma box_gsound : forall N algo destr, repr_coeff N czero -> repr_coeff N (Scal (Fin (-1))) -> gsound (box_gdom N algo destr) (fun _ => True) gbox (repr_coeff N).
Proof.
  intros N algo destr K0 K1. constructor; simpl; auto.
  - intros a v w H G. apply (gbox_ext' a v w); auto.
  - intros a _ B v G. unfold box_is_bottom, gbox in *. destruct (bx_p a); [discriminate|auto].
  - intros a pos k _ (A & B & _). split; auto. split; [reflexivity|]. split; [reflexivity|]. intros w G. apply box_add_exact; auto. split; auto. split. discriminate. unfold gbox in G. destruct (bx_p a); [discriminate|tauto].
  - intros a perm _ P. split; auto. split. { unfold box_permute_dimensions. destruct (bx_p a); auto. } split. { unfold box_permute_dimensions. destruct (bx_p a); auto. } intros v w H G. apply (box_permute_exact a perm v w); auto.
  - intros a pos k _ (A & B & C & D & _). split; auto. split; [reflexivity|]. split; [reflexivity|]. intros v w G H. apply (box_rem_sound true a pos k v w); auto.
  - intros a b _ _ A B. split; auto. destruct (meet_dim a b) as [D1 D2]. split; auto. split; auto. intros v G1 G2. apply meet_exact; auto. unfold bx_dim. congruence.
  - intros a l r x _ F H. destruct (box_meet_lincons_array (N:=N) algo a l) as [b|] eqn:E; [|discriminate]. inversion H; subst. destruct (meet_lincons_dim algo a l r E) as [D1 D2]. split; auto. split; auto. split; auto.
    intros v I G S. eapply meet_lincons_sound; [|exact I|exact G|exact S|exact E]. eapply Forall_impl; [|exact F]. intros c (M & T & X). apply gexpr_box; auto.
Qed.

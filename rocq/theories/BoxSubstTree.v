(** Parallel substitution of expression trees in boxes: box_assign.c 127-150, the generic function
    of ap_generic.c on the operations of boxes. *)
From Coq Require Import Arith ZArith QArith Qreals Reals Lra Lia Bool List Sorted.
From Verif Require Import Bound BoundFacts Itv ItvFacts Linexpr LinexprFacts OctResize2 OctResize3 BoxDims ItvLin ItvLinFacts ItvLinCons ItvLinInt ApCore ApCoreFacts ApTexpr TexprSem ItvTree ItvTreeFacts ItvTreeApi ItvTreeApiFacts PropItvTree Box BoxFacts BoxSubst Hc4 Hc4Facts BoxTree PropBoxTree Generic GenericFacts GenericTree.
Import ListNotations.
Open Scope nat_scope.

Section Model.
Context {N : numtype} {F : fmts}.
(** the entry meet_tcons_array of the table; it sets the flag "exact" to false unless the box is empty
    (box_meetjoin.c 212-262) *)
Definition box_mt (eq0 : bool) (nx : rtype -> Q -> bound) (algo : Z) (a : box) (l : list tcons) : option (box * bool) :=
  match box_meet_tcons_array (N:=N) (F:=F) eq0 nx algo a l with Some b => Some (b, box_is_bottom a) | None => None end.
(** box_substitute_texpr_array, and box_substitute_texpr with one assignment *)
Definition box_substitute_texpr_array (eq0 : bool) (nx : rtype -> Q -> bound) (algo : Z) (destr : bool) (a : box) (asn : list (nat * texpr)) (dest : option box) : option (box * bool) :=
  asssub_texpr_array (box_gdom N algo destr) (box_mt eq0 nx algo) false a asn dest.
End Model.

Lemma meet_tcons_dims : forall (N : numtype) (F : fmts) eq0 nx algo a l b, box_meet_tcons_array (N:=N) (F:=F) eq0 nx algo a l = Some b -> bx_int b = bx_int a /\ bx_real b = bx_real a.
Proof.
  intros N F eq0 nx algo a l b H. unfold box_meet_tcons_array in H. destruct (bx_p a) as [p|]. 2: inversion H; auto.
  destruct (algo <? 100)%Z.
  - destruct (array_reduce_integer _ _) as [[t []]|]; try discriminate; try (inversion H; subst; simpl; auto; fail).
    all: destruct (boxize_lincons_array _ _ _ _ _ _ _) as [[res c] e]; inversion H; subst; simpl; auto.
  - destruct (hc4_meet _ _ _ _ _) as [res e]; inversion H; subst; simpl; auto.
Qed.
Lemma hc4_add : forall e pos, hc4_ok e -> hc4_ok (texpr_add_dimensions e pos).
Proof.
  induction e as [c|d|o t r a IH|o t r a IHa b IHb]; intros pos H; simpl in *; auto. destruct H; auto. destruct H as (A & B & C). split; auto. split; auto. destruct o; auto. destruct C as (C1 & C2). split; auto. destruct b; auto.
Qed.
Lemma box_tsound_hc4 : forall (N : numtype) (F : fmts) eq0 nx algo destr, (100 <= algo)%Z -> tsound F (box_gdom N algo destr) (fun _ => True) gbox (fun _ e => hc4_ok e) (box_mt (N:=N) (F:=F) eq0 nx algo).
Proof.
  intros N F eq0 nx algo destr A. constructor.
  - intros a l r x _ OK H. cbn [gd gd_int gd_real box_gdom] in *. unfold box_mt in H. destruct (box_meet_tcons_array eq0 nx algo a l) as [b|] eqn:E; [|discriminate]. inversion H; subst. destruct (meet_tcons_dims _ _ _ _ _ _ _ _ E) as (D1 & D2). split; [exact D1|]. split; [exact D2|].
    intros v IV G ST. split; [exact I|]. refine (C14_hc4_sound_partial N F eq0 nx algo a r l v A _ IV G E). rewrite Forall_forall in *. intros c C. destruct (OK c C) as (C1 & C2 & C3 & C4). split; [exact C3|]. split; [|apply ST; exact C]. intros d O. apply C4; exact O.
  - intros n e pos d H _ _. simpl. split. apply hc4_add; auto. split; [exact I|]. left; reflexivity.
Qed.
Lemma no_pow_adds : forall e pos, no_pow e -> no_pow (texpr_add_dimensions e pos).
Proof. induction e; intros pos H; simpl in *; auto. destruct H as (A & B & C). auto. Qed.
Lemma box_tsound_lin : forall (F : fmts) eq0 nx algo destr, (algo < 100)%Z -> tsound F (box_gdom exact_num algo destr) (fun _ => True) gbox (fun _ e => no_pow e) (box_mt (N:=exact_num) (F:=F) eq0 nx algo).
Proof.
  intros F eq0 nx algo destr A. constructor.
  - intros a l r x _ OK H. cbn [gd gd_int gd_real box_gdom] in *. unfold box_mt in H. destruct (box_meet_tcons_array eq0 nx algo a l) as [b|] eqn:E; [|discriminate]. inversion H; subst. destruct (meet_tcons_dims _ _ _ _ _ _ _ _ E) as (D1 & D2). split; [exact D1|]. split; [exact D2|].
    intros v IV G ST. split; [exact I|]. refine (C14_linear_sound_partial F eq0 nx algo a r l v A _ IV G E). rewrite Forall_forall in *. intros c C. destruct (OK c C) as (C1 & C2 & C3 & C4). split; [exact C3|]. split; [|apply ST; exact C]. intros d O. apply C4; exact O.
  - intros n e pos d H _ _. simpl. split. apply no_pow_adds; auto. split; auto. discriminate.
Qed.

(** Property C88: octagons and generators.  [gen_point n e w]: the vector [w] is described by the expression [e] (one of
    the possible values for each coefficient, 0 for the missing ones); [hull n P ar]: the points obtained from the set
    [P] and the generators [ar] (vertices added, points mixed, rays followed forwards, lines both ways).  [tmp] is the
    arbitrary content of the working space of the manager. *)
From Coq Require Import Arith ZArith QArith Qreals Reals Lra Lia Bool List.
From Verif Require Import Bound BoundFacts Linexpr LinexprFacts OctMat OctIdx OctClose Oct OctFacts PropOctLattice PropOctTransfer OctGen.
From Verif Require PkUser.
Import ListNotations.
Open Scope nat_scope.

(** the expressions are well formed: dimensions in range, each listed once, no infinite scalar *)
Definition gens_wf (n : nat) (ar : list gener) : Prop := forall k e, In (k, e) ar -> wf_terms n (le_terms e).
(** no coefficient is an empty interval *)
Definition gens_inhabited (n : nat) (ar : list gener) : Prop := forall k e, In (k, e) ar -> exists w, gen_point n e w.
Definition no_vertex (ar : list gener) : Prop := forall e, ~ In (PkUser.GVertex, e) ar.

Lemma gens_wf_ok : forall n ar, gens_wf n ar -> gens_ok n ar.
Proof. intros n ar H [k e] I. exact (H k e I). Qed.
Lemma gens_inh_ok : forall n ar, gens_inhabited n ar -> gens_full n ar.
Proof. intros n ar H [k e] I. exact (H k e I). Qed.

(** adding generators keeps every point and adds all that the generators reach: any numbers, any option *)
Theorem C88_add_generators_sound : forall (N : numtype) (algo : Z) (tmp : hmat) (a : oct) (ar : list gener), wfo a -> gens_wf (odim a) ar ->
  (exists v, gamo a v) \/ no_vertex ar ->
  forall v, hull (odim a) (gamo a) ar v -> gamo (oct_add_ray_array (N:=N) algo tmp a ar) v.
Proof.
  intros N algo tmp a ar W WG NE v H. apply add_ray_sound; auto using gens_wf_ok. destruct NE as [NE|NV]; auto.
  induction H; eauto. destruct (NV _ H).
Qed.
Print Assumptions C88_add_generators_sound.
(** with rational numbers, and the closure not disabled, the result is the smallest octagon doing so *)
Theorem C88_add_generators_best : forall (algo : Z) (tmp : hmat) (a : oct) (ar : list gener) (c : oct), (0 <= algo)%Z -> exo a ->
  gens_wf (odim a) ar -> gens_inhabited (odim a) ar -> wfo c -> odim c = odim a ->
  (forall v, hull (odim a) (gamo a) ar v -> gamo c v) ->
  forall v, gamo (oct_add_ray_array (N:=exact_num) algo tmp a ar) v -> gamo c v.
Proof. intros. eapply add_ray_best; eauto using gens_wf_ok, gens_inh_ok. Qed.
Print Assumptions C88_add_generators_best.
(** the octagon built from generators contains all that they generate *)
Theorem C88_of_generators_sound : forall (N : numtype) (tmp : hmat) (intdim realdim : nat) (ar : list gener), gens_wf (intdim + realdim) ar ->
  forall v, hull (intdim + realdim) (fun _ => False) ar v -> gamo (oct_of_generator_array (N:=N) tmp intdim realdim ar) v.
Proof. intros. apply of_gen_sound; auto using gens_wf_ok. Qed.
Print Assumptions C88_of_generators_sound.
Theorem C88_of_generators_best : forall (tmp : hmat) (intdim realdim : nat) (ar : list gener) (c : oct),
  gens_wf (intdim + realdim) ar -> gens_inhabited (intdim + realdim) ar -> wfo c -> odim c = intdim + realdim ->
  (forall v, hull (intdim + realdim) (fun _ => False) ar v -> gamo c v) ->
  forall v, gamo (oct_of_generator_array (N:=exact_num) tmp intdim realdim ar) v -> gamo c v.
Proof. intros. eapply of_gen_best; eauto using gens_wf_ok, gens_inh_ok. Qed.
Print Assumptions C88_of_generators_best.
(** rays and lines alone describe no point *)
Theorem C88_of_generators_no_vertex : forall (N : numtype) (tmp : hmat) (intdim realdim : nat) (ar : list gener), no_vertex ar ->
  forall v, ~ gamo (oct_of_generator_array (N:=N) tmp intdim realdim ar) v.
Proof. intros. apply of_gen_no_vertex; auto. Qed.
Print Assumptions C88_of_generators_no_vertex.
(** the results are octagons of the right dimensions, to which the other properties apply *)
Theorem C88_wellformed : forall (N : numtype) (algo : Z) (tmp : hmat) (a : oct) (intdim realdim : nat) (ar ar' : list gener), wfo a -> gens_wf (intdim + realdim) ar' ->
  (wfo (oct_add_ray_array (N:=N) algo tmp a ar) /\ odim (oct_add_ray_array (N:=N) algo tmp a ar) = odim a /\ oint (oct_add_ray_array (N:=N) algo tmp a ar) = oint a) /\
  (wfo (oct_of_generator_array (N:=N) tmp intdim realdim ar') /\ odim (oct_of_generator_array (N:=N) tmp intdim realdim ar') = intdim + realdim /\
   oint (oct_of_generator_array (N:=N) tmp intdim realdim ar') = intdim).
Proof. intros. split; [apply add_ray_wfo; auto|apply of_gen_wf; auto using gens_wf_ok]. Qed.
Print Assumptions C88_wellformed.

(** the triangle of C27, x1 <= x0 - 1/2, and the ray (1,1): x0 has no upper bound any more, the relation is kept *)
Definition sparse1 (l : list (nat * coeff)) : linexpr := mkLin (Scal (Fin 0)) (Sparse (map (fun p => (Some (fst p), snd p)) l)).
Definition ray11 : gener := (PkUser.GRay, sparse1 [(0, Scal (Fin 1)); (1, Scal (Fin 1))]).
Definition inb (a : oct) (l : list Q) : bool := match best a with Some m => gamb (odim a) m l | None => false end.
Example C88_example_ray : exo exTri /\ gens_wf (odim exTri) [ray11] /\ gens_inhabited (odim exTri) [ray11] /\ no_vertex [ray11] /\
  map (inb (oct_add_ray_array (N:=exact_num) 0 (fun _ => MInf) exTri [ray11])) [[9; 8]; [9; 17#2]; [9; 9]]%Q = [true; true; false] /\
  map (inb exTri) [[9; 8]; [9; 17#2]; [9; 9]]%Q = [false; false; false].
Proof.
  split; [exact exTri_exo|]. split; [|split; [|split; [|split; vm_compute; reflexivity]]].
  - intros k e [Q|[]]. injection Q as <- <-. split; [repeat constructor|]. split; [repeat constructor; simpl; intuition congruence|].
    simpl. intros d [<-|[<-|[]]]; lia.
  - intros k e [Q|[]]. injection Q as <- <-. exists (fun _ => 1%R). intros [|[|d]] Hd; simpl in *; try (unfold Q2R; simpl; lra). lia.
  - intros e [Q|[]]. discriminate.
Qed.
(** two vertices, (0,0) and (2,[0,1]), and the line (0,1) *)
Definition gens2 : list gener := [(PkUser.GLine, sparse1 [(1, Scal (Fin 1))]); (PkUser.GVertex, mkLin (Scal (Fin 0)) (Dense [])); (PkUser.GVertex, mkLin (Scal (Fin 0)) (Dense [Scal (Fin 2); Intv (Fin 0) (Fin 1)]))].
Example C88_example_build : gens_wf (0 + 2) gens2 /\ gens_inhabited (0 + 2) gens2 /\
  map (inb (oct_of_generator_array (N:=exact_num) (fun _ => MInf) 0 2 gens2)) [[1; 7]; [2; -7]; [3; 0]]%Q = [true; true; false] /\
  map (inb (oct_of_generator_array (N:=exact_num) (fun _ => MInf) 0 2 (tl gens2))) [[1; 1#2]; [2; 1]; [1; 2]]%Q = [true; true; false].
Proof.
  split; [|split; [|split; vm_compute; reflexivity]].
  - intros k e [Q|[Q|[Q|[]]]]; injection Q as <- <-; simpl.
    + split; [repeat constructor|]. split; [repeat constructor; simpl; tauto|]. intros d [<-|[]]; lia.
    + split; [lia|constructor].
    + split; [lia|repeat constructor; discriminate].
  - intros k e [Q|[Q|[Q|[]]]]; injection Q as <- <-.
    + exists (fun d => match d with 1 => 1%R | _ => 0%R end). intros [|[|d]] Hd; simpl in *; try (unfold Q2R; simpl; lra); lia.
    + exists (fun _ => 0%R). intros [|[|d]] Hd; simpl in *; auto.
    + exists (fun d => match d with 0 => 2%R | _ => 0%R end). intros [|[|d]] Hd; simpl in *; try (unfold Q2R; simpl; lra); lia.
Qed.

(** an empty octagon stays empty, whatever is added (even vertices): this operation is a time elapse, not a hull *)
Theorem C88_add_to_empty : forall (algo : Z) (tmp : hmat) (a : oct) (ar : list gener), (0 <= algo)%Z -> exo a -> (forall v, ~ gamo a v) ->
  forall v, ~ gamo (oct_add_ray_array (N:=exact_num) algo tmp a ar) v.
Proof.
  intros algo tmp a ar Ha X EM v G. unfold oct_add_ray_array in G. destruct (best (cached algo a)) as [m|] eqn:B; [|destruct (gamo_none _ _ _ G)].
  destruct (OctGeom.sc_nonempty _ _ (closed_ex algo a m Ha X B)) as (w & Gw). apply (EM w).
  rewrite <- (cached_gamo (N:=exact_num) algo a w (exo_wf _ X)). rewrite gamo_best, B by (apply cached_wfo; apply X).
  rewrite (proj1 (cached_dim (N:=exact_num) algo a)). auto.
Qed.
Print Assumptions C88_add_to_empty.
Example C88_example_empty : exo (lbox 1 0 0 1) /\ (forall v, ~ gamo (lbox 1 0 0 1) v).
Proof.
  split; [apply lbox_exo|]. intros v G. apply gamo_single_m in G. pose proof (G 0 1 ltac:(lia) ltac:(vm_compute; lia)) as A. pose proof (G 1 0 ltac:(lia) ltac:(vm_compute; lia)) as B.
  unfold lit in A, B. simpl in A, B. unfold Q2R in A, B. simpl in A, B. lra.
Qed.

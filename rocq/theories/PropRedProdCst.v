(** Property C51, continued: the constants of the reduced product, the product of a box, and its dimension
    (/repo/apron/ap_reducedproduct.c 340-388).  Specifications as in PropRedProd.v. *)
From Coq Require Import Arith ZArith QArith Qreals Reals Lra Lia Bool List.
From Verif Require Import Bound BoundFacts Itv Linexpr ItvLin ApCore Box BoxFacts BoxOps PropBox PkSpec PkPoly PkPolyFacts PropPkPoly RedProd RedProdFacts PropRedProd.
Import ListNotations.
Open Scope nat_scope.
Local Notation E := exact_num.

Section Cst.
Variable V : Type.
Notation pts := (pts V). Notation valid := (valid V).

(** top: every point *)
Theorem C51_top : forall ss fs i r, Forall2 (fun s f => s_inv V s i r (fst (f i r)) /\ forall x, s_gam V s (fst (f i r)) x) ss fs ->
  let res := rp_const V fs i r in valid ss (i, r) (fst (fst res)) /\ forall x, pts ss (fst (fst res)) x.
Proof.
  intros ss fs i r H. unfold rp_const, collect0, RedProdFacts.valid, RedProdFacts.pts, lvalid, lpts. simpl. rewrite map_map. induction H as [|s f ss fs (A & B) H (IH1 & IH2)]; simpl. split; constructor. split. constructor; auto. intros x. constructor; auto.
Qed.
(** bottom: no point *)
Theorem C51_bottom : forall ss fs i r, ss <> [] -> Forall2 (fun s f => s_inv V s i r (fst (f i r)) /\ forall x, ~ s_gam V s (fst (f i r)) x) ss fs ->
  let res := rp_const V fs i r in valid ss (i, r) (fst (fst res)) /\ forall x, ~ pts ss (fst (fst res)) x.
Proof.
  intros ss fs i r NE H. unfold rp_const, collect0, RedProdFacts.valid, RedProdFacts.pts, lvalid, lpts. simpl. rewrite map_map. split.
  - clear NE. induction H as [|s f ss fs (A & B) H IH]; simpl; constructor; auto.
  - intros x P. destruct H as [|s f ss fs (A & B) H]. congruence. simpl in P. inversion P; subst. apply (B x); auto.
Qed.
(** the flag exact of a constant: those of all the components *)
Theorem C51_constant_flag : forall fs i r, snd (fst (rp_const V fs i r)) = true <-> Forall (fun f => snd (f i r) = true) fs.
Proof. intros fs i r. unfold rp_const, collect0. simpl. rewrite map_map. induction fs as [|f q IH]; simpl. split; auto. rewrite andb_true_iff, IH. split. intros (A & B). constructor; auto. intros H; inversion H; auto. Qed.

(** the product of a box [P]: the box is in the product; it is the product when the components are exact *)
Lemma cols_nil : forall n, cols V n [] = repeat [] n.
Proof. induction n as [|n IH]; simpl; auto. f_equal. exact IH. Qed.
Lemma loop_unit : forall B (g : B -> V * bool) (gs : list B) cs, 
  loop V true cs (map (fun f (_ : unit) => g f) gs) (map (fun _ => tt) cs) = loop V true cs (map (fun f (_ : list V) => g f) gs) (cols V (length cs) []).
Proof.
  intros B g gs cs. rewrite cols_nil. revert gs. induction cs as [|c cs IH]; intros [|f gs]; simpl; auto. destruct (g f) as (r, ex). destruct (c_isbot V c r) as (b, e). destruct b; auto. rewrite IH. reflexivity.
Qed.
Lemma run_unit : forall B (g : B -> V * bool) (gs : list B) red redbot cs,
  run V true red redbot cs (map (fun f (_ : unit) => g f) gs) (map (fun _ => tt) cs) = run V true red redbot cs (map (fun f (_ : list V) => g f) gs) (cols V (length cs) []).
Proof. intros. unfold run. rewrite loop_unit. reflexivity. Qed.
Theorem C51_of_box : forall (P : set) ss cs red o2 fs i r b, reduce_ok V ss red -> Forall2 (sound_core V) cs ss ->
  Forall2 (fun s f => s_inv V s i r (fst (f i r b)) /\ forall x, P x -> s_gam V s (fst (f i r b)) x) ss fs ->
  let a := fst (fst (rp_of_box V red o2 cs fs i r b)) in
  valid ss (i, r) a /\ (forall x, P x -> pts ss a x) /\
  (ss <> [] -> Forall2 (fun s f => forall x, s_gam V s (fst (f i r b)) x -> P x) ss fs -> forall x, pts ss a x -> P x).
Proof.
  intros P ss cs red o2 fs i r b R HC HF a. set (T := fun _ : list set => P). set (fs' := map (fun (f : nat -> nat -> list uitv -> V * bool) (_ : list V) => f i r b) fs).
  assert (M : mono T) by (intros l l' _ x H; exact H). assert (J : conj_op T) by (intros L1 L2 x _ H _; exact H).
  assert (SO : Forall2 (fun s f => sound_op V T [] (i, r) s f) ss fs'). { unfold fs'. clear - HF. induction HF as [|s f ss fs (A & B) H IH]; simpl; constructor; auto. intros l _. simpl. split; auto. }
  assert (E : a = fst (fst (collect1 V red o2 (fst (run V true false true cs fs' (cols V (length cs) []))) (snd (run V true false true cs fs' (cols V (length cs) [])))))).
  { unfold a, rp_of_box. rewrite (run_unit _ (fun f => f i r b) fs). fold fs'. destruct (run V true false true cs fs' (cols V (length cs) [])). reflexivity. }
  destruct (run_sound V T [] (i, r) true false true M cs ss HC fs' SO [] (Forall2_nil _)) as (V1 & S1).
  destruct (collect1_ok V ss red o2 (i, r) _ (snd (run V true false true cs fs' (cols V (length cs) []))) R V1) as (V2 & S2). rewrite E. split; [exact V2|]. split.
  - intros x H. apply S2. apply S1. exact H.
  - intros NE HE x H. apply S2 in H. apply (run_exact V T [] (i, r) true false true true M J cs ss HC fs' SO) with (ls := []) in H; auto. unfold fs'. clear - HE. induction HE as [|s f ss fs A H IH]; simpl; constructor; auto. intros l _ x. apply A.
Qed.
(** the dimension *)
Theorem C51_dimension : forall ss cs d a, Forall2 (sound_core V) cs ss -> valid ss d a -> ss <> [] -> rp_dimension V cs a = Some d.
Proof.
  intros ss cs d [b vs] HC VA NE. unfold RedProdFacts.valid, lvalid in VA. simpl in VA. unfold rp_dimension. simpl. destruct HC as [|c s cs ss (A & _) HC]. congruence. destruct vs as [|v vs]. inversion VA. inversion VA as [|? ? ? ? B C]; subst. rewrite (A _ _ _ B). destruct d; reflexivity.
Qed.
End Cst.
Print Assumptions C51_top.
Print Assumptions C51_bottom.
Print Assumptions C51_constant_flag.
Print Assumptions C51_of_box.
Print Assumptions C51_dimension.

(** * Cases: boxes and polyhedra meet the hypotheses *)
Example C51_top_hyp : forall i r, Forall2 (fun s f => s_inv bp s i r (fst (f i r)) /\ forall x, s_gam bp s (fst (f i r)) x) bp_specs [fun i r => (inl (box_top i r), true); fun i r => (inr (poly_top i r), true)].
Proof.
  intros i r. constructor; [|constructor; [|constructor]]; simpl.
  - split. split; auto. apply bb_top. intros x. apply (proj1 (C15_is_top_iff E (box_top i r) (bb_top E i r))). unfold box_is_top. simpl. apply forallb_forall. intros; reflexivity.
  - destruct (C68_top i r) as (A & B & C & D). auto.
Qed.
Example C51_bottom_hyp : forall i r, Forall2 (fun s f => s_inv bp s i r (fst (f i r)) /\ forall x, ~ s_gam bp s (fst (f i r)) x) bp_specs (map (fun c => c_bottom bp c) bp_cores).
Proof. intros i r. constructor; [|constructor; [|constructor]]; simpl; [apply bcore_ok|apply pcore_ok]. Qed.
(** two boxes of the intervals [b] *)
Definition box_fun (i r : nat) (b : list uitv) : bp * bool := (inl (box_of_box (N:=E) i r (fun d => nth d b (MInf, PInf))), true).
Example C51_of_box_hyp : forall r b, (forall d, d < r -> fst (nth d b (MInf, PInf)) <> PInf /\ snd (nth d b (MInf, PInf)) <> MInf) ->
  Forall2 (fun s f => s_inv bp s 0 r (fst (f 0 r b)) /\ forall x : nat -> R, (forall d, d < r -> ge_rb (x d) (fst (nth d b (MInf, PInf))) /\ le_rb (x d) (snd (nth d b (MInf, PInf)))) -> s_gam bp s (fst (f 0 r b)) x) [bspec; bspec] [box_fun; box_fun].
Proof.
  intros r b H. assert (K : s_inv bp bspec 0 r (fst (box_fun 0 r b)) /\ forall x : nat -> R, (forall d, d < r -> ge_rb (x d) (fst (nth d b (MInf, PInf))) /\ le_rb (x d) (snd (nth d b (MInf, PInf)))) -> s_gam bp bspec (fst (box_fun 0 r b)) x).
  - split.
    + simpl. split. apply bb_of_box. auto. split; reflexivity.
    + intros x X. simpl. apply C20_of_box_sound; auto. intros d D. lia.
  - constructor; [exact K|constructor; [exact K|constructor]].
Qed.
Example C51_of_box_ex : rp_dimension bp [bcore; bcore] (fst (fst (rp_of_box bp no_reduce true [bcore; bcore] [box_fun; box_fun] 0 2 [(Fin 0, Fin 1); (MInf, Fin 3)]%Q))) = Some (0, 2).
Proof. vm_compute. reflexivity. Qed.
(** an empty interval: both components are empty *)
Example C51_of_box_empty : rp_p bp (fst (fst (rp_of_box bp no_reduce true [bcore; bcore] [box_fun; box_fun] 0 1 [(Fin 2, Fin 1)]%Q))) = [inl (box_bottom 0 1); inl (box_bottom 0 1)].
Proof. vm_compute. reflexivity. Qed.

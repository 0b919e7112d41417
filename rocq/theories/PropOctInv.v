(** Property C55: the facts assumed by the other octagon properties hold of every
    octagon obtained through the API. *)
From Coq Require Import Arith Lia List ZArith QArith Qreals Reals Lra Bool Sorting.Sorted.
From Verif Require Import Bound BoundFacts Util Itv Linexpr LinexprFacts OctMat OctIdx OctClose OctWalk OctInc OctStrong OctGeom OctGeom2 Oct OctFacts OctFacts2 OctFacts3 OctForget
  OctResize OctResize2 OctResize3 OctExpand OctFold PropOctLattice PropOctResize
  OctTransfer OctUexpr OctGuard OctGuard2 OctGuard3 OctGuard4 OctGuard5 OctQuery OctAssign OctAssign2 OctAssign3 OctAssign4 OctAssign5 OctAssign6 OctSubst OctSubst2.
Import ListNotations.
Open Scope nat_scope.

Lemma top_sclosed : forall n, sclosed n (hmat_top n).
Proof.
  intros n. constructor.
  - apply top_wfm.
  - intros x Hx. rewrite top_cells by (auto; apply or1_ge). rewrite Nat.eqb_refl. auto.
  - intros i k j r1 r2 Hi Hk Hj H1 H2. rewrite top_cells2 in * by auto.
    destruct (Nat.eqb_spec i k), (Nat.eqb_spec k j); simpl in *; try tauto. subst. rewrite Nat.eqb_refl. simpl. lra.
  - intros i j r1 r2 Hi Hj H1 H2. rewrite top_cells2 in * by auto using xor1_lt.
    destruct (Nat.eqb_spec i (xor1 i)) as [X|X]; [|simpl in H1; tauto]. exfalso. symmetry in X. apply xor1_neq in X. auto.
Qed.
Lemma top_exo : forall i r, exo (oct_top i r).
Proof. intros i r. apply exo_single_c; [apply top_sclosed|lia]. Qed.
Lemma bottom_exo : forall i r, exo (oct_bottom i r).
Proof. intros i r. apply exo_none. lia. Qed.
Lemma eps_bin_wf : forall (N : numtype) a b e, wfo a -> wfo b -> odim a = odim b -> le_rb 0 e -> wfo (oct_add_epsilon_bin (N:=N) a b e).
Proof.
  intros N a b e Wa Wb D He. unfold oct_add_epsilon_bin. pose proof (wfo_int _ Wa). destruct (orig a) as [m1|] eqn:Oa; auto. destruct (orig b) as [m2|] eqn:Ob; auto.
  destruct (orig_wf _ _ Wa Oa) as [W1 D1]. destruct (orig_wf _ _ Wb Ob) as [W2 D2]. rewrite <- D in *.
  pose proof (eps_ge0 (N:=N) (odim a) m2 e He) as EG. apply wfo_single_m; auto; unfold cellwise.
  - intros i j Hi Hj. destruct (_ <? _)%Z; auto. apply badd_not_MInf; auto. eapply le_rb_not_MInf; eauto.
  - intros x Hx. destruct (_ <? _)%Z; auto. apply bsgn_ge0_iff. eapply le_rb_mono; [|apply badd_up; auto]. apply bsgn_ge0_iff. apply D2; auto.
Qed.
Lemma eps_bin_exo : forall (N : numtype) a b e, exo a -> exo b -> odim a = odim b -> le_rb 0 e -> exo (oct_add_epsilon_bin (N:=N) a b e).
Proof.
  intros N a b e Xa Xb D He. pose proof (eps_bin_wf N a b e (exo_wf _ Xa) (exo_wf _ Xb) D He) as W. constructor; auto.
  unfold oct_add_epsilon_bin. destruct (orig a) as [m1|] eqn:Oa; [|apply Xb]. destruct (orig b) as [m2|] eqn:Ob; [|apply Xa]. discriminate.
Qed.
Lemma eps_wf : forall (N : numtype) a e, wfo a -> le_rb 0 e -> wfo (oct_add_epsilon (N:=N) a e).
Proof. intros. apply exo_wf, add_epsilon_exo; auto. Qed.

(** Octagons built by the operations of the domain, on the number type [N], from any
    arguments the API accepts; an operation also replaces its arguments by
    their cached version. *)
Section Built.
Context (N : numtype).
Inductive built : oct -> Prop :=
| b_bottom : forall i r, built (oct_bottom i r)
| b_top : forall i r, built (oct_top i r)
| b_of_box : forall i r t, wf_box (i + r) t -> built (oct_of_box (N:=N) i r t)
| b_cache : forall algo a, built a -> built (cached (N:=N) algo a)
| b_meet : forall a b, built a -> built b -> odim a = odim b -> built (oct_meet a b)
| b_join : forall algo a b, built a -> built b -> odim a = odim b -> built (oct_join (N:=N) algo a b)
| b_meet_array : forall a l, built_all (a :: l) -> (forall x, In x l -> odim x = odim a) -> built (oct_meet_array a l)
| b_join_array : forall algo a l, built_all (a :: l) -> (forall x, In x l -> odim x = odim a) -> built (oct_join_array (N:=N) algo a l)
| b_widening : forall algo a b, built a -> built b -> odim a = odim b -> built (oct_widening (N:=N) algo a b)
| b_widening_thr : forall algo a b ts, built a -> built b -> odim a = odim b -> built (oct_widening_thresholds (N:=N) algo a b ts)
| b_narrowing : forall algo a b, built a -> built b -> odim a = odim b -> built (oct_narrowing (N:=N) algo a b)
| b_epsilon : forall a e, built a -> le_rb 0 e -> built (oct_add_epsilon (N:=N) a e)
| b_epsilon_bin : forall a b e, built a -> built b -> odim a = odim b -> le_rb 0 e -> built (oct_add_epsilon_bin (N:=N) a b e)
| b_forget : forall algo a l p, built a -> (forall d, In d l -> d < odim a) -> built (oct_forget_array (N:=N) algo a l p)
| b_add_dims : forall a pos ni p, built a -> dimchange_add_ok (odim a) pos -> ni <= length pos -> built (oct_add_dimensions a pos ni p)
| b_remove_dims : forall algo a pos ni, built a -> dimchange_rem_ok (odim a) pos -> oint a - ni <= odim a - length pos -> built (oct_remove_dimensions (N:=N) algo a pos ni)
| b_permute : forall a l, built a -> is_perm (odim a) l -> built (oct_permute_dimensions a l)
| b_expand : forall a d n, built a -> d < odim a -> built (oct_expand a d n)
| b_fold : forall algo a t0 ts, built a -> fold_ok (odim a) t0 ts -> built (oct_fold (N:=N) algo a t0 ts)
| b_meet_lincons : forall algo tmp a cs, built a -> (forall c, In c cs -> wf_linexpr (odim a) (lc_expr c)) -> built (fst (oct_meet_lincons_array (N:=N) algo tmp a cs))
| b_assign : forall algo tmp a d e dest, built a -> built_opt dest -> (forall o, dest = Some o -> odim o = odim a) -> d < odim a -> wf_linexpr (odim a) e ->
    (N = exact_num \/ exists v, gamo a v) -> built (oct_assign_linexpr (N:=N) algo tmp a d e dest)
| b_substitute : forall algo tmp a d e dest, built a -> built_opt dest -> (forall o, dest = Some o -> odim o = odim a) -> d < odim a -> wf_linexpr (odim a) e ->
    built (oct_substitute_linexpr (N:=N) algo tmp a d e dest)
with built_all : list oct -> Prop :=
| ba_nil : built_all []
| ba_cons : forall a l, built a -> built_all l -> built_all (a :: l)
with built_opt : option oct -> Prop :=
| bo_none : built_opt None
| bo_some : forall a, built a -> built_opt (Some a).
End Built.
Scheme built_mut := Induction for built Sort Prop
with built_all_mut := Induction for built_all Sort Prop
with built_opt_mut := Induction for built_opt Sort Prop.

Lemma built_exo : forall a, built exact_num a -> exo a.
Proof.
  apply (built_mut exact_num (fun a _ => exo a) (fun l _ => forall x, In x l -> exo x) (fun o _ => forall x, o = Some x -> exo x)); intros.
  - apply bottom_exo.
  - apply top_exo.
  - apply of_box_exo; auto.
  - apply cached_exo; auto.
  - apply meet_wfo; auto; apply exo_wf; auto.
  - apply join_exo; auto.
  - apply meet_array_exo. intros x I. split; [apply exo_wf; auto|]. destruct I as [->|I]; auto.
  - apply join_array_exo. intros x I. split; auto. destruct I as [->|I]; auto.
  - apply widening_exo; auto.
  - apply widening_thr_exo; auto.
  - apply narrowing_exo; auto; apply exo_wf; auto.
  - apply add_epsilon_exo; auto; apply exo_wf; auto.
  - apply eps_bin_exo; auto.
  - apply forget_exo; auto.
  - apply add_dimensions_exo; auto.
  - apply remove_exo; auto.
  - apply permute_dimensions_exo; auto.
  - apply expand_exo; auto.
  - apply fold_exo; auto.
  - apply meet_lincons_exo; auto.
  - apply assign_exo; auto. destruct dest as [o'|]; simpl; auto. split; auto. apply exo_wf; auto.
  - apply subst_exo; auto. destruct dest as [o'|]; simpl; auto. split; auto. apply exo_wf; auto.
  - destruct H.
  - destruct H1 as [<-|H1]; auto.
  - discriminate.
  - injection H0 as <-. auto.
Qed.
Lemma built_wfo : forall (N : numtype) a, built N a -> wfo a.
Proof.
  intros N. apply (built_mut N (fun a _ => wfo a) (fun l _ => forall x, In x l -> wfo x) (fun o _ => forall x, o = Some x -> wfo x)); intros.
  - apply exo_wf, bottom_exo.
  - apply exo_wf, top_exo.
  - apply of_box_wfo; auto.
  - apply cached_wfo; auto.
  - apply exo_wf, meet_wfo; auto.
  - apply join_wfo; auto.
  - apply exo_wf, meet_array_exo. intros x I. split; auto. destruct I as [->|I]; auto.
  - apply join_array_wfo. intros x I. split; auto. destruct I as [->|I]; auto.
  - apply widening_wfo; auto.
  - apply widening_thr_wfo; auto.
  - apply exo_wf, narrowing_exo; auto.
  - apply eps_wf; auto.
  - apply eps_bin_wf; auto.
  - apply forget_wfo; auto.
  - apply add_dimensions_wfo; auto.
  - apply remove_wfo; auto.
  - apply permute_dimensions_wfo; auto.
  - apply expand_wfo; auto.
  - apply fold_wfo; auto.
  - apply meet_lincons_wfo; auto.
  - assert (DO : dest_ok a dest) by (destruct dest as [o'|]; simpl; auto).
    destruct o as [EN|P].
    + subst N. apply exo_wf, assign_exo; auto. apply built_exo; auto.
    + apply assign_wfo; auto.
  - apply subst_wfo; auto. destruct dest as [o|]; simpl; auto.
  - destruct H.
  - destruct H1 as [<-|H1]; auto.
  - discriminate.
  - injection H0 as <-. auto.
Qed.

(** ** C55 *)
(** With exact numbers: the emptiness, inclusion and equality tests of any octagons
    built through the API decide the satisfiability, entailment and equivalence of the
    constraints the octagons export. *)
Theorem C55_built_exact : forall (algo : Z) (a b : oct), (0 <= algo)%Z -> built exact_num a -> built exact_num b -> odim a = odim b ->
  let pts o v := forall c, In c (oct_to_lincons_array (U:=exact_num) o) -> sat_cons c v in
  exo a /\
  (oct_is_bottom (N:=exact_num) algo a = true <-> forall v, ~ pts a v) /\
  (oct_is_top a = true <-> forall v, pts a v) /\
  (oct_is_leq (N:=exact_num) algo a b = true <-> forall v, pts a v -> pts b v) /\
  (oct_is_eq (N:=exact_num) algo a b = true <-> forall v, pts a v <-> pts b v).
Proof.
  intros algo a b Hz Ba Bb D pts. pose proof (built_exo a Ba) as Xa. pose proof (built_exo b Bb) as Xb.
  destruct (C26_predicates_exact algo a b Hz Xa Xb D) as (P1 & P2 & P3 & P4).
  assert (EA : forall v, gamo a v <-> pts a v) by (intros v; apply to_lincons_exact; apply Xa).
  assert (EB : forall v, gamo b v <-> pts b v) by (intros v; apply to_lincons_exact; apply Xb).
  split; auto. split; [|split; [|split]].
  - rewrite P1. split; intros H v; specialize (H v); rewrite EA in *; auto.
  - rewrite P2. split; intros H v; specialize (H v); rewrite EA in *; auto.
  - rewrite P3. split; intros H v; specialize (H v); rewrite EA, EB in *; auto.
  - rewrite P4. split; intros H v; specialize (H v); rewrite EA, EB in *; auto.
Qed.
Print Assumptions C55_built_exact.
(** Any number type: the matrices stay well formed, and the cached form has the same points
    as the original one; hence the answer "empty" or "included" is always right. *)
Theorem C55_built_sound : forall (N : numtype) (algo : Z) (a b : oct), built N a -> built N b -> odim a = odim b ->
  wfo a /\
  (forall v, gamo (cached (N:=N) algo a) v <-> gamo a v) /\
  (oct_is_bottom (N:=N) algo a = true -> forall v, ~ gamo a v) /\
  (oct_is_leq (N:=N) algo a b = true -> forall v, gamo a v -> gamo b v).
Proof.
  intros N algo a b Ba Bb D. pose proof (built_wfo N a Ba) as Wa. pose proof (built_wfo N b Bb) as Wb.
  destruct (C26_predicates_sound N algo a b Wa Wb D) as (P1 & P2 & P3 & P4). split; auto. split; auto. intros v. apply cached_gamo; auto.
Qed.
Print Assumptions C55_built_sound.
(** a box, extended with a dimension, constrained and folded *)
Example C55_example : forall N, built N
  (oct_fold (N:=N) 0 (fst (oct_meet_lincons_array (N:=N) 0 (fun _ => PInf)
     (oct_add_dimensions (oct_of_box (N:=N) 0 2 (Some [(Fin (1 # 2), Fin 1); (Fin 0, PInf)])) [1] 0 false)
     [mkCons CSupEq (mkLin (Scal (Fin 1)) (Sparse [(Some 0, Scal (Fin 1)); (Some 2, Scal (Fin (-1)))])) None])) 0 [2]).
Proof.
  intros N. assert (B1 : built N (oct_of_box (N:=N) 0 2 (Some [(Fin (1 # 2), Fin 1); (Fin 0, PInf)]))).
  { apply b_of_box. split; auto. intros b [<-|[<-|[]]]; split; discriminate. }
  assert (D1 : odim (oct_of_box (N:=N) 0 2 (Some [(Fin (1 # 2), Fin 1); (Fin 0, PInf)])) = 2).
  { unfold oct_of_box. cbv zeta. destruct (existsb _ _); auto. destruct (hmat_s_step _ _) as [m e]. destruct e; auto. }
  set (o1 := oct_of_box (N:=N) 0 2 _) in *.
  assert (B2 : built N (oct_add_dimensions o1 [1] 0 false)).
  { apply b_add_dims; [auto| |simpl; lia]. rewrite D1. split; [discriminate|]. split; [repeat constructor|]. intros p [<-|[]]; lia. }
  assert (D2 : odim (oct_add_dimensions o1 [1] 0 false) = 3) by (rewrite (proj1 (add_dimensions_dim _ _ _ _)), D1; auto).
  set (o2 := oct_add_dimensions o1 [1] 0 false) in *.
  apply b_fold.
  - apply b_meet_lincons; auto. rewrite D2. intros c [<-|[]]. split; [exact I|]. simpl. split; [repeat constructor; simpl; auto|].
    split; [repeat constructor; simpl; intuition discriminate|]. intros d [<-|[<-|[]]]; lia.
  - rewrite (proj1 (meet_lincons_dim _ _ _ _)), D2. split; [discriminate|]. split; [repeat constructor|]. intros t [<-|[<-|[]]]; lia.
Qed.

(** Property C93 for polyhedra: polyhedra with the same points have the same hash code. *)
From Coq Require Import ZArith QArith Bool List Lia Reals Lra.
Import ListNotations.
From Verif Require Import Bound Itv PkCone PkVec PkCherni PkSpec PkMinimize PkPoly PkPolyFacts PkPolyLeq PkPolyMeet PkPolyTop PkUser PkUserGen PkCanon PkCanonFacts PkCanonConv PkCanonNrm PkCanonHon PkCanonEq PkCanonClos Linexpr
  PropPkPoly PropPkCanon PropPkBuilt Hash PkHash.

(** any two polyhedra that a program can build and that have the same points have the same code, whatever their
    representations; computing it leaves the points of the argument *)
Theorem C93_polyhedra_points : forall hz pa pb, built pa -> built pb -> same_dims pa pb -> (forall x, points pa x <-> points pb x) ->
  fst (pk_hash hz pa) = fst (pk_hash hz pb) /\ unchanged pa (snd (pk_hash hz pa)).
Proof.
  intros hz pa pb Ba Bb D H. destruct (C78_built pa Ba) as (Wa & Ha). destruct (C78_built pb Bb) as (Wb & Hb).
  destruct (C78_canonical_form pa pb Wa Wb Ha Hb D H) as (U & _ & EC & EF).
  assert (D' : same_dims pb pa) by (destruct D; split; auto).
  destruct (C78_canonical_form pb pa Wb Wa Hb Ha D' (fun x => iff_sym (H x))) as (U' & _). split; [|exact U].
  assert (DD : pint (poly_chernikova3 pa) = pint (poly_chernikova3 pb) /\ preal (poly_chernikova3 pa) = preal (poly_chernikova3 pb)).
  { destruct D as [D1 D2]. destruct U as (_ & [A1 A2] & _). destruct U' as (_ & [B1 B2] & _). split; congruence. }
  destruct DD as [D1 D2]. unfold pk_hash, pcols, pdim. cbv zeta. simpl fst. rewrite EC, EF, D1, D2. reflexivity.
Qed.
(** the same for the equality test of the library *)
Theorem C93_polyhedra_equal : forall hz alg algleq pa pb pa' pb', built pa -> built pb -> same_dims pa pb -> pk_is_eq alg algleq pa pb = (true, pa', pb') ->
  fst (pk_hash hz pa) = fst (pk_hash hz pb).
Proof.
  intros hz alg algleq pa pb pa' pb' Ba Bb D E. apply C93_polyhedra_points; auto. apply (C78_is_eq_built alg algleq pa pb true pa' pb'); auto.
Qed.
(** the loops end: more fuel than the number of cells changes nothing *)
Lemma stride_fuel : forall size step f, (0 < step)%nat -> forall n m i r, (size < n + i)%nat -> (size < m + i)%nat -> stride n i size step f r = stride m i size step f r.
Proof.
  intros size step f P. induction n as [|n IH]; intros [|m] i r Hn Hm; simpl; auto.
  - destruct (Nat.ltb i size) eqn:L; auto. apply Nat.ltb_lt in L. lia.
  - destruct (Nat.ltb i size) eqn:L; auto. apply Nat.ltb_lt in L. lia.
  - destruct (Nat.ltb i size) eqn:L; auto. apply IH; lia.
Qed.
Lemma stride_empty : forall n m i size step f r, (size <= i)%nat -> stride n i size step f r = stride m i size step f r.
Proof.
  intros n m i size step f r H. assert (L : Nat.ltb i size = false) by (apply Nat.ltb_ge; auto).
  destruct n, m; simpl; rewrite ?L; auto.
Qed.
Theorem C93_polyhedra_terminates : forall hz cols q M r fuel,
  ((cols < fuel)%nat -> stride fuel 2 cols ((cols - 2 + 2) / 3) (fun i r => w64 (r * 3 + hz (nth i q 0%Z))) (hz (nth 1 q 0%Z)) = vector_hash hz cols q) /\
  ((length M < fuel)%nat -> stride fuel 0 (length M) ((length M + 3) / 4) (fun i r => w32 (r * 3 + vector_hash hz cols (nth i M []))) r = rows_hash hz cols M r).
Proof.
  intros hz cols q M r fuel. split; intro L.
  - unfold vector_hash. destruct (Nat.le_gt_cases cols 2) as [C|C]; [apply stride_empty; auto|].
    apply stride_fuel; try lia. apply Nat.div_str_pos. lia.
  - unfold rows_hash. destruct (length M) as [|k] eqn:EM; [apply stride_empty; auto|].
    apply stride_fuel; try lia. apply Nat.div_str_pos. lia.
Qed.

(** * Cases that meet the hypotheses *)
Example C93_example_polyhedra : match bex with Some p =>
    fst (pk_hash (fun z => z) p) = fst (pk_hash (fun z => z) (poly_chernikova3 p)) /\
    fst (pk_hash (fun z => z) p) <> fst (pk_hash (fun z => z) bsq) | None => False end.
Proof. vm_compute. split; [reflexivity|discriminate]. Qed.

Print Assumptions C93_polyhedra_points. Print Assumptions C93_polyhedra_equal. Print Assumptions C93_polyhedra_terminates.

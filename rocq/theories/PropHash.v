(** Property C93: hash codes of octagons and boxes. *)
From Coq Require Import Arith Lia List ZArith QArith Qround Reals Lra Bool.
From Verif Require Import Bound BoundFacts Util Itv OctMat OctWalk OctStrong OctGeom Oct OctFacts Box BoxFacts PropBox PropOctLattice Hash.
Import ListNotations.
Open Scope nat_scope.
Local Notation E := exact_num.

(** equal numbers are converted to the same integer *)
Definition respects (hn : Q -> Z) : Prop := forall p q, (p == q)%Q -> hn p = hn q.

Lemma bhash_eq : forall hn a b, respects hn -> bequal a b = true -> bound_hash hn a = bound_hash hn b.
Proof.
  intros hn a b H. destruct a, b; simpl; try discriminate; auto. intro Q. apply Qeq_bool_iff in Q. rewrite (H _ _ Q). auto.
Qed.
Lemma ihash_eq : forall hn a b, respects hn -> itv_is_eq a b = true -> itv_hash hn a = itv_hash hn b.
Proof.
  intros hn a b H Q. unfold itv_is_eq in Q. apply andb_true_iff in Q. destruct Q as [A B]. unfold itv_hash.
  rewrite (bhash_eq hn _ _ H A), (bhash_eq hn _ _ H B). auto.
Qed.
(** the code of a matrix depends on the number of variables and on the code of the first cell only *)
Definition code_of (n : nat) (h : Z) : Z := for_ 0 (2 * n) (fun i r => for_ 0 (or1 i + 1) (fun _ r => w32 (r * 37 + h)) r) 0%Z.
Lemma oct_hash_code : forall hn N z a, oct_hash hn (N:=N) z a =
  match best (cached (N:=N) z a) with Some m => code_of (odim a) (bound_hash hn (m 0)) | None => 0%Z end.
Proof.
  intros. unfold oct_hash, code_of. rewrite (proj1 (cached_dim (N:=N) z a)). destruct (best (cached (N:=N) z a)); auto.
Qed.
Lemma code_0 : forall h, code_of 0 h = 0%Z.
Proof. reflexivity. Qed.

(** octagons found equal (any number type, any option) have the same code *)
Theorem C93_oct_equal : forall hn N algo a b, respects hn -> odim a = odim b -> oct_is_eq (N:=N) algo a b = true ->
  oct_hash hn (N:=N) algo a = oct_hash hn (N:=N) algo b.
Proof.
  intros hn N z a b R D H. rewrite !oct_hash_code. unfold oct_is_eq in H. rewrite (proj1 (cached_dim (N:=N) z a)) in H.
  destruct (best (cached (N:=N) z a)) as [x|], (best (cached (N:=N) z b)) as [y|]; try discriminate; auto.
  rewrite <- D. destruct (odim a) as [|n] eqn:En; [reflexivity|]. f_equal. apply bhash_eq; auto.
  rewrite forall_cells_spec in H. specialize (H 0 0 ltac:(lia) ltac:(unfold or1; simpl; lia)). apply Z.eqb_eq in H.
  apply bcmp_eq in H. exact H.
Qed.
(** exact numbers: octagons with the same points have the same code, whatever matrices represent them *)
Theorem C93_oct_points : forall hn algo a b, respects hn -> (0 <= algo)%Z -> exo a -> exo b -> odim a = odim b ->
  (forall v, gamo a v <-> gamo b v) -> oct_hash hn (N:=E) algo a = oct_hash hn (N:=E) algo b.
Proof.
  intros hn z a b R Z Xa Xb D H. apply C93_oct_equal; auto. apply is_eq_exact; auto.
Qed.
(** but that is all the code tells: any two octagons that are not empty have the same one *)
Theorem C93_oct_dimension_only : forall hn algo a b v w, respects hn -> (0 <= algo)%Z -> exo a -> exo b -> odim a = odim b ->
  gamo a v -> gamo b w -> oct_hash hn (N:=E) algo a = oct_hash hn (N:=E) algo b.
Proof.
  intros hn z a b v w R Z Xa Xb D Ga Gb. rewrite !oct_hash_code.
  assert (K : forall c u, exo c -> gamo c u -> exists m, best (cached (N:=E) z c) = Some m /\ (0 < odim c -> m 0 = Fin 0)).
  { intros c u X G. assert (X' := cached_exo z c X). assert (B := cached_closed (N:=E) z c Z).
    assert (G' : gamo (cached (N:=E) z c) u) by (apply cached_gamo; auto; apply X).
    apply gamo_best in G'; [|apply X']. destruct (best (cached (N:=E) z c)) as [m|] eqn:Em; [|contradiction].
    exists m. split; auto. intro P. assert (S' := exo_c _ X' m (eq_sym B)). rewrite (proj1 (cached_dim (N:=E) z c)) in S'.
    exact (sc_diag _ _ S' 0 ltac:(lia)). }
  destruct (K a v Xa Ga) as (x & -> & Hx). destruct (K b w Xb Gb) as (y & -> & Hy). rewrite <- D in *.
  destruct (odim a) as [|n]; [reflexivity|]. rewrite Hx, Hy by lia. reflexivity.
Qed.

Lemma box_loop_eq : forall hn p q size step fuel i r, respects hn -> (forall d, d < size -> itv_is_eq (p d) (q d) = true) ->
  box_hash_loop hn fuel i size step p r = box_hash_loop hn fuel i size step q r.
Proof.
  intros hn p q size step fuel. induction fuel as [|fuel IH]; intros i r R H; simpl; auto.
  destruct (i <? size) eqn:L; auto. apply Nat.ltb_lt in L. rewrite (ihash_eq hn (p i) (q i)); auto.
Qed.
(** boxes found equal have the same code *)
Theorem C93_box_equal : forall hn a b, respects hn -> bx_dim a = bx_dim b -> box_is_eq a b = true -> box_hash hn a = box_hash hn b.
Proof.
  intros hn a b R D H. unfold box_hash, box_is_eq in *. rewrite <- D. destruct (bx_p a) as [p|], (bx_p b) as [q|]; try discriminate; auto.
  apply box_loop_eq; auto. apply all_dims_iff. exact H.
Qed.
(** boxes with the same points have the same code *)
Theorem C93_box_points : forall hn N a b, respects hn -> box_built N a -> box_built N b -> bx_dim a = bx_dim b ->
  (forall v, gbox a v <-> gbox b v) -> box_hash hn a = box_hash hn b.
Proof. intros hn N a b R Ba Bb D H. apply C93_box_equal; auto. apply (C15_is_eq_iff N); auto. Qed.
(** the loop ends: no more fuel than the number of dimensions is needed *)
Lemma box_loop_fuel : forall hn p size step, 0 < step -> forall f g i r, size < f + i -> size < g + i ->
  box_hash_loop hn f i size step p r = box_hash_loop hn g i size step p r.
Proof.
  intros hn p size step P. induction f as [|f IH]; intros [|g] i r Hf Hg; simpl; auto.
  - destruct (i <? size) eqn:L; auto. apply Nat.ltb_lt in L. lia.
  - destruct (i <? size) eqn:L; auto. apply Nat.ltb_lt in L. lia.
  - destruct (i <? size) eqn:L; auto. apply IH; lia.
Qed.
(** ... and reads at most five intervals *)
Lemma box_loop_five : forall hn p q size step, size <= 5 * step -> (forall k, k < 5 -> p (k * step) = q (k * step)) ->
  forall f k r, box_hash_loop hn f (k * step) size step p r = box_hash_loop hn f (k * step) size step q r.
Proof.
  intros hn p q size step L H. induction f as [|f IH]; intros k r; simpl; auto.
  destruct (k * step <? size) eqn:B; auto. apply Nat.ltb_lt in B. rewrite H by nia.
  replace (k * step + step) with (Datatypes.S k * step) by lia. apply IH.
Qed.
Theorem C93_box_terminates : forall hn a fuel p, bx_p a = Some p -> bx_dim a < fuel ->
  box_hash_loop hn fuel 0 (bx_dim a) ((bx_dim a + 4) / 5) p (w32 (Z.of_nat (bx_dim a) * 2999)) = box_hash hn a.
Proof.
  intros hn a fuel p Ep L. unfold box_hash. rewrite Ep. destruct (bx_dim a) as [|n] eqn:En.
  - destruct fuel as [|fuel]; [lia|]. reflexivity.
  - apply box_loop_fuel; try lia. apply Nat.div_str_pos. lia.
Qed.
Theorem C93_box_five_intervals : forall hn i r p q, let n := i + r in
  (forall k, k < 5 -> p (k * ((n + 4) / 5)) = q (k * ((n + 4) / 5))) ->
  box_hash hn (mkBox i r (Some p)) = box_hash hn (mkBox i r (Some q)).
Proof.
  intros hn i r p q n H. unfold box_hash. simpl bx_p. cbv iota beta. unfold bx_dim; simpl bx_int; simpl bx_real. fold n.
  apply (box_loop_five hn p q n ((n + 4) / 5)) with (k := 0); auto.
  pose proof (Nat.div_mod (n + 4) 5 ltac:(lia)). pose proof (Nat.mod_upper_bound (n + 4) 5 ltac:(lia)). lia.
Qed.

(** * Cases that meet the hypotheses *)
Lemma ceil_respects : respects Qceiling.
Proof. intros p q H. rewrite H. reflexivity. Qed.
Definition dbox (l : list (Q * Q)) : box := mkBox 0 (length l) (Some (fun i => let '(x, y) := nth i l (0, 0)%Q in mkItv (Fin (- x)) (Fin y))).
Example C93_example_box : box_is_eq (dbox [(1#2, 4#2); (0, 3)]%Q) (dbox [(2#4, 2); (0, 3)]%Q) = true /\
  box_hash Qceiling (dbox [(1#2, 4#2); (0, 3)]%Q) = box_hash Qceiling (dbox [(2#4, 2); (0, 3)]%Q) /\
  box_hash Qceiling (dbox [(1#2, 4#2); (0, 3)]%Q) <> box_hash Qceiling (dbox [(1, 4); (0, 3)]%Q) /\
  box_hash Qceiling (dbox [(1, 2)]%Q) <> box_hash Qceiling (box_bottom 0 1).
Proof. split; [reflexivity|]. split; [reflexivity|]. split; vm_compute; discriminate. Qed.
Lemma not_bottom : forall z a, (0 <= z)%Z -> exo a -> oct_is_bottom (N:=E) z a = false -> exists v, gamo a v.
Proof.
  intros z a Z X H. unfold oct_is_bottom in H. assert (X' := cached_exo z a X). assert (B := cached_closed (N:=E) z a Z).
  unfold best in B. destruct (ocl (cached (N:=E) z a)) as [c|] eqn:C; [|rewrite B in H; discriminate].
  destruct (sc_nonempty _ _ (exo_c _ X' c C)) as [v G]. exists v. apply (cached_gamo (N:=E) z); [apply X|].
  apply gamo_best; [apply X'|]. unfold best. rewrite C. exact G.
Qed.
Example C93_example_oct : oct_is_eq (N:=E) 0 (lbox 0 1 2 3) (lbox 2 5 0 7) = false /\
  oct_hash Qceiling (N:=E) 0 (lbox 0 1 2 3) = oct_hash Qceiling (N:=E) 0 (lbox 2 5 0 7) /\
  (exists v, gamo (lbox 0 1 2 3) v) /\ (exists v, gamo (lbox 2 5 0 7) v).
Proof.
  split; [vm_compute; reflexivity|]. split; [vm_compute; reflexivity|].
  split; apply (not_bottom 0); try apply lbox_exo; try lia; vm_compute; reflexivity.
Qed.
(** the same set of points, one matrix closed and one not: 0 <= x0 <= 1, 0 <= x1 <= 1, x1 - x0 <= -1/2 *)
Example C93_example_repr : oct_is_eq (N:=E) 0 exTri (oct_cache_closure (N:=E) exTri) = true /\
  oct_hash Qceiling (N:=E) 0 exTri = oct_hash Qceiling (N:=E) 0 (oct_cache_closure (N:=E) exTri) /\
  oct_is_eq (N:=E) 0 (lbox 1 0 0 1) (oct_bottom 0 2) = true /\ (oct_hash Qceiling (N:=E) 0 (lbox 1 0 0 1) = 0)%Z.
Proof. repeat split; vm_compute; reflexivity. Qed.
Example C93_example_five : let p := fun i => if Nat.eqb i 1 then mkItv (Fin 0) (Fin 1) else itv_top in
  box_hash Qceiling (mkBox 0 10 (Some p)) = box_hash Qceiling (box_top 0 10) /\
  box_hash Qceiling (mkBox 0 5 (Some p)) <> box_hash Qceiling (box_top 0 5).
Proof. split; vm_compute; [reflexivity|discriminate]. Qed.

Print Assumptions C93_oct_equal. Print Assumptions C93_oct_points. Print Assumptions C93_oct_dimension_only.
Print Assumptions C93_box_equal. Print Assumptions C93_box_points. Print Assumptions C93_box_terminates. Print Assumptions C93_box_five_intervals.

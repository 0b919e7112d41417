(** The rows computed by the conversion and by the simplification have coefficients without common factor. *)
From Coq Require Import ZArith Bool List Lia.
Import ListNotations.
From Verif Require Import PkCone PkVec PkCherni PkSimplify PkMinimize PkPoly PkCanon.
Open Scope Z_scope.

Definition nrm (q : pvec) : Prop := zgcd (tl q) <= 1.
Definition nrow (r : row) : Prop := nrm (fst r).
Definition nrows (l : list row) : Prop := Forall nrow l.

Lemma nrm_nil : nrm []. Proof. unfold nrm; simpl; lia. Qed.
Lemma nrow0 : nrow row0. Proof. apply nrm_nil. Qed.
Lemma nrm_setsign : forall s v, nrm v -> nrm (setsign s v). Proof. intros s v H. exact H. Qed.
Lemma nrm_div : forall (a b : list Z), (forall x, In x a -> In x b \/ In (- x) b) -> (forall x, In x b -> In x a \/ In (- x) a) -> zgcd a = zgcd b.
Proof.
  intros a b A B. apply Z.divide_antisym_nonneg; try apply zgcd_nonneg.
  - apply zgcd_divide. intros x X. destruct (B x X) as [I|I]. apply (proj1 (zgcd_divide a _) (Z.divide_refl _)); auto. apply Z.divide_opp_r. apply (proj1 (zgcd_divide a _) (Z.divide_refl _)); auto.
  - apply zgcd_divide. intros x X. destruct (A x X) as [I|I]. apply (proj1 (zgcd_divide b _) (Z.divide_refl _)); auto. apply Z.divide_opp_r. apply (proj1 (zgcd_divide b _) (Z.divide_refl _)); auto.
Qed.
Lemma neg_tl : forall f q, (f <= 1)%nat -> tl (vector_neg_from f q) = map Z.opp (tl q).
Proof.
  intros f [|s t] F. reflexivity. unfold vector_neg_from. cbn [length seq map tl]. rewrite <- seq_shift, map_map. apply nth_ext with 0 0. rewrite !map_length, seq_length. auto. intros j J. rewrite map_length, seq_length in J. rewrite (nth_indep _ 0 ((fun x => if Nat.leb f (S x) then - zn (S x) (s :: t) else zn (S x) (s :: t)) 0%nat)) by (rewrite map_length, seq_length; auto).
  rewrite (map_nth (fun x => if Nat.leb f (S x) then - zn (S x) (s :: t) else zn (S x) (s :: t))). rewrite seq_nth by auto. cbn [Nat.add]. destruct (Nat.leb_spec f (S j)); try lia. symmetry. apply (map_nth Z.opp t 0 j).
Qed.
Lemma nrm_neg : forall f q, (f <= 1)%nat -> nrm q -> nrm (vector_neg_from f q).
Proof.
  intros f q F H. unfold nrm in *. rewrite neg_tl by auto. rewrite (nrm_div (map Z.opp (tl q)) (tl q)); auto. intros x I. apply in_map_iff in I. destruct I as (y & <- & I). right. rewrite Z.opp_involutive. auto. intros x I. right. apply in_map; auto.
Qed.
Lemma nrm_normalize : forall q, nrm (vector_normalize q).
Proof.
  intros [|s t]. apply nrm_nil. unfold vector_normalize. rewrite vector_gcd_spec. destruct (Z.gtb_spec (zgcd t) 1) as [G|G]. 2: { exact G. }
  unfold nrm. cbn [tl]. set (g := zgcd t) in *. set (t' := map (fun x => x / g) t). assert (N := zgcd_nonneg t'). destruct (Z.le_gt_cases (zgcd t') 1) as [L|L]; auto. exfalso.
  assert (D : (zgcd t' * g | g)). { unfold g at 2. apply zgcd_divide. intros x X. assert (Dx : (g | x)) by (apply (proj1 (zgcd_divide t g) (Z.divide_refl _)); auto). destruct Dx as [y ->]. apply Z.mul_divide_mono_r. apply (proj1 (zgcd_divide t' _) (Z.divide_refl _)). unfold t'. apply in_map_iff. exists (y * g). split; auto. apply Z.div_mul. lia. }
  apply Z.divide_pos_le in D; nia.
Qed.
Lemma nrm_combine : forall a b s k, nrm (vector_combine a b s k). Proof. intros. apply nrm_normalize. Qed.

(** lists *)
Lemma F_nth : forall A (P : A -> Prop) l d i, Forall P l -> P d -> P (nth i l d).
Proof. intros A P l d i F D. revert i. induction F; intros [|i]; simpl; auto. Qed.
Lemma F_lset : forall A (P : A -> Prop) l i x, Forall P l -> P x -> Forall P (lset i x l).
Proof. intros A P l i x F X. revert i. induction F; intros [|i]; simpl; constructor; auto. Qed.
Lemma F_exch : forall A (P : A -> Prop) d i j l, Forall P l -> P d -> Forall P (exch d i j l).
Proof. intros. unfold exch. apply F_lset. apply F_lset; auto. apply F_nth; auto. apply F_nth; auto. Qed.
Lemma F_exch_vec : forall i j l, nrows l -> nrows (exch_vec i j l).
Proof. intros i j l F. unfold exch_vec. apply F_lset. apply F_lset; auto. unfold nrow, setvec. cbn [fst]. apply (F_nth _ nrow); auto. apply nrow0. unfold nrow, setvec. cbn [fst]. apply (F_nth _ nrow); auto. apply nrow0. Qed.
Lemma F_mapi : forall A (P : A -> Prop) (f : nat -> A -> A) l, Forall P l -> (forall i x, P x -> P (f i x)) -> Forall P (mapi f l).
Proof. intros A P f l F H. unfold mapi. apply Forall_forall. intros y I. apply in_map_iff in I. destruct I as ([i x] & <- & I). cbn [fst snd]. apply H. apply in_combine_r in I. rewrite Forall_forall in F. auto. Qed.
Lemma F_firstn : forall A (P : A -> Prop) l k, Forall P l -> Forall P (firstn k l).
Proof. intros A P l k F. rewrite Forall_forall in *. intros x I. apply F. rewrite <- (firstn_skipn k l). apply in_app_iff; auto. Qed.
Lemma combine_at_nrow : forall p j r, nrow r -> nrow (combine_at p j r).
Proof. intros p j r H. unfold combine_at. destruct (_ =? _); auto. unfold nrow. cbn [setvec fst]. apply nrm_combine. Qed.
Lemma combine_if_nrow : forall c p r, nrow r -> nrow (combine_if c p r).
Proof. intros c p r H. unfold combine_if. destruct (_ && _); auto. unfold nrow. cbn [setvec fst]. apply nrm_combine. Qed.

(** conversion *)
Lemma products_n : forall c rows, nrows rows -> nrows (products c rows).
Proof. intros c rows F. unfold products, nrows. rewrite Forall_map. eapply Forall_impl; [|exact F]. intros r H. exact H. Qed.
Lemma line_n : forall ineq k inz nb rows, nrows rows -> nrows (fst (line_case ineq k inz nb rows)).
Proof.
  intros ineq k inz nb rows F. unfold line_case. set (r0 := if Nat.eqb inz (nb - 1) then rows else exch_vec inz (nb - 1) rows). assert (F0 : nrows r0) by (unfold r0; destruct (Nat.eqb _ _); auto; apply F_exch_vec; auto). clearbody r0. cbv zeta. set (p := fst (nth (nb - 1) r0 row0)). assert (NP : nrm p) by (apply (F_nth _ nrow); auto; apply nrow0).
  set (r1 := mapi _ r0). assert (F1 : nrows r1) by (apply F_mapi; auto; intros; apply combine_if_nrow; auto). clearbody r1. set (p' := if zn 0 p <? 0 then vector_neg_from 0 p else p). assert (NP' : nrm p') by (unfold p'; destruct (_ <? _); auto; apply nrm_neg; auto). clearbody p'.
  set (r2 := lset _ _ r1). assert (F2 : nrows r2) by (apply F_lset; auto). clearbody r2. set (r3 := mapi _ r2). assert (F3 : nrows r3) by (apply F_mapi; auto; intros; apply combine_if_nrow; auto). clearbody r3. destruct ineq; cbn [fst]. apply F_lset; auto. unfold nrow. cbn [fst]. apply (F_nth _ nrow); auto. apply nrow0. apply F_firstn. apply F_exch; auto. apply nrow0.
Qed.
Lemma sort_n : forall fuel e s i rows, nrows rows -> nrows (snd (sort_rays fuel e s i rows)).
Proof.
  induction fuel as [|fuel IH]; intros e s i rows F; simpl; auto. destruct (Nat.ltb s i); auto. destruct (_ =? 0). apply IH. apply F_exch; auto. apply nrow0. destruct (_ <? 0). apply IH. apply F_exch; auto. apply nrow0. apply IH; auto.
Qed.
Lemma replace_n : forall fuel i j b rows, nrows rows -> nrows (snd (replace_rays fuel i j b rows)).
Proof. induction fuel as [|fuel IH]; intros i j b rows F; simpl; auto. destruct (_ && _); auto. apply IH. apply F_exch; auto. apply nrow0. Qed.
Lemma ray_n : forall ineq k nc nl e s rows, nrows rows -> nrows (ray_case ineq k nc nl e s rows).
Proof.
  intros ineq k nc nl e s rows F. unfold ray_case. destruct (Nat.eqb s nl). apply F_firstn; auto. cbv zeta. set (r1 := rows ++ _). assert (F1 : nrows r1). { apply Forall_app. split; auto. rewrite Forall_map. apply Forall_forall. intros ij _. unfold nrow, new_ray. cbn [fst]. apply nrm_combine. } clearbody r1.
  match goal with |- context[if ineq then ?a else r1] => set (r2 := if ineq then a else r1) end. assert (F2 : nrows r2). { unfold r2. destruct ineq; auto. apply F_mapi; auto. intros i x H. destruct (_ && _); auto. } clearbody r2. set (j := if ineq then s else e). assert (Q := replace_n (length r2) (length r2) j (length rows) r2 F2). destruct (replace_rays (length r2) (length r2) j (length rows) r2) as [[i' j'] r3]. apply F_firstn. exact Q.
Qed.
Lemma conv_n : forall fuel k con rows nl, Forall nrm con -> nrows rows -> Forall nrm (fst (fst (conv_loop fuel k con rows nl))) /\ nrows (snd (fst (conv_loop fuel k con rows nl))).
Proof.
  induction fuel as [|fuel IH]; intros k con rows nl FC F; cbn [conv_loop]. auto. set (c := nth k con []). assert (F1 := products_n c rows F). set (r1 := products c rows) in *. clearbody r1. destruct (Nat.ltb _ _).
  - assert (L := line_n (is_ineq c) k (first_nonzero r1) nl r1 F1). destruct (line_case _ _ _ _ _) as [r2 nl2]. apply IH; auto.
  - assert (Q := sort_n (length r1 - nl) nl nl (length r1) r1 F1). destruct (sort_rays _ _ _ _ _) as [[e s] r2]. cbn [snd] in Q. destruct (_ && _). apply IH; auto. apply F_firstn. apply F_exch; auto. apply nrm_nil. apply IH; auto. apply ray_n; auto.
Qed.
Lemma conversion_n : forall con start rows nl, Forall nrm con -> nrows rows -> Forall nrm (fst (fst (cherni_conversion con start rows nl))) /\ nrows (snd (fst (cherni_conversion con start rows nl))).
Proof.
  intros con start rows nl FC F. unfold cherni_conversion. destruct (conv_n (length con - start) start con rows nl FC F) as [A B]. destruct (conv_loop _ _ _ _ _) as [[c r] n]. cbn [fst snd] in *. split; auto. unfold set_status. apply F_mapi; auto.
Qed.
Lemma unit_n : forall nbcols i, nrm (unit_vec nbcols i).
Proof.
  intros nbcols i. unfold nrm, unit_vec. destruct nbcols as [|m]; simpl. lia. rewrite <- seq_shift, map_map. set (t := map _ _). destruct (Nat.lt_ge_cases i m) as [L|L].
  - assert (I : In 1 t). { unfold t. apply in_map_iff. exists i. rewrite Nat.eqb_refl. split; auto. apply in_seq. lia. } assert (D := proj1 (zgcd_divide t _) (Z.divide_refl _) 1 I). apply Z.divide_pos_le in D; lia.
  - assert (H : forall x, In x t -> x = 0). { intros x I. unfold t in I. apply in_map_iff in I. destruct I as (j & <- & I). apply in_seq in I. destruct (Nat.eqb_spec (S j) (S i)); auto. lia. }
    assert (D : (0 | zgcd t)) by (apply zgcd_divide; intros x I; rewrite (H x I); apply Z.divide_refl). apply Z.divide_0_l in D. lia.
Qed.
Lemma init_n : forall nbcols nb, nrows (init_rows nbcols nb).
Proof. intros. unfold init_rows, nrows. rewrite Forall_map. apply Forall_forall. intros i _. apply unit_n. Qed.

(** Gauss pivot and simplification *)
Lemma gauss_n : forall j nbeq rank intp rows, nrows rows -> nrows (snd (gauss j nbeq rank intp rows)).
Proof.
  induction j as [|j IH]; intros nbeq rank intp rows F; cbn [gauss]; auto. set (i := find_nz _ _ _ _). destruct (Nat.ltb i nbeq); [|apply IH; auto]. apply IH. match goal with |- context[if Nat.ltb rank i then ?a else rows] => set (r0 := if Nat.ltb rank i then a else rows) end. assert (F0 : nrows r0) by (unfold r0; destruct (Nat.ltb _ _); auto; apply F_exch_vec; auto). clearbody r0.
  assert (NP : nrm (fst (nth rank r0 row0))) by (apply (F_nth _ nrow); auto; apply nrow0). apply F_mapi. apply F_lset; auto. unfold nrow. cbn [setvec fst]. apply nrm_setsign. destruct (_ <? _); auto. apply nrm_neg; auto. intros k x H. destruct (_ && _); auto. apply combine_at_nrow; auto.
Qed.
Lemma backsub_n : forall rank intp rows, nrows rows -> nrows (backsubstitute rank intp rows).
Proof. induction rank as [|k IH]; intros intp rows F; cbn [backsubstitute]; auto. apply IH. apply F_mapi; auto. intros i x H. destruct (Nat.eqb _ _); auto. apply combine_at_nrow; auto. Qed.
Lemma simp_eq_n : forall fuel i nbeq rows, nrows rows -> nrows (snd (simp_eq fuel i nbeq rows)).
Proof.
  induction fuel as [|fuel IH]; intros i nbeq rows F; cbn [simp_eq]; auto. assert (NR : nrow (nth i rows row0)) by (apply F_nth; auto; apply nrow0). destruct (_ || _); apply IH. apply F_exch. apply F_lset; auto. apply nrow0. apply F_lset; auto.
Qed.
Lemma move_n : forall fuel i j nbeq rows, nrows rows -> nrows (move_eqs fuel i j nbeq rows).
Proof. induction fuel as [|fuel IH]; intros i j nbeq rows F; cbn [move_eqs]; auto. destruct (_ && _); auto. apply IH. apply F_exch; auto. apply nrow0. Qed.
Lemma few_n : forall fuel i nmin nb rows, nrows rows -> nrows (snd (remove_few fuel i nmin nb rows)).
Proof. induction fuel as [|fuel IH]; intros i nmin nb rows F; cbn [remove_few]; auto. destruct (Nat.ltb _ _); auto. destruct (_ <? _); apply IH; auto. apply F_exch; auto. apply nrow0. Qed.
Lemma inner_n : forall fuel nb i j n rows, nrows rows -> nrows (snd (red_inner fuel nb i j n rows)).
Proof.
  induction fuel as [|fuel IH]; intros nb i j n rows F; cbn [red_inner]; auto. destruct (Nat.ltb _ _); auto. destruct (_ <? _). destruct (bit_sub _ _); auto. destruct (_ && _); auto. destruct (bit_eq _ _); auto. apply IH. apply F_exch; auto. apply nrow0.
Qed.
Lemma outer_n : forall fuel i nbeq n rows, nrows rows -> nrows (snd (red_outer fuel i nbeq n rows)).
Proof.
  induction fuel as [|fuel IH]; intros i nbeq n rows F; cbn [red_outer]; auto. destruct (Nat.ltb _ _); auto. assert (Q := inner_n n (zn 0 (fst (nth i rows row0))) i nbeq n rows F). destruct (red_inner _ _ _ _ _ _) as [[b n2] r2]. cbn [snd] in Q. destruct b; apply IH; auto. apply F_exch; auto. apply nrow0.
Qed.
Lemma simplify_n : forall nbcols rows, nrows rows -> nrows (fst (cherni_simplify nbcols rows)).
Proof.
  intros nbcols rows F. unfold cherni_simplify. assert (Q1 := simp_eq_n (length rows - first_ineq rows) (first_ineq rows) (first_ineq rows) rows F). destruct (simp_eq _ _ _ _) as [nbeq r1]. cbn [snd] in Q1. assert (Q2 := gauss_n (nbcols - 1) nbeq 0 [] r1 Q1). destruct (gauss _ _ _ _ _) as [[rank intp] r2]. cbn [snd] in Q2.
  match goal with |- context[if Nat.ltb rank nbeq then ?a else r2] => set (r3 := if Nat.ltb rank nbeq then a else r2) end. assert (F3 : nrows r3) by (unfold r3; destruct (Nat.ltb _ _); auto; apply move_n; auto). clearbody r3. cbv zeta. set (nb := (length rows - (nbeq - rank))%nat). set (mn := Z.of_nat nbcols - Z.of_nat rank - 2). assert (Q4 := few_n nb rank mn nb r3 F3). destruct (remove_few _ _ _ _ _) as [nb4 r4]. cbn [snd] in Q4. assert (Q5 := outer_n nb4 rank rank nb4 r4 Q4). destruct (red_outer _ _ _ _ _) as [nb5 r5]. cbn [snd fst] in *. apply backsub_n. apply F_mapi. apply F_firstn; auto. intros i x H. destruct (Nat.leb _ _); auto.
Qed.
Definition nrm_res (r : option (list pvec * list pvec * list (list bool) * nat * nat)) : Prop := match r with None => True | Some (C, F, _, _, _) => Forall nrm C /\ Forall nrm F end.
Lemma nrows_fst : forall l, nrows l -> Forall nrm (map fst l). Proof. intros l H. apply Forall_map. exact H. Qed.
Lemma mini_end_n : forall ctr nc r, Forall nrm (fst (fst r)) -> nrows (snd (fst r)) -> nrm_res (mini_end ctr nc r).
Proof.
  intros ctr nc [[C F] nl] HC HF. cbn [fst snd] in *. unfold mini_end. destruct (_ && _); simpl; auto. assert (Q : nrows (fst (cherni_simplify nc (combine C (transpose (length C) (map snd F)))))). { apply simplify_n. apply Forall_forall. intros [q b] I. apply in_combine_l in I. rewrite Forall_forall in HC. apply HC; auto. } destruct (cherni_simplify _ _) as [rows nbeq]. cbn [nrm_res fst] in *. split; apply nrows_fst; auto.
Qed.
Theorem minimize_n : forall ctr nc C, Forall nrm C -> nrm_res (cherni_minimize ctr nc C).
Proof. intros ctr nc C H. unfold cherni_minimize. destruct (conversion_n C 0 (init_rows nc (length C)) (nc - 1) H (init_n _ _)) as [A B]. apply mini_end_n; auto. Qed.
Theorem add_minimize_n : forall ctr nc C F satC nl start, Forall nrm C -> Forall nrm F -> nrm_res (cherni_add_and_minimize ctr nc C F satC nl start).
Proof.
  intros ctr nc C F satC nl start H HF. unfold cherni_add_and_minimize. assert (R : nrows (combine F (map (resize_bits (length C)) satC))). { apply Forall_forall. intros [q b] I. apply in_combine_l in I. rewrite Forall_forall in HF. apply HF; auto. }
  destruct (conversion_n C start _ nl H R) as [A B]. apply mini_end_n; auto.
Qed.
Theorem matrix_gauss_n : forall cols nb M, Forall nrm M -> Forall nrm (matrix_gauss cols nb M).
Proof.
  intros cols nb M H. unfold matrix_gauss. assert (R : nrows (map (fun q => (q, [])) M)) by (apply Forall_map; exact H). assert (Q := gauss_n (cols - 1) nb 0 [] _ R). destruct (gauss _ _ _ _ _) as [[rank intp] rows]. cbn [snd] in Q. apply nrows_fst. apply backsub_n; auto.
Qed.

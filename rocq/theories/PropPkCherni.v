(** Properties of the conversion from constraints to generators of the polyhedra library (C63, C64, C65). *)
From Coq Require Import ZArith Bool List Lia Reals Lra Permutation.
Import ListNotations.
From Verif Require Import PkCone PkVec PkCherni PkCherniFacts PkCherniRay PkSpec.
Open Scope R_scope.

Lemma nth_init : forall con n, Forall (fun c : pvec => length c = S n) con -> forall m, (length con <= m)%nat -> inv n m 0 con (init_rows (S n) m) [] /\ length (init_rows (S n) m) = n.
Proof. intros con n F m L. split. apply init_inv; auto. unfold init_rows. rewrite map_length, seq_length. lia. Qed.
Lemma conversion_init : forall n m con con' rows nb, Forall (fun c : pvec => length c = S n) con -> (length con <= m)%nat -> cherni_conversion con 0 (init_rows (S n) m) n = (con', rows, nb) ->
  exists Lr Rr, rows = Lr ++ Rr /\ length Lr = nb /\ inv n m (length con') con' Lr Rr /\ (exists rm, Permutation con (con' ++ rm) /\ Forall (fun c => is_ineq c = true) rm) /\ (forall x, inC n (map kc con) x <-> inC n (map kc con') x) /\
    Forall (fun r => zn 0 (fst r) = 0%Z) Lr /\ Forall (fun r => zn 0 (fst r) = 1%Z) Rr.
Proof.
  intros n m con con' rows nb F L E. destruct (nth_init con n F m L) as [I LI]. rewrite <- LI in E at 2. rewrite <- (app_nil_r (init_rows (S n) m)) in E at 1. destruct (conversion_spec n m 0 con _ [] con' rows nb I E) as (Lr & Rr & A1 & A2 & A3 & A4 & A5 & _ & A6). exists Lr, Rr. tauto.
Qed.

(** C63: the generators generate exactly the points of the constraints, whatever the number of constraints and
    dimensions and the coefficients; the constraints which the conversion drops change nothing. *)
Theorem C63_conversion_exact : forall n m con con' rows nb,
  Forall (fun c => length c = S n) con -> (length con <= m)%nat ->
  cherni_conversion con 0 (init_rows (S n) m) n = (con', rows, nb) ->
  forall x, (cone con x <-> generated n (map fst rows) x) /\ (cone con x <-> cone con' x).
Proof.
  intros n m con con' rows nb F L E x. destruct (conversion_init n m con con' rows nb F L E) as (Lr & Rr & -> & LN & I & (rm & PR & _) & IC & S0 & S1).
  destruct I as (A1 & A2 & A3 & A4 & A5 & A6). rewrite firstn_all in A5. rewrite (cone_inC n con x F), (cone_inC n con' x A1), generated_gen by auto. rewrite IC. rewrite (dd_gen _ _ _ _ _ A5). tauto.
Qed.
Print Assumptions C63_conversion_exact.
(** Incremental version: starting from generators of the first constraints, with their saturation bits. *)
Theorem C63_conversion_incremental_exact : forall n m start con con' Lr Rr rows nb,
  inv n m start con Lr Rr -> cherni_conversion con start (Lr ++ Rr) (length Lr) = (con', rows, nb) ->
  (forall x, (cone con x <-> generated n (map fst rows) x) /\ (cone con x <-> cone con' x)) /\
  (forall r j, In r rows -> (j < length con')%nat -> (nth j (snd r) false = true <-> lform (tl (nth j con' [])) 0 (rv (tl (fst r))) <> 0)).
Proof.
  intros n m start con con' Lr Rr rows nb I E. assert (F : Forall (fun c : pvec => length c = S n) con) by apply I. destruct (conversion_spec n m start con Lr Rr con' rows nb I E) as (L2 & R2 & -> & LN & I2 & (rm & PR & _) & IC & _ & S0 & S1 & _).
  destruct I2 as (A1 & A2 & A3 & A4 & A5 & A6). rewrite firstn_all in A5. split.
  - intros x. rewrite (cone_inC n con x F), (cone_inC n con' x A1), generated_gen by auto. rewrite IC. rewrite (dd_gen _ _ _ _ _ A5). tauto.
  - intros r j Hr Hj. rewrite Forall_forall in A6, A1, A2. destruct (A6 r Hr) as [_ B]. rewrite B. replace (Nat.ltb j (length con')) with true by (symmetry; apply Nat.ltb_lt; auto). set (c := nth j con' []) in *. assert (LC : length c = S n) by (apply A1, nth_In; auto).
    rewrite lform_dt. simpl plus. assert (LT : length (tl c) = n) by (apply len_tl; auto). rewrite LT. assert (LR : length (tl (fst r)) = n) by (apply len_tl, A2; auto). change (dt n (rv (tl c)) (fun j0 => rv (tl (fst r)) j0)) with (dt n (rv (tl c)) (rv (tl (fst r)))). rewrite <- LT. rewrite <- prod_dt by congruence.
    change (tl (fst r)) with (tr r). destruct (Z.eqb_spec (prod_t (tl c) (tr r)) 0) as [Z|Z].
    + rewrite Z. split. intros H. exfalso. simpl in H. discriminate. intros H. lra.
    + split; [|intros _; reflexivity]. intros _ H. apply Z. apply eq_IZR. exact H.
Qed.
Print Assumptions C63_conversion_incremental_exact.

Lemma dd_ray_needed : forall n cs (L R1 R2 : list (list Z)) r, ddn n cs L (R1 ++ r :: R2) -> ~ gen n rv L (R1 ++ R2) (rv r).
Proof.
  intros n cs L R1 R2 r D G. destruct (gen_used n rv _ _ _ G) as (R' & IN & G' & U). destruct R' as [|r' R'].
  - destruct (dd_ray _ _ _ _ _ D r) as (c & I & NS). apply in_elt. apply NS. unfold sat. assert (H : holds n (fst c, true) (rv r)). { apply (gen_holds n rv (fst c, true) L []); auto. intros l Hl. apply (dd_line n rv cs L _ l c D Hl I). intros x []. } exact H.
  - assert (IR : In r' (R1 ++ R2)) by (apply IN; left; auto). assert (NE : r <> r') by (intros ->; pose proof (dd_nodup _ _ _ _ _ D) as ND; apply NoDup_remove_2 in ND; auto). assert (I1 : In r (R1 ++ r :: R2)) by apply in_elt. assert (I2 : In r' (R1 ++ r :: R2)) by (rewrite in_app_iff in IR |- *; simpl; tauto).
    destruct (dd_irr _ _ _ _ _ D r r' I1 I2 NE) as (c & I & S & NS). destruct (U r' (or_introl eq_refl)) as (k & y & K & GY & E). unfold sat in S, NS. rewrite (dt_ext _ _ _ _ E), dt_lin in S.
    assert (HY : holds n c y). { apply (dd_gen _ _ _ _ _ D); auto. apply (gen_mono n rv L (r' :: R')); auto. intros z; auto. intros z Z. apply IN in Z. rewrite in_app_iff in Z |- *. simpl. tauto. }
    apply holds_ge in HY. pose proof (dd_ray_in n rv cs L _ r' D I2 c I) as HR. apply holds_ge in HR. apply NS. nra.
Qed.
(** C64: no ray or vertex of the result is superfluous: without it some point of the constraints is lost. *)
Theorem C64_rays_irredundant : forall n m con con' rows nb r1 r r2,
  Forall (fun c => length c = S n) con -> (length con <= m)%nat ->
  cherni_conversion con 0 (init_rows (S n) m) n = (con', rows, nb) ->
  rows = r1 ++ r :: r2 -> nth 0 (fst r) 0%Z <> 0%Z ->
  exists x, cone con x /\ ~ generated n (map fst (r1 ++ r2)) x.
Proof.
  intros n m con con' rows nb r1 r r2 F L E ER NZ. destruct (conversion_init n m con con' rows nb F L E) as (Lr & Rr & ER' & LN & I & _ & IC & S0 & S1).
  destruct I as (A1 & A2 & A3 & A4 & A5 & A6). rewrite firstn_all in A5. rewrite ER' in ER.
  assert (SP : exists R1, r1 = Lr ++ R1 /\ Rr = R1 ++ r :: r2). { clear - ER S0 NZ. revert r1 ER. induction Lr as [|l Lr IH]; intros r1 ER. exists r1. auto. destruct r1 as [|q r1]; simpl in ER; injection ER as -> ER. inversion S0; subst. unfold zn in *. tauto. destruct (IH (Forall_inv_tail S0) r1 ER) as (R1 & -> & ->). exists R1. auto. }
  destruct SP as (R1 & -> & ->). exists (rv (tr r)). split.
  - rewrite (cone_inC n con _ F), IC. apply (dd_ray_in n rv _ _ _ (tr r) A5). rewrite map_app. apply in_elt.
  - rewrite <- app_assoc. rewrite generated_gen; auto. rewrite map_app in A5 |- *. simpl in A5. apply (dd_ray_needed n _ _ _ _ _ A5). apply Forall_app in S1. destruct S1 as [X Y]. apply Forall_app. split; auto. inversion Y; auto.
Qed.
Print Assumptions C64_rays_irredundant.

(** The unit square with a redundant constraint and an equality in a third dimension *)
Definition square : list (list Z) := [[0;0;0;-1;1]; [1;0;1;0;0]; [1;0;0;1;0]; [1;1;-1;0;0]; [1;1;0;-1;0]; [1;3;-1;-1;0]; [1;1;0;0;0]]%Z.
Example C63_hyp : Forall (fun c => length c = 5%nat) square /\ (length square <= 7)%nat /\
  (let '(con, rows, nb) := cherni_conversion square 0 (init_rows 5 7) 4 in (length con, map fst rows, nb)) = (5%nat, [[1; 1; 0; 0; 0]; [1; 1; 1; 0; 0]; [1; 1; 1; 1; 1]; [1; 1; 0; 1; 1]]%Z, 0%nat).
Proof. split. repeat constructor. split. simpl; lia. vm_compute. reflexivity. Qed.
Example C63_point : cone square (homog (fun i => match i with 0%nat => 1/2 | _ => 1/4 end)) /\ ~ cone square (homog (fun _ => 2)).
Proof. split. repeat constructor; simpl; lra. intros H. do 4 apply Forall_inv_tail in H. apply Forall_inv in H. simpl in H. lra. Qed.

(** C65: normalising a row changes neither its meaning nor its status, and leaves coefficients without a common divisor *)
Theorem C65_normalize : forall q, (forall x, row_holds (vector_normalize q) x <-> row_holds q x) /\ nth 0 (vector_normalize q) 0%Z = nth 0 q 0%Z /\
  (forall d, (1 < d)%Z -> (forall x, In x (tl (vector_normalize q)) -> (d | x)%Z) -> forall x, In x (tl q) -> x = 0%Z).
Proof.
  intros [|s t]. { split. tauto. split; auto. intros d _ _ x []. } destruct (normalize_spec s t) as (g & G & t' & E & L & N). rewrite E. cbn [tl nth row_holds]. split.
  - intros x. assert (LF : forall (t t' : list Z) i, length t' = length t -> (forall j, nth j t 0%Z = (g * nth j t' 0)%Z) -> lform t i x = IZR g * lform t' i x). { clear. induction t as [|a t IH]; intros [|b t'] i L N; simpl in L; try discriminate. simpl. ring. simpl. rewrite (IH t' (S i)); auto. pose proof (N 0%nat) as N0. simpl in N0. rewrite N0, mult_IZR. ring. intros j. apply (N (S j)). }
    rewrite (LF t t' 0%nat) by auto. apply IZR_lt in G. destruct (s =? 0)%Z; split; intros H; try nra.
  - split; auto. intros d D H x Hx. unfold vector_normalize in E. rewrite vector_gcd_spec in E. destruct (Z.gtb_spec (zgcd t) 1) as [GT|LE].
    + injection E as E. exfalso. assert (Dv : (d * zgcd t | zgcd t)%Z). { apply zgcd_divide. intros z Hz. pose proof (proj1 (zgcd_divide t (zgcd t)) (Z.divide_refl _) z Hz) as [u U]. assert (Q : In (z / zgcd t)%Z t') by (rewrite <- E; apply (in_map (fun x => (x / zgcd t)%Z)); auto). apply H in Q. rewrite U in Q |- *. rewrite Z.div_mul in Q by lia. destruct Q as [w ->]. exists w. ring. }
      apply Z.divide_pos_le in Dv; [nia|lia].
    + injection E as <-. pose proof (zgcd_nonneg t) as NN. assert (C : zgcd t = 0%Z \/ zgcd t = 1%Z) by lia. destruct C as [C|C].
      * pose proof (proj1 (zgcd_divide t (zgcd t)) (Z.divide_refl _) x Hx) as [u U]. rewrite C in U. lia.
      * exfalso. assert (X : (d | zgcd t)%Z) by (apply zgcd_divide; auto). rewrite C in X. apply Z.divide_1_r_nonneg in X; lia.
Qed.
Print Assumptions C65_normalize.
Example C65_case : vector_normalize [1; -6; 10; 0; 4]%Z = [1; -3; 5; 0; 2]%Z.
Proof. reflexivity. Qed.

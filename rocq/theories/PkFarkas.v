(** Farkas' lemma for the systems of constraints of the polyhedra library, and removal of the constraints
    which do not saturate enough generators.  No model of code here. *)
From Coq Require Import ZArith Bool List Lia Reals Lra Permutation.
Import ListNotations.
From Verif Require Import PkCone PkVec PkCherni PkCherniFacts PkCherniRay.
Open Scope R_scope.

Definition eqs (con : list pvec) : list (list Z) := map (fun c : pvec => tl c) (filter (fun c => (zn 0 c =? 0)%Z) con).
Definition ineqs (con : list pvec) : list (list Z) := map (fun c : pvec => tl c) (filter (fun c => negb (zn 0 c =? 0)%Z) con).

(** generators always exist *)
Lemma gens_exist : forall n con, Forall (fun c : pvec => length c = S n) con -> exists L R, forall x, inC n (map kc con) x <-> gen n rv L R x.
Proof.
  intros n con F. destruct (cherni_conversion con 0 (init_rows (S n) (length con)) n) as [[con' rows] nb] eqn:E.
  assert (I := init_inv n (length con) con F (le_n _)). assert (LI : length (init_rows (S n) (length con)) = n) by (unfold init_rows; rewrite map_length, seq_length; lia).
  rewrite <- LI in E at 2. rewrite <- (app_nil_r (init_rows (S n) _)) in E at 1. destruct (conversion_spec n _ 0 con _ [] con' rows nb I E) as (Lr & Rr & A1 & A2 & A3 & A4 & A5 & _). exists (map tr Lr), (map tr Rr). intros x. rewrite A5. destruct A3 as (_ & _ & _ & _ & D & _). rewrite firstn_all in D. apply (dd_gen _ _ _ _ _ D).
Qed.
(** a number between finitely many lower and upper bounds *)
Lemma max_list : forall l : list R, l <> [] -> exists m, In m l /\ forall x, In x l -> x <= m.
Proof. induction l as [|a l IH]; intros N. congruence. destruct l as [|b l]. exists a. split. left; auto. intros x [<-|[]]; lra. destruct IH as (m & I & H). discriminate. destruct (Rle_dec a m). exists m. split. right; auto. intros x [<-|X]; auto. exists a. split. left; auto. intros x [<-|X]. lra. apply H in X. lra. Qed.
Lemma min_list : forall l : list R, l <> [] -> exists m, In m l /\ forall x, In x l -> m <= x.
Proof. intros l N. destruct (max_list (map Ropp l)) as (m & I & H). destruct l; simpl; congruence. apply in_map_iff in I. destruct I as (y & <- & I). exists y. split; auto. intros x X. specialize (H (- x)). assert (- x <= - y) by (apply H, in_map_iff; eauto). lra. Qed.
Lemma between : forall lo up : list R, (forall a b, In a lo -> In b up -> a <= b) -> exists m, (forall a, In a lo -> a <= m) /\ forall b, In b up -> m <= b.
Proof.
  intros lo up H. destruct lo as [|a0 lo']. destruct up as [|b0 up']. exists 0. split; [intros ? []|intros ? []]. destruct (min_list (b0 :: up') ltac:(discriminate)) as (m & I & M). exists m. split; [intros ? []|auto].
  destruct (max_list (a0 :: lo') ltac:(discriminate)) as (m & I & M). exists m. split; auto.
Qed.
(** one step: a multiple of the last constraint can be subtracted *)
Lemma farkas_step : forall n (L R : list (list Z)) (a : kcon) (y : vec) cs, (forall x, inC n cs x <-> gen n rv L R x) -> (forall x, inC n cs x -> holds n a x -> 0 <= dt n y x) ->
  exists mu, (snd a = true \/ 0 <= mu) /\ forall x, inC n cs x -> 0 <= dt n (lin2 1 y (- mu) (fst a)) x.
Proof.
  intros n L R a y cs D V.
  assert (SUB : forall mu x, dt n (lin2 1 y (- mu) (fst a)) x = dt n y x - mu * dt n (fst a) x) by (intros mu x; rewrite dt_sym, dt_lin, (dt_sym n x), (dt_sym n x); ring).
  assert (GL : forall l k, In l L -> inC n cs (lin2 k (rv l) 0 (rv l))) by (intros l k I; apply D, gen_line; auto).
  assert (GR : forall r, In r R -> inC n cs (rv r)) by (intros r I; apply D, gen_ray; auto).
  assert (GA : forall p u q v, 0 <= u -> 0 <= v -> inC n cs p -> inC n cs q -> inC n cs (lin2 u p v q)) by (intros p u q v U W P Q; apply D; apply gen_lin; auto; apply D; auto).
  assert (FIN : forall mu, (forall l, In l L -> dt n y (rv l) = mu * dt n (fst a) (rv l)) -> (forall r, In r R -> mu * dt n (fst a) (rv r) <= dt n y (rv r)) -> forall x, inC n cs x -> 0 <= dt n (lin2 1 y (- mu) (fst a)) x).
  { intros mu HL HR x Hx. apply D in Hx. apply (gen_holds n rv (lin2 1 y (- mu) (fst a), false) L R x); auto. intros l I. cbn [fst]. rewrite SUB, HL; auto. ring. intros r I. unfold holds. cbn [fst snd]. rewrite SUB. specialize (HR r I). lra. }
  assert (DEC : (exists l, In l L /\ dt n (fst a) (rv l) <> 0) \/ (forall l, In l L -> dt n (fst a) (rv l) = 0)).
  { clear. induction L as [|l L IH]. right. intros ? []. destruct (Req_EM_T (dt n (fst a) (rv l)) 0) as [E|E]. destruct IH as [(q & I & H)|H]. left. exists q. split; auto. right; auto. right. intros q [<-|I]; auto. left. exists l. split; auto. left; auto. }
  destruct DEC as [(l0 & I0 & N0)|AZ].
  - set (mu := dt n y (rv l0) / dt n (fst a) (rv l0)). exists mu.
    assert (PL : forall p, inC n cs p -> inC n cs (lin2 1 p 1 (lin2 (- (dt n (fst a) p / dt n (fst a) (rv l0))) (rv l0) 0 (rv l0))) /\ dt n (fst a) (lin2 1 p 1 (lin2 (- (dt n (fst a) p / dt n (fst a) (rv l0))) (rv l0) 0 (rv l0))) = 0 /\ dt n y (lin2 1 p 1 (lin2 (- (dt n (fst a) p / dt n (fst a) (rv l0))) (rv l0) 0 (rv l0))) = dt n y p - mu * dt n (fst a) p).
    { intros p P. split. apply GA; auto; lra. rewrite !dt_lin. split. field; auto. unfold mu. field; auto. }
    assert (VP : forall p, inC n cs p -> 0 <= dt n y p - mu * dt n (fst a) p). { intros p P. destruct (PL p P) as (A & B & C). rewrite <- C. apply V; auto. unfold holds. rewrite B. destruct (snd a); lra. }
    split.
    + destruct (snd a) eqn:S; auto. right. unfold mu. set (d := dt n (fst a) (rv l0)) in *. assert (H : 0 <= dt n y (lin2 (/ d) (rv l0) 0 (rv l0))). { apply V; auto. unfold holds. rewrite S. rewrite dt_lin. fold d. field_simplify; auto. lra. } rewrite dt_lin in H. unfold Rdiv. lra.
    + apply FIN. intros l I. assert (A := VP _ (GL l 1 I)). assert (B := VP _ (GL l (-1) I)). rewrite !dt_lin in A, B. lra. intros r I. assert (A := VP _ (GR r I)). lra.
  - set (q := fun r => dt n y (rv r) / dt n (fst a) (rv r)).
    set (neg := filter (fun r => if Rlt_dec (dt n (fst a) (rv r)) 0 then true else false) R). set (pos := filter (fun r => if Rlt_dec 0 (dt n (fst a) (rv r)) then true else false) R).
    assert (NG : forall r, In r neg <-> In r R /\ dt n (fst a) (rv r) < 0). { intros r. unfold neg. rewrite filter_In. destruct (Rlt_dec _ _); split; intros [A B]; split; auto; try discriminate; lra. }
    assert (PS : forall r, In r pos <-> In r R /\ 0 < dt n (fst a) (rv r)). { intros r. unfold pos. rewrite filter_In. destruct (Rlt_dec _ _); split; intros [A B]; split; auto; try discriminate; lra. }
    destruct (between (map q neg ++ if snd a then [] else [0]) (map q pos)) as (mu & LO & UP).
    { intros u v U W. apply in_map_iff in W. destruct W as (rp & <- & W). apply PS in W. destruct W as [W WP]. apply in_app_iff in U. destruct U as [U|U].
      - apply in_map_iff in U. destruct U as (rn & <- & U). apply NG in U. destruct U as [U UN]. assert (H : 0 <= dt n y (lin2 (- dt n (fst a) (rv rn)) (rv rp) (dt n (fst a) (rv rp)) (rv rn))). { apply V. apply GA; auto; lra. unfold holds. rewrite dt_lin. replace (- dt n (fst a) (rv rn) * dt n (fst a) (rv rp) + dt n (fst a) (rv rp) * dt n (fst a) (rv rn)) with 0 by ring. destruct (snd a); lra. } rewrite dt_lin in H. unfold q.
        set (an := dt n (fst a) (rv rn)) in *. set (ap := dt n (fst a) (rv rp)) in *. apply Rmult_le_reg_r with (ap * - an). apply Rmult_lt_0_compat; lra. replace (dt n y (rv rn) / an * (ap * - an)) with (- (ap * dt n y (rv rn))) by (field; lra). replace (dt n y (rv rp) / ap * (ap * - an)) with (- an * dt n y (rv rp)) by (field; lra). lra.
      - destruct (snd a) eqn:S. destruct U. destruct U as [<-|[]]. assert (H : 0 <= dt n y (rv rp)) by (apply V; auto; unfold holds; rewrite S; lra). unfold q. apply Rmult_le_reg_r with (dt n (fst a) (rv rp)); auto. replace (dt n y (rv rp) / dt n (fst a) (rv rp) * dt n (fst a) (rv rp)) with (dt n y (rv rp)) by (field; lra). lra. }
    exists mu. split. { destruct (snd a); auto. right. apply LO. apply in_app_iff. right. left. auto. }
    apply FIN.
    + intros l I. rewrite AZ by auto. assert (A : 0 <= dt n y (lin2 1 (rv l) 0 (rv l))). { apply V; auto. unfold holds. rewrite dt_lin, AZ by auto. destruct (snd a); lra. } assert (B : 0 <= dt n y (lin2 (-1) (rv l) 0 (rv l))). { apply V; auto. unfold holds. rewrite dt_lin, AZ by auto. destruct (snd a); lra. } rewrite dt_lin in A, B. lra.
    + intros r I. destruct (Rtotal_order (dt n (fst a) (rv r)) 0) as [S|[S|S]].
      * assert (H : q r <= mu) by (apply LO, in_app_iff; left; apply in_map, NG; auto). unfold q in H. apply Rmult_le_compat_neg_l with (r := dt n (fst a) (rv r)) in H; [|lra]. replace (dt n (fst a) (rv r) * (dt n y (rv r) / dt n (fst a) (rv r))) with (dt n y (rv r)) in H by (field; lra). lra.
      * rewrite S. assert (0 <= dt n y (rv r)). { apply V; auto. unfold holds. rewrite S. destruct (snd a); lra. } lra.
      * assert (H : mu <= q r) by (apply UP; apply in_map, PS; auto). unfold q in H. apply Rmult_le_compat_l with (r := dt n (fst a) (rv r)) in H; [|lra]. replace (dt n (fst a) (rv r) * (dt n y (rv r) / dt n (fst a) (rv r))) with (dt n y (rv r)) in H by (field; lra). lra.
Qed.
(** every consequence is a combination of the constraints *)
Theorem farkas : forall n con, Forall (fun c : pvec => length c = S n) con -> forall y, (forall x, inC n (map kc con) x -> 0 <= dt n y x) -> gen n rv (eqs con) (ineqs con) y.
Proof.
  intros n con. induction con as [|c con IH] using rev_ind; intros F y V.
  - apply gen_0. intros i I. set (x := fun j => if Nat.eqb j i then - y i else 0). assert (H : 0 <= dt n y x) by (apply V; intros c []).
    assert (G : forall m, dt m y x = if Nat.ltb i m then - (y i * y i) else 0). { clear. induction m. reflexivity. unfold dt in *. simpl. rewrite IHm. unfold x. destruct (Nat.ltb_spec i m), (Nat.ltb_spec i (S m)), (Nat.eqb_spec m i); subst; try lia; ring. }
    rewrite G in H. replace (Nat.ltb i n) with true in H by (symmetry; apply Nat.ltb_lt; auto). nra.
  - apply Forall_app in F. destruct F as [F FC]. destruct (gens_exist n con F) as (L & R & D). destruct (farkas_step n L R (kc c) y (map kc con) D) as (mu & SG & H).
    { intros x Hx Hc. apply V. rewrite map_app. intros q Q. apply in_app_iff in Q. destruct Q as [Q|[<-|[]]]; auto. }
    apply IH in H; auto. assert (M : gen n rv (eqs (con ++ [c])) (ineqs (con ++ [c])) (lin2 1 y (- mu) (fst (kc c)))). { eapply gen_mono; [| |exact H]; unfold eqs, ineqs; rewrite filter_app, map_app; intros z Z; apply in_app_iff; auto. }
    assert (E : veq n y (lin2 1 (lin2 1 y (- mu) (fst (kc c))) mu (rv (tl c)))) by (intros i _; unfold lin2, kc; simpl; ring).
    unfold kc in SG. cbn [snd] in SG. destruct (zn 0 c =? 0)%Z eqn:S.
    + apply gen_l with (lin2 1 y (- mu) (fst (kc c))) (tl c) mu; auto. unfold eqs. rewrite filter_app, map_app. apply in_app_iff. right. cbn [filter]. rewrite S. left; auto.
    + destruct SG as [SG|SG]; [discriminate|]. apply gen_r with (lin2 1 y (- mu) (fst (kc c))) (tl c) mu; auto. unfold ineqs. rewrite filter_app, map_app. apply in_app_iff. right. cbn [filter]. rewrite S. left; auto.
Qed.

(** * Removing the generators which saturate less than others *)
Section Reduce.
Variable n : nat.
Context {T : Type}.
Variable val : T -> vec.
Notation gen := (gen n val). Notation sat := (sat n val).
Lemma line_part : forall cs (L R : list T) x, (forall x, inC n cs x <-> gen L R x) -> (forall r, In r R -> exists c, In c cs /\ ~ sat c r) -> inC n cs x ->
  gen L [] x \/ exists r, In r R /\ forall c, In c cs -> dt n (fst c) x = 0 -> sat c r.
Proof.
  intros cs L R x D NR H. apply D in H. destruct (gen_used n val L R x H) as ([|r R'] & I & G & U). left; auto. right. exists r. split. apply I; left; auto.
  intros c Ic Z. destruct (U r (or_introl eq_refl)) as (k & y & K & GY & E). rewrite (dt_ext _ _ _ _ E), dt_lin in Z. assert (HY : holds n c y). { apply D; auto. apply gen_mono with L (r :: R'); auto. intros z; auto. } apply holds_ge in HY.
  assert (HR : holds n c (val r)). { apply D; auto. apply gen_ray. apply I; left; auto. } apply holds_ge in HR. unfold PkCone.sat. nra.
Qed.
Lemma reduce_rays : forall cs (L R R' : list T), (forall x, inC n cs x <-> gen L R x) -> (forall r, In r R -> exists c, In c cs /\ ~ sat c r) -> incl R' R ->
  (forall r, In r R -> exists r', In r' R' /\ forall c, In c cs -> sat c r -> sat c r') -> forall x, inC n cs x <-> gen L R' x.
Proof.
  intros cs L R R' D NR I M. assert (G : forall m x, (unsat n cs x <= m)%nat -> inC n cs x -> gen L R' x).
  { induction m as [m IH] using lt_wf_ind. intros x U C. destruct (line_part cs L R x D NR C) as [G|(r & Ir & S)]. apply gen_mono with L []; auto. intros z; auto. intros z [].
    destruct (M r Ir) as (r' & Ir' & S'). assert (Ir0 := I r' Ir'). destruct (NR r' Ir0) as (c & Ic & NS). assert (HC : inC n cs (val r')) by (apply D; apply gen_ray; auto). 
    destruct (peel n cs x (lin2 (-1) (val r') 0 (val r')) C) as (t & T1 & T2 & T3 & _).
    - intros c0 I0 Z. rewrite dt_lin. specialize (S' c0 I0 (S c0 I0 Z)). unfold PkCone.sat in S'. rewrite S'. ring.
    - exists c. split; auto. rewrite dt_lin. unfold PkCone.sat in NS. specialize (HC c Ic). apply holds_ge in HC. lra.
    - assert (Z := IH (unsat n cs (lin2 1 x t (lin2 (-1) (val r') 0 (val r')))) ltac:(lia) _ (le_n _) T2). apply gen_r with (lin2 1 x t (lin2 (-1) (val r') 0 (val r'))) r' t; auto. lra. intros i Hi. unfold lin2. ring. }
  intros x. split. intros H. apply (G (unsat n cs x)); auto. intros H. apply D. apply gen_mono with L R'; auto. intros z; auto.
Qed.
Lemma unsat_more : forall cs x y, (unsat n cs y < unsat n cs x)%nat -> exists c, In c cs /\ dt n (fst c) x <> 0 /\ dt n (fst c) y = 0.
Proof.
  unfold unsat. induction cs as [|c q IH]; cbn [filter]; intros x y H. simpl in H; lia. destruct (satb n c y) eqn:Y.
  - destruct (satb n c x) eqn:X; cbn [negb] in H; cbn [length] in H. destruct (IH x y H) as (d & I & A & B). exists d. split; [right|]; auto. exists c. split; [left; auto|]. split. intros Z. apply satb_iff in Z. congruence. apply satb_iff; auto.
  - assert (K : (length (filter (fun c => negb (satb n c y)) q) < length (filter (fun c => negb (satb n c x)) q))%nat) by (destruct (satb n c x); cbn [negb length] in H; lia). destruct (IH x y K) as (d & I & A & B). exists d. split; [right|]; auto.
Qed.
Lemma dt_pos : forall v : vec, (exists i, (i < n)%nat /\ v i <> 0) -> 0 < dt n v v.
Proof.
  intros v. unfold dt. clear. induction n as [|m IH]; intros (i & I & V). lia. simpl. assert (0 <= sm m (fun i => v i * v i)) by (clear; induction m; simpl; nra). destruct (Nat.eq_dec i m) as [->|]. nra. assert (0 < sm m (fun i => v i * v i)) by (apply IH; exists i; split; auto; lia). nra.
Qed.
(** a generator which saturates few constraints: another one saturates more *)
Lemma few_sat : forall cs (L R : list T) r (es : list vec), (forall x, inC n cs x <-> gen L R x) -> (forall r, In r R -> exists c, In c cs /\ ~ sat c r) -> In r R ->
  (forall c, In c cs -> sat c r -> In (fst c) es) -> (length es + length L + 1 < n)%nat -> exists r', In r' R /\ (forall c, In c cs -> sat c r -> sat c r') /\ exists c, In c cs /\ ~ sat c r /\ sat c r'.
Proof.
  intros cs L R r es D NR Ir IE LE. destruct (solve n (es ++ map val L ++ [val r])) as (v & NV & S). { rewrite !app_length, map_length. simpl. lia. }
  assert (SE : forall c, In c cs -> sat c r -> dt n (fst c) v = 0). { intros c I H. apply (S (fst c)). apply in_app_iff. left. auto. }
  assert (SL : forall l, In l L -> dt n v (val l) = 0). { intros l I. rewrite dt_sym. apply (S (val l)). rewrite !in_app_iff. right. left. apply in_map; auto. }
  assert (SR : dt n (val r) v = 0). { apply (S (val r)). rewrite !in_app_iff. right. right. left; auto. }
  assert (VV := dt_pos v NV).
  assert (NL : forall y, gen L [] y -> dt n v y = 0). { intros y G. assert (H : holds n (v, true) y). { apply (gen_holds n val (v, true) L []); auto. intros q []. } exact H. }
  assert (CR : inC n cs (val r)) by (apply D, gen_ray; auto).
  assert (DEC : (exists c, In c cs /\ dt n (fst c) v <> 0) \/ forall c, In c cs -> dt n (fst c) v = 0). { clear. induction cs as [|c cs IH]. right; intros ? []. destruct (Req_EM_T (dt n (fst c) v) 0) as [E|E]. destruct IH as [(d & I & H)|H]. left; exists d; split; auto; right; auto. right. intros d [<-|I]; auto. left; exists c; split; auto; left; auto. }
  destruct DEC as [(c & Ic & NZ)|AZ].
  - assert (SG : exists u, (u = 1 \/ u = -1) /\ dt n (fst c) (lin2 u v 0 v) < 0). { destruct (Rlt_dec (dt n (fst c) v) 0). exists 1. rewrite dt_lin. split; auto; lra. exists (-1). rewrite dt_lin. split; auto; lra. }
    destruct SG as (u & U & NG). destruct (peel n cs (val r) (lin2 u v 0 v) CR) as (t & T1 & T2 & T3 & T4). { intros c0 I0 Z. rewrite dt_lin, SE; auto. ring. } exists c; auto.
    set (y := lin2 1 (val r) t (lin2 u v 0 v)) in *. destruct (line_part cs L R y D NR T2) as [G|(r' & Ir' & S')].
    + exfalso. apply NL in G. unfold y in G. rewrite !dt_lin, (dt_sym n v (val r)), SR in G. destruct U as [-> | ->]; nra.
    + exists r'. split; auto. split. intros c0 I0 Z. apply S'; auto. destruct (unsat_more _ _ _ T3) as (c1 & I1 & A & B). exists c1. auto.
  - exfalso. assert (CV : inC n cs v). { intros c I. unfold holds. rewrite AZ by auto. destruct (snd c); lra. } destruct (line_part cs L R v D NR CV) as [G|(r' & Ir' & S')]. apply NL in G. lra. destruct (NR r' Ir') as (c & Ic & NS). apply NS. apply S'; auto.
Qed.
End Reduce.

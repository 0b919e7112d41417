(** Cones of R^n given by constraints and by generators: the facts behind Chernikova's algorithm.

    Nothing here is about the code; the model of the conversion of /repo/newpolka/pk_cherni.c is
    in PkCherni.v. *)
From Coq Require Import Arith Bool List Lia Reals Lra Permutation.
Import ListNotations.
Open Scope R_scope.

Fixpoint sm (n : nat) (f : nat -> R) : R := match n with O => 0 | S n => sm n f + f n end.
Lemma sm_ext : forall n f g, (forall i, (i < n)%nat -> f i = g i) -> sm n f = sm n g.
Proof. induction n; simpl; intros; auto. rewrite (IHn f g), H; auto. Qed.
Lemma sm_plus : forall n f g, sm n (fun i => f i + g i) = sm n f + sm n g.
Proof. induction n; simpl; intros. lra. rewrite IHn. lra. Qed.
Lemma sm_scal : forall n k f, sm n (fun i => k * f i) = k * sm n f.
Proof. induction n; simpl; intros. lra. rewrite IHn. lra. Qed.
Lemma sm_0 : forall n f, (forall i, (i < n)%nat -> f i = 0) -> sm n f = 0.
Proof. induction n; simpl; intros; auto. rewrite IHn, H; auto. lra. Qed.
Lemma sm_sq : forall n f, 0 <= sm n (fun i => f i * f i) /\ (sm n (fun i => f i * f i) = 0 -> forall i, (i < n)%nat -> f i = 0).
Proof.
  induction n; simpl; intros f. split; [lra|intros; lia]. destruct (IHn f) as [A B]. pose proof (Rle_0_sqr (f n)) as Q. unfold Rsqr in Q. split. lra. intros H i I. destruct (Nat.eq_dec i n) as [->|N].
  - assert (f n * f n = 0) by lra. apply Rmult_integral in H0. tauto.
  - apply B; [lra|lia].
Qed.

(** A homogeneous system with less equations than unknowns has a solution which is not zero *)
Lemma solve : forall n (es : list (nat -> R)), (length es < n)%nat -> exists v, (exists i, (i < n)%nat /\ v i <> 0) /\ forall e, In e es -> sm n (fun i => e i * v i) = 0.
Proof.
  induction n; intros es L; [lia|]. assert (D : (exists e, In e es /\ e n <> 0) \/ forall e, In e es -> e n = 0).
  { clear L. induction es as [|e q IH]. right; intros e []. destruct (Req_dec (e n) 0) as [E|E]. destruct IH as [(f & F & G)|H]. left; exists f; simpl; auto. right. intros f [<-|F]; auto. left; exists e; simpl; auto. }
  destruct D as [(e & E & NZ)|Z].
  - apply in_split in E. destruct E as (a & b & ->). destruct (IHn (map (fun f i => f i - f n / e n * e i) (a ++ b))) as (v & NV & S). { rewrite map_length. rewrite app_length in *. simpl in L. lia. }
    set (w := fun i => if Nat.eqb i n then - (sm n (fun i => e i * v i)) / e n else v i). exists w. assert (W : forall f, sm n (fun i => f i * w i) = sm n (fun i => f i * v i)). { intros f. apply sm_ext. intros i I. unfold w. destruct (Nat.eqb_spec i n); [lia|auto]. }
    assert (Wn : w n = - (sm n (fun i => e i * v i)) / e n) by (unfold w; rewrite Nat.eqb_refl; auto). split.
    + destruct NV as (i & I & V). exists i. split; [lia|]. unfold w. destruct (Nat.eqb_spec i n); [lia|auto].
    + assert (EE : sm n (fun i => e i * v i) + e n * w n = 0) by (rewrite Wn; field; auto).
      intros f F. simpl. rewrite W. assert (F' : f = e \/ In f (a ++ b)). { apply in_app_iff in F. destruct F as [F|[F|F]]; auto; right; apply in_app_iff; auto. } destruct F' as [->|F']; auto.
      specialize (S (fun i => f i - f n / e n * e i)). rewrite in_map_iff in S. specialize (S (ex_intro _ f (conj eq_refl F'))). rewrite (sm_ext n _ (fun i => f i * v i + (- (f n / e n)) * (e i * v i))) in S by (intros; ring). rewrite sm_plus, sm_scal in S.
      replace (sm n (fun i => f i * v i)) with (f n / e n * sm n (fun i => e i * v i)) by lra. rewrite Wn. field; auto.
  - exists (fun i => if Nat.eqb i n then 1 else 0). split. exists n. rewrite Nat.eqb_refl. split; [lia|lra]. intros e E. simpl. rewrite Nat.eqb_refl, Z by auto. rewrite sm_0. lra. intros i I. destruct (Nat.eqb_spec i n); [lia|lra].
Qed.

Section Cone.
Variable n : nat.
Definition vec : Type := nat -> R.
Definition dt (f g : vec) : R := sm n (fun i => f i * g i).
Definition veq (f g : vec) : Prop := forall i, (i < n)%nat -> f i = g i.
Definition lin2 (a : R) (f : vec) (b : R) (g : vec) : vec := fun i => a * f i + b * g i.
Lemma dt_ext : forall c f g, veq f g -> dt c f = dt c g.
Proof. intros c f g H. apply sm_ext. intros i I. rewrite (H i I). auto. Qed.
Lemma dt_lin : forall c a f b g, dt c (lin2 a f b g) = a * dt c f + b * dt c g.
Proof. intros. unfold dt, lin2. rewrite <- !sm_scal, <- sm_plus. apply sm_ext. intros; ring. Qed.
Lemma dt_sym : forall f g, dt f g = dt g f.
Proof. intros. apply sm_ext. intros; ring. Qed.
Lemma dt_zero : forall c f, (forall i, (i < n)%nat -> f i = 0) -> dt c f = 0.
Proof. intros c f H. apply sm_0. intros i I. rewrite H; auto. lra. Qed.

(** ** Constraints: a vector, [true] for an equality *)
Definition kcon : Type := (vec * bool)%type.
Definition holds (c : kcon) (x : vec) : Prop := if snd c then dt (fst c) x = 0 else 0 <= dt (fst c) x.
Definition inC (cs : list kcon) (x : vec) : Prop := forall c, In c cs -> holds c x.
Lemma holds_ge : forall c x, holds c x -> 0 <= dt (fst c) x.
Proof. intros c x. unfold holds. destruct (snd c); lra. Qed.
Lemma holds_ext : forall c x y, veq x y -> holds c x -> holds c y.
Proof. intros c x y E. unfold holds. rewrite (dt_ext _ _ _ E). auto. Qed.
Lemma inC_ext : forall cs x y, veq x y -> inC cs x -> inC cs y.
Proof. intros cs x y E H c I. eapply holds_ext; eauto. Qed.

(** ** Generators *)
Section Gen.
Context {T : Type} (val : T -> vec).
Inductive gen (L R : list T) : vec -> Prop :=
| gen_0 : forall x, (forall i, (i < n)%nat -> x i = 0) -> gen L R x
| gen_l : forall x l k y, gen L R x -> In l L -> veq y (lin2 1 x k (val l)) -> gen L R y
| gen_r : forall x r k y, gen L R x -> In r R -> 0 <= k -> veq y (lin2 1 x k (val r)) -> gen L R y.
Lemma gen_ext : forall L R x y, gen L R x -> veq y x -> gen L R y.
Proof.
  intros L R x y H. revert y. induction H; intros z Z.
  - apply gen_0. intros i I. rewrite Z; auto.
  - apply gen_l with x l k; auto. intros i I. rewrite Z, H1; auto.
  - apply gen_r with x r k; auto. intros i I. rewrite Z, H2; auto.
Qed.
Lemma gen_add : forall L R x y, gen L R x -> gen L R y -> gen L R (lin2 1 x 1 y).
Proof.
  intros L R x y H K. induction K as [y Z|y l k z K IH I E|y r k z K IH I P E].
  - apply gen_ext with x; auto. intros i I. unfold lin2. rewrite Z by auto. ring.
  - eapply gen_l; [exact IH|exact I|]. instantiate (1 := k). intros i J. unfold lin2 in *. rewrite E by auto. ring.
  - eapply gen_r; [exact IH|exact I|exact P|]. intros i J. unfold lin2 in *. rewrite E by auto. ring.
Qed.
Lemma gen_scal : forall L R x k, 0 <= k -> gen L R x -> gen L R (lin2 k x 0 x).
Proof.
  intros L R x k P H. induction H as [y Z|y l m z K IH I E|y r m z K IH I Q E].
  - apply gen_0. intros i I. unfold lin2. rewrite Z by auto. ring.
  - apply gen_l with (lin2 k y 0 y) l (k * m); auto. intros i J. unfold lin2 in *. rewrite E by auto. ring.
  - apply gen_r with (lin2 k y 0 y) r (k * m); auto. apply Rmult_le_pos; auto. intros i J. unfold lin2 in *. rewrite E by auto. ring.
Qed.
Lemma gen_lin : forall L R a x b y, 0 <= a -> 0 <= b -> gen L R x -> gen L R y -> gen L R (lin2 a x b y).
Proof. intros L R a x b y A B H K. apply gen_ext with (lin2 1 (lin2 a x 0 x) 1 (lin2 b y 0 y)). apply gen_add; apply gen_scal; auto. intros i I. unfold lin2. ring. Qed.
Lemma gen_line : forall L R l k, In l L -> gen L R (lin2 k (val l) 0 (val l)).
Proof. intros L R l k I. apply gen_l with (fun _ => 0) l k; auto. apply gen_0; auto. intros i J. unfold lin2. ring. Qed.
Lemma gen_ray : forall L R r, In r R -> gen L R (val r).
Proof. intros L R r I. apply gen_r with (fun _ => 0) r 1; auto. apply gen_0; auto. lra. intros i J. unfold lin2. ring. Qed.
Lemma gen_incl : forall L R L' R' x, gen L R x -> (forall l, In l L -> forall k, gen L' R' (lin2 k (val l) 0 (val l))) -> (forall r, In r R -> gen L' R' (val r)) -> gen L' R' x.
Proof.
  intros L R L' R' x H A B. induction H as [y Z|y l m z K IH I E|y r m z K IH I Q E].
  - apply gen_0; auto.
  - apply gen_ext with (lin2 1 y 1 (lin2 m (val l) 0 (val l))). apply gen_add; auto. intros i J. rewrite E by auto. unfold lin2. ring.
  - apply gen_ext with (lin2 1 y m (val r)); auto. apply gen_lin; auto. lra.
Qed.
Lemma gen_mono : forall L R L' R' x, incl L L' -> incl R R' -> gen L R x -> gen L' R' x.
Proof. intros L R L' R' x A B H. apply gen_incl with L R; auto. intros; apply gen_line; auto. intros; apply gen_ray; auto. Qed.
(** what holds for the generators holds for all *)
Lemma gen_holds : forall c L R x, (forall l, In l L -> dt (fst c) (val l) = 0) -> (forall r, In r R -> holds c (val r)) -> gen L R x -> holds c x.
Proof.
  intros c L R x A B H. unfold holds in *. induction H as [y Z|y l m z K IH I E|y r m z K IH I Q E]; rewrite ?(dt_ext _ _ _ E), ?dt_lin.
  - rewrite dt_zero by auto. destruct (snd c); lra.
  - rewrite (A l I). destruct (snd c); lra.
  - specialize (B r I). destruct (snd c); nra.
Qed.
(** the rays which are really used *)
Lemma gen_used : forall L R x, gen L R x -> exists R', incl R' R /\ gen L R' x /\ forall r, In r R' -> exists k y, 0 < k /\ gen L R' y /\ veq x (lin2 1 y k (val r)).
Proof.
  intros L R x H. induction H as [y Z|y l m z K IH I E|y r m z K IH I Q E].
  - exists []. split; [intros z []|]. split; [apply gen_0; auto|intros r []].
  - destruct IH as (R' & A & B & C). exists R'. split; auto. split. eapply gen_l; eauto. intros r J. destruct (C r J) as (k & w & P & G & W). exists k, (lin2 1 w m (val l)). split; auto. split. eapply gen_l; eauto. intros i Hi; auto.
    intros i Hi. rewrite E by auto. unfold lin2. rewrite (W i Hi). unfold lin2. ring.
  - destruct IH as (R' & A & B & C). destruct (Req_dec m 0) as [->|NZ]. { exists R'. split; auto. assert (EY : veq z y) by (intros i Hi; rewrite E by auto; unfold lin2; ring). split. eapply gen_ext; eauto. intros r0 J. destruct (C r0 J) as (k & w & P & G & W). exists k, w. split; auto. split; auto. intros i Hi. rewrite EY by auto. auto. }
    exists (r :: R'). split. intros r0 [<-|J]; auto. assert (M : forall w, gen L R' w -> gen L (r :: R') w) by (intros w; apply gen_mono; [apply incl_refl|intros q; right; auto]). split. eapply gen_r; eauto. left; auto.
    intros r0 [<-|J]. exists m, y. split; [lra|]. split; auto.
    destruct (C r0 J) as (k & w & P & G & W). exists k, (lin2 1 w m (val r)). split; auto. split. eapply gen_r; [apply M; exact G|left; reflexivity|exact Q|]. intros i Hi; auto. intros i Hi. rewrite E by auto. unfold lin2. rewrite (W i Hi). unfold lin2. ring.
Qed.

(** ** The double description *)
Hypothesis Tdec : forall a b : T, {a = b} + {a <> b}.
Definition sat (c : kcon) (r : T) : Prop := dt (fst c) (val r) = 0.
Record dd (cs : list kcon) (L R : list T) : Prop := mkDD {
  dd_gen : forall x, inC cs x <-> gen L R x;
  dd_irr : forall r r', In r R -> In r' R -> r <> r' -> exists c, In c cs /\ sat c r /\ ~ sat c r';
  dd_ray : forall r, In r R -> exists c, In c cs /\ ~ sat c r;
  dd_nodup : NoDup R }.
Lemma dd_line : forall cs L R l c, dd cs L R -> In l L -> In c cs -> sat c l.
Proof.
  intros cs L R l c D I J. unfold sat. assert (A : inC cs (lin2 1 (val l) 0 (val l))) by (apply (dd_gen _ _ _ D); apply gen_line; auto). assert (B : inC cs (lin2 (-1) (val l) 0 (val l))) by (apply (dd_gen _ _ _ D); apply gen_line; auto).
  specialize (A c J). specialize (B c J). apply holds_ge in A. apply holds_ge in B. rewrite dt_lin in A, B. lra.
Qed.
Lemma dd_ray_in : forall cs L R r, dd cs L R -> In r R -> inC cs (val r).
Proof. intros cs L R r D I. apply (dd_gen _ _ _ D). apply gen_ray; auto. Qed.
Lemma dd_line_in : forall cs L R l k, dd cs L R -> In l L -> inC cs (lin2 k (val l) 0 (val l)).
Proof. intros cs L R r k D I. apply (dd_gen _ _ _ D). apply gen_line; auto. Qed.

(** number of constraints which are not saturated *)
Definition satb (c : kcon) (x : vec) : bool := if Req_EM_T (dt (fst c) x) 0 then true else false.
Lemma satb_iff : forall c x, satb c x = true <-> dt (fst c) x = 0.
Proof. intros. unfold satb. destruct (Req_EM_T _ _); split; auto; discriminate. Qed.
Definition unsat (cs : list kcon) (x : vec) : nat := length (filter (fun c => negb (satb c x)) cs).
Lemma unsat_lt : forall cs x y, (forall c, In c cs -> dt (fst c) x = 0 -> dt (fst c) y = 0) -> (exists c, In c cs /\ dt (fst c) x <> 0 /\ dt (fst c) y = 0) -> (unsat cs y < unsat cs x)%nat.
Proof.
  unfold unsat. assert (LE : forall cs x y, (forall c, In c cs -> dt (fst c) x = 0 -> dt (fst c) y = 0) -> (length (filter (fun c => negb (satb c y)) cs) <= length (filter (fun c => negb (satb c x)) cs))%nat).
  { induction cs as [|c q IH]; simpl; intros x y H; auto. specialize (IH x y (fun c I => H c (or_intror I))). destruct (satb c x) eqn:E; simpl.
    - apply satb_iff in E. replace (satb c y) with true by (symmetry; apply satb_iff; auto). simpl. auto.
    - destruct (satb c y); simpl; lia. }
  induction cs as [|c q IH]; simpl; intros x y H (c0 & I & NX & Y). tauto. destruct I as [<-|I].
  - replace (satb c x) with false by (symmetry; apply not_true_iff_false; rewrite satb_iff; auto). replace (satb c y) with true by (symmetry; apply satb_iff; auto). simpl. specialize (LE q x y (fun c I => H c (or_intror I))). lia.
  - assert (K := IH x y (fun c I => H c (or_intror I)) (ex_intro _ c0 (conj I (conj NX Y)))). destruct (satb c x) eqn:E; simpl.
    + apply satb_iff in E. replace (satb c y) with true by (symmetry; apply satb_iff; auto). simpl. auto.
    + destruct (satb c y); simpl; lia.
Qed.
(** go from x in the direction d until one more constraint is saturated *)
Lemma peel : forall cs x d, inC cs x -> (forall c, In c cs -> dt (fst c) x = 0 -> dt (fst c) d = 0) -> (exists c, In c cs /\ dt (fst c) d < 0) ->
  exists t, 0 < t /\ inC cs (lin2 1 x t d) /\ (unsat cs (lin2 1 x t d) < unsat cs x)%nat /\ (forall c, In c cs -> dt (fst c) x = 0 -> dt (fst c) (lin2 1 x t d) = 0).
Proof.
  intros cs x d C S E.
  assert (T0 : exists t c, 0 < t /\ In c cs /\ dt (fst c) x <> 0 /\ dt (fst c) x + t * dt (fst c) d = 0 /\ forall c, In c cs -> dt (fst c) d < 0 -> 0 <= dt (fst c) x + t * dt (fst c) d).
  { destruct E as (c0 & I0 & N0).
    assert (P : forall c, In c cs -> dt (fst c) d < 0 -> 0 < dt (fst c) x). { intros c I N. pose proof (holds_ge _ _ (C c I)). destruct (Req_dec (dt (fst c) x) 0) as [Z|Z]. rewrite (S c I Z) in N. lra. lra. }
    assert (M : forall l, incl l cs -> exists t c, 0 < t /\ In c cs /\ dt (fst c) x <> 0 /\ dt (fst c) x + t * dt (fst c) d = 0 /\ forall c, In c l -> dt (fst c) d < 0 -> 0 <= dt (fst c) x + t * dt (fst c) d).
    { induction l as [|c q IH]; intros I.
      - pose proof (P c0 I0 N0) as P0. exists (dt (fst c0) x / - dt (fst c0) d), c0. split. apply Rdiv_lt_0_compat; lra. split; auto. split; [lra|]. split; [field; lra|]. intros c [].
      - destruct IH as (t & c1 & A1 & A2 & A3 & A4 & A5). intros z Z; apply I; right; auto. destruct (Rlt_dec (dt (fst c) d) 0) as [N|N]. 2: { exists t, c1. repeat split; auto. intros c' [<-|J] K; [lra|auto]. }
        destruct (Rle_dec 0 (dt (fst c) x + t * dt (fst c) d)) as [G|G]. { exists t, c1. repeat split; auto. intros c' [<-|J] K; auto. }
        pose proof (P c (I c (or_introl eq_refl)) N) as PC. exists (dt (fst c) x / - dt (fst c) d), c. split. apply Rdiv_lt_0_compat; lra. split; [apply I; left; auto|]. split; [lra|]. split; [field; lra|].
        assert (LT : dt (fst c) x / - dt (fst c) d < t). { apply (Rmult_lt_reg_r (- dt (fst c) d)); [lra|]. unfold Rdiv. rewrite Rmult_assoc, Rinv_l by lra. lra. } set (u := dt (fst c) x / - dt (fst c) d) in *. assert (UE : dt (fst c) x + u * dt (fst c) d = 0) by (unfold u; field; lra).
        intros c' [<-|J] K. lra. specialize (A5 c' J K). nra. }
    destruct (M cs (incl_refl _)) as (t & c & H). exists t, c. auto. }
  destruct T0 as (t & c1 & A1 & A2 & A3 & A4 & A5). exists t. split; auto. assert (K : forall c, In c cs -> dt (fst c) x = 0 -> dt (fst c) (lin2 1 x t d) = 0) by (intros c I Z; rewrite dt_lin, Z, (S c I Z); ring). split; [|split; auto].
  - intros c I. unfold holds. pose proof (C c I) as H. unfold holds in H. destruct (snd c); auto. rewrite dt_lin. destruct (Rlt_dec (dt (fst c) d) 0). specialize (A5 c I r). lra. nra.
  - apply unsat_lt; auto. exists c1. split; auto. split; auto. rewrite dt_lin. lra.
Qed.

(** *** A new constraint saturated by all the lines *)
Section Step.
Variables (cs : list kcon) (L R : list T) (a : kcon).
Hypothesis D : dd cs L R.
Hypothesis AL : forall l, In l L -> sat a l.
Notation sg r := (dt (fst a) (val r)).
Variable keep : T -> T -> Prop.
(** two rays which are not kept: a third one saturates the constraints saturated by both *)
Hypothesis K1 : forall r1 r2, In r1 R -> In r2 R -> 0 < sg r1 -> sg r2 < 0 -> keep r1 r2 \/ exists r3, In r3 R /\ r3 <> r1 /\ r3 <> r2 /\ forall c, In c cs -> sat c r1 -> sat c r2 -> sat c r3.
Variable N : list T.
Definition comb (p r1 r2 : T) : Prop := exists u v, 0 < u /\ 0 < v /\ veq (val p) (lin2 u (val r1) v (val r2)) /\ sg p = 0.
Hypothesis N1 : forall p, In p N -> exists r1 r2, In r1 R /\ In r2 R /\ 0 < sg r1 /\ sg r2 < 0 /\ comb p r1 r2.
Hypothesis N2 : forall r1 r2, In r1 R -> In r2 R -> 0 < sg r1 -> sg r2 < 0 -> keep r1 r2 -> exists p, In p N /\ comb p r1 r2.
Variable R0 : list T.
Hypothesis Z0 : forall r, In r R0 <-> In r R /\ sg r = 0.
Lemma zero_gen : forall m x, (unsat cs x <= m)%nat -> inC cs x -> dt (fst a) x = 0 -> gen L (R0 ++ N) x.
Proof.
  assert (RI : forall r, In r R -> inC cs (val r)) by (intros; eapply dd_ray_in; eauto).
  induction m as [m IH] using lt_wf_ind. intros x U C A. destruct (gen_used L R x (proj1 (dd_gen _ _ _ D x) C)) as (R' & I & G & H).
  assert (GC : forall y, gen L R' y -> inC cs y). { intros y Y. apply (dd_gen _ _ _ D). apply gen_mono with L R'; auto. apply incl_refl. }
  assert (ST : forall r c, In r R' -> In c cs -> dt (fst c) x = 0 -> dt (fst c) (val r) = 0).
  { intros r c Ir Ic Z. destruct (H r Ir) as (k & y & K & Gy & E). pose proof (holds_ge _ _ (GC y Gy c Ic)) as P1. pose proof (holds_ge _ _ (RI r (I r Ir) c Ic)) as P2. rewrite (dt_ext _ _ _ E), dt_lin in Z. nra. }
  (* peeling *)
  assert (PE : forall d, (forall c, In c cs -> dt (fst c) x = 0 -> dt (fst c) d = 0) -> (exists c, In c cs /\ dt (fst c) d < 0) -> dt (fst a) d = 0 -> exists t, 0 < t /\ gen L (R0 ++ N) (lin2 1 x t d)).
  { intros d S E Z. destruct (peel cs x d C S E) as (t & T1 & T2 & T3 & _). exists t. split; auto. apply (IH (unsat cs (lin2 1 x t d))); auto. lia. rewrite dt_lin, A, Z. ring. }
  (* remove a part which is generated *)
  assert (PP : forall p, (forall c, In c cs -> dt (fst c) x = 0 -> dt (fst c) p = 0) -> (exists c, In c cs /\ 0 < dt (fst c) p) -> dt (fst a) p = 0 -> gen L (R0 ++ N) p -> gen L (R0 ++ N) x).
  { intros p S (c & Ic & P) Z GP. destruct (PE (lin2 (-1) p 0 p)) as (t & T1 & T2). intros c' I' Z'. rewrite dt_lin, (S c' I' Z'). ring. exists c. split; auto. rewrite dt_lin. lra. rewrite dt_lin, Z. ring.
    apply gen_ext with (lin2 1 (lin2 1 x t (lin2 (-1) p 0 p)) t p). apply gen_lin; auto; lra. intros i Hi. unfold lin2. ring. }
  assert (PD : forall d, (forall c, In c cs -> dt (fst c) x = 0 -> dt (fst c) d = 0) -> (exists c, In c cs /\ dt (fst c) d < 0) -> (exists c, In c cs /\ 0 < dt (fst c) d) -> dt (fst a) d = 0 -> gen L (R0 ++ N) x).
  { intros d S E1 (c & Ic & P) Z. destruct (PE d S E1 Z) as (t & T1 & T2). destruct (PE (lin2 (-1) d 0 d)) as (u & U1 & U2). intros c' I' Z'. rewrite dt_lin, (S c' I' Z'). ring. exists c. split; auto. rewrite dt_lin. lra. rewrite dt_lin, Z. ring.
    apply gen_ext with (lin2 (u / (t + u)) (lin2 1 x t d) (t / (t + u)) (lin2 1 x u (lin2 (-1) d 0 d))). apply gen_lin; auto; apply Rlt_le, Rdiv_lt_0_compat; lra. intros i Hi. unfold lin2. field. lra. }
  assert (PR : forall r, In r R' -> sg r = 0 -> gen L (R0 ++ N) x \/ True) by auto. clear PR.
  assert (CASE : (forall r, In r R' -> sg r = 0) \/ exists r, In r R' /\ sg r <> 0). { clear - R'. induction R' as [|r q IHq]. left; intros r []. destruct (Req_dec (sg r) 0) as [E|E]. destruct IHq as [F|(s & F & Q)]. left. intros s [<-|F']; auto. right; exists s; simpl; auto. right; exists r; simpl; auto. }
  destruct CASE as [AZ|(r & Ir & NZ)].
  { apply gen_mono with L R'; auto. apply incl_refl. intros r J. apply in_app_iff. left. apply Z0. auto. }
  assert (SGN : forall s, s = 1 \/ s = -1 -> (forall r, In r R' -> 0 <= s * sg r) -> forall r, In r R' -> sg r = 0).
  { intros s Sv F q Iq. destruct (H q Iq) as (k & y & K & Gy & E). assert (Y : 0 <= s * dt (fst a) y). { assert (Q : holds (lin2 s (fst a) 0 (fst a), false) y). { apply gen_holds with L R'; auto. intros l Il. simpl. rewrite dt_sym, dt_lin, dt_sym. rewrite (AL l Il). ring. intros q' Iq'. unfold holds. simpl. rewrite dt_sym, dt_lin, dt_sym. specialize (F q' Iq'). lra. } unfold holds in Q. simpl in Q. rewrite dt_sym, dt_lin, dt_sym in Q. lra. }
    rewrite (dt_ext _ _ _ E), dt_lin in A. specialize (F q Iq). destruct Sv as [-> | ->]; nra. }
  assert (EX : forall s, s = 1 \/ s = -1 -> exists q, In q R' /\ s * sg q < 0). { intros s Sv. assert (W : (forall q, In q R' -> 0 <= s * sg q) \/ exists q, In q R' /\ s * sg q < 0). { clear. induction R' as [|q l IHq]. left; intros q []. destruct (Rlt_dec (s * sg q) 0). right; exists q; simpl; auto. destruct IHq as [F|(w & F & Q)]. left. intros w [<-|F']; auto. lra. right; exists w; simpl; auto. }
    destruct W as [W|W]; auto. exfalso. apply NZ. apply (SGN s Sv W); auto. }
  destruct (EX 1 (or_introl eq_refl)) as (r2 & I2 & S2). destruct (EX (-1) (or_intror eq_refl)) as (r1 & I1 & S1).
  assert (P1 : 0 < sg r1) by lra. assert (P2 : sg r2 < 0) by lra. clear S1 S2.
  assert (INS : forall r, In r R -> exists c, In c cs /\ 0 < dt (fst c) (val r)). { intros q Iq. destruct (dd_ray _ _ _ D q Iq) as (c & Ic & U'). exists c. split; auto. pose proof (holds_ge _ _ (RI q Iq c Ic)). unfold sat in U'. lra. }
  destruct (K1 r1 r2 (I _ I1) (I _ I2) P1 P2) as [KP|(r3 & I3 & D31 & D32 & S3)].
  - destruct (N2 r1 r2 (I _ I1) (I _ I2) P1 P2 KP) as (p & Ip & u & v & Pu & Pv & E & Zp). apply (PP (val p)); auto.
    + intros c Ic Z. rewrite (dt_ext _ _ _ E), dt_lin, (ST r1 c I1 Ic Z), (ST r2 c I2 Ic Z). ring.
    + destruct (INS r1 (I _ I1)) as (c & Ic & Q). exists c. split; auto. rewrite (dt_ext _ _ _ E), dt_lin. pose proof (holds_ge _ _ (RI r2 (I _ I2) c Ic)). nra.
    + apply gen_ray. apply in_app_iff; auto.
  - assert (S3' : forall c, In c cs -> dt (fst c) x = 0 -> dt (fst c) (val r3) = 0) by (intros c Ic Z; apply S3; auto; apply ST; auto).
    destruct (Rtotal_order (sg r3) 0) as [Q|[Q|Q]].
    + apply (PD (lin2 (- sg r3) (val r2) (sg r2) (val r3))).
      * intros c Ic Z. rewrite dt_lin, (ST r2 c I2 Ic Z), (S3' c Ic Z). ring.
      * destruct (dd_irr _ _ _ D r2 r3 (I _ I2) I3 (not_eq_sym D32)) as (c & Ic & Z2 & Z3). exists c. split; auto. rewrite dt_lin, Z2. pose proof (holds_ge _ _ (RI r3 I3 c Ic)). unfold sat in Z3. nra.
      * destruct (dd_irr _ _ _ D r3 r2 I3 (I _ I2) D32) as (c & Ic & Z2 & Z3). exists c. split; auto. rewrite dt_lin, Z2. pose proof (holds_ge _ _ (RI r2 (I _ I2) c Ic)). unfold sat in Z3. nra.
      * rewrite dt_lin. ring.
    + destruct (INS r3 I3) as (c & Ic & P3). apply (PP (val r3) S3' (ex_intro _ c (conj Ic P3)) Q). apply gen_ray. apply in_app_iff. left. apply Z0. auto.
    + apply (PD (lin2 (sg r3) (val r1) (- sg r1) (val r3))).
      * intros c Ic Z. rewrite dt_lin, (ST r1 c I1 Ic Z), (S3' c Ic Z). ring.
      * destruct (dd_irr _ _ _ D r1 r3 (I _ I1) I3 (not_eq_sym D31)) as (c & Ic & Z2 & Z3). exists c. split; auto. rewrite dt_lin, Z2. pose proof (holds_ge _ _ (RI r3 I3 c Ic)). unfold sat in Z3. nra.
      * destruct (dd_irr _ _ _ D r3 r1 I3 (I _ I1) D31) as (c & Ic & Z2 & Z3). exists c. split; auto. rewrite dt_lin, Z2. pose proof (holds_ge _ _ (RI r1 (I _ I1) c Ic)). unfold sat in Z3. nra.
      * rewrite dt_lin. ring.
Qed.
(** the generators of the new cone *)
Variable Rp : list T.
Hypothesis Zp : forall r, In r Rp <-> In r R /\ 0 < sg r.
Lemma gen_le : forall s L' R' x, (forall l, In l L' -> dt (fst a) (val l) = 0) -> (forall r, In r R' -> 0 <= s * sg r) -> gen L' R' x -> 0 <= s * dt (fst a) x.
Proof.
  intros s L' R' x HL HR G. assert (Q : holds (lin2 s (fst a) 0 (fst a), false) x). { apply gen_holds with L' R'; auto. intros l Il. simpl. rewrite dt_sym, dt_lin, dt_sym. rewrite (HL l Il). ring. intros q' Iq'. unfold holds. simpl. rewrite dt_sym, dt_lin, dt_sym. specialize (HR q' Iq'). lra. }
  unfold holds in Q. simpl in Q. rewrite dt_sym, dt_lin, dt_sym in Q. lra.
Qed.
Definition newR : list T := R0 ++ (if snd a then [] else Rp) ++ N.
Lemma step_gen : forall x, inC (cs ++ [a]) x <-> gen L newR x.
Proof.
  intros x. unfold newR. split.
  - intros C. assert (C1 : inC cs x) by (intros c I; apply C; apply in_app_iff; auto). assert (A : holds a x) by (apply C; apply in_app_iff; simpl; auto). unfold holds in A. destruct (snd a) eqn:EQ.
    + simpl. apply zero_gen with (unsat cs x); auto.
    + (* split x into the three signs *)
      assert (S : exists u w, gen L (R0 ++ Rp) u /\ gen L (filter (fun r => if Rlt_dec (sg r) 0 then true else false) R) w /\ veq x (lin2 1 u 1 w)).
      { apply (dd_gen _ _ _ D) in C1. clear C A. induction C1 as [y Z|y l m z K IH I E|y r m z K IH I Q E].
        - exists (fun _ => 0), (fun _ => 0). split. apply gen_0; auto. split. apply gen_0; auto. intros i Hi. unfold lin2. rewrite Z by auto. ring.
        - destruct IH as (u & w & U & W & X). exists (lin2 1 u m (val l)), w. split. eapply gen_l; eauto. intros i Hi; auto. split; auto. intros i Hi. rewrite E by auto. unfold lin2. rewrite X by auto. unfold lin2. ring.
        - destruct IH as (u & w & U & W & X). destruct (Rlt_dec (sg r) 0) as [N0|N0].
          + exists u, (lin2 1 w m (val r)). split; auto. split. eapply gen_r; [exact W| |exact Q|intros i Hi; auto]. apply filter_In. split; auto. destruct (Rlt_dec (sg r) 0); auto. intros i Hi. rewrite E by auto. unfold lin2. rewrite X by auto. unfold lin2. ring.
          + exists (lin2 1 u m (val r)), w. split. eapply gen_r; [exact U| |exact Q|intros i Hi; auto]. apply in_app_iff. destruct (Req_dec (sg r) 0). left; apply Z0; auto. right; apply Zp; split; auto; lra. split; auto. intros i Hi. rewrite E by auto. unfold lin2. rewrite X by auto. unfold lin2. ring. }
      destruct S as (u & w & U & W & X). assert (WL : dt (fst a) w <= 0). { assert (Q : 0 <= (-1) * dt (fst a) w). { apply gen_le with L (filter (fun r => if Rlt_dec (sg r) 0 then true else false) R); auto. intros r I. apply filter_In in I. destruct I as [_ I]. destruct (Rlt_dec (sg r) 0); [lra|discriminate]. } lra. }
      assert (UL : 0 <= dt (fst a) u). { assert (Q : 0 <= 1 * dt (fst a) u). { apply gen_le with L (R0 ++ Rp); auto. intros r I. apply in_app_iff in I. destruct I as [I|I]; [apply Z0 in I|apply Zp in I]; lra. } lra. }
      rewrite (dt_ext _ _ _ X), dt_lin in A. assert (UC : inC cs u). { apply (dd_gen _ _ _ D). apply gen_mono with L (R0 ++ Rp); auto. apply incl_refl. intros r I. apply in_app_iff in I. destruct I as [I|I]; [apply Z0 in I|apply Zp in I]; tauto. }
      assert (WC : inC cs w). { apply (dd_gen _ _ _ D). apply gen_mono with L (filter (fun r => if Rlt_dec (sg r) 0 then true else false) R); auto. apply incl_refl. intros r I. apply filter_In in I. tauto. }
      assert (MG : forall y, gen L (R0 ++ N) y -> gen L (R0 ++ Rp ++ N) y). { intros y. apply gen_mono. apply incl_refl. intros r I. rewrite !in_app_iff in *. tauto. }
      assert (MU : gen L (R0 ++ Rp ++ N) u). { apply gen_mono with L (R0 ++ Rp); auto. apply incl_refl. intros r I. rewrite !in_app_iff in *. tauto. }
      assert (LC : forall k y z, 0 <= k -> inC cs y -> inC cs z -> inC cs (lin2 k y 1 z)). { intros k y z Hk Y Z c Ic. specialize (Y c Ic). specialize (Z c Ic). unfold holds in *. rewrite dt_lin. destruct (snd c). rewrite Y, Z; ring. nra. }
      destruct (Req_dec (dt (fst a) w) 0) as [E|E].
      * apply gen_ext with (lin2 1 u 1 w); auto. apply gen_add; auto. apply MG. apply zero_gen with (unsat cs w); auto.
      * set (k := - dt (fst a) w / dt (fst a) u). assert (DU : 0 < dt (fst a) u) by lra. assert (Kp : 0 <= k <= 1). { unfold k. split. apply Rlt_le, Rdiv_lt_0_compat; lra. apply (Rmult_le_reg_r (dt (fst a) u)); auto. unfold Rdiv. rewrite Rmult_assoc, Rinv_l by lra. lra. }
        apply gen_ext with (lin2 (1 - k) u 1 (lin2 k u 1 w)). apply gen_lin; auto; try lra. apply MG. apply zero_gen with (unsat cs (lin2 k u 1 w)); auto. apply LC; auto; lra. rewrite dt_lin. unfold k. field. lra. intros i Hi. rewrite X by auto. unfold lin2. ring.
  - intros G c I. apply gen_holds with L (R0 ++ (if snd a then [] else Rp) ++ N); auto.
    + intros l Il. apply in_app_iff in I. destruct I as [I|[<-|[]]]. eapply dd_line; eauto. apply AL; auto.
    + intros r Ir. rewrite !in_app_iff in Ir. apply in_app_iff in I. destruct Ir as [Ir|[Ir|Ir]].
      * apply Z0 in Ir. destruct Ir as [Ir Z]. destruct I as [I|[<-|[]]]. apply (dd_ray_in _ _ _ _ D Ir c I). unfold holds. destruct (snd a); lra.
      * destruct (snd a) eqn:EQ; [destruct Ir|]. apply Zp in Ir. destruct Ir as [Ir Z]. destruct I as [I|[<-|[]]]. apply (dd_ray_in _ _ _ _ D Ir c I). unfold holds. rewrite EQ. lra.
      * destruct (N1 r Ir) as (r1 & r2 & I1 & I2 & P1 & P2 & u & v & Pu & Pv & E & Z). destruct I as [I|[<-|[]]]. 2: unfold holds; destruct (snd a); lra.
        pose proof (dd_ray_in _ _ _ _ D I1 c I) as H1. pose proof (dd_ray_in _ _ _ _ D I2 c I) as H2. unfold holds in *. rewrite (dt_ext _ _ _ E), dt_lin. destruct (snd c). rewrite H1, H2; ring. nra.
Qed.
(** the new rays come from different pairs of adjacent rays *)
Variable P : list (T * T).
Variable g : T * T -> T.
Hypothesis NP : N = map g P.
Hypothesis PN : NoDup P.
Hypothesis PG : forall r1 r2, In (r1, r2) P -> In r1 R /\ In r2 R /\ 0 < sg r1 /\ sg r2 < 0 /\ comb (g (r1, r2)) r1 r2.
Hypothesis PA : forall r1 r2 r3, In (r1, r2) P -> In r3 R -> r3 <> r1 -> r3 <> r2 -> exists c, In c cs /\ sat c r1 /\ sat c r2 /\ ~ sat c r3.
Hypothesis ND0 : NoDup R0.
Hypothesis NDp : NoDup Rp.
Lemma comb_sat : forall p r1 r2 c, In r1 R -> In r2 R -> In c cs -> comb p r1 r2 -> (sat c p <-> sat c r1 /\ sat c r2).
Proof.
  intros p r1 r2 c I1 I2 Ic (u & v & Pu & Pv & E & Z). unfold sat. rewrite (dt_ext _ _ _ E), dt_lin. pose proof (holds_ge _ _ (dd_ray_in _ _ _ _ D I1 c Ic)). pose proof (holds_ge _ _ (dd_ray_in _ _ _ _ D I2 c Ic)). split. intros H1. split; nra. intros [-> ->]. ring.
Qed.
Lemma newR_cases : forall r, In r newR -> (In r R /\ (sg r = 0 \/ 0 < sg r /\ snd a = false)) \/ exists r1 r2, In (r1, r2) P /\ r = g (r1, r2).
Proof.
  intros r I. unfold newR in I. rewrite !in_app_iff in I. destruct I as [I|[I|I]]. left. apply Z0 in I. tauto. left. destruct (snd a); [destruct I|]. apply Zp in I. tauto.
  right. rewrite NP in I. apply in_map_iff in I. destruct I as ([r1 r2] & <- & I). eauto.
Qed.
(** a new ray is different from the old ones, and from those of another pair *)
Lemma new_old : forall r1 r2 r, In (r1, r2) P -> In r R -> (sg r = 0 \/ 0 < sg r) -> (exists c, In c (cs ++ [a]) /\ sat c (g (r1, r2)) /\ ~ sat c r) /\ (exists c, In c (cs ++ [a]) /\ sat c r /\ ~ sat c (g (r1, r2))).
Proof.
  intros r1 r2 r Ip Ir Hr. destruct (PG r1 r2 Ip) as (I1 & I2 & P1 & P2 & C). pose proof C as C'. destruct C' as (u & v & Pu & Pv & E & Z). assert (N2' : r <> r2) by (intros ->; lra). split.
  - destruct Hr as [Hr|Hr].
    + destruct (PA r1 r2 r Ip Ir) as (c & Ic & S1 & S2 & S3); auto. intros ->; lra. exists c. split. apply in_app_iff; auto. split; auto. apply (comb_sat _ r1 r2); auto.
    + exists a. split. apply in_app_iff; simpl; auto. split; auto. unfold sat. lra.
  - destruct (dd_irr _ _ _ D r r2 Ir I2 N2') as (c & Ic & S1 & S2). exists c. split. apply in_app_iff; auto. split; auto. intros H. apply (comb_sat _ r1 r2) in H; auto. tauto.
Qed.
Lemma new_new : forall r1 r2 s1 s2, In (r1, r2) P -> In (s1, s2) P -> (r1, r2) <> (s1, s2) -> exists c, In c (cs ++ [a]) /\ sat c (g (r1, r2)) /\ ~ sat c (g (s1, s2)).
Proof.
  intros r1 r2 s1 s2 Ip Is NE. destruct (PG r1 r2 Ip) as (I1 & I2 & P1 & P2 & C). destruct (PG s1 s2 Is) as (J1 & J2 & Q1 & Q2 & C').
  destruct (Tdec s1 r1) as [->|N1']. destruct (Tdec s2 r2) as [->|N2']. tauto.
  - destruct (PA r1 r2 s2 Ip J2) as (c & Ic & S1 & S2 & S3); auto. intros ->; lra. exists c. split. apply in_app_iff; auto. split. apply (comb_sat _ r1 r2); auto. intros H. apply (comb_sat _ r1 s2) in H; auto. tauto.
  - destruct (PA r1 r2 s1 Ip J1) as (c & Ic & S1 & S2 & S3); auto. intros ->; lra. exists c. split. apply in_app_iff; auto. split. apply (comb_sat _ r1 r2); auto. intros H. apply (comb_sat _ s1 s2) in H; auto. tauto.
Qed.
Lemma NoDup_app' : forall A (l m : list A), NoDup l -> NoDup m -> (forall x, In x l -> In x m -> False) -> NoDup (l ++ m).
Proof. intros A l m H K Dj. induction H as [|x l NI H IH]; simpl; auto. constructor. rewrite in_app_iff. intros [J|J]; auto. apply (Dj x); simpl; auto. apply IH. intros y Y Z. apply (Dj y); simpl; auto. Qed.
Theorem step_dd : dd (cs ++ [a]) L newR.
Proof.
  constructor.
  - apply step_gen.
  - intros r r' I I' NE. apply newR_cases in I. apply newR_cases in I'. destruct I as [[I Si]|(r1 & r2 & Ip & ->)], I' as [[I' Si']|(s1 & s2 & Is & ->)].
    + destruct (dd_irr _ _ _ D r r' I I' NE) as (c & Ic & H). exists c. split; auto. apply in_app_iff; auto.
    + apply new_old; auto. tauto.
    + apply new_old; auto. tauto.
    + apply new_new; auto. congruence.
  - intros r I. apply newR_cases in I. destruct I as [[I Si]|(r1 & r2 & Ip & ->)].
    + destruct (dd_ray _ _ _ D r I) as (c & Ic & H). exists c. split; auto. apply in_app_iff; auto.
    + destruct (PG r1 r2 Ip) as (I1 & I2 & P1 & P2 & C). destruct (dd_ray _ _ _ D r1 I1) as (c & Ic & H). exists c. split. apply in_app_iff; auto. intros S. apply (comb_sat _ r1 r2) in S; auto. tauto.
  - unfold newR. apply NoDup_app'; auto. apply NoDup_app'.
    + destruct (snd a); auto. constructor.
    + rewrite NP. assert (Q : forall l, incl l P -> NoDup l -> NoDup (map g l)). { induction l as [|[r1 r2] q IH]; intros J ND; simpl. constructor. inversion ND; subst. constructor. 2: { apply IH; auto. intros z Z; apply J; right; auto. } intros X. apply in_map_iff in X. destruct X as ([s1 s2] & E & X). destruct (new_new r1 r2 s1 s2) as (c & Ic & S1 & S2). apply J; left; auto. apply J; right; auto. intros K; rewrite K in H1; auto. apply S2. rewrite E. auto. } apply Q; auto. apply incl_refl.
    + intros x X Y. destruct (snd a); [destruct X|]. apply Zp in X. rewrite NP in Y. apply in_map_iff in Y. destruct Y as ([r1 r2] & <- & Y). destruct (PG r1 r2 Y) as (_ & _ & _ & _ & u & v & _ & _ & _ & Z). destruct X as [_ X]. lra.
    + intros x X Y. apply Z0 in X. apply in_app_iff in Y. destruct Y as [Y|Y]. destruct (snd a); [destruct Y|]. apply Zp in Y. lra. rewrite NP in Y. apply in_map_iff in Y. destruct Y as ([r1 r2] & <- & Y).
      destruct (new_old r1 r2 (g (r1, r2)) Y) as ((c & Ic & S1 & S2) & _). tauto. tauto. apply S2; auto.
Qed.
End Step.

(** *** A new constraint not saturated by the line l0 *)
Section Line.
Variables (cs : list kcon) (L R : list T) (a : kcon) (l0 : T) (l0' : T).
Hypothesis D : dd cs (l0 :: L) R.
Notation sg r := (dt (fst a) (val r)).
Hypothesis A0 : sg l0 <> 0.
(** the oriented line *)
Hypothesis O0 : exists k, veq (val l0') (lin2 k (val l0) 0 (val l0)).
Hypothesis O1 : 0 < sg l0'.
Variables (fl fr : T -> T).
(** lines and rays projected on the hyperplane along l0 *)
Hypothesis FL : forall l, In l L -> sg (fl l) = 0 /\ exists u v, u <> 0 /\ veq (val (fl l)) (lin2 u (val l) v (val l0')).
Hypothesis FR : forall r, In r R -> sg (fr r) = 0 /\ exists u v, 0 < u /\ veq (val (fr r)) (lin2 u (val r) v (val l0')).
Lemma O0k : exists k, k <> 0 /\ veq (val l0') (lin2 k (val l0) 0 (val l0)).
Proof. destruct O0 as (k & E). exists k. split; auto. intros ->. rewrite (dt_ext _ _ _ E), dt_lin in O1. lra. Qed.
Lemma l0_sat : forall c, In c cs -> sat c l0'.
Proof. intros c I. destruct O0 as (k & E). unfold sat. rewrite (dt_ext _ _ _ E), dt_lin. rewrite (dd_line _ _ _ l0 c D (or_introl eq_refl) I). ring. Qed.
Lemma fr_sat : forall r c, In r R -> In c cs -> (sat c (fr r) <-> sat c r).
Proof. intros r c I Ic. destruct (FR r I) as (_ & u & v & U & E). unfold sat. rewrite (dt_ext _ _ _ E), dt_lin, (l0_sat c Ic). split; intros H; [nra|rewrite H; ring]. Qed.
Definition lineR : list T := if snd a then map fr R else l0' :: map fr R.
Lemma line_gen : forall x, inC (cs ++ [a]) x <-> gen (map fl L) lineR x.
Proof.
  intros x. split.
  - intros C. assert (C1 : inC cs x) by (intros c I; apply C; apply in_app_iff; auto). assert (A : holds a x) by (apply C; apply in_app_iff; simpl; auto).
    assert (S : exists k y, gen (map fl L) (map fr R) y /\ veq x (lin2 1 y k (val l0'))).
    { destruct O0k as (k0 & K0 & E0). apply (dd_gen _ _ _ D) in C1. clear C A. induction C1 as [y Z|y l m z K IH I E|y r m z K IH I Q E].
      - exists 0, (fun _ => 0). split. apply gen_0; auto. intros i Hi. unfold lin2. rewrite Z by auto. ring.
      - destruct IH as (k & w & W & X). destruct I as [<-|I].
        + exists (k + m / k0), w. split; auto. intros i Hi. rewrite E by auto. unfold lin2. rewrite X by auto. unfold lin2. rewrite E0 by auto. unfold lin2. field. auto.
        + destruct (FL l I) as (_ & u & v & U & F). exists (k - m * v / u), (lin2 1 w (m / u) (val (fl l))). split. eapply gen_l; [exact W|apply in_map; exact I|]. intros i Hi; auto. intros i Hi. rewrite E by auto. unfold lin2. rewrite X by auto. unfold lin2. rewrite F by auto. unfold lin2. field. auto.
      - destruct IH as (k & w & W & X). destruct (FR r I) as (_ & u & v & U & F). exists (k - m * v / u), (lin2 1 w (m / u) (val (fr r))). split. apply gen_r with w (fr r) (m / u); auto. apply in_map; auto. apply Rmult_le_pos; auto. apply Rlt_le, Rinv_0_lt_compat; auto. intros i Hi; auto.
        intros i Hi. rewrite E by auto. unfold lin2. rewrite X by auto. unfold lin2. rewrite F by auto. unfold lin2. field. lra. }
    destruct S as (k & y & Y & X). assert (YZ : dt (fst a) y = 0). { assert (Q : holds (fst a, true) y). { apply gen_holds with (map fl L) (map fr R); auto. intros l I. apply in_map_iff in I. destruct I as (q & <- & I). apply FL; auto. intros r I. apply in_map_iff in I. destruct I as (q & <- & I). unfold holds. simpl. apply FR; auto. } exact Q. }
    unfold holds in A. rewrite (dt_ext _ _ _ X), dt_lin, YZ in A. unfold lineR. destruct (snd a).
    + assert (k = 0) by (assert (k * sg l0' = 0) by lra; apply Rmult_integral in H; destruct H; auto; lra). subst. apply gen_ext with y; auto. intros i Hi. rewrite X by auto. unfold lin2. ring.
    + apply gen_r with y l0' k; auto. apply gen_mono with (map fl L) (map fr R); auto. apply incl_refl. intros r I; right; auto. left; auto. nra.
  - intros G c I. apply gen_holds with (map fl L) lineR; auto.
    + intros l Il. apply in_map_iff in Il. destruct Il as (q & <- & Iq). apply in_app_iff in I. destruct I as [I|[<-|[]]]. destruct (FL q Iq) as (_ & u & v & U & E). rewrite (dt_ext _ _ _ E), dt_lin, (l0_sat c I). rewrite (dd_line _ _ _ q c D (or_intror Iq) I). ring. apply FL; auto.
    + intros r Ir. assert (Q : In r (map fr R) \/ snd a = false /\ r = l0'). { unfold lineR in Ir. destruct (snd a); auto. destruct Ir; auto. } destruct Q as [Q|[EQ ->]].
      * apply in_map_iff in Q. destruct Q as (q & <- & Iq). apply in_app_iff in I. destruct I as [I|[<-|[]]]. 2: { unfold holds. destruct (FR q Iq) as [-> _]. destruct (snd a); lra. } destruct (FR q Iq) as (_ & u & v & U & E). pose proof (dd_ray_in _ _ _ q D Iq c I) as H. unfold holds in *. rewrite (dt_ext _ _ _ E), dt_lin, (l0_sat c I). destruct (snd c). rewrite H; ring. nra.
      * apply in_app_iff in I. destruct I as [I|[<-|[]]]. unfold holds. rewrite (l0_sat c I). destruct (snd c); lra. unfold holds. rewrite EQ. lra.
Qed.
Theorem line_dd : dd (cs ++ [a]) (map fl L) lineR.
Proof.
  assert (CASE : forall r, In r lineR -> (exists q, In q R /\ r = fr q) \/ snd a = false /\ r = l0'). { intros r Ir. unfold lineR in Ir. destruct (snd a). left. apply in_map_iff in Ir. destruct Ir as (q & <- & I). eauto. destruct Ir as [<-|Ir]; auto. left. apply in_map_iff in Ir. destruct Ir as (q & <- & I). eauto. }
  constructor.
  - apply line_gen.
  - intros r r' I I' NE. apply CASE in I. apply CASE in I'. destruct I as [(q & Iq & ->)|[EQ ->]], I' as [(q' & Iq' & ->)|[EQ' ->]].
    + destruct (dd_irr _ _ _ D q q' Iq Iq') as (c & Ic & S1 & S2). congruence. exists c. split. apply in_app_iff; auto. split. apply fr_sat; auto. intros H. apply S2. apply fr_sat; auto.
    + exists a. split. apply in_app_iff; simpl; auto. split. apply FR; auto. unfold sat. lra.
    + destruct (dd_ray _ _ _ D q' Iq') as (c & Ic & S). exists c. split. apply in_app_iff; auto. split. apply l0_sat; auto. intros H. apply S. apply fr_sat; auto.
    + tauto.
  - intros r I. apply CASE in I. destruct I as [(q & Iq & ->)|[EQ ->]].
    + destruct (dd_ray _ _ _ D q Iq) as (c & Ic & S). exists c. split. apply in_app_iff; auto. intros H. apply S. apply fr_sat; auto.
    + exists a. split. apply in_app_iff; simpl; auto. unfold sat. lra.
  - assert (ND : NoDup (map fr R)). { assert (Q : forall l, incl l R -> NoDup l -> NoDup (map fr l)). { induction l as [|r q IH]; intros J ND; simpl. constructor. inversion ND; subst. constructor. 2: { apply IH; auto. intros z Z; apply J; right; auto. } intros X. apply in_map_iff in X. destruct X as (s & E & X).
        destruct (dd_irr _ _ _ D r s) as (c & Ic & S1 & S2). apply J; left; auto. apply J; right; auto. intros K; subst; auto. apply S2. apply fr_sat; auto. apply J; right; auto. rewrite E. apply fr_sat; auto. apply J; left; auto. } apply Q. apply incl_refl. apply (dd_nodup _ _ _ D). }
    unfold lineR. destruct (snd a); auto. constructor; auto. intros X. apply in_map_iff in X. destruct X as (q & E & Iq). destruct (FR q Iq) as [Z _]. rewrite E in Z. lra.
Qed.
End Line.

(** *** Counting: two rays which saturate few constraints together are not adjacent *)
Lemma few_common : forall cs L R r1 r2 (cm : list kcon), dd cs L R -> In r1 R -> In r2 R -> (forall c, In c cs -> sat c r1 -> sat c r2 -> In c cm) -> (forall c, In c cm -> In c cs /\ sat c r1 /\ sat c r2) -> (length cm + length L + 2 < n)%nat ->
  exists r3, In r3 R /\ r3 <> r1 /\ r3 <> r2 /\ forall c, In c cs -> sat c r1 -> sat c r2 -> sat c r3.
Proof.
  intros cs L R r1 r2 cm D I1 I2 CM CM' LT. destruct (solve n (map fst cm ++ map val L ++ [val r1; val r2])) as (v & (i0 & Hi0 & NV) & V). { rewrite !app_length. rewrite (map_length fst cm), (map_length val L). cbn [length]. clear - LT. unfold kcon in LT. lia. }
  assert (Vc : forall c, In c cm -> dt (fst c) v = 0). { intros c I. apply V. apply in_app_iff. left. apply in_map; auto. }
  assert (Vl : forall l, In l L -> dt (val l) v = 0). { intros l I. apply V. rewrite !in_app_iff. right; left. apply in_map; auto. }
  assert (V1 : dt (val r1) v = 0). { apply V. rewrite !in_app_iff. simpl. auto. } assert (V2 : dt (val r2) v = 0). { apply V. rewrite !in_app_iff. simpl. auto. }
  set (y := lin2 1 (val r1) 1 (val r2)).
  assert (YC : inC cs y) by (apply (dd_gen _ _ _ D); apply gen_add; apply gen_ray; auto).
  assert (YS : forall c, In c cs -> dt (fst c) y = 0 -> sat c r1 /\ sat c r2). { intros c Ic Z. pose proof (holds_ge _ _ (dd_ray_in _ _ _ _ D I1 c Ic)). pose proof (holds_ge _ _ (dd_ray_in _ _ _ _ D I2 c Ic)). unfold y in Z. rewrite dt_lin in Z. unfold sat. split; lra. }
  assert (EP : exists e, 0 < e /\ inC cs (lin2 1 y e v)).
  { assert (M : forall l, incl l cs -> exists e, 0 < e /\ forall c, In c l -> dt (fst c) y <> 0 -> 0 <= dt (fst c) y + e * dt (fst c) v /\ 0 <= dt (fst c) y).
    { induction l as [|c q IH]; intros I. exists 1. split; [lra|]. intros c []. destruct IH as (e & E & H). intros z Z; apply I; right; auto. pose proof (holds_ge _ _ (YC c (I c (or_introl eq_refl)))) as G.
      destruct (Rle_dec 0 (dt (fst c) y + e * dt (fst c) v)) as [Q|Q]. exists e. split; auto. intros c' [<-|J] K; auto.
      destruct (Req_dec (dt (fst c) y) 0) as [Z|Z]. { exists e. split; auto. intros c' [<-|J] K; [tauto|auto]. }
      set (k := dt (fst c) y / - dt (fst c) v). assert (NVc : dt (fst c) v < 0) by nra. assert (KP : 0 < k) by (apply Rdiv_lt_0_compat; lra). assert (KE : dt (fst c) y + k * dt (fst c) v = 0) by (unfold k; field; lra). assert (KL : k < e) by nra.
      exists k. split; auto. intros c' [<-|J] K. split; lra. destruct (H c' J K) as [H1 H2]. split; [|auto]. destruct (Rle_dec 0 (dt (fst c') v)); nra. }
    destruct (M cs (incl_refl _)) as (e & E & H). exists e. split; auto. intros c Ic. specialize (H c Ic). pose proof (YC c Ic) as G. destruct (Req_dec (dt (fst c) y) 0) as [Z|Z].
    - assert (Vz : dt (fst c) v = 0). { apply Vc. destruct (YS c Ic Z). apply CM; auto. } unfold holds. rewrite dt_lin, Z, Vz. destruct (snd c); lra.
    - unfold holds in *. destruct (snd c). tauto. rewrite dt_lin. destruct (H Z). lra. }
  destruct EP as (e & E & ZC). destruct (gen_used L R _ (proj1 (dd_gen _ _ _ D _) ZC)) as (R' & I & G & H).
  assert (OTH : (exists r3, In r3 R' /\ r3 <> r1 /\ r3 <> r2) \/ forall r, In r R' -> r = r1 \/ r = r2). { clear - Tdec. induction R' as [|r q IH]. right; intros r []. destruct (Tdec r r1) as [->|E1]. destruct IH as [(r3 & A & B)|B]. left; exists r3; simpl; tauto. right. intros r [<-|F]; auto. destruct (Tdec r r2) as [->|E2]. destruct IH as [(r3 & A & B)|B]. left; exists r3; simpl; tauto. right. intros r [<-|F]; auto. left. exists r. simpl. auto. }
  destruct OTH as [(r3 & J3 & N1 & N2)|ALL].
  - exists r3. split; auto. split; auto. split; auto. intros c Ic S1 S2. destruct (H r3 J3) as (k & w & K & Gw & X). assert (Z : dt (fst c) (lin2 1 y e v) = 0). { rewrite dt_lin. unfold y. rewrite dt_lin, S1, S2, (Vc c (CM c Ic S1 S2)). ring. }
    rewrite (dt_ext _ _ _ X), dt_lin in Z. assert (WC : inC cs w). { apply (dd_gen _ _ _ D). apply gen_mono with L R'; auto. apply incl_refl. } pose proof (holds_ge _ _ (WC c Ic)). pose proof (holds_ge _ _ (dd_ray_in _ _ _ r3 D (I r3 J3) c Ic)). unfold sat. nra.
  - exfalso. assert (Z : dt v (lin2 1 y e v) = 0). { assert (Q : holds (v, true) (lin2 1 y e v)). { apply gen_holds with L R'; auto. intros l Il. simpl. rewrite dt_sym. auto. intros r Ir. unfold holds. simpl. rewrite dt_sym. destruct (ALL r Ir); subst; auto. } exact Q. }
    rewrite dt_lin in Z. unfold y in Z. rewrite dt_lin in Z. rewrite (dt_sym v (val r1)), (dt_sym v (val r2)), V1, V2 in Z. assert (VV : dt v v = 0) by nra. apply NV. apply (proj2 (sm_sq n v)); auto.
Qed.
End Gen.
End Cone.

(** Model of the minimisation of a polyhedron: newpolka/pk_cherni.c lines 653-825, and its correctness.

    Not modelled: the exceptions for integers or matrices which are too large (no bound in the model), the
    sizes of the allocated matrices, and the strict mode ([pk->strict], in which [pk->dec] is 3 rather than 2). *)
From Coq Require Import ZArith Bool List Lia Reals Lra Permutation.
Import ListNotations.
From Verif Require Import PkCone PkVec PkCherni PkCherniFacts PkRank PkCherniRay PkSpec PkFarkas PkSimplify PkSimplifyFacts PkSimplifyThm PkSimplifyEnd.
Open Scope nat_scope.

(** 704-713 and 795-803: no ray or vertex has a positive coefficient in column [pk->dec - 1], which is 1 *)
Definition no_vertex (nbline : nat) (F : list pvec) : bool := negb (existsb (fun r => (0 <? zn 1 r)%Z) (skipn nbline F)).
(** the end of both functions (714-735 and 804-825).  The rows of [F] come with their rows of satC; the result
    has C, F, satF, nbeq and nbline, or nothing for an empty polyhedron. *)
Definition mini_end (con_to_ray : bool) (nbcols : nat) (r : list pvec * list row * nat) : option (list pvec * list pvec * list (list bool) * nat * nat) :=
  let '(C, F, nbline) := r in
  if con_to_ray && no_vertex nbline (map fst F) then None
  else let (rows, nbeq) := cherni_simplify nbcols (combine C (transpose (length C) (map snd F))) in Some (map fst rows, map fst F, map snd rows, nbeq, nbline).
(** cherni_minimize (665-735) *)
Definition cherni_minimize (con_to_ray : bool) (nbcols : nat) (C : list pvec) : option (list pvec * list pvec * list (list bool) * nat * nat) :=
  mini_end con_to_ray nbcols (cherni_conversion C 0 (init_rows nbcols (length C)) (nbcols - 1)).
(** satmat_resize_cols (pk_satmat.c 95-120): the new bits are null *)
Definition resize_bits (m : nat) (b : list bool) : list bool := firstn m b ++ repeat false (m - length b).
(** cherni_add_and_minimize (745-825) *)
Definition cherni_add_and_minimize (con_to_ray : bool) (nbcols : nat) (C F : list pvec) (satC : list (list bool)) (nbline start : nat) : option (list pvec * list pvec * list (list bool) * nat * nat) :=
  mini_end con_to_ray nbcols (cherni_conversion C start (combine F (map (resize_bits (length C)) satC)) nbline).

(** * Minimal pairs of representations *)
Definition lenS (n : nat) (q : pvec) : Prop := length q = S n.
Definition satmat (A B : list pvec) : list (list bool) := map (fun a : pvec => satbits (map (fun b : pvec => tl b) B) (tl a)) A.
Definition tls (l : list pvec) : list (list Z) := map (fun q : pvec => tl q) l.
Definition st (s : Z) (q : pvec) : Prop := zn 0 q = s.
Definition mini (n : nat) (C F : list pvec) (nbeq nbline : nat) : Prop := exists E I L R,
  C = E ++ I /\ F = L ++ R /\ length E = nbeq /\ length L = nbline /\ Forall (lenS n) (C ++ F) /\ Forall (st 0) (E ++ L) /\ Forall (st 1) (I ++ R) /\
  ddn n (map kc C) (tls L) (tls R) /\ ddn n (map kc F) (tls E) (tls I) /\ indep n (tls E) /\ indep n (tls L).
Lemma mini_dual : forall n C F a b, mini n C F a b -> mini n F C b a.
Proof.
  intros n C F a b (E & I & L & R & H1 & H2 & H3 & H4 & H5 & H6 & H7 & H8 & H9 & H10 & H11). exists L, R, E, I. split; auto. split; auto. split; auto. split; auto. rewrite Forall_app in *. destruct H5, H6, H7. rewrite !Forall_app. tauto.
Qed.

Lemma gcs_kc : forall L R, Forall (st 0) L -> Forall (st 1) R -> gcs (tls L) (tls R) = map kc (L ++ R).
Proof.
  intros L R FL FR. unfold gcs, tls. rewrite map_app, !map_map. rewrite Forall_forall in FL, FR. f_equal; apply map_ext_in; intros q I. unfold kc. rewrite (FL q I). reflexivity. unfold kc. rewrite (FR q I). reflexivity.
Qed.
Lemma cnE_kc : forall n E I x, Forall (st 0) E -> Forall (st 1) I -> (inC n (map kc (E ++ I)) x <-> cnE n (tls E) (tls I) x).
Proof.
  intros n E I x FE FI. rewrite <- (gcs_kc E I) by auto. unfold gcs, cnE, inC. split.
  - intros H. split. intros e J. apply (H (rv e, true)). apply in_app_iff. left. apply (in_map (fun l => (rv l, true))); auto. intros i J. apply (H (rv i, false)). apply in_app_iff. right. apply (in_map (fun l => (rv l, false))); auto.
  - intros [H1 H2] c J. apply in_app_iff in J. destruct J as [J|J]; apply in_map_iff in J; destruct J as (t & <- & J); unfold holds; cbn [fst snd]; auto.
Qed.
Lemma tls_len : forall n l, Forall (lenS n) l -> Forall (fun t : list Z => length t = n) (tls l).
Proof. intros n l F. apply Forall_forall. intros t I. apply in_map_iff in I. destruct I as (q & <- & I). apply len_tl. rewrite Forall_forall in F. apply F; auto. Qed.

(** other constraints for the same cone *)
Lemma gen_face : forall n (E I : list (list Z)) r r', (forall e, In e E -> dt n (rv e) r = 0%R /\ dt n (rv e) r' = 0%R) -> (forall i, In i I -> (0 <= dt n (rv i) r)%R /\ (dt n (rv i) r = 0 -> dt n (rv i) r' = 0)%R) ->
  forall y, gen n rv E I y -> dt n y r = 0%R -> dt n y r' = 0%R.
Proof.
  intros n E I r r' HE HI y G. assert (P : forall y, gen n rv E I y -> (0 <= dt n r y)%R). { intros z GZ. assert (K : holds n (r, false) z). { apply (gen_holds n rv (r, false) E I); auto. intros l J. cbn [fst]. rewrite dt_sym. apply HE; auto. intros i J. unfold holds. cbn [fst snd]. rewrite dt_sym. apply HI; auto. } exact K. }
  induction G as [x Z|x l k y G IH J Q|x i k y G IH J K Q]; rewrite ?(dt_sym n _ r), ?(dt_sym n _ r'); intros D.
  - apply dt_zero; auto.
  - rewrite (dt_ext n r _ _ Q), dt_lin in D. rewrite (dt_ext n r' _ _ Q), dt_lin. destruct (HE l J) as [A B]. rewrite (dt_sym n r (rv l)), A in D. rewrite (dt_sym n r' (rv l)), B. rewrite (dt_sym n r x) in D. rewrite (dt_sym n r' x), IH; lra.
  - rewrite (dt_ext n r _ _ Q), dt_lin in D. rewrite (dt_ext n r' _ _ Q), dt_lin. destruct (HI i J) as [A B]. rewrite (dt_sym n r (rv i)) in D. rewrite (dt_sym n r' (rv i)). assert (PX := P x G). assert (X0 : dt n r x = 0%R) by nra. rewrite dt_sym in X0. rewrite (dt_sym n r' x), (IH X0). assert (KZ : (k * dt n (rv i) r = 0)%R) by (rewrite (dt_sym n r x), X0 in D; lra). apply Rmult_integral in KZ. destruct KZ as [->|KZ]. ring. rewrite B by auto. ring.
Qed.
Lemma dd_change : forall n E I cs (L R : list (list Z)), Forall (lenS n) (E ++ I) -> Forall (st 0) E -> Forall (st 1) I -> ddn n cs L R -> (forall x, inC n cs x <-> inC n (map kc (E ++ I)) x) -> ddn n (map kc (E ++ I)) L R.
Proof.
  intros n E I cs L R FL FE FI D Q. assert (EX : forall x, cnE n (tls E) (tls I) x <-> gen n rv L R x). { intros x. rewrite <- (cnE_kc n E I x FE FI), <- Q. apply (dd_gen _ _ _ _ _ D). }
  assert (FL' : Forall (fun t : list Z => length t = n) (tls E ++ tls I)). { unfold tls. rewrite <- map_app. apply (tls_len n (E ++ I)); auto. }
  assert (DG := dual_gen n L R _ _ FL' EX).
  assert (CG : forall c, In c cs -> gen n rv (tls E) (tls I) (fst c)). { intros c Ic. apply DG. intros g Ig. unfold gcs in Ig. apply in_app_iff in Ig. destruct Ig as [Ig|Ig]; apply in_map_iff in Ig; destruct Ig as (t & <- & It); unfold holds; cbn [fst snd]; rewrite dt_sym. apply (dd_line n rv cs L R t c D It Ic). apply holds_ge. apply (dd_ray_in n rv cs L R t D It c Ic). }
  assert (PE : forall e r, In e (tls E) -> In r R -> dt n (rv e) (rv r) = 0%R). { intros e r Ie Ir. assert (K : cnE n (tls E) (tls I) (rv r)) by (apply EX, gen_ray; auto). apply K; auto. }
  assert (PI : forall e r, In e (tls I) -> In r R -> (0 <= dt n (rv e) (rv r))%R). { intros e r Ie Ir. assert (K : cnE n (tls E) (tls I) (rv r)) by (apply EX, gen_ray; auto). apply K; auto. }
  assert (CL : forall (P : list Z -> Prop), (exists i, In i (tls I) /\ P i) -> forall (f : list Z -> kcon), True) by auto. clear CL.
  assert (MK : forall i, In i (tls I) -> exists c, In c (map kc (E ++ I)) /\ fst c = rv i). { intros i Ii. apply in_map_iff in Ii. destruct Ii as (q & <- & Iq). exists (kc q). split; auto. apply in_map, in_app_iff; auto. }
  constructor.
  - intros x. rewrite <- Q. apply (dd_gen _ _ _ _ _ D).
  - intros r r' Ir Ir' NE. destruct (dd_irr _ _ _ _ _ D r r' Ir Ir' NE) as (c & Ic & S1 & S2).
    assert (DEC : (exists i, In i (tls I) /\ dt n (rv i) (rv r) = 0%R /\ dt n (rv i) (rv r') <> 0%R) \/ forall i, In i (tls I) -> dt n (rv i) (rv r) = 0%R -> dt n (rv i) (rv r') = 0%R).
    { generalize (tls I). clear. induction l as [|t l IH]. right; intros ? []. destruct (Req_EM_T (dt n (rv t) (rv r)) 0) as [A|A]; destruct (Req_EM_T (dt n (rv t) (rv r')) 0) as [B|B]. 2: left; exists t; split; [left|]; auto. all: destruct IH as [(i & J & K)|K]; [left; exists i; split; [right|]; auto|right; intros i [<-|J]; auto; tauto]. }
    destruct DEC as [(i & Ii & A & B)|ALL]. destruct (MK i Ii) as (c' & Ic' & Ec'). exists c'. unfold sat. rewrite Ec'. auto. exfalso. apply S2. unfold sat in *. apply (gen_face n (tls E) (tls I) (rv r) (rv r')); auto.
  - intros r Ir. destruct (dd_ray _ _ _ _ _ D r Ir) as (c & Ic & S1).
    assert (DEC : (exists i, In i (tls I) /\ dt n (rv i) (rv r) <> 0%R) \/ forall i, In i (tls I) -> dt n (rv i) (rv r) = 0%R).
    { generalize (tls I). clear. induction l as [|t l IH]. right; intros ? []. destruct (Req_EM_T (dt n (rv t) (rv r)) 0) as [A|A]. 2: left; exists t; split; [left|]; auto. destruct IH as [(i & J & K)|K]; [left; exists i; split; [right|]; auto|right; intros i [<-|J]; auto; tauto]. }
    destruct DEC as [(i & Ii & B)|ALL]. destruct (MK i Ii) as (c' & Ic' & Ec'). exists c'. unfold sat. rewrite Ec'. auto. exfalso. apply S1. unfold sat. assert (K : holds n (rv r, true) (fst c)). { apply (gen_holds n rv (rv r, true) (tls E) (tls I)); auto. intros l Il. cbn [fst]. rewrite dt_sym. auto. intros i Ii. unfold holds. cbn [fst snd]. rewrite dt_sym. auto. } unfold holds in K. cbn [fst snd] in K. rewrite dt_sym. auto.
  - apply (dd_nodup _ _ _ _ _ D).
Qed.

(** * The two functions *)
Lemma transpose_bits : forall n m con (rows : list row), inv n m (length con) con rows [] \/ Forall (good_bits (length con) con m) rows -> combine con (transpose (length con) (map snd rows)) = map (fun c : pvec => (c, satbits (map tr rows) (tl c))) con.
Proof.
  intros n m con rows H. assert (B : Forall (good_bits (length con) con m) rows) by (destruct H as [(_ & _ & _ & _ & _ & H)|H]; auto; rewrite app_nil_r in H; auto). clear H. rewrite Forall_forall in B.
  assert (T : transpose (length con) (map snd rows) = map (fun j => satbits (map tr rows) (tl (nth j con []))) (seq 0 (length con))).
  { unfold transpose. apply map_ext_in. intros j Ij. apply in_seq in Ij. unfold satbits. rewrite !map_map. apply map_ext_in. intros r Ir. destruct (B r Ir) as [_ Q]. rewrite Q. replace (Nat.ltb j (length con)) with true by (symmetry; apply Nat.ltb_lt; lia). reflexivity. }
  rewrite T. clear. assert (G : forall (f : pvec -> list bool) con, combine con (map (fun j => f (nth j con [])) (seq 0 (length con))) = map (fun c : pvec => (c, f c)) con). { clear. intros f. induction con as [|c con IH]; simpl; auto. rewrite <- seq_shift, map_map, IH. reflexivity. } apply (G (fun c : pvec => satbits (map tr rows) (tl c))).
Qed.
Definition pos_ray (F : list pvec) : Prop := exists r, In r F /\ zn 0 r <> 0%Z /\ (0 < zn 1 r)%Z.
Lemma mini_end_spec : forall ctr n m con Lr Rr, inv n m (length con) con Lr Rr -> Forall (fun r : row => zn 0 (fst r) = 0%Z) Lr -> Forall (fun r : row => zn 0 (fst r) = 1%Z) Rr -> indep n (map tr Lr) ->
  match mini_end ctr (S n) (con, Lr ++ Rr, length Lr) with
  | None => ctr = true /\ ~ pos_ray (map fst (Lr ++ Rr))
  | Some (C, F, satF, nbeq, nbline) => mini n C F nbeq nbline /\ satF = satmat C F /\ F = map fst (Lr ++ Rr) /\ (forall x, inC n (map kc con) x <-> inC n (map kc C) x) /\ (ctr = true -> pos_ray F) /\ rdc C
  end.
Proof.
  intros ctr n m con Lr Rr (A1 & A2 & A3 & A4 & A5 & A6) S0 S1 IND. rewrite firstn_all in A5. unfold mini_end.
  assert (NV : no_vertex (length Lr) (map fst (Lr ++ Rr)) = true <-> ~ pos_ray (map fst (Lr ++ Rr))).
  { unfold no_vertex, pos_ray. rewrite map_app, skipn_app, skipn_all2, map_length, Nat.sub_diag by (rewrite map_length; lia). cbn [app skipn]. rewrite negb_true_iff. split.
    - intros N (r & I & Z & P). apply in_app_iff in I. destruct I as [I|I]. apply in_map_iff in I. destruct I as (q & <- & I). rewrite Forall_forall in S0. apply Z. apply S0; auto. assert (K : existsb (fun r : pvec => (0 <? zn 1 r)%Z) (map fst Rr) = true) by (apply existsb_exists; exists r; split; auto; apply Z.ltb_lt; auto). assert (X := eq_trans (eq_sym K) N). discriminate X.
    - intros N. match goal with |- ?b = false => destruct b eqn:Q; auto end. exfalso. apply N. apply existsb_exists in Q. destruct Q as (r & I & P). exists r. split. apply in_app_iff; auto. split. apply in_map_iff in I. destruct I as (q & <- & I). rewrite Forall_forall in S1. rewrite S1 by auto. discriminate. apply Z.ltb_lt; auto. }
  destruct (ctr && no_vertex (length Lr) (map fst (Lr ++ Rr))) eqn:SP.
  { apply andb_prop in SP. destruct SP as [-> SP]. split; auto. apply NV; auto. }
  rewrite (transpose_bits n m) by auto. set (rows := map (fun c : pvec => (c, satbits (map tr (Lr ++ Rr)) (tl c))) con).
  destruct (simplify_spec n (map tr Lr) (map tr Rr) rows) as (Er & Ir & -> & OK & SE & SI & EQ & DD & INE & RDC).
  - rewrite <- map_app. apply Forall_forall. intros t I. apply in_map_iff in I. destruct I as (r & <- & I). rewrite Forall_forall in A2. apply len_tl, A2; auto.
  - apply Forall_forall. intros r I. apply in_map_iff in I. destruct I as (c & <- & I). split. rewrite Forall_forall in A1. apply A1; auto. rewrite <- map_app. reflexivity.
  - intros x. unfold inCr, rows. rewrite map_map. cbn [fst]. apply (dd_gen _ _ _ _ _ A5).
  - assert (ECR : forall x, inC n (map kc con) x <-> inC n (map kc (map fst (Er ++ Ir))) x). { intros x. specialize (EQ x). unfold inCr, rows in EQ. rewrite map_map in EQ. cbn [fst] in EQ. rewrite map_map. exact EQ. }
    assert (TLE : forall l : list row, tls (map fst l) = map tr l) by (intros l; unfold tls; rewrite map_map; reflexivity).
    assert (ST : forall s (l : list row), Forall (fun r : row => zn 0 (fst r) = s) l -> Forall (st s) (map fst l)). { intros s l F. apply Forall_forall. intros q I. apply in_map_iff in I. destruct I as (r & <- & I). rewrite Forall_forall in F. apply F; auto. }
    assert (FE : Forall (lenS n) (map fst Er ++ map fst Ir)). { rewrite <- map_app. apply Forall_forall. intros q I. apply in_map_iff in I. destruct I as (r & <- & I). rewrite Forall_forall in OK. apply OK; auto. }
    split; [|split; [|split; [|split; [|split]]]]; auto.
    + exists (map fst Er), (map fst Ir), (map fst Lr), (map fst Rr). rewrite !map_app. split; auto. split; auto. split. apply map_length. split. apply map_length. split. { apply Forall_app. split; auto. rewrite <- map_app. apply Forall_forall. intros q I. apply in_map_iff in I. destruct I as (r & <- & I). rewrite Forall_forall in A2. apply A2; auto. }
      split. apply Forall_app; split; auto. split. apply Forall_app; split; auto. rewrite !TLE. split.
      * rewrite <- map_app. apply dd_change with (cs := map kc con); auto. intros x. rewrite <- map_app. apply ECR.
      * split; [|split; auto]. assert (X := gcs_kc (map fst Lr) (map fst Rr) (ST _ _ S0) (ST _ _ S1)). rewrite !TLE, map_app in X. match goal with |- dd _ _ ?c _ _ => replace c with (gcs (map tr Lr) (map tr Rr)) by exact X end. exact DD.
    + unfold satmat. rewrite map_map. apply map_ext_in. intros r I. rewrite Forall_forall in OK. destruct (OK r I) as [_ ->]. change (map (fun b : pvec => tl b) (map fst (Lr ++ Rr))) with (tls (map fst (Lr ++ Rr))). rewrite TLE, map_app. reflexivity.
    + intros ->. cbn [andb] in SP. destruct (existsb (fun r => negb (zn 0 r =? 0)%Z && (0 <? zn 1 r)%Z) (map fst (Lr ++ Rr))) eqn:X.
      * apply existsb_exists in X. destruct X as (r & I & X). apply andb_prop in X. destruct X as [X1 X2]. exists r. split; auto. split. intros Z. rewrite Z in X1. discriminate. apply Z.ltb_lt; auto.
      * exfalso. assert (Q : ~ pos_ray (map fst (Lr ++ Rr))). { intros (r & I & Z & P). assert (K : existsb (fun r => negb (zn 0 r =? 0)%Z && (0 <? zn 1 r)%Z) (map fst (Lr ++ Rr)) = true). { apply existsb_exists. exists r. split; auto. apply andb_true_intro. split. apply negb_true_iff, Z.eqb_neq; auto. apply Z.ltb_lt; auto. } assert (Y := eq_trans (eq_sym K) X). discriminate Y. } apply NV in Q. assert (Y := eq_trans (eq_sym Q) SP). discriminate Y.
Qed.

Theorem minimize_spec : forall ctr n C0, Forall (lenS n) C0 -> 
  match cherni_minimize ctr (S n) C0 with
  | None => ctr = true /\ exists L R, (forall x, inC n (map kc C0) x <-> gen n rv L R x) /\ ~ exists r, In r R /\ (0 < nth 0 r 0)%Z
  | Some (C, F, satF, nbeq, nbline) => mini n C F nbeq nbline /\ satF = satmat C F /\ (forall x, inC n (map kc C0) x <-> inC n (map kc C) x) /\ (ctr = true -> pos_ray F) /\ rdc C
  end.
Proof.
  intros ctr n C0 FC. unfold cherni_minimize. replace (S n - 1) with n by lia.
  assert (LI : length (init_rows (S n) (length C0)) = n) by (unfold init_rows; rewrite map_length, seq_length; lia).
  assert (I0 := init_inv n (length C0) C0 FC (le_n _)). destruct (cherni_conversion C0 0 (init_rows (S n) (length C0)) n) as [[con rows] nb] eqn:E. rewrite <- LI in E at 2. rewrite <- (app_nil_r (init_rows (S n) (length C0))) in E at 1.
  destruct (conversion_spec n (length C0) 0 C0 _ [] con rows nb I0 E) as (Lr & Rr & -> & <- & I & _ & IC & _ & S0 & S1 & IN). specialize (IN (init_indep _ _)).
  assert (M := mini_end_spec ctr n (length C0) con Lr Rr I S0 S1 IN). destruct (mini_end _ _ _) as [[[[[C F] satF] nbeq] nbline]|].
  - destruct M as (M1 & M2 & M3 & M4 & M5). split; auto. split; auto. split; [intros x; rewrite IC; auto|auto].
  - destruct M as (M1 & M2). split; auto. exists (map tr Lr), (map tr Rr). destruct I as (_ & _ & _ & _ & A5 & _). rewrite firstn_all in A5. split. intros x. rewrite IC. apply (dd_gen _ _ _ _ _ A5).
    intros (r & J & P). apply in_map_iff in J. destruct J as (q & <- & J). apply M2. exists (fst q). split. apply in_map, in_app_iff; auto. rewrite Forall_forall in S1. rewrite (S1 q J). split. discriminate. unfold tr in P. rewrite <- zn_tl in P. exact P.
Qed.
Lemma inv_of_mini : forall n C F nbeq nbline D, mini n C F nbeq nbline -> Forall (lenS n) D -> exists Lr Rr, combine F (map (resize_bits (length (C ++ D))) (satmat F C)) = Lr ++ Rr /\ length Lr = nbline /\ inv n (length (C ++ D)) (length C) (C ++ D) Lr Rr /\ indep n (map tr Lr).
Proof.
  intros n C F nbeq nbline D (E & I & L & R & EC & EF & L1 & L2 & FL & S0 & S1 & D1 & D2 & IE & IL) FD. set (m := length (C ++ D)).
  assert (CB : forall A, combine A (map (resize_bits m) (satmat A C)) = map (fun f : pvec => (f, resize_bits m (satbits (tls C) (tl f)))) A). { induction A as [|a A IH]; simpl; auto. f_equal. exact IH. }
  rewrite CB. clear CB. rewrite EF. set (bb := fun f : pvec => (f, resize_bits m (satbits (tls C) (tl f)))). exists (map bb L), (map bb R). rewrite map_app. split; auto. split. rewrite map_length; auto.
  assert (TB : forall l, map tr (map bb l) = tls l) by (intros l; unfold tls; rewrite map_map; reflexivity). apply Forall_app in FL. destruct FL as [FC FF].
  split; [|rewrite TB; auto]. split. apply Forall_app; split; auto. split. { apply Forall_forall. intros r J. rewrite <- map_app, <- EF in J. apply in_map_iff in J. destruct J as (q & <- & J). rewrite Forall_forall in FF. apply (FF q J). }
  split. apply le_n. split. rewrite app_length; lia. split. rewrite !TB. rewrite firstn_app, firstn_all, Nat.sub_diag. simpl firstn. rewrite app_nil_r. auto.
  apply Forall_forall. intros r J. rewrite <- map_app, <- EF in J. apply in_map_iff in J. destruct J as (q & <- & J). assert (LB : length (satbits (tls C) (tl q)) = length C) by (unfold satbits, tls; rewrite !map_length; auto). assert (LM : length C <= m) by (unfold m; rewrite app_length; lia). split.
  - cbn [bb snd]. unfold resize_bits. rewrite app_length, firstn_length, repeat_length, LB. lia.
  - intros j. cbn [bb snd]. unfold resize_bits. rewrite firstn_all2 by lia. destruct (Nat.ltb_spec j (length C)) as [LT|GE].
    + rewrite app_nth1 by lia. rewrite satbits_nth. replace (Nat.ltb j (length (tls C))) with true by (symmetry; apply Nat.ltb_lt; unfold tls; rewrite map_length; auto). cbn [andb]. rewrite app_nth1 by auto. unfold tr. cbn [fst bb]. change [] with (tl (@nil Z)) at 1. unfold tls. rewrite (map_nth (fun q : pvec => tl q)). rewrite prod_sym. reflexivity.
    + rewrite app_nth2 by lia. apply nth_repeat.
Qed.
Theorem add_and_minimize_spec : forall ctr n C F nbeq nbline D, mini n C F nbeq nbline -> Forall (lenS n) D ->
  match cherni_add_and_minimize ctr (S n) (C ++ D) F (satmat F C) nbline (length C) with
  | None => ctr = true /\ exists L R, (forall x, inC n (map kc (C ++ D)) x <-> gen n rv L R x) /\ ~ exists r, In r R /\ (0 < nth 0 r 0)%Z
  | Some (C', F', satF, nbeq', nbline') => mini n C' F' nbeq' nbline' /\ satF = satmat C' F' /\ (forall x, inC n (map kc (C ++ D)) x <-> inC n (map kc C') x) /\ (ctr = true -> pos_ray F') /\ rdc C'
  end.
Proof.
  intros ctr n C F nbeq nbline D M FD. destruct (inv_of_mini n C F nbeq nbline D M FD) as (Lr0 & Rr0 & EQ & LL & I0 & IN0). unfold cherni_add_and_minimize. rewrite EQ. clear EQ.
  destruct (cherni_conversion (C ++ D) (length C) (Lr0 ++ Rr0) nbline) as [[con rows] nb] eqn:E. rewrite <- LL in E.
  destruct (conversion_spec n _ _ _ _ _ con rows nb I0 E) as (Lr & Rr & -> & <- & I & _ & IC & _ & S0 & S1 & IN). specialize (IN IN0).
  assert (M' := mini_end_spec ctr n _ con Lr Rr I S0 S1 IN). destruct (mini_end _ _ _) as [[[[[C' F'] satF] nbeq'] nbline']|].
  - destruct M' as (M1 & M2 & M3 & M4 & M5). split; auto. split; auto. split; [intros x; rewrite IC; auto|auto].
  - destruct M' as (M1 & M2). split; auto. exists (map tr Lr), (map tr Rr). destruct I as (_ & _ & _ & _ & A5 & _). rewrite firstn_all in A5. split. intros x. rewrite IC. apply (dd_gen _ _ _ _ _ A5).
    intros (r & J & P). apply in_map_iff in J. destruct J as (q & <- & J). apply M2. exists (fst q). split. apply in_map, in_app_iff; auto. rewrite Forall_forall in S1. rewrite (S1 q J). split. discriminate. unfold tr in P. rewrite <- zn_tl in P. exact P.
Qed.

(** What the rows of the matrices of the polyhedra library mean.  Independent of the model of the code.

    A row is a list of integers.  Its first element tells an equality (or a line) from an inequality (or a
    ray, or a vertex): it is zero for the former.  The other ones are the coefficients; in a polyhedron the
    first of them is the constant, and the others belong to the dimensions. *)
From Coq Require Import ZArith Bool List Lia Reals Lra.
Import ListNotations.
From Verif Require Import PkCone PkVec PkCherni PkCherniFacts.
Open Scope R_scope.

Fixpoint lform (t : list Z) (i : nat) (x : nat -> R) : R := match t with [] => 0 | a :: t => IZR a * x i + lform t (S i) x end.
Definition row_holds (c : list Z) (x : nat -> R) : Prop := match c with [] => True | s :: t => if (s =? 0)%Z then lform t 0 x = 0 else 0 <= lform t 0 x end.
(** the cone of a list of constraints *)
Definition cone (con : list (list Z)) (x : nat -> R) : Prop := Forall (fun c => row_holds c x) con.
(** the polyhedron of a list of constraints: the points [x] such that (1,x) is in the cone *)
Definition homog (x : nat -> R) : nat -> R := fun i => match i with O => 1 | S i => x i end.
Definition poly_con (con : list (list Z)) (x : nat -> R) : Prop := cone con (homog x).
(** the combinations of a list of generators: any coefficient for the lines, a non negative one for the rays *)
Fixpoint combin (ks : list R) (gs : list (list Z)) (i : nat) : R := match ks, gs with k :: ks, g :: gs => k * IZR (nth (S i) g 0%Z) + combin ks gs i | _, _ => 0 end.
Definition generated (n : nat) (gs : list (list Z)) (x : nat -> R) : Prop :=
  exists ks, length ks = length gs /\ (forall j, (j < length gs)%nat -> nth 0 (nth j gs []) 0%Z <> 0%Z -> 0 <= nth j ks 0) /\ forall i, (i < n)%nat -> x i = combin ks gs i.
Definition poly_gen (n : nat) (gs : list (list Z)) (x : nat -> R) : Prop := generated n gs (homog x).

(** * Links with the vocabulary of the proofs *)
Lemma sm_shift : forall n f, sm (S n) f = f 0%nat + sm n (fun i => f (S i)).
Proof. induction n; intros; simpl. ring. simpl in IHn. rewrite IHn. ring. Qed.
Lemma lform_dt : forall t i x, lform t i x = dt (length t) (rv t) (fun j => x (i + j)%nat).
Proof. induction t as [|a t IH]; intros i x. reflexivity. cbn [lform length]. unfold dt. rewrite sm_shift. rewrite IH. unfold dt, rv. simpl. rewrite Nat.add_0_r. f_equal. apply sm_ext. intros j _. f_equal. f_equal. lia. Qed.
Lemma row_holds_kc : forall n c x, length c = S n -> (row_holds c x <-> holds n (kc c) x).
Proof. intros n [|s t] x L. discriminate. injection L as <-. unfold row_holds, holds, kc, zn. cbn [tl nth fst snd]. rewrite lform_dt. simpl plus. destruct (s =? 0)%Z; tauto. Qed.
Lemma cone_inC : forall n con x, Forall (fun c : pvec => length c = S n) con -> (cone con x <-> inC n (map kc con) x).
Proof.
  intros n con x F. rewrite Forall_forall in F. unfold cone, inC. rewrite Forall_forall. split.
  intros H c I. apply in_map_iff in I. destruct I as (q & <- & I). apply (proj1 (row_holds_kc n q x (F q I))). apply H; auto. intros H c I. apply (row_holds_kc n c x (F c I)). apply H. apply in_map_iff; eauto.
Qed.
Lemma generated_gen : forall n (Lr Rr : list row) x, Forall (fun r => zn 0 (fst r) = 0%Z) Lr -> Forall (fun r => zn 0 (fst r) = 1%Z) Rr ->
  (generated n (map fst (Lr ++ Rr)) x <-> gen n rv (map tr Lr) (map tr Rr) x).
Proof.
  intros n Lr Rr x FL FR. split.
  - intros (ks & LK & PK & E). assert (G : forall ks (gs : list row), incl gs (Lr ++ Rr) -> length ks = length gs -> (forall j, (j < length gs)%nat -> zn 0 (fst (nth j gs row0)) <> 0%Z -> 0 <= nth j ks 0) -> gen n rv (map tr Lr) (map tr Rr) (combin ks (map fst gs))).
    { clear - FL FR. induction ks as [|k ks IH]; intros [|g gs] I L P; simpl in L; try discriminate. apply gen_0; auto. assert (H : gen n rv (map tr Lr) (map tr Rr) (combin ks (map fst gs))). { apply IH. intros y Y. apply I. right; auto. lia. intros j J. apply (P (S j)). simpl. lia. }
      assert (In g (Lr ++ Rr)) by (apply I; left; auto). apply in_app_iff in H0. destruct H0 as [H0|H0].
      apply gen_l with (combin ks (map fst gs)) (tr g) k; auto. apply in_map; auto. intros i _. unfold lin2, rv, tr. simpl. rewrite <- zn_tl. unfold zn. ring.
      apply gen_r with (combin ks (map fst gs)) (tr g) k; auto. apply in_map; auto. apply (P 0%nat). simpl; lia. simpl. rewrite Forall_forall in FR. rewrite FR; auto. discriminate. intros i _. unfold lin2, rv, tr. simpl. rewrite <- zn_tl. unfold zn. ring. }
    apply gen_ext with (combin ks (map fst (Lr ++ Rr))); auto. apply G; auto. intros y; auto. rewrite LK, map_length; auto. intros j J Z. rewrite map_length in PK. apply PK; auto. unfold zn in Z. rewrite (nth_indep _ [] (fst row0)) by (rewrite map_length; auto). rewrite map_nth. auto.
  - intros G. assert (U : forall g k, In g (Lr ++ Rr) -> (zn 0 (fst g) = 0%Z \/ 0 <= k) -> forall x, generated n (map fst (Lr ++ Rr)) x -> generated n (map fst (Lr ++ Rr)) (lin2 1 x k (rv (tr g)))).
    { clear. intros g k I K x (ks & LK & PK & E).
      assert (A : forall (gs : list row) ks g, In g gs -> length ks = length gs -> exists j ks', (j < length gs)%nat /\ nth j gs row0 = g /\ length ks' = length gs /\ (forall q, nth q ks' 0 = nth q ks 0 + if Nat.eqb q j then k else 0) /\ forall i, combin ks' (map fst gs) i = combin ks (map fst gs) i + k * IZR (nth (S i) (fst g) 0%Z)).
      { clear. induction gs as [|h gs IH]; intros [|k0 ks] g I L; simpl in L; try discriminate; try (destruct I; fail); destruct I as [->|I].
        - exists 0%nat, (k0 + k :: ks). split; [simpl; lia|]. split; auto. split; [simpl; lia|]. split. intros [|q]; simpl; ring. intros i. simpl. ring.
        - destruct (IH ks g I ltac:(lia)) as (j & ks' & J & N & L' & Q & C). exists (S j), (k0 :: ks'). split; [simpl; lia|]. split; auto. split; [simpl; lia|]. split. intros [|q]; simpl; auto. ring. intros i. simpl in *. rewrite C. ring. }
      rewrite map_length in LK, PK. destruct (A (Lr ++ Rr) ks g I LK) as (j & ks' & J & N & L' & Q & C). exists ks'. rewrite map_length. split; auto. split.
      - intros q Hq Z. rewrite Q. specialize (PK q Hq Z). destruct (Nat.eqb_spec q j) as [->|]; [|lra]. destruct K as [K|K]; [|lra]. exfalso. apply Z. rewrite (nth_indep _ [] (fst row0)) by (rewrite map_length; auto). rewrite map_nth. etransitivity; [|exact K]. rewrite <- N. reflexivity.
      - intros i Hi. unfold lin2. rewrite C, (E i Hi). unfold rv, tr. rewrite <- zn_tl. unfold zn. ring. }
    assert (X : forall x y, veq n y x -> generated n (map fst (Lr ++ Rr)) x -> generated n (map fst (Lr ++ Rr)) y). { intros a b E (ks & H1 & H2 & H3). exists ks. split; auto. split; auto. intros i Hi. rewrite E; auto. }
    rewrite Forall_forall in FL. induction G as [y Z|y l m z K IH I E|y r m z K IH I Q E].
    + exists (repeat 0 (length (map fst (Lr ++ Rr)))). split. apply repeat_length. split. intros. rewrite nth_repeat. lra. intros i Hi. rewrite Z by auto. generalize (map fst (Lr ++ Rr)). induction l; simpl; auto. rewrite <- IHl. ring.
    + apply in_map_iff in I. destruct I as (g & <- & I). eapply X; [exact E|]. apply U; auto. apply in_app_iff; auto.
    + apply in_map_iff in I. destruct I as (g & <- & I). eapply X; [exact E|]. apply U; auto. apply in_app_iff; auto.
Qed.

(** Meet and join of arrays of polyhedra (PkArray.v). *)
From Coq Require Import ZArith Bool List Lia Reals Lra Permutation Classical Sorted.
Import ListNotations.
From Verif Require Import PkCone PkVec PkCherni PkSpec PkMinimize PkPoly PkPolyFacts PkPolyLeq PkPolyMeet PkPolyTop PkArray.
Open Scope R_scope.

(** intersection, or closed convex hull of the union, of the sets [Q a] for [a] in [l] *)
Definition TT (meet : bool) (n : nat) (Q : nat -> vec -> Prop) (l : list nat) (x : vec) : Prop :=
  if meet then forall a, In a l -> Q a x else forall v : vec, (forall a y, In a l -> Q a y -> 0 <= dt n v (homog y)) -> 0 <= dt n v (homog x).
Lemma TT_two : forall m n Q a b x, TT m n Q [a; b] x <-> T m n (Q a) (Q b) x.
Proof.
  intros [] n Q a b x; simpl.
  split. intros H; split; apply H; auto. intros [A B] c [<-|[<-|[]]]; auto.
  unfold hull. split; intros H v V; apply H. intros c y [<-|[<-|[]]] Y; apply V; auto. intros y [Y|Y]; [apply (V a)|apply (V b)]; simpl; auto.
Qed.
Lemma TT_app : forall m n Q l b x, T m n (TT m n Q l) (Q b) x <-> TT m n Q (l ++ [b]) x.
Proof.
  intros [] n Q l b x; simpl. split. intros [A B] a I. apply in_app_or in I as [I|[<-|[]]]; auto. intros H. split. intros a I. apply H, in_or_app; auto. apply H, in_or_app; simpl; auto.
  unfold hull. split; intros H v V; apply H.
  - intros y [Y|Y]. apply Y. intros a z I Z. apply (V a); auto. apply in_or_app; auto. apply (V b); auto. apply in_or_app; simpl; auto.
  - intros a y I Y. apply in_app_or in I as [I|[<-|[]]]; apply V; auto. left. intros w W. apply (W a); auto.
Qed.
Lemma TT_incl : forall m n Q l l' x, (forall a, In a l' <-> In a l) -> (TT m n Q l x <-> TT m n Q l' x).
Proof. intros [] n Q l l' x H; simpl; split; intros K v V; apply K; try (apply H; auto); intros a y I Y; apply (V a); auto; apply H; auto. Qed.
(** empty sets do not matter for the hull *)
Lemma TT_ne : forall n Q l l' x, incl l' l -> (forall a, In a l -> In a l' \/ forall y, ~ Q a y) -> (TT false n Q l x <-> TT false n Q l' x).
Proof. intros n Q l l' x I H; simpl; split; intros K v V; apply K; intros a y J Y. destruct (H a J) as [J'|J']. apply (V a); auto. destruct (J' y Y). apply (V a); auto. Qed.
Lemma TT_one : forall m po i r Q a x, rep m po i r (Q a) -> (TT m (d1 i r) Q [a] x <-> Q a x).
Proof.
  intros [] po i r Q a x R; simpl. split. intros H; apply H; auto. intros H b [<-|[]]; auto. split. intros H. apply (hull_closed (poly_dual po) i r (Q a) x R). intros v V. apply H. intros b y [<-|[]]; auto. intros H v V. apply (V a); auto.
Qed.

Definition Inv (m : bool) (h : heap) (l : list nat) (i r : nat) (Q : nat -> vec -> Prop) : Prop := forall a, In a l -> rep m (h a) i r (Q a).
Lemma upd_eq : forall h a p, upd h a p a = p. Proof. intros. unfold upd. rewrite Nat.eqb_refl. auto. Qed.
Lemma upd_other : forall h a p b, b <> a -> upd h a p b = h b. Proof. intros. unfold upd. destruct (Nat.eqb b a) eqn:E; auto. apply Nat.eqb_eq in E. congruence. Qed.
Lemma Inv_upd : forall m h l i r Q a p, Inv m h l i r Q -> (In a l -> rep m p i r (Q a)) -> Inv m (upd h a p) l i r Q.
Proof. intros m h l i r Q a p I R b B. unfold upd. destruct (Nat.eqb b a) eqn:E. apply Nat.eqb_eq in E as ->. auto. auto. Qed.
Lemma conv_rep : forall m lazy po i r S, rep m po i r S -> rep m (conv m lazy po) i r S /\ (pC (conv m lazy po) = None -> isbot (conv m lazy po) = true) /\ (lazy = false -> isbot (conv m lazy po) = true \/ minimal2 (conv m lazy po) = true).
Proof.
  intros m [] po i r S R; simpl. destruct (obtain_C_rep m po i r S R) as (A & _ & B). split; auto. split; auto. discriminate.
  destruct (chern_rep m po i r S R) as (A & _ & B). split; auto. split; auto. intros E. destruct B as [B|B]; auto. unfold minimal2 in B. rewrite E in B. discriminate.
Qed.
Definition ready (lazy : bool) (po : poly) : Prop := has (pC po) = true /\ (lazy = false -> minimal2 po = true).
Lemma conv_ready : forall m lazy po, ready lazy po -> conv m lazy po = po.
Proof.
  intros m [] po [H M]; simpl. unfold poly_obtain_C_dual. destruct (pC po); auto. discriminate. specialize (M eq_refl). unfold minimal2 in M. unfold poly_chernikova_dual, poly_chernikova. destruct m; simpl; destruct (pC po), (pF po); try discriminate; auto. apply dual_dual.
Qed.
Lemma last_first_perm : forall q, Permutation (last_first q) q.
Proof. intros q. unfold last_first. destruct (rev q) as [|b r] eqn:E. assert (rev (rev q) = []) by (rewrite E; auto). rewrite rev_involutive in H. subst; auto. assert (q = rev r ++ [b]). { rewrite <- (rev_involutive q), E. reflexivity. } rewrite H. apply Permutation_cons_append. Qed.
Lemma scan_spec : forall m lazy i r Q l fuel h done todo, (length todo <= fuel)%nat -> incl todo l -> incl done l -> Inv m h l i r Q -> (forall a, In a done -> ready lazy (h a)) -> (forall a, In a l -> In a done \/ In a todo \/ (m = false /\ forall y, ~ Q a y)) ->
  let (o, h') := scan fuel m lazy h done todo in Inv m h' l i r Q /\
  match o with
  | None => m = true /\ exists a, In a l /\ forall x, ~ Q a x
  | Some l' => incl l' l /\ (forall a, In a l' -> ready lazy (h' a)) /\ forall a, In a l -> In a l' \/ (m = false /\ forall y, ~ Q a y)
  end.
Proof.
  intros m lazy i r Q l. induction fuel; intros h done todo L It Id I Rd Cv; simpl.
  - destruct todo; simpl in L; [|lia]. split; auto. split; auto. split; auto. intros a A. destruct (Cv a A) as [H|[[]|H]]; auto.
  - destruct todo as [|a q]. split; auto. split; auto. split; auto. intros b A. destruct (Cv b A) as [H|[[]|H]]; auto.
    assert (Al : In a l) by (apply It; simpl; auto). destruct (conv_rep m lazy (h a) i r (Q a) (I a Al)) as (R1 & R2 & R3). assert (I' : Inv m (upd h a (conv m lazy (h a))) l i r Q) by (apply Inv_upd; auto).
    rewrite upd_eq. destruct (has (pC (conv m lazy (h a)))) eqn:HC.
    + apply IHfuel; auto. simpl in L; lia. intros b B; apply It; simpl; auto. intros b B. apply in_app_or in B as [B|[<-|[]]]; auto.
      * intros b B. unfold upd. destruct (Nat.eqb b a) eqn:E. { split; auto. intros ->. destruct (R3 eq_refl) as [K|K]; auto. unfold isbot in K. destruct (pC _); try discriminate. } apply in_app_or in B as [B|[<-|[]]]; auto. rewrite Nat.eqb_refl in E. discriminate.
      * intros b B. destruct (Cv b B) as [H|[[<-|H]|H]]; auto. left. apply in_or_app; auto. left. apply in_or_app; simpl; auto.
    + assert (E0 : forall y, ~ Q a y). { intros y. assert (B0 : isbot (U m (conv m lazy (h a))) = true). rewrite U_bot. apply R2. destruct (pC (conv m lazy (h a))); auto. discriminate. apply (repr_bot _ _ _ _ R1 B0). }
      destruct m. split; auto. split; auto. exists a; auto. apply IHfuel; auto.
      * assert (P := last_first_perm q). apply Permutation_length in P. simpl in L. lia.
      * intros b B. apply It. right. eapply Permutation_in; [apply last_first_perm|]; auto.
      * intros b B. unfold upd. destruct (Nat.eqb b a) eqn:E; auto. apply Nat.eqb_eq in E as ->. specialize (Rd a B). rewrite (conv_ready false lazy (h a) Rd) in HC. destruct Rd. congruence.
      * intros b B. destruct (Cv b B) as [H|[[<-|H]|H]]; auto. right; left. eapply Permutation_in; [apply Permutation_sym, last_first_perm|]; auto.
Qed.

(** meet of two pointers *)
Lemma T_same : forall m po i r (Q : nat -> vec -> Prop) a x, rep m po i r (Q a) -> (T m (d1 i r) (Q a) (Q a) x <-> Q a x).
Proof. intros m po i r Q a x R. rewrite <- TT_two. rewrite <- (TT_one m po i r Q a x R). apply TT_incl. simpl; tauto. Qed.
Lemma rep_ext : forall m po i r S S', (forall x, S x <-> S' x) -> rep m po i r S -> rep m po i r S'.
Proof. intros m po i r S S' H R. eapply repr_ext; eauto. Qed.
Lemma meet2_spec : forall m lazy exw algleq h a b l i r Q, Inv m h l i r Q -> In a l -> In b l -> exists po h', meet2 m lazy exw algleq h a b = Some (po, h') /\ rep m po i r (TT m (d1 i r) Q [a; b]) /\ Inv m h' l i r Q.
Proof.
  intros m lazy exw algleq h a b l i r Q I A B. unfold meet2. destruct (Nat.eqb a b) eqn:E.
  - apply Nat.eqb_eq in E as <-. assert (R : rep m (poly_meet_same m lazy (h a)) i r (Q a)). { unfold poly_meet_same. destruct lazy. auto. apply chern_rep; auto. } eexists _, _. split. reflexivity. split. eapply rep_ext; [|exact R]. intros x. rewrite TT_two. symmetry. eapply T_same; eauto. apply Inv_upd; auto.
  - assert (S := poly_meet_spec m lazy exw algleq false (h a) (h b) i r (Q a) (Q b) (I a A) (I b B)). destruct (poly_meet m lazy exw algleq false (h a) (h b)) as [[[po pa] pb]|]. 2: destruct S as (_ & _ & K & _); discriminate. destruct S as (S1 & S2 & S3). eexists _, _. split. reflexivity. split. eapply rep_ext; [|exact S1]. intros x. symmetry. apply TT_two. apply Inv_upd; auto. apply Inv_upd; auto.
Qed.

(** the constraints only (dually: the generators only) *)
Definition only (i r : nat) (C : list pvec) : poly := mkPoly i r (Some C) true None false None None 0 0 false false.
Lemma only_rep : forall m po i r S C, rep m po i r S -> pC po = Some C -> rep m (only i r C) i r S.
Proof.
  intros m po i r S C R E. assert (N := repr_pn _ _ _ _ R). rewrite U_pn in N. assert (W : swf po) by (apply (U_swf m); apply R). assert (FC := swf_C po C W E). rewrite N in FC. destruct R as ((Wu & P) & D1 & D2 & G).
  assert (W' : swf (only i r C)). { unfold swf, only. simpl. split; auto. } assert (K : forall x, cK (U m (only i r C)) x <-> cK (U m po) x).
  { intros x. destruct m; unfold U in *. rewrite (cK_C po C E). unfold cK, only. simpl. tauto. rewrite (cK_F (poly_dual po) C Wu E). unfold cK, only. simpl. unfold pn, pdim in N |- *. simpl. unfold d1 in N. rewrite N. tauto. }
  split; [split|]. apply U_swf; auto. right. destruct P as [P|(P1 & P2)]. { rewrite U_bot in P. unfold isbot in P. rewrite E in P. discriminate. } split. intros x X. apply P1, K; auto. intros Q. destruct m; unfold U in *; simpl in Q. congruence. destruct P2 as (x & X & X0). simpl. congruence. exists x. split; auto. apply K; auto.
  split. rewrite U_int; auto. split. rewrite U_real; auto. intros x. rewrite <- G. apply K.
Qed.
Lemma sorted_has : forall po, swf po -> has (pC (poly_obtain_sorted_C po)) = has (pC po) /\ minimal2 (poly_obtain_sorted_C po) = minimal2 po.
Proof. intros po W. destruct (sorted_C_spec po W) as (_ & _ & _ & _ & A & B). split; auto. unfold minimal2. rewrite A. unfold has in B. destruct (pC (poly_obtain_sorted_C po)), (pC po); try discriminate; auto. Qed.
Lemma rep_swf : forall m po i r S, rep m po i r S -> swf po. Proof. intros m po i r S R. apply (U_swf m); apply R. Qed.
Lemma merge_nil : forall B, matrix_merge [] B = B. Proof. destruct B; auto. Qed.
Lemma merge_spec : forall m i r Q l s lazy todo h C before, Inv m h l i r Q -> incl s l -> incl todo s -> (forall a, In a s -> ready lazy (h a)) -> (before = [] /\ C = [] \/ before <> [] /\ rep m (only i r C) i r (TT m (d1 i r) Q before)) ->
  let (C', h') := merge_all h C todo in Inv m h' l i r Q /\ (forall a, In a s -> ready lazy (h' a)) /\ (before ++ todo <> [] -> rep m (only i r C') i r (TT m (d1 i r) Q (before ++ todo))).
Proof.
  intros m i r Q l s lazy. induction todo as [|a todo IH]; intros h C before I Isl It Rd B; simpl.
  - split; auto. split; auto. intros NE. rewrite app_nil_r in *. destruct B as [[-> _]|[_ B]]; auto. congruence.
  - assert (As : In a s) by (apply It; simpl; auto). assert (Al : In a l) by (apply Isl; auto). assert (Ra := I a Al). assert (Rs := sorted_rep _ _ _ _ _ Ra). assert (SH := sorted_has (h a) (rep_swf _ _ _ _ _ Ra)). assert (Ra0 := Rd a As). rewrite upd_eq. destruct Ra0 as [HC HM]. destruct (pC (poly_obtain_sorted_C (h a))) as [A|] eqn:EA. 2: { destruct SH as [SH _]. simpl in SH. congruence. }
    set (h1 := upd h a (poly_obtain_sorted_C (h a))). assert (I1 : Inv m h1 l i r Q) by (apply Inv_upd; auto). assert (R1 : forall b, In b s -> ready lazy (h1 b)). { intros b Bl. unfold h1, upd. destruct (Nat.eqb b a); auto. unfold ready. rewrite EA. destruct SH as [_ SH]. rewrite SH. auto. }
    assert (OA := only_rep _ _ _ _ _ _ Rs EA).
    assert (B1 : before ++ [a] = [] /\ matrix_merge C A = [] \/ before ++ [a] <> [] /\ rep m (only i r (matrix_merge C A)) i r (TT m (d1 i r) Q (before ++ [a]))).
    { right. split. intros K. apply app_eq_nil in K as [_ K]. discriminate. destruct B as [[-> ->]|[NB B]].
      - rewrite merge_nil. simpl. eapply rep_ext; [|exact OA]. intros x. symmetry. apply (TT_one m (h a)); auto.
      - destruct (matrix_rep m true false (only i r C) (only i r A) i r _ _ C A B OA eq_refl eq_refl (or_introl eq_refl)) as (po & pa' & E & R & _). assert (E' : poly_meet_matrix m true false (only i r C) A = Some (only i r (matrix_merge C A), only i r C)) by reflexivity. rewrite E in E'. injection E' as -> _. eapply rep_ext; [|exact R]. intros x. apply TT_app. }
    specialize (IH h1 (matrix_merge C A) (before ++ [a]) I1 Isl ltac:(intros b Bb; apply It; simpl; auto) R1 B1). rewrite <- app_assoc in IH. exact IH.
Qed.
Lemma select_bound : forall h q i j a, (j < i)%nat -> (select h q i j a < i + length q)%nat.
Proof. induction q as [|b q IH]; intros i j a L; simpl. lia. destruct (better (h b) (h a)). specialize (IH (S i) i b ltac:(lia)). lia. specialize (IH (S i) j a ltac:(lia)). lia. Qed.
Lemma split_nth : forall (l : list nat) j, (j < length l)%nat -> Permutation (nth j l 0%nat :: firstn j l ++ skipn (S j) l) l.
Proof.
  intros l j L. rewrite <- (firstn_skipn j l) at 4. assert (E : skipn j l = nth j l 0%nat :: skipn (S j) l). { revert j L. induction l as [|a l IH]; intros [|j] L; simpl in *; try lia; auto. rewrite IH by lia. auto. }
  rewrite E. apply Permutation_middle.
Qed.
Lemma general_spec : forall m lazy h l L i r Q, Inv m h L i r Q -> incl l L -> (forall a, In a l -> ready lazy (h a)) -> (2 <= length l)%nat -> exists po h', general m lazy i r h l = Some (po, h') /\ rep m po i r (TT m (d1 i r) Q l) /\ Inv m h' L i r Q.
Proof.
  intros m lazy h l LL i r Q I Il Rd L. unfold general. destruct lazy.
  - assert (S := merge_spec m i r Q LL l true l h [] [] I Il (incl_refl l) Rd (or_introl (conj eq_refl eq_refl))). destruct (merge_all h [] l) as [C h']. destruct S as (S1 & S2 & S3). exists (only i r C), h'. split; auto. split; auto. apply S3. simpl. intros ->. simpl in L; lia.
  - set (j := select h (tl l) 1 0 (hd 0%nat l)). assert (J : (j < length l)%nat). { unfold j. destruct l as [|a l]; simpl in *. lia. apply (select_bound h l 1 0 a); lia. }
    set (oth := firstn j l ++ skipn (S j) l). assert (P := split_nth l j J). fold oth in P. set (a := nth j l 0%nat) in *. assert (Al : In a l) by (apply nth_In; auto).
    assert (IO : incl oth l) by (intros b B; eapply Permutation_in; [exact P|simpl; auto]). assert (NO : oth <> []). { intros E. apply Permutation_length in P. rewrite E in P. simpl in P. lia. }
    assert (S := merge_spec m i r Q LL l false oth h [] [] I Il IO Rd (or_introl (conj eq_refl eq_refl))). destruct (merge_all h [] oth) as [C h']. destruct S as (S1 & S2 & S3). specialize (S3 NO). simpl in S3.
    destruct (S2 a Al) as [HC HM]. specialize (HM eq_refl). destruct (satC_rep m (h' a) i r (Q a) (S1 a (Il a Al)) HM) as (pa & E & Rp & EC & EF & ES). rewrite E. destruct (pC pa) as [A|] eqn:EA. 2: { rewrite <- EC in HC. discriminate. }
    assert (NF : pF pa <> None). { rewrite EF. unfold minimal2 in HM. destruct (pC (h' a)), (pF (h' a)); try discriminate. }
    destruct (matrix_rep m false false pa (only i r C) i r _ _ A C Rp S3 EA eq_refl (or_intror (conj NF ES))) as (po & pa' & E2 & R2 & _). rewrite E2. eexists _, _. split. reflexivity. split. 2: apply Inv_upd; auto.
    eapply rep_ext; [|exact R2]. intros x. rewrite T_sym. rewrite TT_app. apply TT_incl. intros b. split; intros B. apply in_or_app. apply (Permutation_in _ (Permutation_sym P)) in B as [<-|B]; simpl; auto. apply in_app_or in B as [B|[<-|[]]]; auto.
Qed.
Lemma dual_bottom : forall i r, rep false (poly_dual (pbottom i r)) i r (fun _ => False).
Proof. intros i r. unfold rep, U. rewrite dual_dual. apply pbottom_repr. Qed.
Lemma hull_empty : forall i r (Q : nat -> vec -> Prop) x, ~ TT false (d1 i r) Q [] x.
Proof. intros i r Q x H. simpl in H. assert (K := H (lin2 (-1) (fun i => match i with O => 1 | _ => 0 end) 0 (fun _ => 0))). rewrite dt_sym, dt_lin, dt_sym, e0_dt in K by (unfold d1; lia). rewrite dt_zero in K by auto. simpl in K. assert (0 <= -1 * 1 + 0 * 0) by (apply K; intros a y []). lra. Qed.
Theorem meet_array_spec : forall m lazy exw algleq h l i r Q, Inv m h l i r Q -> l <> [] -> exists po h', poly_meet_array m lazy exw algleq h l = Some (po, h') /\ rep m po i r (TT m (d1 i r) Q l) /\ Inv m h' l i r Q.
Proof.
  intros m lazy exw algleq h l i r Q I NE. destruct l as [|a [|b [|c l0]]]. congruence.
  - assert (R : rep m (if lazy then h a else poly_chernikova_dual m (h a)) i r (Q a)). { destruct lazy. apply I; simpl; auto. apply chern_rep. apply I; simpl; auto. } eexists _, _. split. reflexivity. split. eapply rep_ext; [|exact R]. intros x. symmetry. eapply TT_one; eauto. apply Inv_upd; auto.
  - simpl. apply meet2_spec with (l := [a; b]); auto; simpl; auto.
  - set (l := a :: b :: c :: l0) in *. assert (Ra := I a (or_introl eq_refl)). destruct Ra as (_ & D1 & D2 & _). rewrite U_int in D1. rewrite U_real in D2.
    assert (S := scan_spec m lazy i r Q l (length l) h [] l (le_n _) (incl_refl _) ltac:(intros z []) I ltac:(intros z []) ltac:(auto)).
    assert (SH : poly_meet_array m lazy exw algleq h l = match scan (length l) m lazy h [] l with
    | (None, h) => Some (pbottom i r, h) | (Some [], h) => Some (poly_dual (pbottom i r), h) | (Some [a], h) => Some (h a, h) | (Some [a; b], h) => meet2 m lazy exw algleq h a b | (Some l, h) => general m lazy i r h l end) by (rewrite <- D1, <- D2; reflexivity).
    rewrite SH. clear SH. destruct (scan (length l) m lazy h [] l) as [[l'|] h']; destruct S as (I' & S).
    2: { destruct S as (-> & z & Z & Z0). eexists _, _. split. reflexivity. split; auto. apply (rep_ext true _ _ _ (fun _ => False)); [|apply pbottom_repr]. intros x. simpl. split. tauto. intros H. apply (Z0 x), H; auto. }
    destruct S as (IN & Rd & Cv). assert (IL : Inv m h' l' i r Q) by (intros z Z; apply I'; auto).
    assert (EQ : forall x, TT m (d1 i r) Q l' x <-> TT m (d1 i r) Q l x). { intros x. destruct m. apply TT_incl. intros z. split; auto. intros Z. destruct (Cv z Z) as [K|[K _]]; auto. discriminate. symmetry. apply TT_ne; auto. intros z Z. destruct (Cv z Z) as [K|[_ K]]; auto. }
    destruct l' as [|a' [|b' [|c' l1]]].
    + destruct m. { exfalso. destruct (Cv a (or_introl eq_refl)) as [[]|[K _]]. discriminate. } eexists _, _. split. reflexivity. split; auto. apply (rep_ext false _ _ _ (fun _ => False)); [|apply dual_bottom]. intros x. rewrite <- EQ. split. tauto. apply hull_empty.
    + eexists _, _. split. reflexivity. split; auto. eapply rep_ext; [|apply IL; left; reflexivity]. intros x. rewrite <- EQ. symmetry. apply (TT_one m (h' a')). apply IL; left; auto.
    + destruct (meet2_spec m lazy exw algleq h' a' b' l i r Q I' ltac:(apply IN; simpl; auto) ltac:(apply IN; simpl; auto)) as (po & h2 & E & R & I2). exists po, h2. split; auto. split; auto. eapply rep_ext; [|exact R]. exact EQ.
    + destruct (general_spec m lazy h' (a' :: b' :: c' :: l1) l i r Q I' IN Rd ltac:(simpl; lia)) as (po & h2 & E & R & I2). exists po, h2. split; auto. split; auto. eapply rep_ext; [|exact R]. exact EQ.
Qed.

(** * What is outside of the array is not modified *)
Lemma scan_frame : forall m lazy fuel h done todo b, ~ In b todo -> snd (scan fuel m lazy h done todo) b = h b.
Proof.
  induction fuel; intros h done todo b N; simpl; auto. destruct todo as [|a q]; auto. assert (b <> a) by (intros ->; apply N; simpl; auto). destruct (has _); [|destruct m]; simpl; try (rewrite upd_other; auto); rewrite IHfuel; try (rewrite upd_other; auto); intros I; apply N; simpl; auto. right. eapply Permutation_in; [apply last_first_perm|]; auto.
Qed.
Lemma scan_sub : forall m lazy fuel h done todo l', fst (scan fuel m lazy h done todo) = Some l' -> forall a, In a l' -> In a done \/ In a todo.
Proof.
  induction fuel; intros h done todo l' E a A; simpl in E. injection E as <-; auto. destruct todo as [|b q]. injection E as <-; auto. destruct (has _). destruct (IHfuel _ _ _ _ E a A) as [K|K]; simpl; auto. apply in_app_or in K as [K|[<-|[]]]; auto. destruct m. discriminate. destruct (IHfuel _ _ _ _ E a A) as [K|K]; simpl; auto. right; right. eapply Permutation_in; [apply last_first_perm|]; auto.
Qed.
Lemma meet2_frame : forall m lazy exw algleq h a b po h' c, meet2 m lazy exw algleq h a b = Some (po, h') -> c <> a -> c <> b -> h' c = h c.
Proof. intros m lazy exw algleq h a b po h' c E A B. unfold meet2 in E. destruct (Nat.eqb a b). injection E as <- <-. apply upd_other; auto. destruct (poly_meet _ _ _ _ _ _ _) as [[[p q] s]|]; try discriminate. injection E as <- <-. rewrite upd_other, upd_other; auto. Qed.
Lemma merge_frame : forall todo h C b, ~ In b todo -> snd (merge_all h C todo) b = h b.
Proof. induction todo as [|a todo IH]; intros h C b N; simpl; auto. rewrite IH. apply upd_other. intros ->; apply N; simpl; auto. intros I; apply N; simpl; auto. Qed.
Lemma general_frame : forall m lazy i r h l po h' b, (0 < length l)%nat -> general m lazy i r h l = Some (po, h') -> ~ In b l -> h' b = h b.
Proof.
  intros m lazy i r h l po h' b L E N. unfold general in E. destruct lazy.
  - assert (F := merge_frame l h [] b N). destruct (merge_all h [] l). injection E as <- <-. exact F.
  - set (j := select h (tl l) 1 0 (hd 0%nat l)) in *. assert (J : (j < length l)%nat). { unfold j. destruct l as [|a l]; simpl in *. lia. apply (select_bound h l 1 0 a); lia. } assert (P := split_nth l j J). set (oth := firstn j l ++ skipn (S j) l) in *. assert (F := merge_frame oth h [] b). destruct (merge_all h [] oth). destruct (poly_obtain_satC _); try discriminate. destruct (poly_meet_matrix _ _ _ _ _) as [[? ?]|]; try discriminate. injection E as <- <-. rewrite upd_other. apply F. intros I. apply N. eapply Permutation_in; [exact P|simpl; auto]. intros ->. apply N. apply nth_In; auto.
Qed.
Lemma array_frame : forall m lazy exw algleq h l po h' b, poly_meet_array m lazy exw algleq h l = Some (po, h') -> ~ In b l -> h' b = h b.
Proof.
  intros m lazy exw algleq h l po h' b E N. destruct l as [|a1 [|a2 [|a3 l0]]]. simpl in E. injection E as <- <-; auto. simpl in E. injection E as <- <-. apply upd_other. intros ->; apply N; simpl; auto. simpl in E. eapply meet2_frame; eauto; intros ->; apply N; simpl; auto.
  set (l := a1 :: a2 :: a3 :: l0) in *. change (match scan (length l) m lazy h [] l with
    | (None, h0) => Some (pbottom (pint (h a1)) (preal (h a1)), h0) | (Some [], h0) => Some (poly_dual (pbottom (pint (h a1)) (preal (h a1))), h0) | (Some [a], h0) => Some (h0 a, h0) | (Some [a; b], h0) => meet2 m lazy exw algleq h0 a b | (Some l, h0) => general m lazy (pint (h a1)) (preal (h a1)) h0 l end = Some (po, h')) in E.
  assert (F := scan_frame m lazy (length l) h [] l b N). assert (S := scan_sub m lazy (length l) h [] l). destruct (scan (length l) m lazy h [] l) as [[l'|] h0]; simpl in F. 2: injection E as <- <-; auto. specialize (S l' eq_refl). assert (N' : ~ In b l') by (intros I; destruct (S b I) as [[]|K]; auto). destruct l' as [|x [|y [|z l']]].
  - injection E as <- <-; auto.
  - injection E as <- <-; auto.
  - rewrite <- F. eapply meet2_frame; eauto; intros ->; apply N'; simpl; auto.
  - rewrite <- F. eapply general_frame; eauto. simpl; lia.
Qed.

(** * Removal of the duplicates *)
Lemma ninsert_perm : forall x l, Permutation (ninsert x l) (x :: l).
Proof. induction l as [|y q IH]; simpl; auto. destruct (Nat.leb x y); auto. rewrite IH. apply perm_swap. Qed.
Lemma nsort_perm : forall l, Permutation (nsort l) l.
Proof. induction l; simpl; auto. rewrite ninsert_perm. auto. Qed.
Lemma ninsert_sorted : forall x l, StronglySorted le l -> StronglySorted le (ninsert x l).
Proof.
  induction 1 as [|y q H IH F]; simpl. repeat constructor. destruct (Nat.leb x y) eqn:E. apply Nat.leb_le in E. constructor. constructor; auto. constructor; auto. eapply Forall_impl; [|exact F]. intros; lia. apply Nat.leb_gt in E. constructor; auto. apply (Permutation_Forall (Permutation_sym (ninsert_perm x q))). constructor; auto. lia.
Qed.
Lemma nsort_sorted : forall l, StronglySorted le (nsort l). Proof. induction l; simpl. constructor. apply ninsert_sorted; auto. Qed.
Lemma doublons_spec : forall fuel l, (length l <= fuel)%nat -> StronglySorted le l -> (forall a, count_occ Nat.eq_dec l a <= 2)%nat -> NoDup (remove_doublons fuel l) /\ forall a, In a (remove_doublons fuel l) <-> In a l.
Proof.
  induction fuel; intros l L S C. destruct l; simpl in *; [|lia]. split. constructor. tauto. destruct l as [|x [|y q]]; simpl. split. constructor. tauto. split. repeat constructor; auto. tauto. inversion S as [|? ? S1 F1]; subst. inversion S1 as [|? ? S2 F2]; subst.
  destruct (Nat.eqb x y) eqn:E.
  - apply Nat.eqb_eq in E as <-. destruct (IHfuel q) as (A & B); auto. simpl in L; lia. intros a. specialize (C a). simpl in C. destruct (Nat.eq_dec x a); lia. split. constructor; auto. rewrite B. specialize (C x). simpl in C. destruct (Nat.eq_dec x x); [|congruence]. intros I. apply (count_occ_In Nat.eq_dec) in I. lia. intros a. simpl. rewrite B. tauto.
  - apply Nat.eqb_neq in E. destruct (IHfuel (y :: q)) as (A & B); auto. simpl in *; lia. intros a. specialize (C a). simpl in C |- *. destruct (Nat.eq_dec x a), (Nat.eq_dec y a); lia. split. constructor; auto. rewrite B. intros [I|I]. congruence. inversion F1; subst. rewrite Forall_forall in F2. specialize (F2 x I). lia. intros a. simpl in B |- *. rewrite B. tauto.
Qed.
Lemma nsort_count : forall l a, count_occ Nat.eq_dec (nsort l) a = count_occ Nat.eq_dec l a.
Proof. intros l a. apply (Permutation_count_occ Nat.eq_dec). apply nsort_perm. Qed.
Lemma dual_all_spec : forall l h b, NoDup l -> dual_all h l b = if in_dec Nat.eq_dec b l then poly_dual (h b) else h b.
Proof.
  induction l as [|a l IH]; intros h b N; simpl. auto. inversion N; subst. change (dual_all (upd h a (poly_dual (h a))) l b = if in_dec Nat.eq_dec b (a :: l) then poly_dual (h b) else h b). rewrite IH by auto. destruct (in_dec Nat.eq_dec b l), (in_dec Nat.eq_dec b (a :: l)) as [I|I]; simpl in I.
  - rewrite upd_other; auto. intros ->; auto.
  - exfalso; auto.
  - destruct I as [<-|I]. apply upd_eq. contradiction.
  - apply upd_other. intros ->; auto.
Qed.

(** The simplification keeps the set of points and leaves a minimal system. *)
From Coq Require Import ZArith Bool List Lia Reals Lra Permutation.
Import ListNotations.
From Verif Require Import PkCone PkVec PkCherni PkCherniFacts PkCherniRay PkFarkas PkSimplify.
Open Scope nat_scope.

(** * The loops which move rows *)
Definition iseq (r : row) : bool := negb (is_ineq (fst r)) || forallb negb (snd r).
Definition fE (r : row) : row := setvec (setsign 0 (fst r)) r.
Definition fI (r : row) : row := setvec (setsign (nbsat (snd r)) (fst r)) r.
Lemma first_ineq_spec : forall rows, exists A B, rows = A ++ B /\ length A = first_ineq rows /\ Forall (fun r => zn 0 (fst r) = 0%Z) A.
Proof.
  induction rows as [|r q (A & B & E & L & F)]. exists [], []. auto. simpl. destruct (is_ineq (fst r)) eqn:Q. exists [], (r :: q). auto. exists (r :: A), B. subst q. split; auto. split. simpl; auto. constructor; auto. unfold is_ineq in Q. apply negb_false_iff, Z.eqb_eq in Q. auto.
Qed.
Lemma simp_eq_spec : forall U Er Ir, exists Ir', simp_eq (length U) (length (Er ++ Ir)) (length Er) (Er ++ Ir ++ U) = (length (Er ++ map fE (filter iseq U)), (Er ++ map fE (filter iseq U)) ++ Ir') /\
  Permutation Ir' (Ir ++ map fI (filter (fun r => negb (iseq r)) U)).
Proof.
  induction U as [|u U IH]; intros Er Ir; cbn [length simp_eq].
  - exists Ir. cbn [filter map]. rewrite !app_nil_r. auto.
  - assert (N : nth (length (Er ++ Ir)) (Er ++ Ir ++ u :: U) row0 = u) by (rewrite app_assoc; apply nth_mid). rewrite !N. cbn [filter].
    assert (LS : forall y, lset (length (Er ++ Ir)) y (Er ++ Ir ++ u :: U) = Er ++ Ir ++ y :: U) by (intros y; rewrite app_assoc, lset_app, <- app_assoc; auto). rewrite !LS. fold (iseq u). destruct (iseq u).
    + fold (fE u). assert (X : exists Ir2, Permutation Ir2 Ir /\ exch row0 (length (Er ++ Ir)) (length Er) (Er ++ Ir ++ fE u :: U) = (Er ++ [fE u]) ++ Ir2 ++ U).
      { destruct Ir as [|h Ir2]. exists []. split; auto. rewrite app_nil_r. rewrite exch_same by (rewrite app_length; simpl; lia). rewrite <- app_assoc. auto. exists (Ir2 ++ [h]). split. symmetry. apply Permutation_cons_append. destruct (exch_app row row0 Er h Ir2 (fE u) U) as [_ E]. rewrite app_length. simpl length. cbn [app] in *. rewrite E. rewrite <- !app_assoc. auto. }
      destruct X as (Ir2 & P2 & ->). replace (S (length (Er ++ Ir))) with (length ((Er ++ [fE u]) ++ Ir2)) by (rewrite !app_length, (Permutation_length P2); simpl; lia). replace (S (length Er)) with (length (Er ++ [fE u])) by (rewrite app_length; simpl; lia).
      destruct (IH (Er ++ [fE u]) Ir2) as (Ir' & -> & P). exists Ir'. cbn [map]. rewrite <- !app_assoc. cbn [app]. split; auto. cbn [negb]. rewrite P. apply Permutation_app_tail; auto.
    + fold (fI u). replace (Er ++ Ir ++ fI u :: U) with (Er ++ (Ir ++ [fI u]) ++ U) by (rewrite <- app_assoc; auto). replace (S (length (Er ++ Ir))) with (length (Er ++ Ir ++ [fI u])) by (rewrite !app_length; simpl; lia).
      destruct (IH Er (Ir ++ [fI u])) as (Ir' & -> & P). exists Ir'. split; auto. cbn [negb map]. rewrite P. rewrite <- app_assoc. auto.
Qed.
Lemma move_eqs_spec : forall f E M Zr I J, length I <= f -> exists I' D', Permutation (M ++ I) I' /\ move_eqs f (length (E ++ M ++ Zr ++ I)) (length (E ++ M)) (length (E ++ M ++ Zr)) (E ++ M ++ Zr ++ I ++ J) = E ++ I' ++ D'.
Proof.
  induction f; intros E M Zr I J F.
  - destruct I; [|simpl in F; lia]. exists M, (Zr ++ J). rewrite app_nil_r. auto.
  - cbn [move_eqs]. destruct Zr as [|z Zr].
    { rewrite app_nil_r, Nat.ltb_irrefl. cbn [andb]. exists (M ++ I), J. split; auto. rewrite <- app_assoc. auto. }
    destruct I as [|k I] using rev_ind. { rewrite !app_nil_r, Nat.ltb_irrefl, andb_false_r. exists M, ((z :: Zr) ++ J). auto. } clear IHI.
    replace (Nat.ltb (length (E ++ M)) (length (E ++ M ++ z :: Zr))) with true by (symmetry; apply Nat.ltb_lt; rewrite !app_length; simpl; lia). replace (Nat.ltb (length (E ++ M ++ z :: Zr)) (length (E ++ M ++ (z :: Zr) ++ I ++ [k]))) with true by (symmetry; apply Nat.ltb_lt; rewrite !app_length; simpl; lia). cbn [andb].
    replace (length (E ++ M ++ (z :: Zr) ++ I ++ [k]) - 1) with (length (E ++ M) + S (length (Zr ++ I))) by (rewrite !app_length; simpl; lia).
    replace (E ++ M ++ (z :: Zr) ++ (I ++ [k]) ++ J) with ((E ++ M) ++ z :: (Zr ++ I) ++ k :: J) by (rewrite <- !app_assoc; reflexivity). destruct (exch_app row row0 (E ++ M) z (Zr ++ I) k J) as [X _]. rewrite X. clear X.
    replace ((E ++ M) ++ k :: (Zr ++ I) ++ z :: J) with (E ++ (M ++ [k]) ++ Zr ++ I ++ z :: J) by (rewrite <- !app_assoc; reflexivity).
    replace (length (E ++ M) + S (length (Zr ++ I))) with (length (E ++ (M ++ [k]) ++ Zr ++ I)) by (rewrite !app_length; simpl; lia). replace (S (length (E ++ M))) with (length (E ++ M ++ [k])) by (rewrite !app_length; simpl; lia). replace (length (E ++ M ++ z :: Zr)) with (length (E ++ (M ++ [k]) ++ Zr)) by (rewrite !app_length; simpl; lia).
    destruct (IHf E (M ++ [k]) Zr I (z :: J)) as (I' & D' & P & Q). rewrite app_length in F. simpl in F. lia. exists I', D'. split; auto. rewrite <- P. rewrite <- app_assoc. apply Permutation_app_head. symmetry. apply Permutation_cons_append.
Qed.
(** removing row [i] by exchange with the last one *)
Lemma exch_last : forall (A U D : list row) u, exists U', Permutation U' U /\ exch row0 (length A) (length (A ++ u :: U) - 1) (A ++ (u :: U) ++ D) = A ++ U' ++ u :: D /\ length (A ++ u :: U) - 1 = length (A ++ U').
Proof.
  intros A U D u. destruct U as [|w U] using rev_ind.
  - exists []. split; auto. split. 2: rewrite !app_length; simpl; lia. replace (length (A ++ [u]) - 1) with (length A) by (rewrite app_length; simpl; lia). rewrite exch_same. auto. rewrite !app_length; simpl; lia.
  - clear IHU. exists (w :: U). split. apply Permutation_cons_append. split. 2: rewrite !app_length; simpl; rewrite app_length; simpl; lia. replace (length (A ++ u :: U ++ [w]) - 1) with (length A + S (length U)) by (rewrite !app_length; simpl; rewrite app_length; simpl; lia). replace (A ++ (u :: U ++ [w]) ++ D) with (A ++ u :: U ++ w :: D) by (cbn [app]; rewrite <- app_assoc; auto). apply exch_app.
Qed.
Lemma remove_few_spec : forall f nmin E K U D, length U <= f -> exists K' X D', remove_few f (length (E ++ K)) nmin (length (E ++ K ++ U)) (E ++ K ++ U ++ D) = (length (E ++ K'), E ++ K' ++ D') /\ Permutation (K ++ U) (K' ++ X) /\ Forall (fun r => (zn 0 (fst r) < nmin)%Z) X.
Proof.
  induction f; intros nmin E K U D F.
  - destruct U; [|simpl in F; lia]. exists K, [], D. simpl. rewrite app_nil_r. auto.
  - cbn [remove_few]. destruct U as [|u U]. { rewrite app_nil_r, Nat.ltb_irrefl. exists K, [], D. rewrite app_nil_r. auto. }
    replace (Nat.ltb (length (E ++ K)) (length (E ++ K ++ u :: U))) with true by (symmetry; apply Nat.ltb_lt; rewrite !app_length; simpl; lia). replace (nth (length (E ++ K)) (E ++ K ++ (u :: U) ++ D) row0) with u by (rewrite app_assoc; symmetry; apply nth_mid). simpl in F.
    destruct (Z.ltb_spec (zn 0 (fst u)) nmin) as [B|B].
    + destruct (exch_last (E ++ K) U D u) as (U' & P & X & L). rewrite <- !app_assoc in *. rewrite X, L. destruct (IHf nmin E K U' (u :: D)) as (K' & Y & D' & E1 & P1 & F1). rewrite (Permutation_length P). lia. exists K', (u :: Y), D'. split; auto. split; auto. rewrite <- Permutation_middle. rewrite <- Permutation_middle. apply perm_skip. rewrite <- P1. apply Permutation_app_head. symmetry; auto.
    + replace (E ++ K ++ (u :: U) ++ D) with (E ++ (K ++ [u]) ++ U ++ D) by (rewrite <- !app_assoc; auto). replace (E ++ K ++ u :: U) with (E ++ (K ++ [u]) ++ U) by (rewrite <- !app_assoc; auto). replace (S (length (E ++ K))) with (length (E ++ K ++ [u])) by (rewrite !app_length; simpl; lia).
      destruct (IHf nmin E (K ++ [u]) U D) as (K' & Y & D' & E1 & P1 & F1). lia. exists K', Y, D'. split; auto. split; auto. rewrite <- P1, <- app_assoc. auto.
Qed.
(** the search of a redundancy of [u] *)
Definition nbz (r : row) : Z := zn 0 (fst r).
Definition strict (u w : row) : Prop := (nbz u < nbz w)%Z /\ bit_sub (snd w) (snd u) = true.
Definition same (u w : row) : Prop := nbz w = nbz u /\ bit_eq (snd u) (snd w) = true.
Lemma inner_pass : forall P E Q u U D i f, i = length (E ++ Q) -> (forall w, In w P -> ~ same u w) -> (exists V, Q ++ u :: U = P ++ V /\ (length P <= length Q)) -> length P <= f ->
  (exists w, In w P /\ strict u w /\ red_inner f (nbz u) i (length E) (length (E ++ Q ++ u :: U)) (E ++ Q ++ u :: U ++ D) = (true, length (E ++ Q ++ u :: U), E ++ Q ++ u :: U ++ D)) \/
  ((forall w, In w P -> ~ strict u w) /\ exists f', f' = f - length P /\ red_inner f (nbz u) i (length E) (length (E ++ Q ++ u :: U)) (E ++ Q ++ u :: U ++ D) = red_inner f' (nbz u) i (length (E ++ P)) (length (E ++ Q ++ u :: U)) (E ++ Q ++ u :: U ++ D)).
Proof.
  induction P as [|w P IH] using rev_ind; intros E Q u U D i f Ei NS (V & EV & LE) F.
  - right. split. intros w []. exists f. rewrite app_nil_r. simpl. split; auto. lia.
  - rewrite app_length in LE, F. simpl in LE, F. destruct (IH E Q u U D i f Ei) as [(x & I & S & R)|(NS1 & f' & Ef & R)]; auto. intros x I. apply NS. apply in_app_iff; auto. exists (w :: V). split. rewrite EV, <- app_assoc; auto. lia. lia.
    { left. exists x. split; auto. apply in_app_iff; auto. }
    rewrite R. destruct f' as [|f']; [lia|]. cbn [red_inner]. replace (Nat.ltb (length (E ++ P)) (length (E ++ Q ++ u :: U))) with true by (symmetry; apply Nat.ltb_lt; rewrite !app_length; simpl; lia).
    assert (NW : nth (length (E ++ P)) (E ++ Q ++ u :: U ++ D) row0 = w). { replace (E ++ Q ++ u :: U ++ D) with ((E ++ P) ++ w :: V ++ D). apply nth_mid. change (u :: U ++ D) with ((u :: U) ++ D). rewrite (app_assoc Q), EV, <- !app_assoc. auto. }
    assert (NU : nth i (E ++ Q ++ u :: U ++ D) row0 = u). { rewrite Ei, app_assoc. apply nth_mid. } rewrite NW, NU. fold (nbz w). replace (length (E ++ P ++ [w])) with (S (length (E ++ P))) by (rewrite !app_length; simpl; lia).
    assert (NI : Nat.eqb (length (E ++ P)) i = false) by (apply Nat.eqb_neq; rewrite Ei, !app_length; lia). rewrite NI. cbn [negb]. rewrite andb_true_r.
    assert (OK : ~ strict u w -> (forall x, In x (P ++ [w]) -> ~ strict u x) /\ exists f0, f0 = f - length (P ++ [w]) /\ red_inner f' (nbz u) i (S (length (E ++ P))) (length (E ++ Q ++ u :: U)) (E ++ Q ++ u :: U ++ D) = red_inner f0 (nbz u) i (S (length (E ++ P))) (length (E ++ Q ++ u :: U)) (E ++ Q ++ u :: U ++ D)). { intros NSW. split. intros x I. apply in_app_iff in I. destruct I as [I|[<-|[]]]; auto. exists f'. split; auto. rewrite app_length. simpl. lia. }
    destruct (Z.ltb_spec (nbz u) (nbz w)) as [LT|GE].
    + destruct (bit_sub (snd w) (snd u)) eqn:B. left. exists w. split. apply in_app_iff; right; left; auto. split; auto. split; auto. right. apply OK. intros [_ X]. congruence.
    + destruct (Z.eqb_spec (nbz w) (nbz u)) as [EQ|NE].
      * destruct (bit_eq (snd u) (snd w)) eqn:B. exfalso. apply (NS w). apply in_app_iff; right; left; auto. split; auto. right. apply OK. intros [X _]. lia.
      * right. apply OK. intros [X _]. lia.
Qed.
Lemma inner_rest : forall f E Q u A B D, length B <= f -> (forall w, In w A -> ~ strict u w /\ ~ same u w) ->
  exists red U' X D', red_inner f (nbz u) (length (E ++ Q)) (length (E ++ Q ++ u :: A)) (length (E ++ Q ++ u :: A ++ B)) (E ++ Q ++ u :: A ++ B ++ D) = (red, length (E ++ Q ++ u :: U'), E ++ Q ++ u :: U' ++ D') /\
    Permutation (A ++ B) (U' ++ X) /\ Forall (same u) X /\ (if red then exists w, In w U' /\ strict u w else forall w, In w U' -> ~ strict u w /\ ~ same u w).
Proof.
  induction f; intros E Q u A B D F HA.
  - destruct B; [|simpl in F; lia]. exists false, A, [], D. simpl. rewrite !app_nil_r. auto.
  - cbn [red_inner]. destruct B as [|w B]. { rewrite app_nil_r, Nat.ltb_irrefl. exists false, A, [], D. rewrite app_nil_r. auto. } simpl in F.
    replace (Nat.ltb (length (E ++ Q ++ u :: A)) (length (E ++ Q ++ u :: A ++ w :: B))) with true by (symmetry; apply Nat.ltb_lt; rewrite !app_length; simpl; rewrite !app_length; simpl; lia).
    set (rows := E ++ Q ++ u :: A ++ (w :: B) ++ D). assert (ER : rows = (E ++ Q ++ u :: A) ++ (w :: B) ++ D) by (unfold rows; rewrite <- !app_assoc; auto).
    assert (NW : nth (length (E ++ Q ++ u :: A)) rows row0 = w) by (rewrite ER; apply nth_mid). assert (NU : nth (length (E ++ Q)) rows row0 = u) by (unfold rows; rewrite app_assoc; apply nth_mid). rewrite NW, NU. fold (nbz w).
    assert (NI : Nat.eqb (length (E ++ Q ++ u :: A)) (length (E ++ Q)) = false) by (apply Nat.eqb_neq; rewrite !app_length; simpl; lia). rewrite NI. cbn [negb]. rewrite andb_true_r.
    assert (NEXT : ~ strict u w -> ~ same u w -> exists red U' X D', red_inner f (nbz u) (length (E ++ Q)) (S (length (E ++ Q ++ u :: A))) (length (E ++ Q ++ u :: A ++ w :: B)) rows = (red, length (E ++ Q ++ u :: U'), E ++ Q ++ u :: U' ++ D') /\ Permutation (A ++ w :: B) (U' ++ X) /\ Forall (same u) X /\ (if red then exists w, In w U' /\ strict u w else forall w, In w U' -> ~ strict u w /\ ~ same u w)).
    { intros N1 N2. destruct (IHf E Q u (A ++ [w]) B D) as (red & U' & X & D' & E1 & P1 & F1 & H1). lia. intros x I. apply in_app_iff in I. destruct I as [I|[<-|[]]]; auto. exists red, U', X, D'. rewrite <- !app_assoc in *. cbn [app] in *. split; auto. rewrite <- E1. unfold rows. cbn [app]. f_equal. rewrite !app_length. simpl. rewrite !app_length. simpl. lia. }
    destruct (Z.ltb_spec (nbz u) (nbz w)) as [LT|GE].
    + destruct (bit_sub (snd w) (snd u)) eqn:BS. exists true, (A ++ w :: B), [], D. split. { unfold rows. cbn [app]. rewrite <- !app_assoc. auto. } rewrite app_nil_r. split; auto. split; auto. exists w. split. apply in_elt. split; auto. apply NEXT. intros [_ X]. congruence. intros [X _]. lia.
    + destruct (Z.eqb_spec (nbz w) (nbz u)) as [EQ|NE].
      * destruct (bit_eq (snd u) (snd w)) eqn:BE. 2: { apply NEXT. intros [X _]. lia. intros [_ X]. congruence. }
        destruct (exch_last (E ++ Q ++ u :: A) B D w) as (B' & P & X & L). rewrite ER. replace (E ++ Q ++ u :: A ++ w :: B) with ((E ++ Q ++ u :: A) ++ w :: B) by (rewrite <- !app_assoc; auto). rewrite X, L.
        destruct (IHf E Q u A B' (w :: D)) as (red & U' & Y & D' & E1 & P1 & F1 & H1); auto. rewrite (Permutation_length P). lia. exists red, U', (w :: Y), D'. split. { etransitivity; [|exact E1]. rewrite <- !app_assoc. cbn [app]. reflexivity. } split. rewrite <- !Permutation_middle. apply perm_skip. rewrite <- P1. apply Permutation_app_head. symmetry; auto. split; auto. constructor; auto. split; auto.
      * apply NEXT. intros [X _]. lia. intros [X _]. lia.
Qed.
Definition bsub (a b : list bool) : Prop := forall j, nth j a false = true -> nth j b false = true.
Lemma bit_sub_spec : forall a b, bit_sub a b = true <-> bsub a b.
Proof.
  intros a b. unfold bit_sub, bsub. rewrite forallb_forall. split.
  - intros H j T. destruct (Nat.lt_ge_cases j (length a)) as [L|L]. specialize (H j). rewrite in_seq in H. specialize (H ltac:(lia)). rewrite T in H. auto. rewrite nth_overflow in T by auto. discriminate.
  - intros H j _. specialize (H j). destruct (nth j a false); auto.
Qed.
Lemma bit_eq_spec : forall a b, length a = length b -> (bit_eq a b = true <-> a = b).
Proof.
  intros a b L. unfold bit_eq. rewrite forallb_forall. split.
  - intros H. apply (nth_ext a b false false L). intros j J. apply eqb_prop. apply H. apply in_seq. lia.
  - intros -> j _. apply eqb_reflx.
Qed.
Lemma inner_spec : forall E K u U D f, length K + 1 + length U <= f -> (forall w, In w K -> ~ same u w) ->
  exists red U' X D', red_inner f (nbz u) (length (E ++ K)) (length E) (length (E ++ K ++ u :: U)) (E ++ K ++ u :: U ++ D) = (red, length (E ++ K ++ u :: U'), E ++ K ++ u :: U' ++ D') /\
    Permutation U (U' ++ X) /\ Forall (same u) X /\ (if red then exists w, In w (K ++ U') /\ strict u w else forall w, In w (K ++ U') -> ~ strict u w /\ ~ same u w).
Proof.
  intros E K u U D f F NS. destruct (inner_pass K E K u U D _ f eq_refl NS) as [(w & I & S & R)|(NS1 & f' & Ef & R)]. exists (u :: U). auto. lia.
  - exists true, U, [], D. rewrite app_nil_r. split; auto. split; auto. split; auto. exists w. split; auto. apply in_app_iff; auto.
  - rewrite R. destruct f' as [|f']; [lia|]. cbn [red_inner]. replace (Nat.ltb (length (E ++ K)) (length (E ++ K ++ u :: U))) with true by (symmetry; apply Nat.ltb_lt; rewrite !app_length; simpl; lia).
    assert (NU : nth (length (E ++ K)) (E ++ K ++ u :: U ++ D) row0 = u) by (rewrite app_assoc; apply nth_mid). rewrite NU. fold (nbz u). rewrite Z.ltb_irrefl, Z.eqb_refl, Nat.eqb_refl. cbn [andb negb].
    destruct (inner_rest f' E K u [] U D) as (red & U' & X & D' & E1 & P1 & F1 & H1). lia. intros w []. cbn [app] in *. exists red, U', X, D'. replace (S (length (E ++ K))) with (length (E ++ K ++ [u])) by (rewrite !app_length; simpl; lia). split; auto. split; auto. split; auto. destruct red.
    destruct H1 as (w & I & S). exists w. split; auto. apply in_app_iff; auto. intros w I. apply in_app_iff in I. destruct I as [I|I]; auto.
Qed.
Definition pairwise (K U : list row) : Prop := forall K1 k K2, K = K1 ++ k :: K2 -> forall w, In w (K1 ++ K2 ++ U) -> ~ strict k w /\ ~ same k w.
Lemma same_sym : forall m (u w : row), length (snd u) = m -> length (snd w) = m -> same u w -> same w u.
Proof. intros m u w L1 L2 [A B]. split; auto. apply bit_eq_spec in B; [|congruence]. apply bit_eq_spec; congruence. Qed.
Lemma same_bsub : forall m (u w : row), length (snd u) = m -> length (snd w) = m -> same u w -> bsub (snd u) (snd w).
Proof. intros m u w L1 L2 [A B]. apply bit_eq_spec in B; [|congruence]. rewrite B. intros j; auto. Qed.
Lemma red_outer_spec : forall m f (E K U D : list row), length U <= f -> Forall (fun r : row => length (snd r) = m) (K ++ U) -> pairwise K U ->
  exists K' X D', red_outer f (length (E ++ K)) (length E) (length (E ++ K ++ U)) (E ++ K ++ U ++ D) = (length (E ++ K'), E ++ K' ++ D') /\ Permutation (K ++ U) (K' ++ X) /\ (forall x : row, In x (K ++ U) -> exists w : row, In w K' /\ bsub (snd w) (snd x)) /\ pairwise K' [].
Proof.
  assert (REFL : forall (K : list row) (x : row), In x K -> exists w, In w K /\ bsub (snd w) (snd x)). { intros K x I. exists x. split; auto. intros j; auto. }
  intros m. induction f; intros E K U D F LB PW.
  - destruct U; [|simpl in F; lia]. exists K, [], D. cbn [red_outer]. rewrite !app_nil_r in *. auto.
  - cbn [red_outer]. destruct U as [|u U]. { rewrite !app_nil_r, Nat.ltb_irrefl. exists K, [], D. rewrite app_nil_r. auto. } simpl in F.
    replace (Nat.ltb (length (E ++ K)) (length (E ++ K ++ u :: U))) with true by (symmetry; apply Nat.ltb_lt; rewrite !app_length; simpl; lia).
    assert (NU : nth (length (E ++ K)) (E ++ K ++ (u :: U) ++ D) row0 = u) by (rewrite app_assoc; apply nth_mid). rewrite NU. fold (nbz u).
    assert (LU : forall w, In w (K ++ u :: U) -> length (snd w) = m) by (apply Forall_forall; auto).
    assert (NK : forall w, In w K -> ~ same u w). { intros w I S. destruct (in_split _ _ I) as (K1 & K2 & ->). destruct (PW K1 w K2 eq_refl u) as [_ N]. rewrite !in_app_iff. right; right; left; auto. apply N. apply (same_sym m); auto. apply LU; rewrite !in_app_iff; right; left; auto. apply LU; rewrite !in_app_iff; simpl; auto. }
    destruct (inner_spec E K u U D (length (E ++ K ++ u :: U))) as (red & U' & X & D' & E1 & P1 & F1 & H1); auto. rewrite !app_length; simpl; lia. cbn [app]. rewrite E1. clear E1.
    assert (LU' : length U' <= length U) by (rewrite (Permutation_length P1), app_length; lia).
    assert (IU : forall w, In w (U' ++ X) -> In w U) by (intros w I; apply (Permutation_in w (Permutation_sym P1)); auto).
    assert (PW' : pairwise K U'). { intros K1 k K2 EK w I. apply (PW K1 k K2 EK). rewrite !in_app_iff in *. simpl. destruct I as [I|[I|I]]; auto. right. right. right. apply IU, in_app_iff; auto. }
    assert (LB' : Forall (fun r : row => length (snd r) = m) (K ++ U')). { apply Forall_forall. intros w I. apply LU. rewrite in_app_iff in *. destruct I as [I|I]; auto. right. right. apply IU, in_app_iff; auto. }
    rewrite Forall_forall in F1. destruct red.
    + destruct H1 as (w & Iw & Sw). destruct (exch_last (E ++ K) U' D' u) as (U2 & P2 & X2 & L2). replace (E ++ K ++ u :: U' ++ D') with ((E ++ K) ++ (u :: U') ++ D') by (rewrite <- app_assoc; auto). rewrite (app_assoc E K (u :: U')). rewrite X2, L2. rewrite <- !app_assoc.
      destruct (IHf E K U2 (u :: D')) as (K' & Y & D2 & E3 & P3 & C3 & PW3). rewrite (Permutation_length P2). lia. { eapply Permutation_Forall; [|exact LB']. apply Permutation_app_head. symmetry; auto. } { intros K1 k K2 EK z I. apply (PW' K1 k K2 EK). rewrite !in_app_iff in *. destruct I as [I|[I|I]]; auto. right; right. apply (Permutation_in z P2); auto. }
      exists K', (u :: X ++ Y), D2. split; auto. split.
      { rewrite P1. rewrite <- !Permutation_middle. apply perm_skip. rewrite (Permutation_app_comm X Y), (app_assoc K'), <- P3, (app_assoc K). apply Permutation_app_tail. apply Permutation_app_head. symmetry; auto. }
      split; auto. assert (CW : exists z, In z K' /\ bsub (snd z) (snd u)). { destruct (C3 w) as (z & Iz & Bz). rewrite in_app_iff in *. destruct Iw as [I|I]; auto. right. apply (Permutation_in w (Permutation_sym P2)); auto. exists z. split; auto. destruct Sw as [_ Sw]. apply bit_sub_spec in Sw. intros j J. apply Sw, Bz; auto. }
      intros x Ix. apply in_app_iff in Ix. destruct Ix as [Ix|[<-|Ix]]; auto. apply C3, in_app_iff; auto. apply (Permutation_in x P1) in Ix. apply in_app_iff in Ix. destruct Ix as [Ix|Ix]. apply C3, in_app_iff. right. apply (Permutation_in x (Permutation_sym P2)); auto.
      destruct CW as (z & Iz & Bz). exists z. split; auto. assert (SU := F1 x Ix). intros j J. apply (same_bsub m u x); auto. apply LU, in_elt. apply LU. rewrite in_app_iff. right; right. apply IU, in_app_iff; auto.
    + replace (E ++ K ++ u :: U' ++ D') with (E ++ (K ++ [u]) ++ U' ++ D') by (rewrite <- app_assoc; auto). replace (E ++ K ++ u :: U') with (E ++ (K ++ [u]) ++ U') by (rewrite <- app_assoc; auto). replace (S (length (E ++ K))) with (length (E ++ K ++ [u])) by (rewrite !app_length; simpl; lia).
      destruct (IHf E (K ++ [u]) U' D') as (K' & Y & D2 & E3 & P3 & C3 & PW3). lia. { rewrite <- app_assoc. apply Forall_forall. intros z I. apply LU. rewrite in_app_iff in *. destruct I as [I|[<-|I]]; auto. right; left; auto. right; right. apply IU, in_app_iff; auto. }
      { intros K1 k K2 EK z I. destruct K2 as [|y K2] using rev_ind.
        - apply app_inj_tail in EK. destruct EK as [<- <-]. apply H1. cbn [app] in I. auto.
        - clear IHK2. replace (K1 ++ k :: K2 ++ [y]) with ((K1 ++ k :: K2) ++ [y]) in EK by (rewrite <- app_assoc; auto). apply app_inj_tail in EK. destruct EK as [-> <-]. rewrite !in_app_iff in I. destruct I as [I|[[I|[<-|[]]]|I]].
          apply (PW' K1 k K2 eq_refl). rewrite !in_app_iff; auto. apply (PW' K1 k K2 eq_refl). rewrite !in_app_iff; auto. apply (PW K1 k K2 eq_refl). rewrite !in_app_iff; right; right; left; auto. apply (PW' K1 k K2 eq_refl). rewrite !in_app_iff; auto. }
      exists K', (X ++ Y), D2. split; auto. split. { rewrite P1. replace (K ++ u :: U' ++ X) with (((K ++ [u]) ++ U') ++ X) by (rewrite <- !app_assoc; auto). rewrite P3. rewrite <- app_assoc. apply Permutation_app_head, Permutation_app_comm. }
      split; auto. intros x Ix. apply in_app_iff in Ix. destruct Ix as [Ix|[<-|Ix]]. apply C3. rewrite !in_app_iff; auto. apply C3. rewrite !in_app_iff; left; right; left; auto. apply (Permutation_in x P1) in Ix. apply in_app_iff in Ix. destruct Ix as [Ix|Ix]. apply C3. rewrite !in_app_iff; auto.
      destruct (C3 u) as (z & Iz & Bz). rewrite !in_app_iff; left; right; left; auto. exists z. split; auto. assert (SU := F1 x Ix). intros j J. apply (same_bsub m u x); auto. apply LU, in_elt. apply LU. rewrite in_app_iff. right; right. apply IU, in_app_iff; auto.
Qed.

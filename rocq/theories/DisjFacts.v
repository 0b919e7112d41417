(** Facts about Disj.v: the loops over arrays with NULL entries, restated on lists, and the sets they describe. *)
From Coq Require Import ZArith QArith Bool List Lia Reals Lra Qreals.
Import ListNotations.
From Verif Require Import Bound BoundFacts Linexpr ApCore ApCoreFacts ApCoreEq OctClose Disj.

Lemma filter_length_le : forall A (f : A -> bool) l, (length (filter f l) <= length l)%nat.
Proof. induction l as [|x l IH]; simpl; auto. destruct (f x); simpl; lia. Qed.

Section Facts.
Context {V : Type}.
Variable K : comp V.
Definition nonbot (v : V) : bool := negb (k_isbot K v).
Definition tp (v : V) : bool := nonbot v && k_istop K v.

(** restated loops *)
Fixpoint pass (sb st : bool) (l : list (option V)) : list (option V) :=
  match l with
  | [] => []
  | None :: l => None :: pass sb st l
  | Some v :: l =>
    if k_isbot K v then (if sb then None else Some v) :: pass true st l
    else if k_istop K v then (if st then None else Some v) :: pass sb true l
    else Some v :: pass sb st l
  end.
Fixpoint flt (sb st : bool) (l : list V) : list V :=
  match l with
  | [] => []
  | v :: l =>
    if k_isbot K v then (if sb then flt true st l else v :: flt true st l)
    else if k_istop K v then (if st then flt sb true l else v :: flt sb true l)
    else v :: flt sb st l
  end.
Definition oset (o : option nat) : bool := match o with Some _ => true | None => false end.
Definition onb (o : option V) : bool := match o with Some v => nonbot v | None => false end.

Lemma loop_r : forall l i b t n, fst (fst (fst (nbt_loop K i b t n l))) = pass (oset b) (oset t) l.
Proof.
  induction l as [|[v|] l IH]; intros i b t n; simpl; auto.
  - destruct (k_isbot K v).
    + destruct b as [k|]; simpl.
      * specialize (IH (S i) (Some k) t n). destruct (nbt_loop K (S i) (Some k) t n l) as [[[r b'] t'] n']; simpl in *; rewrite IH; auto.
      * specialize (IH (S i) (Some i) t n). destruct (nbt_loop K (S i) (Some i) t n l) as [[[r b'] t'] n']; simpl in *; rewrite IH; auto.
    + destruct (k_istop K v).
      * destruct t as [k|]; simpl.
        -- specialize (IH (S i) b (Some k) true). destruct (nbt_loop K (S i) b (Some k) true l) as [[[r b'] t'] n']; simpl in *; rewrite IH; auto.
        -- specialize (IH (S i) b (Some i) true). destruct (nbt_loop K (S i) b (Some i) true l) as [[[r b'] t'] n']; simpl in *; rewrite IH; auto.
      * specialize (IH (S i) b t true). destruct (nbt_loop K (S i) b t true l) as [[[r b'] t'] n']; simpl in *; rewrite IH; auto.
  - specialize (IH (S i) b t n). destruct (nbt_loop K (S i) b t n l) as [[[r b'] t'] n']; simpl in *; rewrite IH; auto.
Qed.
Lemma loop_n : forall l i b t n, snd (nbt_loop K i b t n l) = n || existsb onb l.
Proof.
  induction l as [|[v|] l IH]; intros i b t n; simpl; auto.
  - rewrite orb_false_r; auto.
  - unfold nonbot. destruct (k_isbot K v); simpl.
    + destruct b as [k|].
      * specialize (IH (S i) (Some k) t n). destruct (nbt_loop K (S i) (Some k) t n l) as [[[r b'] t'] n']; simpl in *; auto.
      * specialize (IH (S i) (Some i) t n). destruct (nbt_loop K (S i) (Some i) t n l) as [[[r b'] t'] n']; simpl in *; auto.
    + rewrite orb_true_r. destruct (k_istop K v).
      * destruct t as [k|].
        -- specialize (IH (S i) b (Some k) true). destruct (nbt_loop K (S i) b (Some k) true l) as [[[r b'] t'] n']; simpl in *; auto.
        -- specialize (IH (S i) b (Some i) true). destruct (nbt_loop K (S i) b (Some i) true l) as [[[r b'] t'] n']; simpl in *; auto.
      * specialize (IH (S i) b t true). destruct (nbt_loop K (S i) b t true l) as [[[r b'] t'] n']; simpl in *; auto.
  - specialize (IH (S i) b t n). destruct (nbt_loop K (S i) b t n l) as [[[r b'] t'] n']; simpl in *; auto.
Qed.
Lemma loop_b_some : forall l i k t n, snd (fst (fst (nbt_loop K i (Some k) t n l))) = Some k.
Proof.
  induction l as [|[v|] l IH]; intros i k t n; simpl; auto.
  - destruct (k_isbot K v).
    + specialize (IH (S i) k t n). destruct (nbt_loop K (S i) (Some k) t n l) as [[[r b'] t'] n']; simpl in *; auto.
    + destruct (k_istop K v).
      * destruct t as [q|].
        -- specialize (IH (S i) k (Some q) true). destruct (nbt_loop K (S i) (Some k) (Some q) true l) as [[[r b'] t'] n']; simpl in *; auto.
        -- specialize (IH (S i) k (Some i) true). destruct (nbt_loop K (S i) (Some k) (Some i) true l) as [[[r b'] t'] n']; simpl in *; auto.
      * specialize (IH (S i) k t true). destruct (nbt_loop K (S i) (Some k) t true l) as [[[r b'] t'] n']; simpl in *; auto.
  - specialize (IH (S i) k t n). destruct (nbt_loop K (S i) (Some k) t n l) as [[[r b'] t'] n']; simpl in *; auto.
Qed.
Definition nulled (i : nat) (b : option nat) (r : list (option V)) : list (option V) :=
  match b with Some k => set_null (k - i) r | None => r end.
Lemma nulled_cons : forall i b x r, (forall k, b = Some k -> (S i <= k)%nat) -> nulled i b (x :: r) = x :: nulled (S i) b r.
Proof.
  intros i [k|] x r H; simpl; auto. specialize (H k eq_refl). replace (k - i)%nat with (S (k - S i)) by lia. reflexivity.
Qed.
Lemma loop_b_none : forall l i t n, let '(r, b, _, _) := nbt_loop K i None t n l in
  (forall k, b = Some k -> (i <= k)%nat) /\ nulled i b r = pass true (oset t) l.
Proof.
  induction l as [|[v|] l IH]; intros i t n; simpl.
  - split; [discriminate | reflexivity].
  - destruct (k_isbot K v).
    + pose proof (loop_b_some l (S i) i t n) as Hb. pose proof (loop_r l (S i) (Some i) t n) as Hr.
      destruct (nbt_loop K (S i) (Some i) t n l) as [[[r b'] t'] n']; simpl in *. subst b'. split.
      * intros k E; inversion E; lia.
      * simpl. rewrite Nat.sub_diag. simpl. rewrite Hr. reflexivity.
    + destruct (k_istop K v).
      * destruct t as [q|].
        -- specialize (IH (S i) (Some q) true). destruct (nbt_loop K (S i) None (Some q) true l) as [[[r b'] t'] n']; simpl in *.
           destruct IH as [A B]. split; [intros k E; specialize (A k E); lia|]. rewrite nulled_cons by auto. rewrite B. reflexivity.
        -- specialize (IH (S i) (Some i) true). destruct (nbt_loop K (S i) None (Some i) true l) as [[[r b'] t'] n']; simpl in *.
           destruct IH as [A B]. split; [intros k E; specialize (A k E); lia|]. rewrite nulled_cons by auto. rewrite B. reflexivity.
      * specialize (IH (S i) t true). destruct (nbt_loop K (S i) None t true l) as [[[r b'] t'] n']; simpl in *.
        destruct IH as [A B]. split; [intros k E; specialize (A k E); lia|]. rewrite nulled_cons by auto. rewrite B. reflexivity.
  - specialize (IH (S i) t n). destruct (nbt_loop K (S i) None t n l) as [[[r b'] t'] n']; simpl in *.
    destruct IH as [A B]. split; [intros k E; specialize (A k E); lia|]. rewrite nulled_cons by auto. rewrite B. reflexivity.
Qed.
(** the index of the kept top value *)
Lemma loop_t_some : forall l i b k n, snd (fst (nbt_loop K i b (Some k) n l)) = Some k.
Proof.
  induction l as [|[v|] l IH]; intros i b k n; simpl; auto.
  - destruct (k_isbot K v).
    + destruct b as [q|].
      * specialize (IH (S i) (Some q) k n). destruct (nbt_loop K (S i) (Some q) (Some k) n l) as [[[r b'] t'] n']; simpl in *; auto.
      * specialize (IH (S i) (Some i) k n). destruct (nbt_loop K (S i) (Some i) (Some k) n l) as [[[r b'] t'] n']; simpl in *; auto.
    + destruct (k_istop K v); specialize (IH (S i) b k true); destruct (nbt_loop K (S i) b (Some k) true l) as [[[r b'] t'] n']; simpl in *; auto.
  - specialize (IH (S i) b k n). destruct (nbt_loop K (S i) b (Some k) n l) as [[[r b'] t'] n']; simpl in *; auto.
Qed.
Lemma pass_no_top : forall l sb v, In (Some v) (pass sb true l) -> tp v = false.
Proof.
  unfold tp, nonbot. induction l as [|[w|] l IH]; intros sb v; simpl; [tauto| |].
  - destruct (k_isbot K w) eqn:Eb.
    + simpl. intros [H|H]; [|eauto]. destruct sb; [discriminate|]. inversion H; subst. rewrite Eb; reflexivity.
    + destruct (k_istop K w) eqn:Et; simpl; intros [H|H]; try discriminate; eauto. inversion H; subst. rewrite Et; apply andb_false_r.
  - intros [H|H]; [discriminate | eauto].
Qed.
Definition marks (t : option nat) (i : nat) (r : list (option V)) : Prop :=
  forall j v, nth_error r j = Some (Some v) -> is_idx t (i + j) = tp v.
Lemma marks_cons : forall t i x r, (forall v, x = Some v -> is_idx t i = tp v) -> marks t (S i) r -> marks t i (x :: r).
Proof.
  intros t i x r Hx Hr j v. destruct j as [|j]; simpl; intro H.
  - inversion H; subst. rewrite Nat.add_0_r. auto.
  - replace (i + S j)%nat with (S i + j)%nat by lia. apply Hr; auto.
Qed.
Lemma marks_tail : forall t i x r, marks t i (x :: r) -> marks t (S i) r.
Proof. intros t i x r H j v E. replace (S i + j)%nat with (i + S j)%nat by lia. apply H. exact E. Qed.
Lemma idx_fresh : forall l i b n j, (j < i)%nat -> is_idx (snd (fst (nbt_loop K i b None n l))) j = false.
Proof.
  induction l as [|[v|] l IH]; intros i b n j Hj; simpl; auto.
  - destruct (k_isbot K v).
    + destruct b as [q|].
      * specialize (IH (S i) (Some q) n j). destruct (nbt_loop K (S i) (Some q) None n l) as [[[r b'] t'] n']; simpl in *; apply IH; lia.
      * specialize (IH (S i) (Some i) n j). destruct (nbt_loop K (S i) (Some i) None n l) as [[[r b'] t'] n']; simpl in *; apply IH; lia.
    + destruct (k_istop K v).
      * pose proof (loop_t_some l (S i) b i true) as Ht. destruct (nbt_loop K (S i) b (Some i) true l) as [[[r b'] t'] n']; simpl in *. subst t'.
        simpl. apply Nat.eqb_neq. lia.
      * specialize (IH (S i) b true j). destruct (nbt_loop K (S i) b None true l) as [[[r b'] t'] n']; simpl in *; apply IH; lia.
  - specialize (IH (S i) b n j). destruct (nbt_loop K (S i) b None n l) as [[[r b'] t'] n']; simpl in *; apply IH; lia.
Qed.
Lemma loop_marks : forall l i b n, let '(r, _, t, _) := nbt_loop K i b None n l in marks t i r.
Proof.
  induction l as [|[v|] l IH]; intros i b n; simpl.
  - intros j v. destruct j; discriminate.
  - destruct (k_isbot K v) eqn:Eb.
    + destruct b as [q|].
      * specialize (IH (S i) (Some q) n). destruct (nbt_loop K (S i) (Some q) None n l) as [[[r b'] t'] n']. apply marks_cons; [discriminate | auto].
      * pose proof (idx_fresh l (S i) (Some i) n i (Nat.lt_succ_diag_r i)) as F. specialize (IH (S i) (Some i) n).
        destruct (nbt_loop K (S i) (Some i) None n l) as [[[r b'] t'] n']. simpl in F. apply marks_cons; auto.
        intros w E. inversion E; subst. unfold tp, nonbot. rewrite Eb. exact F.
    + destruct (k_istop K v) eqn:Et.
      * pose proof (loop_t_some l (S i) b i true) as Ht. pose proof (loop_r l (S i) b (Some i) true) as Hr. clear IH.
        destruct (nbt_loop K (S i) b (Some i) true l) as [[[r b'] t'] n']; simpl in *. subst t'. apply marks_cons.
        -- intros w E. inversion E; subst. unfold tp, nonbot. rewrite Eb, Et. simpl. apply Nat.eqb_refl.
        -- intros j w E. unfold is_idx. rewrite (pass_no_top l (oset b) w) by (rewrite <- Hr; eapply nth_error_In; eauto). apply Nat.eqb_neq. lia.
      * pose proof (idx_fresh l (S i) b true i (Nat.lt_succ_diag_r i)) as F. specialize (IH (S i) b true).
        destruct (nbt_loop K (S i) b None true l) as [[[r b'] t'] n']. simpl in F. apply marks_cons; auto.
        intros w E. inversion E; subst. unfold tp, nonbot. rewrite Et, andb_false_r. exact F.
  - specialize (IH (S i) b n). destruct (nbt_loop K (S i) b None n l) as [[[r b'] t'] n']. apply marks_cons; [discriminate | auto].
Qed.
Lemma set_null_nth : forall (r : list (option V)) k j v, nth_error (set_null k r) j = Some (Some v) -> nth_error r j = Some (Some v).
Proof.
  induction r as [|x r IH]; intros k j v; simpl; auto. destruct k, j; simpl; auto; intro H; try discriminate; eapply IH; eauto.
Qed.
Lemma nbt_eq : forall l, null_bottom_top K l = (fst (fst (null_bottom_top K l)), snd (fst (null_bottom_top K l)), existsb onb l) /\
  fst (fst (null_bottom_top K l)) = pass (existsb onb l) false l /\ marks (snd (fst (null_bottom_top K l))) 0 (fst (fst (null_bottom_top K l))).
Proof.
  intro l. unfold null_bottom_top. pose proof (loop_n l 0 None None false) as Hn. pose proof (loop_r l 0 None None false) as Hr.
  pose proof (loop_b_none l 0 None false) as Hb. pose proof (loop_marks l 0 None false) as Hm.
  destruct (nbt_loop K 0 None None false l) as [[[r b] t] n]. simpl in *. subst n. destruct Hb as [_ Hb].
  split; [reflexivity|]. destruct (existsb onb l).
  - split.
    + destruct b as [k|]; simpl in Hb; auto. rewrite Nat.sub_0_r in Hb. exact Hb.
    + destruct b as [k|]; auto. intros j v E. apply Hm. eapply set_null_nth; eauto.
  - split; [|destruct b; auto]. destruct b; auto.
Qed.
Lemma resize_pass : forall l sb st, d_resize (pass sb st l) = flt sb st (d_resize l).
Proof.
  induction l as [|[v|] l IH]; intros sb st; simpl; auto.
  destruct (k_isbot K v). { destruct sb; simpl; rewrite IH; auto. }
  destruct (k_istop K v). { destruct st; simpl; rewrite IH; auto. }
  simpl. rewrite IH; auto.
Qed.
Lemma existsb_resize : forall l, existsb onb l = existsb nonbot (d_resize l).
Proof. induction l as [|[v|] l IH]; simpl; rewrite ?IH; auto. Qed.
Lemma resize_some : forall a : list V, d_resize (map Some a) = a.
Proof. induction a; simpl; congruence. Qed.
Lemma resize_app : forall l m : list (option V), d_resize (l ++ m) = d_resize l ++ d_resize m.
Proof. induction l as [|[v|] l IH]; intros m; simpl; rewrite ?IH; auto. Qed.
Lemma resize_none : forall n, d_resize (repeat (@None V) n) = [].
Proof. induction n; simpl; auto. Qed.

Definition clean (a : list V) : list V := flt (existsb nonbot a) false a.
Lemma compact_eq : forall l, compact K l = clean (d_resize l).
Proof.
  intro l. unfold compact, clean. destruct (nbt_eq l) as [E [H _]]. rewrite E, H. simpl. rewrite resize_pass, existsb_resize. reflexivity.
Qed.

(** elim_redundant on lists *)
Fixpoint dedup (n : nat) (l : list V) : list V :=
  match n, l with
  | S n, v :: l => v :: dedup n (if tp v then l else filter (fun w => tp w || negb (k_iseq K v w)) l)
  | _, _ => l
  end.
Lemma inner_eq : forall l t v i, marks t i l -> d_resize (elim_inner K t v i l) = filter (fun w => tp w || negb (k_iseq K v w)) (d_resize l) /\ marks t i (elim_inner K t v i l).
Proof.
  induction l as [|[w|] l IH]; intros t v i M; simpl.
  - split; auto.
  - destruct (IH t v (S i) (marks_tail _ _ _ _ M)) as [A B].
    assert (E : is_idx t i = tp w). { rewrite <- (M 0%nat w eq_refl). f_equal. lia. }
    rewrite E. split.
    + destruct (tp w); simpl; [rewrite A; auto|]. destruct (k_iseq K v w); simpl; rewrite A; auto.
    + apply marks_cons; auto. intros u Hu. destruct (negb (tp w) && k_iseq K v w); inversion Hu; subst; auto.
  - destruct (IH t v (S i) (marks_tail _ _ _ _ M)) as [A B]. split; auto. apply marks_cons; [discriminate | auto].
Qed.
Lemma inner_len : forall l t v i, length (elim_inner K t v i l) = length l.
Proof. induction l as [|[w|] l IH]; intros; simpl; auto. Qed.
Lemma dedup_enough : forall n m l, (length l <= n)%nat -> (n <= m)%nat -> dedup n l = dedup m l.
Proof.
  induction n as [|n IH]; intros m l H1 H2.
  - destruct l; [destruct m; auto | simpl in H1; lia].
  - destruct m as [|m]; [lia|]. destruct l as [|v l]; auto. simpl. simpl in H1. f_equal. apply IH; [|lia].
    destruct (tp v); [lia|]. pose proof (filter_length_le _ (fun w => tp w || negb (k_iseq K v w)) l). lia.
Qed.
Lemma resize_len : forall l : list (option V), (length (d_resize l) <= length l)%nat.
Proof. induction l as [|[v|] l IH]; simpl; lia. Qed.
Lemma outer_eq : forall n l t i, length l = n -> marks t i l -> d_resize (elim_outer K n t i l) = dedup n (d_resize l).
Proof.
  induction n as [|n IH]; intros l t i L M.
  - destruct l; [reflexivity | discriminate].
  - destruct l as [|[v|] l]; [discriminate| |].
    + simpl in *. inversion L as [L']. f_equal. assert (E : is_idx t i = tp v). { rewrite <- (M 0%nat v eq_refl). f_equal. lia. }
      rewrite E. destruct (tp v).
      * rewrite L'. apply IH; auto. eapply marks_tail; eauto.
      * destruct (inner_eq l t v (S i) (marks_tail _ _ _ _ M)) as [A B]. rewrite L', IH; auto. { rewrite A; auto. } rewrite inner_len; auto.
    + simpl in *. inversion L as [L']. rewrite L', IH; auto. 2:{ eapply marks_tail; eauto. }
      change (dedup n (d_resize l) = dedup (S n) (d_resize l)). apply dedup_enough; [|lia]. pose proof (resize_len l). lia.
Qed.
Lemma elim_eq : forall a, elim_redundant K a = if existsb nonbot a then dedup (length a) (flt true false a) else flt false false a.
Proof.
  intro a. unfold elim_redundant. destruct (nbt_eq (map Some a)) as [E [H M]]. rewrite E. rewrite H in *. rewrite existsb_resize, resize_some in *.
  destruct (existsb nonbot a) eqn:X.
  - rewrite (outer_eq _ _ _ 0%nat eq_refl M). rewrite resize_pass, resize_some.
    assert (L : length (pass true false (map Some a)) = length a).
    { clear. generalize true false. induction a as [|v a IH]; intros sb st; simpl; auto. destruct (k_isbot K v), (k_istop K v); simpl; auto. }
    rewrite L. reflexivity.
  - rewrite resize_pass, resize_some. reflexivity.
Qed.
Lemma flt_in : forall a sb st v, In v (flt sb st a) -> In v a.
Proof.
  induction a as [|w a IH]; intros sb st v; simpl; auto.
  destruct (k_isbot K w). { destruct sb; simpl; [eauto|]. intros [H|H]; eauto. }
  destruct (k_istop K w). { destruct st; simpl; [eauto|]. intros [H|H]; eauto. }
  simpl. intros [H|H]; eauto.
Qed.
Lemma flt_nonbot : forall a st v, In v (flt true st a) -> k_isbot K v = false.
Proof.
  induction a as [|w a IH]; intros st v; simpl; [tauto|]. destruct (k_isbot K w) eqn:E; [eauto|].
  destruct (k_istop K w). { destruct st; simpl; [eauto|]. intros [H|H]; [subst; auto | eauto]. }
  simpl. intros [H|H]; [subst; auto | eauto].
Qed.
Lemma flt_ne : forall a, existsb nonbot a = true -> flt true false a <> [].
Proof.
  unfold nonbot. induction a as [|w a IH]; simpl; [discriminate|]. destruct (k_isbot K w); simpl; [auto|]. intros _. destruct (k_istop K w); discriminate.
Qed.
Lemma flt_one_aux : forall a st, existsb nonbot a = false -> flt true st a = [].
Proof.
  unfold nonbot. induction a as [|w a IH]; intros st; simpl; auto. destruct (k_isbot K w); simpl; [auto | discriminate].
Qed.
Lemma flt_one : forall a, existsb nonbot a = false -> flt false false a = firstn 1 a.
Proof.
  intros [|w a]; simpl; auto. unfold nonbot at 1. destruct (k_isbot K w); simpl; [|discriminate]. intro H. rewrite flt_one_aux; auto.
Qed.
Lemma flt_no_top : forall a v, In v (flt true true a) -> k_istop K v = false.
Proof.
  induction a as [|w a IH]; intros v; simpl; [tauto|]. destruct (k_isbot K w); [eauto|]. destruct (k_istop K w) eqn:E; [eauto|].
  simpl. intros [H|H]; [subst; auto | eauto].
Qed.
Lemma flt_tops : forall a, ForallOrdPairs (fun v w => k_istop K v = true -> k_istop K w = false) (flt true false a).
Proof.
  assert (G : forall a, ForallOrdPairs (fun v w => k_istop K v = true -> k_istop K w = false) (flt true true a)).
  { induction a as [|w a IH]; simpl; [constructor|]. destruct (k_isbot K w); auto. destruct (k_istop K w) eqn:E; auto.
    constructor; auto. apply Forall_forall. intros; congruence. }
  induction a as [|w a IH]; simpl; [constructor|]. destruct (k_isbot K w); auto. destruct (k_istop K w) eqn:E.
  - constructor; auto. apply Forall_forall. intros u H _. eapply flt_no_top; eauto.
  - constructor; auto. apply Forall_forall. intros; congruence.
Qed.
Lemma dedup_in : forall n l v, In v (dedup n l) -> In v l.
Proof.
  induction n as [|n IH]; intros l v; simpl; auto. destruct l as [|w l]; simpl; auto. intros [H|H]; auto. apply IH in H.
  destruct (tp w); auto. apply filter_In in H. tauto.
Qed.
Lemma dedup_ne : forall n l, l <> [] -> dedup n l <> [].
Proof. intros [|n] [|v l]; simpl; auto; congruence. Qed.
Lemma fop_filter : forall A (P : A -> A -> Prop) f l, ForallOrdPairs P l -> ForallOrdPairs P (filter f l).
Proof.
  induction 1 as [|v l H1 H2 IH]; simpl; [constructor|]. destruct (f v); auto. constructor; auto.
  rewrite Forall_forall in *. intros x H. apply H1. apply filter_In in H. tauto.
Qed.
Lemma dedup_fop : forall n (P : V -> V -> Prop) l, ForallOrdPairs P l -> ForallOrdPairs P (dedup n l).
Proof.
  induction n as [|n IH]; intros P l H; simpl; auto. destruct H as [|v l H1 H2]; constructor.
  - rewrite Forall_forall in *. intros x Hx. apply dedup_in in Hx. apply H1. destruct (tp v); auto. apply filter_In in Hx; tauto.
  - apply IH. destruct (tp v); auto. apply fop_filter; auto.
Qed.
Lemma dedup_pairs : forall n l, (length l <= n)%nat -> ForallOrdPairs (fun v w => tp v = true \/ tp w = true \/ k_iseq K v w = false) (dedup n l).
Proof.
  induction n as [|n IH]; intros l H; simpl. { destruct l; [constructor | simpl in H; lia]. }
  destruct l as [|v l]; constructor.
  - apply Forall_forall. intros x Hx. apply dedup_in in Hx. destruct (tp v); auto. apply filter_In in Hx. destruct Hx as [_ Hx].
    apply orb_true_iff in Hx. rewrite negb_true_iff in Hx. tauto.
  - apply IH. simpl in H. destruct (tp v); [lia|]. pose proof (filter_length_le _ (fun w => tp w || negb (k_iseq K v w)) l). lia.
Qed.
Lemma flt_len : forall a sb st, (length (flt sb st a) <= length a)%nat.
Proof.
  induction a as [|w a IH]; intros sb st; simpl; auto. destruct (k_isbot K w). { destruct sb; simpl; specialize (IH true st); lia. }
  destruct (k_istop K w). { destruct st; simpl; specialize (IH sb true); lia. } simpl. specialize (IH sb st); lia.
Qed.

(** sets of points *)
Variable D : Type.
Variable inv : V -> Prop.
Variable gam : V -> D -> Prop.
Definition union (l : list V) (x : D) : Prop := exists v, In v l /\ gam v x.
Hypothesis isbot_s : forall v, inv v -> k_isbot K v = true -> forall x, ~ gam v x.
Hypothesis istop_s : forall v, inv v -> k_istop K v = true -> forall x, gam v x.
Hypothesis iseq_s : forall v w, inv v -> inv w -> k_iseq K v w = true -> forall x, gam v x <-> gam w x.

Lemma union_cons : forall v l x, union (v :: l) x <-> gam v x \/ union l x.
Proof. intros. unfold union. simpl. split. intros [w [[H|H] G]]; subst; eauto. intros [H|[w [H G]]]; eauto. Qed.
Lemma union_app : forall l m x, union (l ++ m) x <-> union l x \/ union m x.
Proof. intros. unfold union. split. intros [v [H G]]. apply in_app_iff in H. destruct H; eauto. intros [[v [H G]]|[v [H G]]]; exists v; split; auto; apply in_app_iff; auto. Qed.
Lemma flt_union_aux : forall a st x, Forall inv a -> union a x -> union (flt true st a) x \/ st = true.
Proof.
  induction a as [|v a IH]; intros st x F H; simpl; auto. inversion F; subst. apply union_cons in H.
  destruct (k_isbot K v) eqn:Eb. { destruct H as [H|H]; [exfalso; eapply isbot_s; eauto | auto]. }
  destruct (k_istop K v) eqn:Et. { destruct st; auto. left. apply union_cons. left. apply istop_s; auto. }
  destruct H as [H|H]. { left. apply union_cons; auto. } destruct (IH st x H3 H); auto. left. apply union_cons; auto.
Qed.
Lemma clean_union : forall a x, Forall inv a -> (union (clean a) x <-> union a x).
Proof.
  intros a x F. unfold clean. destruct (existsb nonbot a) eqn:E.
  - split. { intros [v [H G]]. exists v. split; auto. eapply flt_in; eauto. } intro H. destruct (flt_union_aux a false x F H); auto. discriminate.
  - split. { intros [v [H G]]. exists v. split; auto. eapply flt_in; eauto. } intros [v [H G]]. exfalso.
    assert (B : k_isbot K v = true). { apply not_false_iff_true. intro B. assert (X : existsb nonbot a = true). { apply existsb_exists. exists v. unfold nonbot. rewrite B. auto. } congruence. }
    rewrite Forall_forall in F. eapply isbot_s; eauto.
Qed.
Lemma dedup_union : forall n l x, Forall inv l -> (union (dedup n l) x <-> union l x).
Proof.
  induction n as [|n IH]; intros l x F; simpl; [tauto|]. destruct l as [|v l]; [tauto|]. inversion F; subst. rewrite !union_cons.
  destruct (tp v). { rewrite IH; tauto. }
  rewrite IH.
  - split; intros [H|H]; auto.
    + right. destruct H as [w [H G]]. apply filter_In in H. exists w. tauto.
    + destruct H as [w [H G]]. destruct (tp w || negb (k_iseq K v w)) eqn:E.
      * right. exists w. split; auto. apply filter_In; auto.
      * left. apply orb_false_iff in E. destruct E as [_ E]. rewrite negb_false_iff in E. apply (iseq_s v w); auto. rewrite Forall_forall in H2; auto.
  - apply Forall_forall. intros w H. apply filter_In in H. rewrite Forall_forall in H2. apply H2; tauto.
Qed.
Lemma elim_union : forall a x, Forall inv a -> (union (elim_redundant K a) x <-> union a x).
Proof.
  intros a x F. rewrite elim_eq. pose proof (clean_union a x F) as C. unfold clean in C. destruct (existsb nonbot a); auto.
  rewrite dedup_union; auto. apply Forall_forall. intros v H. rewrite Forall_forall in F. apply F. eapply flt_in; eauto.
Qed.
Lemma clean_in : forall a v, In v (clean a) -> In v a.
Proof. intros a v. apply flt_in. Qed.
Lemma elim_in : forall a v, In v (elim_redundant K a) -> In v a.
Proof. intros a v. rewrite elim_eq. destruct (existsb nonbot a); intro H; [apply dedup_in in H|]; eapply flt_in; eauto. Qed.
Lemma clean_ne : forall a, a <> [] -> clean a <> [].
Proof. intros a H. unfold clean. destruct (existsb nonbot a) eqn:E. apply flt_ne; auto. rewrite flt_one by auto. destruct a; simpl; congruence. Qed.
Lemma elim_ne : forall a, a <> [] -> elim_redundant K a <> [].
Proof.
  intros a H. rewrite elim_eq. destruct (existsb nonbot a) eqn:E. apply dedup_ne; apply flt_ne; auto. rewrite flt_one by auto. destruct a; simpl; congruence.
Qed.
Lemma clean_shape : forall a, a <> [] -> (exists v, clean a = [v] /\ k_isbot K v = true) \/ Forall (fun v => k_isbot K v = false) (clean a).
Proof.
  intros a H. unfold clean. destruct (existsb nonbot a) eqn:E.
  - right. apply Forall_forall. intros v. apply flt_nonbot.
  - left. rewrite flt_one by auto. destruct a as [|v a]; [congruence|]. exists v. split; auto. simpl in E. unfold nonbot in E. destruct (k_isbot K v); auto; discriminate.
Qed.
Lemma elim_shape : forall a, a <> [] -> (exists v, elim_redundant K a = [v] /\ k_isbot K v = true) \/
  (Forall (fun v => k_isbot K v = false) (elim_redundant K a) /\
   ForallOrdPairs (fun v w => (k_istop K v = true -> k_istop K w = false) /\ (k_istop K v = true \/ k_istop K w = true \/ k_iseq K v w = false)) (elim_redundant K a)).
Proof.
  intros a H. rewrite elim_eq. destruct (existsb nonbot a) eqn:E.
  - right. split. { apply Forall_forall. intros v Hv. apply dedup_in in Hv. eapply flt_nonbot; eauto. }
    pose proof (dedup_fop (length a) _ _ (flt_tops a)) as A. pose proof (dedup_pairs (length a) (flt true false a) (flt_len a true false)) as B.
    induction A as [|v l A1 A2 IH]; [constructor|]. inversion B; subst. constructor; auto. rewrite Forall_forall in *. intros w Hw. split; auto.
    destruct (H2 w Hw) as [X|[X|X]]; auto; apply andb_true_iff in X; tauto.
  - left. rewrite flt_one by auto. destruct a as [|v a]; [congruence|]. exists v. split; auto. simpl in E. unfold nonbot in E. destruct (k_isbot K v); auto; discriminate.
Qed.
End Facts.

(** intervals *)
Lemma cmp_ge : forall a b, (scalar_cmp a b <= 0)%Z -> forall r, ge_rb r b -> ge_rb r a.
Proof. intros a b H. rewrite scalar_cmp_bcmp, bcmp_le in H. apply le_bb_ge; auto. Qed.
Lemma cmp_le : forall a b, (scalar_cmp a b <= 0)%Z -> forall r, le_rb r a -> le_rb r b.
Proof. intros a b H. apply scalar_cmp_le; auto. Qed.
Lemma ijoin_r : forall a b r, in_u r b -> in_u r (ijoin_with a b).
Proof.
  intros a b r [H1 H2]. unfold in_u, ijoin_with. simpl. split.
  - destruct (scalar_cmp (fst a) (fst b) >? 0)%Z eqn:E; auto. rewrite Z.gtb_ltb, Z.ltb_ge in E. eapply cmp_ge; eauto.
  - destruct (scalar_cmp (snd a) (snd b) <? 0)%Z eqn:E; auto. rewrite Z.ltb_ge in E. apply (cmp_le (snd b)); auto. rewrite scalar_cmp_anti; lia.
Qed.
Lemma ijoin_l : forall a b r, in_u r a -> in_u r (ijoin_with a b).
Proof.
  intros a b r [H1 H2]. unfold in_u, ijoin_with. simpl. split.
  - destruct (scalar_cmp (fst a) (fst b) >? 0)%Z eqn:E; auto. rewrite Z.gtb_ltb, Z.ltb_lt in E. apply (cmp_ge _ (fst a)); auto. rewrite scalar_cmp_anti; lia.
  - destruct (scalar_cmp (snd a) (snd b) <? 0)%Z eqn:E; auto. rewrite Z.ltb_lt in E. apply (cmp_le (snd a)); auto. lia.
Qed.
(** the join is the smallest interval that contains both *)
Lemma ijoin_best : forall a b c, (exists r, in_u r a) -> (exists r, in_u r b) ->
  (forall r, in_u r a -> in_u r c) -> (forall r, in_u r b -> in_u r c) -> forall r, in_u r (ijoin_with a b) -> in_u r c.
Proof.
  intros a b c [ra [A1 A2]] [rb [B1 B2]] HA HB r [H1 H2].
  assert (LO : forall i s, in_u s i -> (forall r, in_u r i -> in_u r c) -> ge_rb r (fst i) -> ge_rb r (fst c)).
  { intros i s [S1 S2] Hi G. destruct (Rle_dec s r) as [L|L].
    - destruct (Hi s (conj S1 S2)) as [X _]. destruct (fst c) as [|q|]; simpl in *; auto; lra.
    - destruct (Hi r) as [X _]; auto. split; auto. destruct (snd i) as [|q|]; simpl in *; auto; lra. }
  assert (HI : forall i s, in_u s i -> (forall r, in_u r i -> in_u r c) -> le_rb r (snd i) -> le_rb r (snd c)).
  { intros i s [S1 S2] Hi G. destruct (Rle_dec r s) as [L|L].
    - destruct (Hi s (conj S1 S2)) as [_ X]. destruct (snd c) as [|q|]; simpl in *; auto; lra.
    - destruct (Hi r) as [_ X]; auto. split; auto. destruct (fst i) as [|q|]; simpl in *; auto; lra. }
  unfold ijoin_with in H1, H2. simpl in H1, H2. split.
  - destruct (scalar_cmp (fst a) (fst b) >? 0)%Z; [eapply (LO b rb) | eapply (LO a ra)]; auto; split; auto.
  - destruct (scalar_cmp (snd a) (snd b) <? 0)%Z; [eapply (HI b rb) | eapply (HI a ra)]; auto; split; auto.
Qed.
Lemma ne_not_bottom : forall i r, in_u r i -> interval_is_bottom i = false.
Proof.
  intros i r [H1 H2]. apply not_true_iff_false. unfold interval_is_bottom. rewrite Z.ltb_lt, scalar_cmp_bcmp, bcmp_gt. intro H. apply H.
  destruct (fst i) as [|p|], (snd i) as [|q|]; simpl in *; auto; try tauto. apply Rle_Qle. lra.
Qed.

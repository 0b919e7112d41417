(** Small generic lemmas. *)
From Coq Require Import Arith Lia List.
Import ListNotations.

(** A history whose weight strictly decreases at every change has at most
    [w 0] changes. *)
Lemma decr_changes : forall (w : nat -> nat) (E : nat -> Prop),
  (forall k, (E k /\ w (S k) <= w k) \/ w (S k) < w k) ->
  forall n, exists s, length s <= w 0 /\ forall k, k < n -> ~ In k s -> E k.
Proof.
  intros w E H n.
  assert (G : exists s, length s + w n <= w 0 /\ forall k, k < n -> ~ In k s -> E k).
  { induction n.
    - exists []. split; simpl; [lia|]. intros; lia.
    - destruct IHn as [s [L P]]. destruct (H n) as [[HE HW]|HW].
      + exists s. split; [lia|]. intros k Hk Hn. destruct (Nat.eq_dec k n); [subst; auto|].
        apply P; auto; lia.
      + exists (n :: s). split; [simpl; lia|]. intros k Hk Hn. simpl in Hn.
        apply P; [|tauto]. destruct (Nat.eq_dec k n); [subst; tauto|lia]. }
  destruct G as [s [L P]]. exists s. split; [lia|auto].
Qed.

(** Finite disjunctions of abstract values, apron/ap_disjunction.c.

    A value is an array of component values (void pointers) of one underlying domain, hence one type [V].  The functions
    of the underlying domain reached through [funptr] are arguments of the model.  An array whose entries may be NULL is
    a list of options; a value between two calls has no NULL entry and is a list.

    Simplified: the component functions do not change their arguments; the destructive and the non destructive forms
    give the same values; memory management, result flags, printing and serialization are not modelled.  The functions
    that only raise AP_EXC_NOT_IMPLEMENTED (hash, approximate, is_dimension_unconstrained, to_tcons_array,
    to_generator_array, meet_array, widening) are left out. *)
From Coq Require Import ZArith QArith Bool List Lia.
Import ListNotations.
From Verif Require Import Bound Linexpr ApCore.

Section Disjunction.
Context {V : Type}.

(** the functions of the underlying domain used by several operations *)
Record comp : Type := mkComp {
  k_dim : V -> nat * nat;
  k_bottom : nat -> nat -> V;
  k_top : nat -> nat -> V;
  k_isbot : V -> bool;
  k_istop : V -> bool;
  k_iseq : V -> V -> bool;
  k_meet : V -> V -> V
}.
Variable K : comp.

(** ap_disjunction_t, ap_disjunction.h: an array without NULL entries *)
Definition disj : Type := list V.

(** ap_interval_join_with (57-66) *)
Definition ijoin_with (a b : uitv) : uitv :=
  ((if (scalar_cmp (fst a) (fst b) >? 0)%Z then fst b else fst a), (if (scalar_cmp (snd a) (snd b) <? 0)%Z then snd b else snd a)).
(** ap_interval_set_bottom, ap_interval.c 93-109 *)
Definition ibottom : uitv := (Fin 1, Fin (-1 # 1)).

(** ap_disjunction_resize (83-98): the entries that are not NULL, in order *)
Fixpoint d_resize (l : list (option V)) : disj :=
  match l with [] => [] | Some v :: l => v :: d_resize l | None :: l => d_resize l end.

(** ap_disjunction_null_bottom_top (102-137), the loop 118-132: [i] is the index, [bot] and [top] the indices found so
    far, [nb] the flag notbottom *)
Fixpoint nbt_loop (i : nat) (bot top : option nat) (nb : bool) (l : list (option V)) : list (option V) * option nat * option nat * bool :=
  match l with
  | [] => ([], bot, top, nb)
  | None :: l => let '(r, b, t, n) := nbt_loop (S i) bot top nb l in (None :: r, b, t, n)
  | Some v :: l =>
    if k_isbot K v then
      match bot with
      | Some _ => let '(r, b, t, n) := nbt_loop (S i) bot top nb l in (None :: r, b, t, n)
      | None => let '(r, b, t, n) := nbt_loop (S i) (Some i) top nb l in (Some v :: r, b, t, n)
      end
    else if k_istop K v then
      match top with
      | Some _ => let '(r, b, t, n) := nbt_loop (S i) bot top true l in (None :: r, b, t, n)
      | None => let '(r, b, t, n) := nbt_loop (S i) bot (Some i) true l in (Some v :: r, b, t, n)
      end
    else let '(r, b, t, n) := nbt_loop (S i) bot top true l in (Some v :: r, b, t, n)
  end.
Fixpoint set_null (k : nat) (l : list (option V)) {struct l} : list (option V) :=
  match l, k with [], _ => [] | _ :: l, O => None :: l | x :: l, S k => x :: set_null k l end.
(** the whole function: the array, the index [top], the flag [notbottom] *)
Definition null_bottom_top (l : list (option V)) : list (option V) * option nat * bool :=
  let '(r, b, t, n) := nbt_loop 0 None None false l in
  ((match b with Some k => if n then set_null k r else r | None => r end), t, n).

Definition is_idx (t : option nat) (i : nat) : bool := match t with Some k => Nat.eqb i k | None => false end.
(** ap_disjunction_elim_redundant (141-169): the inner loop 158-165 *)
Fixpoint elim_inner (top : option nat) (v : V) (j : nat) (l : list (option V)) : list (option V) :=
  match l with
  | [] => []
  | Some w :: l => (if negb (is_idx top j) && k_iseq K v w then None else Some w) :: elim_inner top v (S j) l
  | None :: l => None :: elim_inner top v (S j) l
  end.
(** the outer loop 156-167; the first argument counts the entries left *)
Fixpoint elim_outer (n : nat) (top : option nat) (i : nat) (l : list (option V)) : list (option V) :=
  match n, l with
  | S n, Some v :: l => Some v :: elim_outer n top (S i) (if is_idx top i then l else elim_inner top v (S i) l)
  | S n, None :: l => None :: elim_outer n top (S i) l
  | _, _ => l
  end.
Definition elim_redundant (a : disj) : disj :=
  let '(r, t, n) := null_bottom_top (map Some a) in
  d_resize (if n then elim_outer (length r) t 0 r else r).
(** null_bottom_top followed by resize, for instance 739-744 *)
Definition compact (l : list (option V)) : disj := let '(r, _, _) := null_bottom_top l in d_resize r.

(** ap_disjunction_minimize (214-226) and ap_disjunction_canonicalize (227-238): elim_redundant, then the function [f] of the domain *)
Definition d_minimize (f : V -> V) (a : disj) : disj := map f (elim_redundant a).
(** ap_disjunction_of_one (309-314), ap_disjunction_bottom and _top (316-328), ap_disjunction_of_box (330-341) *)
Definition of_one (v : V) : disj := [v].
Definition d_bottom (i r : nat) : disj := of_one (k_bottom K i r).
Definition d_top (i r : nat) : disj := of_one (k_top K i r).
Definition d_of_box (f : nat -> nat -> (nat -> uitv) -> V) (i r : nat) (t : nat -> uitv) : disj := of_one (f i r t).
(** ap_disjunction_dimension (343-350): [None] when p[0] does not exist *)
Definition d_dimension (a : disj) : option (nat * nat) := match a with [] => None | v :: _ => Some (k_dim K v) end.

(** ap_disjunction_is_bottom (356-364), ap_disjunction_is_top (366-374) *)
Definition d_is_bottom (a : disj) : bool := match a with [v] => k_isbot K v | _ => false end.
Definition d_is_top (a : disj) : bool := match a with [v] => k_istop K v | _ => false end.
(** ap_disjunction_is_eq (378-419), ap_disjunction_is_leq (421-448): the code returns false, the rest is a comment *)
Definition d_is_eq (a b : disj) : bool := false.
Definition d_is_leq (a b : disj) : bool := false.
(** ap_disjunction_sat_lincons (451-467), _sat_tcons (469-485), _sat_interval (487-503): [f] is the test of the domain *)
Definition d_sat (f : V -> bool) (a : disj) : bool := forallb f a.

(** ap_disjunction_bound_linexpr (517-538), _bound_texpr (540-560), _bound_dimension (562-582) *)
Fixpoint bound_loop (f : V -> uitv) (g : uitv) (a : disj) : uitv :=
  match a with
  | [] => g
  | v :: a => let g := ijoin_with g (f v) in if interval_is_bottom g then g else bound_loop f g a
  end.
Definition d_bound (f : V -> uitv) (a : disj) : uitv := bound_loop f ibottom a.

(** ap_disjunction_to_lincons_array (588-606): [None] is the exception *)
Definition d_to_lincons_array (f : V -> list lincons) (a : disj) : option (list lincons) :=
  match a with [v] => Some (f v) | _ => None end.

(** ap_disjunction_to_box (649-684): the loop over the dimensions 669-673; [true]: the loop stopped *)
Fixpoint box_join_loop (n j : nat) (g b : nat -> uitv) : (nat -> uitv) * bool :=
  match n with
  | O => (g, false)
  | S n =>
    let x := ijoin_with (g j) (b j) in
    let g := fun k => if Nat.eqb k j then x else g k in
    if interval_is_bottom x then (g, true) else box_join_loop n (S j) g b
  end.
(** the loop over the components, from the second one *)
Fixpoint to_box_loop (f : V -> nat -> uitv) (n : nat) (g : nat -> uitv) (a : disj) : nat -> uitv :=
  match a with
  | [] => g
  | v :: a => let (g, stop) := box_join_loop n 0 g (f v) in if stop then (fun _ => ibottom) else to_box_loop f n g a
  end.
Definition d_to_box (f : V -> nat -> uitv) (a : disj) : option (nat -> uitv) :=
  match a with [] => None | v :: r => let d := k_dim K v in Some (to_box_loop f (fst d + snd d) (f v) r) end.

(** ap_disjunction_join (713-749) *)
Definition d_join (a b : disj) : disj :=
  if d_is_bottom a then b else if d_is_bottom b then a else compact (map Some a ++ map Some b).
(** ap_disjunction_join_array (751-809): the array filled by the loop 780-790.  The entries left over are NULL; [length]
    is the number of all the components, so the branch 791-795 needs an array of values without component *)
Definition ja_fill (l : list disj) : list (option V) :=
  let r := flat_map (fun a => if d_is_bottom a then [] else map Some a) l in
  r ++ repeat None (length (concat l) - length r).
Definition d_join_array (l : list disj) : option disj :=
  match l with
  | [] => None
  | [a] => Some a
  | [a; b] => Some (d_join a b)
  | _ => if Nat.eqb (length (concat l)) 0
         then match filter d_is_bottom l with [] => None | _ => Some (last (filter d_is_bottom l) []) end
         else Some (compact (ja_fill l))
  end.
(** ap_disjunction_meet (811-858): the result and the two arguments, which elim_redundant changes in place.  When all
    the meets are empty the code takes the dimension and the TOP value of the domain; it calls the functions
    ap_abstract0_dimension and ap_abstract0_top on values that are not ap_abstract0_t, the model takes the functions
    of the domain, the reading most favourable to the code *)
Definition d_meet (a b : disj) : disj * disj * disj :=
  if d_is_bottom a then (a, a, b) else if d_is_bottom b then (b, a, b)
  else
    let a := elim_redundant a in
    let b := elim_redundant b in
    let r := filter (fun v => negb (k_isbot K v)) (flat_map (fun v => map (k_meet K v) b) a) in
    ((match r with
      | [] => match a with v :: _ => [k_top K (fst (k_dim K v)) (snd (k_dim K v))] | [] => [] end
      | _ => elim_redundant r
      end), a, b).

(** ap_disjunction_meet_lincons_array (871-891), _meet_tcons_array (893-914), _add_ray_array (918-942): [f] is the
    function of the domain *)
Definition d_map_compact (f : V -> V) (a : disj) : disj := compact (map (fun v => Some (f v)) a).
(** ap_disjunction_asssub_linexpr_array (948-972), ap_disjunction_asssub_texpr_array (991-1014): [dest] tells whether
    dest is not NULL *)
Definition d_asssub (f : V -> V) (dest : bool) (a : disj) : option disj := if dest then None else Some (map f a).
(** ap_disjunction_add_dimensions (1064-1081), _permute_dimensions (1109-1124), _expand (1132-1150), _fold (1154-1175),
    _closure (1194-1209) *)
Definition d_map (f : V -> V) (a : disj) : disj := map f a.
(** ap_disjunction_forget_array (1036-1062), ap_disjunction_remove_dimensions (1083-1107) *)
Definition d_map_elim (f : V -> V) (a : disj) : disj := elim_redundant (map f a).
(** ap_disjunction_decompose (1344-1367), ap_disjunction_compose (1370-1386) *)
Definition decompose (a : disj) : list V := a.
Definition compose (l : list V) : disj := l.
End Disjunction.
Arguments comp : clear implicits.
Arguments disj : clear implicits.

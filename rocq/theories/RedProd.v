(** The generic reduced product, apron/ap_reducedproduct.c.

    A product value is an array of component values (void pointers), hence one type [V] for all the components.  The functions
    of a component reached through [funptr] are arguments of the model: the ones every operation uses ([core]:
    dimension, bottom, is_bottom) and, for each operation, the list of the component functions.  A component
    function returns its result and the flag [flag_exact] it leaves in its manager.

    Simplified: the component functions do not change their arguments (their representation may change in C); the
    destructive and the non destructive forms give the same values; memory management, exception logs, hash, printing
    and serialization are not modelled.  The function [reduce] of the product is a parameter. *)
From Coq Require Import ZArith QArith Bool List Lia.
Import ListNotations.
From Verif Require Import Bound Linexpr ApCore.

Section Product.
Variable V : Type.

Record core : Type := mkCore {
  c_dim : V -> nat * nat;
  c_bottom : nat -> nat -> V * bool;
  c_isbot : V -> bool * bool
}.
(** ap_reducedproduct_t, ap_reducedproduct.h 24-30 *)
Record rp : Type := mkRp { rp_reduced : bool; rp_p : list V }.

(** get_internal_init1 / get_internal_init2 / get_internal_init_tab (31-69), for one value: [opt] is the bit 0x1 of
    the option [algorithm] *)
Definition init1 (reduce : rp -> rp) (opt : bool) (a : rp) : rp := if negb (rp_reduced a) && opt then reduce a else a.
(** collect_results0 (71-102): [flag_exact] is the conjunction of the flags of the managers, [flag_best] is true.
    The result of an operation: the value, the flags exact and best *)
Definition collect0 {A} (a : A) (fl : list bool) : A * bool * bool := (a, forallb (fun b => b) fl, true).
(** collect_results1 (104-113); [opt] is the bit 0x2 *)
Definition collect1 (reduce : rp -> rp) (opt : bool) (a : rp) (fl : list bool) : rp * bool * bool :=
  collect0 (if negb (rp_reduced a) && opt then mkRp true (rp_p (reduce a)) else a) fl.
(** set_bottom (115-145): the component [k] is the empty value [v], left with the flag [e] *)
Fixpoint set_bottom (cs : list core) (k : nat) (v : V) (e : bool) (d : nat * nat) : list V * list bool :=
  match cs with
  | [] => ([], [])
  | c :: cs =>
    match k with
    | O => let r := map (fun c => c_bottom c (fst d) (snd d)) cs in (v :: map fst r, e :: map snd r)
    | S k => let (vs, es) := set_bottom cs k v e d in let (b, x) := c_bottom c (fst d) (snd d) in (b :: vs, x :: es)
    end
  end.
(** the loop over the components shared by the operations, for instance 707-718.  [chk]: the emptiness of each
    component result is tested; the flag left in the manager is then the one of this test.  [inr]: the index of an
    empty result, this result, its flag *)
Fixpoint loop {A} (chk : bool) (cs : list core) (fs : list (A -> V * bool)) (args : list A) : (list V * list bool) + (nat * V * bool) :=
  match cs, fs, args with
  | c :: cs, f :: fs, a :: args =>
    let (r, ex) := f a in
    let (b, ex) := if chk then c_isbot c r else (false, ex) in
    if b then inr (O, r, ex) else
    match loop chk cs fs args with
    | inl (vs, es) => inl (r :: vs, ex :: es)
    | inr (k, v, e) => inr (S k, v, e)
    end
  | _, _, _ => inl ([], [])
  end.
Definition nth_dim (cs : list core) (k : nat) (v : V) : nat * nat := match nth_error cs k with Some c => c_dim c v | None => (0, 0) end.
(** the loop, followed by set_bottom when a component is empty; [red] is the value of [reduced] when no component is
    empty, [redbot] its value otherwise *)
Definition run {A} (chk red redbot : bool) (cs : list core) (fs : list (A -> V * bool)) (args : list A) : rp * list bool :=
  match loop chk cs fs args with
  | inl (vs, es) => (mkRp red vs, es)
  | inr (k, v, e) => let (vs, es) := set_bottom cs k v e (nth_dim cs k v) in (mkRp redbot vs, es)
  end.

(** * Constructors *)
(** BOTTOM_TOP (340-358) *)
Definition rp_const (fs : list (nat -> nat -> V * bool)) (i r : nat) : rp * bool * bool :=
  let l := map (fun f => f i r) fs in collect0 (mkRp true (map fst l)) (map snd l).
(** ap_reducedproduct_of_box (360-380); ap_reducedproduct_alloc (19-27) *)
Definition rp_of_box (reduce : rp -> rp) (opt2 : bool) (cs : list core) (fs : list (nat -> nat -> list uitv -> V * bool)) (i r : nat) (box : list uitv) : rp * bool * bool :=
  let (a, fl) := run true false true cs (map (fun f (_ : unit) => f i r box) fs) (map (fun _ => tt) cs) in collect1 reduce opt2 a fl.
(** ap_reducedproduct_dimension (382-388): the one of the first component *)
Definition rp_dimension (cs : list core) (a : rp) : option (nat * nat) := match cs, rp_p a with c :: _, v :: _ => Some (c_dim c v) | _, _ => None end.

(** * Tests: the loops stop at the first decisive answer *)
(** the flags of the managers after the loop: [before] for the components which have not been called *)
Fixpoint qloop {A} (stop : bool) (fs : list (A -> bool * bool)) (args : list A) (before : list bool) : bool * list bool :=
  match fs, args, before with
  | f :: fs, a :: args, b0 :: before =>
    let (b, e) := f a in
    if Bool.eqb b stop then (stop, e :: before)
    else let (g, es) := qloop stop fs args before in (g, e :: es)
  | _, _, _ => (negb stop, before)
  end.
Definition query {A} (stop : bool) (fs : list (A -> bool * bool)) (args : list A) (before : list bool) : bool * bool * bool :=
  let (b, fl) := qloop stop fs args before in collect0 b fl.
(** is_bottom (394-409), sat_lincons (449-464), sat_tcons (465-480), sat_interval (481-497): one component is enough *)
Definition rp_any (reduce : rp -> rp) (opt1 : bool) (fs : list (V -> bool * bool)) (a : rp) (before : list bool) := query true fs (rp_p (init1 reduce opt1 a)) before.
(** is_top (410-425), is_dimension_unconstrained (498-515): all the components are needed *)
Definition rp_all (reduce : rp -> rp) (opt1 : bool) (fs : list (V -> bool * bool)) (a : rp) (before : list bool) := query false fs (rp_p (init1 reduce opt1 a)) before.
(** BOOL_MAN_VAL2 (427-447): is_leq, is_eq *)
Definition rp_all2 (reduce : rp -> rp) (opt1 : bool) (fs : list (V * V -> bool * bool)) (a b : rp) (before : list bool) :=
  query false fs (combine (rp_p (init1 reduce opt1 a)) (rp_p (init1 reduce opt1 b))) before.

(** * Bounds *)
(** ap_interval_meet_with (521-530) *)
Definition meet_with (a b : uitv) : uitv :=
  ((if (scalar_cmp (fst a) (fst b) <? 0)%Z then fst b else fst a), (if (0 <? scalar_cmp (snd a) (snd b))%Z then snd b else snd a)).
(** bound_linexpr (532-552), bound_texpr (553-573), bound_dimension (574-594) *)
Fixpoint bloop (fs : list (V -> uitv * bool)) (vs : list V) (g : uitv) : uitv :=
  match fs, vs with
  | f :: fs, v :: vs => let g := meet_with g (fst (f v)) in if interval_is_bottom g then g else bloop fs vs g
  | _, _ => g
  end.
Definition rp_bound (reduce : rp -> rp) (opt1 : bool) (fs : list (V -> uitv * bool)) (a : rp) : uitv := bloop fs (rp_p (init1 reduce opt1 a)) (MInf, PInf).
(** ap_reducedproduct_to_box (641-675): the boxes are met; as soon as a dimension is empty all are *)
Fixpoint boxes_meet (g b : list uitv) : option (list uitv) :=
  match g, b with
  | x :: g, y :: b => let m := meet_with x y in if interval_is_bottom m then None else match boxes_meet g b with None => None | Some l => Some (m :: l) end
  | _, _ => Some g
  end.
(** ap_interval_set_bottom: [1, -1] *)
Definition ubot : uitv := (Fin 1%Q, Fin (-1)%Q).
Fixpoint tbloop (fs : list (V -> list uitv * bool)) (vs : list V) (g : list uitv) : list uitv :=
  match fs, vs with
  | f :: fs, v :: vs => match boxes_meet g (fst (f v)) with None => map (fun _ => ubot) g | Some g => tbloop fs vs g end
  | _, _ => g
  end.
Definition rp_to_box (reduce : rp -> rp) (opt1 : bool) (fs : list (V -> list uitv * bool)) (a : rp) : list uitv :=
  match fs, rp_p (init1 reduce opt1 a) with f :: fs, v :: vs => tbloop fs vs (fst (f v)) | _, _ => [] end.
(** to_lincons_array (595-617), to_tcons_array (618-640): the arrays are put one after the other *)
Definition rp_to_cons {C} (reduce : rp -> rp) (opt1 : bool) (fs : list (V -> list C * bool)) (a : rp) : list C :=
  concat (map (fun p => fst (fst p (snd p))) (combine fs (rp_p (init1 reduce opt1 a)))).

(** * Operations; the component functions take the list of the component values of the product arguments *)
(** the component values of number 0, 1, ... of all the arguments (lines 750-752 for the arrays) *)
Fixpoint cols (n : nat) (ls : list (list V)) : list (list V) :=
  match n with
  | O => []
  | S n => concat (map (firstn 1) ls) :: cols n (map (@tl V) ls)
  end.
Definition rp_op (reduce : rp -> rp) (opt1 opt2 chk redbot : bool) (red : list rp -> bool) (cs : list core) (fs : list (list V -> V * bool)) (l : list rp) : rp * bool * bool :=
  let l := map (init1 reduce opt1) l in
  let (a, fl) := run chk (red l) redbot cs fs (cols (length cs) (map rp_p l)) in
  collect1 reduce opt2 a fl.
Definition reds (l : list rp) : bool := forallb rp_reduced l.
(** meet (696-728): the result is not reduced *)
Definition rp_meet reduce o1 o2 cs fs (a b : rp) := rp_op reduce o1 o2 true true (fun _ => false) cs fs [a; b].
(** join (696-733): no emptiness test *)
Definition rp_join reduce o1 o2 cs fs (a b : rp) := rp_op reduce o1 o2 false true reds cs fs [a; b].
(** meet_array, join_array (735-786): the test funid==AP_FUNID_JOIN is never true there *)
Definition rp_meet_array reduce o1 o2 cs fs (l : list rp) := rp_op reduce o1 o2 true true (fun _ => false) cs fs l.
Definition rp_join_array reduce o1 o2 cs fs (l : list rp) := rp_op reduce o1 o2 false true (fun _ => false) cs fs l.
(** meet_lincons_array (788-812), meet_tcons_array (813-837): [reduced] is reset after the loop *)
Definition rp_meet_cons reduce o1 o2 cs fs (a : rp) := rp_op reduce o1 o2 true false (fun _ => false) cs fs [a].
(** asssub_linexpr_array (863-893), asssub_texpr_array (917-947) *)
Definition rp_asssub (subst : bool) reduce o1 o2 cs fs (a : rp) (dest : option rp) :=
  rp_op reduce o1 o2 (subst || match dest with Some _ => true | None => false end) false (fun _ => false) cs fs (a :: match dest with Some b => [b] | None => [] end).
(** add_ray_array (838-857), forget_array (975-995), add_dimensions (997-1017), permute_dimensions (1039-1058),
    expand (1064-1084), copy (168-182): the flag [reduced] is the one of the argument *)
Definition rp_keep reduce o1 o2 cs fs (a : rp) := rp_op reduce o1 o2 false false reds cs fs [a].
(** remove_dimensions (1018-1037), fold (1085-1105), closure (1134-1153): not reduced *)
Definition rp_lose reduce o1 o2 cs fs (a : rp) := rp_op reduce o1 o2 false false (fun _ => false) cs fs [a].
(** widening (1111-1129) *)
Definition rp_widening reduce o1 o2 cs fs (a b : rp) := rp_op reduce o1 o2 false false (fun _ => false) cs fs [a; b].
End Product.

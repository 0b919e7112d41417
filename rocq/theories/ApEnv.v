(** Model of environments: /repo/apron/ap_environment.c.

    Names are elements of a type with the comparison function of ap_var_operations; copying and
    freeing names, reference counts and hashing are left out.  An environment, an array of
    intdim + realdim names, is the pair of its two parts.  qsort is an insertion sort and bsearch
    a search from the left; the arrays searched are sorted.                                    *)
From Coq Require Import Arith ZArith Bool List.
From Verif Require Import ApCore.
Import ListNotations.
Open Scope Z_scope.

(** ap_var_operations_t, ap_var.h: the comparison of names *)
Record vops (V : Type) : Type := mkV {
  cmp : V -> V -> Z;
  cmp_eq : forall a b, cmp a b = 0 <-> a = b;
  cmp_anti : forall a b, 0 < cmp a b <-> cmp b a < 0;
  cmp_trans : forall a b c, cmp a b < 0 -> cmp b c < 0 -> cmp a c < 0 }.
Arguments cmp {V}.

Section Env.
Context {V : Type} (ops : vops V).
Local Notation cmp := (cmp ops).

(** qsort by a key *)
Fixpoint insert {A : Type} (key : A -> V) (x : A) (l : list A) : list A :=
  match l with
  | [] => [x]
  | y :: q => if cmp (key x) (key y) <=? 0 then x :: l else y :: insert key x q
  end.
Fixpoint sort {A : Type} (key : A -> V) (l : list A) : list A :=
  match l with [] => [] | x :: q => insert key x (sort key q) end.

(** ** env_t *)
(** env_normalize, 76-97: the sorted array and perm[vardim[i].dim] = i *)
Definition env_normalize (l : list V) : list V := sort (fun v => v) l.
Definition env_normalize_perm (l : list V) : list V * list nat :=
  let vd := sort fst (combine l (seq 0 (length l))) in
  (map fst vd, fold_left (fun p iv => set_nth (snd (snd iv)) (fst iv) p) (combine (seq 0 (length vd)) vd) (repeat 0%nat (length l))).
(** env_check, 108-119: true iff the array is not strictly sorted *)
Fixpoint env_check (l : list V) : bool :=
  match l with
  | a :: (b :: _) as q => if 0 <=? cmp a b then true else env_check q
  | _ => false
  end.
(** env_is_inter_empty, 126-138 *)
Fixpoint env_is_inter_empty (l1 : list V) : list V -> bool :=
  fix aux (l2 : list V) : bool :=
    match l1, l2 with
    | a :: q1, b :: q2 =>
        let sgn := cmp a b in
        if sgn =? 0 then false else if 0 <? sgn then aux q2 else env_is_inter_empty q1 l2
    | _, _ => true
    end.
(** env_is_leq, 141-161: the inner loop, with the last value of [sgn]; [None]: return false *)
Fixpoint leq_scan (a : V) (l : list V) (sgn : Z) : option Z :=
  match l with
  | [] => Some sgn
  | b :: q => let sgn := cmp a b in if sgn <? 0 then None else if sgn =? 0 then Some sgn else leq_scan a q sgn
  end.
Fixpoint leq_loop (l1 l2 : list V) (sgn : Z) : bool :=
  match l1 with
  | [] => true
  | a :: q => match leq_scan a l2 sgn with
              | None => false
              | Some sgn => if sgn =? 0 then leq_loop q l2 sgn else false
              end
  end.
Definition env_is_leq (l1 l2 : list V) : bool := if Nat.leb (length l1) (length l2) then leq_loop l1 l2 0 else false.
(** env_add, 182-199 *)
Definition env_add (l vs : list V) : list V := env_normalize (l ++ vs).
(** env_remove, 207-250: [None]: an assertion fails; [Some None]: a name is not present.
    The loop 224-235: the names still to be read, those still to be removed, the number of names
    still to be written. *)
Fixpoint rem_while (env vs : list V) : option (list V * list V) :=
  match vs, env with
  | v :: vq, e :: eq =>
      let sgn := cmp e v in
      if 0 <? sgn then None else if sgn =? 0 then rem_while eq vq else Some (env, vs)
  | _, _ => Some (env, vs)
  end.
Fixpoint rem_loop (n : nat) (env vs acc : list V) : option (list V * list V * list V) :=
  match n with
  | O => Some (rev acc, env, vs)
  | S n =>
      match rem_while env vs with
      | None => None
      | Some (e :: env, vs) => rem_loop n env vs (e :: acc)
      | Some ([], vs) => None (* not reached *)
      end
  end.
(** 236-246 *)
Fixpoint rem_end (env vs : list V) : bool :=
  match vs, env with
  | [], _ => true
  | v :: vq, e :: eq => if cmp e v =? 0 then rem_end eq vq else false
  | _ :: _, [] => false
  end.
Definition env_remove (env vs : list V) : option (option (list V)) :=
  if Nat.ltb (length env) (length vs) then Some None
  else match vs with
       | [] => Some (Some env)
       | _ => match rem_loop (length env - length vs) env (env_normalize vs) [] with
              | None => None
              | Some (r, env, vs) => if rem_end env vs then Some (Some r) else Some None
              end
       end.
(** env_lce, 253-289 *)
Fixpoint env_lce (l1 : list V) : list V -> list V :=
  fix aux (l2 : list V) : list V :=
    match l1, l2 with
    | a :: q1, b :: q2 =>
        let sgn := cmp a b in
        if 0 <? sgn then b :: aux q2 else if sgn <? 0 then a :: env_lce q1 l2 else a :: env_lce q1 q2
    | [], _ => l2
    | _, [] => l1
    end.
(** env_lce_dimchange, 300-329.  The array dimchange1->dim is written at offsetwrite + k1;
    [None]: outside of the array.  The boolean: wrong arguments. *)
Definition write (arr : option (list nat)) (k x : nat) : option (list nat) :=
  match arr with
  | Some l => if Nat.ltb k (length l) then Some (set_nth k x l) else None
  | None => None
  end.
Inductive skipped : Type := SBad (arr : option (list nat)) | SNext (l : list V) (sgn : Z) (k : nat) (arr : option (list nat)).
Fixpoint dc_skip (a : V) (l : list V) (sgn : Z) (x k : nat) (arr : option (list nat)) : skipped :=
  match l with
  | [] => SNext [] sgn k arr
  | b :: q =>
      let sgn := cmp a b in
      if sgn <? 0 then SBad arr
      else if sgn =? 0 then SNext q sgn k arr
      else dc_skip a q sgn x (S k) (write arr k x)
  end.
Fixpoint dc_rest (l : list V) (x k : nat) (arr : option (list nat)) : option (list nat) :=
  match l with [] => arr | _ :: q => dc_rest q x (S k) (write arr k x) end.
Fixpoint dc_loop (l1 l : list V) (sgn : Z) (x k : nat) (arr : option (list nat)) : option (list nat) * bool :=
  match l1 with
  | [] => (dc_rest l x k arr, false)
  | a :: q =>
      match dc_skip a l sgn x k arr with
      | SBad arr => (arr, true)
      | SNext l sgn k arr => if sgn =? 0 then dc_loop q l sgn (S x) k arr else (arr, true)
      end
  end.
Definition env_lce_dimchange (e1 e : list V) (arr : option (list nat)) (offsetwrite offsetread : nat) : option (list nat) * bool :=
  if Nat.ltb (length e) (length e1) then (arr, true) else dc_loop e1 e 0 offsetread offsetwrite arr.

(** ** ap_environment_t *)
Record environment : Type := mkEnv { e_int : list V; e_real : list V }.
Definition e_dim (e : environment) : nat := (length (e_int e) + length (e_real e))%nat.
Definition e_vars (e : environment) : list V := e_int e ++ e_real e.
(** ap_environment_dim_of_var, 423-440; [None] is AP_DIM_MAX *)
Fixpoint search (x : V) (l : list V) : option nat :=
  match l with
  | [] => None
  | y :: q => if cmp x y =? 0 then Some O else option_map S (search x q)
  end.
Definition dim_of_var (e : environment) (x : V) : option nat :=
  match search x (e_int e) with
  | Some d => Some d
  | None => option_map (fun d => (length (e_int e) + d)%nat) (search x (e_real e))
  end.
(** ap_environment_check 447-457, ap_environment_check_compatibility 459-467: true iff wrong *)
Definition environment_check (e : environment) : bool :=
  if env_check (e_int e) then true else if env_check (e_real e) then true else negb (env_is_inter_empty (e_int e) (e_real e)).
Definition check_compatibility (e1 e2 : environment) : bool :=
  negb (env_is_inter_empty (e_int e1) (e_real e2) && env_is_inter_empty (e_int e2) (e_real e1)).
(** ap_environment_add, 473-491; [None] is NULL *)
Definition environment_add (e : environment) (vi vr : list V) : option environment :=
  let r := mkEnv (env_add (e_int e) vi) (env_add (e_real e) vr) in
  if environment_check r then None else Some r.
(** ap_environment_alloc 569-576 *)
Definition environment_alloc (vi vr : list V) : option environment := environment_add (mkEnv [] []) vi vr.
(** ap_environment_add_perm, 493-520 *)
Definition environment_add_perm (e : environment) (vi vr : list V) : option (environment * list nat) :=
  let '(i, p) := env_normalize_perm (e_int e ++ vi) in
  let '(r, q) := env_normalize_perm (e_real e ++ vr) in
  let n := length (e_int e ++ vi) in
  let e' := mkEnv i r in
  if environment_check e' then None else Some (e', p ++ map (fun x => (n + x)%nat) q).
(** ap_environment_remove, 522-567: the names are separated by swapping the real ones to the
    end; here [ni] is the number of names not known to be real.  [fuel]: at most size steps. *)
Fixpoint split_loop (fuel : nat) (e : environment) (t : list V) (i ni : nat) : option (list V * nat) :=
  if Nat.ltb i ni then
    match fuel with
    | O => None
    | S fuel =>
        match nth_error t i with
        | None => None
        | Some x =>
            match dim_of_var e x with
            | None => None
            | Some d =>
                if Nat.leb (length (e_int e)) d then
                  match nth_error t (ni - 1) with
                  | Some y => split_loop fuel e (set_nth (ni - 1) x (set_nth i y t)) i (ni - 1)
                  | None => None
                  end
                else split_loop fuel e t (S i) ni
            end
        end
    end
  else Some (t, ni).
Definition environment_remove (e : environment) (t : list V) : option (option environment) :=
  match t with
  | [] => Some (Some e)
  | _ =>
      match split_loop (length t) e t 0 (length t) with
      | None => Some None
      | Some (t, ni) =>
          match env_remove (e_int e) (firstn ni t), env_remove (e_real e) (skipn ni t) with
          | Some (Some i), Some (Some r) => Some (Some (mkEnv i r))
          | None, _ | _, None => None
          | _, _ => Some None
          end
      end
  end.
(** ap_environment_is_eq 631-650, ap_environment_is_leq 652-670; the shortcut for equal pointers
    gives the same answer *)
Fixpoint same_vars (l1 l2 : list V) : bool :=
  match l1, l2 with
  | a :: q1, b :: q2 => if cmp a b =? 0 then same_vars q1 q2 else false
  | _, _ => true
  end.
Definition environment_is_eq (e1 e2 : environment) : bool :=
  Nat.eqb (length (e_int e1)) (length (e_int e2)) && Nat.eqb (length (e_real e1)) (length (e_real e2)) && same_vars (e_vars e1) (e_vars e2).
Definition environment_is_leq (e1 e2 : environment) : bool :=
  Nat.leb (length (e_int e1)) (length (e_int e2)) && Nat.leb (length (e_real e1)) (length (e_real e2)) &&
  env_is_leq (e_int e1) (e_int e2) && env_is_leq (e_real e1) (e_real e2).
(** A dimension change: number of integer dimensions and positions *)
Record dchange : Type := mkDC { dc_int : nat; dc_pos : list nat }.
(** ap_environment_dimchange, 716-738.  [None]: written outside of the array; [Some None]: NULL *)
Definition both_dimchange (e1 e : environment) : option (list nat) * bool :=
  let ni := (length (e_int e) - length (e_int e1))%nat in
  let nr := (length (e_real e) - length (e_real e1))%nat in
  let '(arr, b) := env_lce_dimchange (e_int e1) (e_int e) (Some (repeat 0%nat (ni + nr))) 0 0 in
  if b then (arr, true) else env_lce_dimchange (e_real e1) (e_real e) arr ni (length (e_int e1)).
Definition environment_dimchange (e1 e : environment) : option (option dchange) :=
  if Nat.ltb (length (e_int e)) (length (e_int e1)) || Nat.ltb (length (e_real e)) (length (e_real e1)) then Some None
  else match both_dimchange e1 e with
       | (None, _) => None
       | (Some pos, b) => if b then Some None else Some (Some (mkDC (length (e_int e) - length (e_int e1)) pos))
       end.
(** the same without looking at the answers, 769-776, 782-787, 838-843, 849-854 *)
Definition lce_change (e1 e : environment) : option dchange :=
  let ni := (length (e_int e) - length (e_int e1))%nat in
  let nr := (length (e_real e) - length (e_real e1))%nat in
  let arr := fst (env_lce_dimchange (e_int e1) (e_int e) (Some (repeat 0%nat (ni + nr))) 0 0) in
  match fst (env_lce_dimchange (e_real e1) (e_real e) arr ni (length (e_int e1))) with
  | Some pos => Some (mkDC ni pos)
  | None => None
  end.
Definition same_size (e e1 : environment) : bool := Nat.eqb (length (e_int e)) (length (e_int e1)) && Nat.eqb (length (e_real e)) (length (e_real e1)).
(** ap_environment_dimchange2, 745-793: dimensions to add, dimensions to remove.  The outer
    [None] stands for NULL, a [None] inside for "no change", a change [Some None] for a
    write outside of the array. *)
Definition environment_dimchange2 (e1 e2 : environment) : option (option (option dchange) * option (option dchange)) :=
  if check_compatibility e1 e2 then None else
  let e := mkEnv (env_lce (e_int e1) (e_int e2)) (env_lce (e_real e1) (e_real e2)) in
  Some (if same_size e e1 then None else Some (lce_change e1 e),
        if same_size e e2 then None else Some (option_map (fun c => mkDC (dc_int c) (dimchange_add_invert (dc_pos c))) (lce_change e2 e))).
(** ap_environment_lce, 805-868 *)
Definition environment_lce (e1 e2 : environment) : option (environment * option (option dchange) * option (option dchange)) :=
  if check_compatibility e1 e2 then None else
  let e := mkEnv (env_lce (e_int e1) (e_int e2)) (env_lce (e_real e1) (e_real e2)) in
  let eq1 := same_size e e1 in let eq2 := same_size e e2 in
  Some (if eq1 then e1 else if eq2 then e2 else e,
        if eq1 then None else Some (lce_change e1 e), if eq2 then None else Some (lce_change e2 e)).
(** ap_environment_compare, 672-691 *)
Definition environment_compare (e1 e2 : environment) : Z :=
  match environment_lce e1 e2 with
  | None => -2
  | Some (_, None, None) => 0
  | Some (_, None, _) => 1
  | Some (_, _, None) => -1
  | Some _ => 2
  end.
(** ap_environment_rename, 1010-1056 *)
Fixpoint rename_loop (e : environment) (l : list (V * V)) (arr : list (option V)) : option (list (option V)) :=
  match l with
  | [] => Some arr
  | (x, y) :: q => match dim_of_var e x with None => None | Some d => rename_loop e q (set_nth d (Some y) arr) end
  end.
Definition environment_rename (e : environment) (l : list (V * V)) : option (environment * list nat) :=
  match rename_loop e l (repeat None (e_dim e)) with
  | None => None
  | Some arr =>
      let vs := map (fun p => match fst p with Some y => y | None => snd p end) (combine arr (e_vars e)) in
      let n := length (e_int e) in
      let '(i, p) := env_normalize_perm (firstn n vs) in
      let '(r, q) := env_normalize_perm (skipn n vs) in
      let e' := mkEnv i r in
      if environment_check e' then None else Some (e', p ++ map (fun x => (n + x)%nat) q)
  end.

(** ** Least common environment of an array *)
(** env_lce_array, 332-373: the first name found, then the least one; all the arrays which start
    with it advance *)
Fixpoint first_name (t : list (list V)) : option V :=
  match t with
  | [] => None
  | [] :: q => first_name q
  | (x :: _) :: _ => Some x
  end.
Definition min_name (x : V) (t : list (list V)) : V :=
  fold_left (fun x l => match l with y :: _ => if 0 <? cmp x y then y else x | [] => x end) t x.
Definition advance (x : V) (l : list V) : list V := match l with y :: q => if cmp x y =? 0 then q else l | [] => [] end.
Fixpoint lce_array_loop (fuel : nat) (t : list (list V)) : list V :=
  match first_name t, fuel with
  | None, _ | _, O => []
  | Some x, S fuel => let x := min_name x (tl t) in x :: lce_array_loop fuel (map (advance x) t)
  end.
Definition env_lce_array (t : list (list V)) : list V := lce_array_loop (length (concat t)) t.
(** ap_environment_lce_array, 899-1004, for at least three environments at different addresses in
    increasing order (the array is sorted by address first): the environment and the changes, one
    per environment.  [None]: not compatible.  Not modelled: the sharing of the result with one
    of the arguments. *)
Definition environment_lce_array (t : list environment) : option (environment * list (option (option dchange))) :=
  let e := mkEnv (env_lce_array (map e_int t)) (env_lce_array (map e_real t)) in
  if environment_check e then None
  else Some (e, map (fun e1 => if same_size e e1 then None else Some (lce_change e1 e)) t).
End Env.
Arguments environment : clear implicits.

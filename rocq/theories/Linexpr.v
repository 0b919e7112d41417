(** User-level coefficients, linear expressions and linear constraints.

    Models the data types of /repo/apron/ap_scalar.h, ap_interval.h,
    ap_coeff.h 24-45, ap_linexpr0.h 24-60, ap_lincons0.h 24-60.
    A scalar is a rational or an infinity (its representation as a double, an
    MPQ or an MPFR number is not modelled; NaN is excluded).                *)
From Coq Require Import ZArith QArith Qreals Reals Bool List.
From Verif Require Import Bound.
Import ListNotations.

(** ap_coeff_t: a scalar or an interval (inf, sup: true bounds, not negated). *)
Inductive coeff : Type :=
| Scal : bound -> coeff
| Intv : bound -> bound -> coeff.

(** ap_linexpr0_t: dense array of coefficients (the i-th one multiplies x_i) or
    sparse array of terms; [None] is the hole AP_DIM_MAX. *)
Inductive linterms : Type :=
| Dense : list coeff -> linterms
| Sparse : list (option nat * coeff) -> linterms.
Record linexpr : Type := mkLin { le_cst : coeff; le_terms : linterms }.

(** ap_constyp_t, ap_lincons0_t. *)
Inductive constyp := CEq | CSupEq | CSup | CEqMod | CDisEq.
Record lincons : Type := mkCons { lc_typ : constyp; lc_expr : linexpr; lc_mod : option bound }.

(** ap_coeff_reduce, ap_coeff.c 127-139. *)
Definition coeff_reduce (c : coeff) : coeff :=
  match c with
  | Intv l u => if bequal l u then Scal l else c
  | _ => c
  end.

(** ** Meaning (specification side) *)

(** possible values of a coefficient *)
Definition coeff_in (r : R) (c : coeff) : Prop :=
  match c with
  | Scal (Fin q) => r = Q2R q
  | Scal _ => False
  | Intv l u => ge_rb r l /\ le_rb r u
  end.

(** possible values of an expression at a point: every coefficient takes one of
    its possible values *)
Fixpoint sum_dense (i : nat) (cs : list R) (v : nat -> R) : R :=
  match cs with
  | [] => 0%R
  | c :: cs => (c * v i + sum_dense (S i) cs v)%R
  end.
Fixpoint sum_sparse (ts : list (option nat * coeff)) (cs : list R) (v : nat -> R) : R :=
  match ts, cs with
  | (Some d, _) :: ts, c :: cs => (c * v d + sum_sparse ts cs v)%R
  | (None, _) :: ts, _ :: cs => sum_sparse ts cs v
  | _, _ => 0%R
  end.
Definition terms_val (t : linterms) (v : nat -> R) (r : R) : Prop :=
  match t with
  | Dense l => exists cs, Forall2 coeff_in cs l /\ r = sum_dense 0 cs v
  | Sparse ts => exists cs,
      Forall2 (fun c t => fst t <> None -> coeff_in c (snd t)) cs ts /\ r = sum_sparse ts cs v
  end.
Definition expr_val (e : linexpr) (v : nat -> R) (r : R) : Prop :=
  exists c0 r1, coeff_in c0 (le_cst e) /\ terms_val (le_terms e) v r1 /\ r = (c0 + r1)%R.

(** the meaning of  r CMP 0 *)
Definition is_integer (r : R) : Prop := exists z : Z, r = IZR z.
Definition sat_typ (t : constyp) (m : option bound) (r : R) : Prop :=
  match t with
  | CEq => r = 0%R
  | CSupEq => (0 <= r)%R
  | CSup => (0 < r)%R
  | CDisEq => r <> 0%R
  | CEqMod => match m with
              | Some (Fin q) => if Qeq_bool q 0 then r = 0%R else is_integer (r / Q2R q)
              | _ => r = 0%R
              end
  end.
(** a point is a solution if some choice of the coefficients satisfies the constraint *)
Definition sat_cons (c : lincons) (v : nat -> R) : Prop :=
  exists r, expr_val (lc_expr c) v r /\ sat_typ (lc_typ c) (lc_mod c) r.

(** well-formed: finite scalars, no interval reduced to an infinity, dimensions
    in range and listed at most once *)
Definition wf_coeff (c : coeff) : Prop :=
  match c with
  | Scal b => match b with Fin _ => True | _ => False end
  | Intv l u => l <> PInf /\ u <> MInf
  end.
Fixpoint term_dims (ts : list (option nat * coeff)) : list nat :=
  match ts with
  | [] => []
  | (Some d, _) :: ts => d :: term_dims ts
  | (None, _) :: ts => term_dims ts
  end.
Definition wf_terms (n : nat) (t : linterms) : Prop :=
  match t with
  | Dense l => (length l <= n)%nat /\ Forall wf_coeff l
  | Sparse ts => Forall (fun t => fst t <> None -> wf_coeff (snd t)) ts /\
                 NoDup (term_dims ts) /\ (forall d, In d (term_dims ts) -> (d < n)%nat)
  end.
Definition wf_linexpr (n : nat) (e : linexpr) : Prop :=
  wf_coeff (le_cst e) /\ wf_terms n (le_terms e).

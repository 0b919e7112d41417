(** Meaning of tree expressions (specification side, not code).

    A value of an expression at a real point: each constant takes one of its values, each
    operation is the one on real numbers followed by the rounding requested by the node.  Because
    of intervals and of the direction "any", an expression may have several values; it has none
    where an operation is undefined (division by zero, square root of a negative number, overflow
    of a floating-point type, integer modulo of a non-integer, modulo that is not a number of the
    requested floating-point type: the code never rounds a modulo). *)
From Coq Require Import Arith ZArith QArith Qreals Reals Bool List Lra.
From Verif Require Import Bound BoundFacts Itv ItvFacts ItvFacts2 Linexpr ApTexpr.
Import ListNotations.

(** ** Floating-point formats *)
(** [r] is one of the two neighbours of [x] in the set [F] (or [x] itself); there is one on each
    side, i.e. no overflow *)
Definition faithful (F : R -> Prop) (x r : R) : Prop :=
  F r /\ (exists s, F s /\ (x <= s)%R) /\ (exists s, F s /\ (s <= x)%R) /\
  forall s, F s -> ((x <= s)%R -> (r <= s)%R) /\ ((s <= x)%R -> (s <= r)%R).
(** A format: its finite numbers, the conversion of bounds upwards
    (/repo/num/bound_def.h 392-430) and the two constants of its error bound
    (/repo/itv/itv.c 11-43).  The fields [f_up_ok], [f_err_ok] state what is assumed
    of the machine's conversions and of the constants. *)
Record ffmt : Type := mkFmt {
  f_set : R -> Prop;
  f_opp : forall x, f_set x -> f_set (- x)%R;
  f_up : Q -> bound;
  f_up_ok : forall q, match f_up q with MInf => False | Fin p => f_set (Q2R p) /\ (Q2R q <= Q2R p)%R | PInf => True end;
  f_ulp : Q;
  f_min : Q;
  f_ulp_pos : (0 <= f_ulp)%Q;
  f_min_pos : (0 <= f_min)%Q;
  f_err_ok : forall x r, faithful f_set x r -> (Rabs (r - x) <= Q2R f_ulp * Rabs x + Q2R f_min)%R }.
(** The four formats, each included in the next *)
Record fmts : Type := mkFmts {
  fm_single : ffmt; fm_double : ffmt; fm_extended : ffmt; fm_quad : ffmt;
  fm_sd : forall x, f_set fm_single x -> f_set fm_double x;
  fm_de : forall x, f_set fm_double x -> f_set fm_extended x;
  fm_eq : forall x, f_set fm_extended x -> f_set fm_quad x }.
Definition fmt_of (F : fmts) (t : rtype) : option ffmt :=
  match t with
  | RReal | RInt => None
  | RSingle => Some (fm_single F)
  | RDouble => Some (fm_double F)
  | RExtended => Some (fm_extended F)
  | RQuad => Some (fm_quad F)
  end.

(** ** Rounding *)
Definition rounded_int (d : rdir) (x : R) (z : Z) : Prop :=
  match d with
  | DNearest => (Rabs (IZR z - x) <= / 2)%R
  | DZero => is_trunc x z
  | DUp => is_ceil x z
  | DDown => is_floor x z
  | DRnd => (Rabs (IZR z - x) < 1)%R
  end.
Definition rounded_float (F : R -> Prop) (d : rdir) (x r : R) : Prop :=
  faithful F x r /\
  match d with
  | DNearest => forall s, F s -> (Rabs (r - x) <= Rabs (s - x))%R
  | DZero => (Rabs r <= Rabs x)%R
  | DUp => (x <= r)%R
  | DDown => (r <= x)%R
  | DRnd => True
  end.
Definition rounded (F : fmts) (t : rtype) (d : rdir) (x r : R) : Prop :=
  match t with
  | RReal => r = x
  | RInt => exists z, r = IZR z /\ rounded_int d x z
  | _ => match fmt_of F t with Some f => rounded_float (f_set f) d x r | None => False end
  end.

(** ** Values *)
(** x ^ y for a natural y; any number otherwise *)
Definition is_pow (x y r : R) : Prop :=
  (exists k, y = INR k /\ r = (x ^ k)%R) \/ (forall k, y <> INR k).
Definition un_val (F : fmts) (o : unop) (t : rtype) (d : rdir) (x r : R) : Prop :=
  match o with
  | UNeg => r = (- x)%R
  | UCast => rounded F t d x r
  | USqrt => (0 <= x)%R /\ rounded F t d (sqrt x) r
  end.
Definition bin_val (F : fmts) (o : binop) (t : rtype) (d : rdir) (x y r : R) : Prop :=
  match o with
  | BAdd => rounded F t d (x + y) r
  | BSub => rounded F t d (x - y) r
  | BMul => rounded F t d (x * y) r
  | BDiv => y <> 0%R /\ rounded F t d (x / y) r
  | BMod => y <> 0%R /\ is_mod x y r /\ (t = RInt -> is_integer x /\ is_integer y) /\
            match fmt_of F t with Some f => f_set f r | None => True end
  | BPow => exists p, is_pow x y p /\ rounded F t d p r
  end.
Inductive xval (F : fmts) (v : nat -> R) : texpr -> R -> Prop :=
| xv_cst : forall c r, coeff_in r c -> xval F v (TCst c) r
| xv_dim : forall d, xval F v (TDim d) (v d)
| xv_un : forall o t d a x r, xval F v a x -> un_val F o t d x r -> xval F v (TUn o t d a) r
| xv_bin : forall o t d a b x y r, xval F v a x -> xval F v b y -> bin_val F o t d x y r -> xval F v (TBin o t d a b) r.
(** occurrence of a dimension *)
Inductive occurs (d : nat) : texpr -> Prop :=
| oc_dim : occurs d (TDim d)
| oc_un : forall o t r a, occurs d a -> occurs d (TUn o t r a)
| oc_l : forall o t r a b, occurs d a -> occurs d (TBin o t r a b)
| oc_r : forall o t r a b, occurs d b -> occurs d (TBin o t r a b).

Lemma xval_cst : forall F v c r, xval F v (TCst c) r <-> coeff_in r c.
Proof. split; intros H. inversion H; auto. constructor; auto. Qed.
Lemma xval_dim : forall F v d r, xval F v (TDim d) r <-> r = v d.
Proof. split; intros H. inversion H; auto. subst. constructor. Qed.
Lemma xval_un : forall F v o t d a r, xval F v (TUn o t d a) r <-> exists x, xval F v a x /\ un_val F o t d x r.
Proof. split; intros H. inversion H; eauto. destruct H as (x & A & B). econstructor; eauto. Qed.
Lemma xval_bin : forall F v o t d a b r, xval F v (TBin o t d a b) r <-> exists x y, xval F v a x /\ xval F v b y /\ bin_val F o t d x y r.
Proof. split; intros H. inversion H; eauto 6. destruct H as (x & y & A & B & C). econstructor; eauto. Qed.
Lemma xval_ext : forall F v w a, (forall d, occurs d a -> v d = w d) -> forall r, xval F v a r <-> xval F w a r.
Proof.
  induction a as [c|d|o t d a IH|o t d a IHa b IHb]; intros H r.
  - rewrite !xval_cst. tauto.
  - rewrite !xval_dim, H by constructor. tauto.
  - rewrite !xval_un. assert (G : forall d, occurs d a -> v d = w d) by (intros; apply H; constructor; auto). specialize (IH G).
    split; intros (x & A & B); exists x; split; auto; apply IH; auto.
  - rewrite !xval_bin. assert (G1 : forall d, occurs d a -> v d = w d) by (intros; apply H; constructor; auto).
    assert (G2 : forall d, occurs d b -> v d = w d) by (intros; apply H; apply oc_r; auto). specialize (IHa G1). specialize (IHb G2).
    split; intros (x & y & A & B & C); exists x, y; split; [apply IHa; auto| |apply IHa; auto|]; split; auto; apply IHb; auto.
Qed.

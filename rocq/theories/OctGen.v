(** Octagons and generators: adding vertices, rays and lines to an octagon, and building an octagon from generators.

    Models /repo/octagons/oct_internal.h 326-355 (bounds_of_generator), oct_transfer.c 415-465 (hmat_add_generators) and
    529-553 (oct_add_ray_array), oct_representation.c 166-196 (oct_of_generator_array).  The result flags are not modelled;
    the argument checks (dimensions in range) are preconditions.                                                        *)
From Coq Require Import Arith Lia List ZArith QArith Qreals Reals Lra Bool.
From Verif Require Import Bound BoundFacts Linexpr LinexprFacts OctMat OctIdx OctClose OctWalk OctStrong OctGeom Oct OctFacts OctFacts3.
From Verif Require PkUser.
Import ListNotations.
Open Scope nat_scope.
#[local] Arguments Nat.mul : simpl never.
#[local] Arguments Nat.leb : simpl never.
Local Notation E := exact_num.

(** ap_generator0_t: kind and linear expression (its constant is not read) *)
Definition gener : Type := (PkUser.gentyp * linexpr)%type.
Definition is_vertex (g : gener) : bool := match fst g with PkUser.GVertex => true | _ => false end.
Definition is_ray (g : gener) : bool := match fst g with PkUser.GRay | PkUser.GRayMod => true | _ => false end.
Definition is_line (g : gener) : bool := match fst g with PkUser.GLine | PkUser.GLineMod => true | _ => false end.

Section Model.
Context {N : numtype}.
(** bounds_of_generator 326-355: cell 2i receives -inf, cell 2i+1 receives sup of the coefficient of dimension i *)
Definition gput (i : nat) (c : coeff) (dst : hmat) : hmat :=
  let '(lo, hi, _) := bounds_of_coeff (N:=N) c false in upd (upd dst (2 * i) lo) (2 * i + 1) hi.
Definition gzero (i : nat) (dst : hmat) : hmat := upd (upd dst (2 * i) (Fin 0)) (2 * i + 1) (Fin 0).
Fixpoint gdense (i : nat) (l : list coeff) (dst : hmat) : hmat :=
  match l with [] => dst | c :: l => gdense (S i) l (gput i c dst) end.
Fixpoint gsparse (l : list (option nat * coeff)) (dst : hmat) : hmat :=
  match l with
  | [] => dst
  | (None, _) :: l => gsparse l dst
  | (Some d, c) :: l => gsparse l (gput d c dst)
  end.
Definition bounds_of_generator (tmp : hmat) (e : linexpr) (dim : nat) : hmat :=
  match le_terms e with
  | Dense l => for_ (length l) dim gzero (gdense 0 l tmp)
  | Sparse l => gsparse l (for_ 0 dim gzero tmp)
  end.

(** the double loop over the half matrix, which visits every cell once *)
Definition each_cell (dim : nat) (f : nat -> nat -> bound -> bound) (m : hmat) : hmat :=
  for_ 0 (2 * dim) (fun j m => for_ 0 (S (or1 j)) (fun k m => upd m (matpos j k) (f j k (m (matpos j k)))) m) m.

(** hmat_add_generators 415-465: all vertices first, then rays and lines in order.  [tmp] is the working space of the
    manager, whose previous content is arbitrary. *)
Definition add_vertex (tmp : hmat) (dim : nat) (m : hmat) (g : gener) : hmat :=
  if is_vertex g then
    let t := bounds_of_generator tmp (snd g) dim in
    each_cell dim (fun j k b => bmax b (badd (N:=N) (t j) (t (xor1 k)))) m
  else m.
Definition add_dir (tmp : hmat) (dim : nat) (m : hmat) (g : gener) : hmat :=
  let t := bounds_of_generator tmp (snd g) dim in
  if is_ray g then
    each_cell dim (fun j k b => if (0 <? bsgn (badd (N:=N) (t (xor1 k)) (t j)))%Z then PInf else b) m
  else if is_line g then
    each_cell dim (fun j k b =>
      if (0 <? bsgn (badd (N:=N) (t (xor1 k)) (t j)))%Z || (0 <? bsgn (badd (N:=N) (t (xor1 j)) (t k)))%Z
      then PInf else b) m
  else m.
Definition hmat_add_generators (tmp m : hmat) (dim : nat) (ar : list gener) : hmat :=
  fold_left (add_dir tmp dim) ar (fold_left (add_vertex tmp dim) ar m).

(** oct_add_ray_array 529-553 *)
Definition oct_add_ray_array (algo : Z) (tmp : hmat) (a : oct) (ar : list gener) : oct :=
  let a := cached (N:=N) algo a in
  match best a with
  | None => set_mat a None None
  | Some m => set_mat a (Some (hmat_add_generators tmp m (odim a) ar)) None
  end.

(** oct_of_generator_array 166-196 *)
Definition oct_of_generator_array (tmp : hmat) (intdim realdim : nat) (ar : list gener) : oct :=
  let dim := intdim + realdim in
  match find is_vertex ar with
  | None => mkOct None None dim intdim
  | Some g =>
    let t := bounds_of_generator tmp (snd g) dim in
    let m := each_cell dim (fun j k _ => bsub (N:=N) (t j) (t k)) (hmat_top dim) in
    mkOct (Some (hmat_add_generators tmp m dim ar)) None dim intdim
  end.
End Model.

(** * Specification *)
(** a vector described by a generator: one of the possible values for each coefficient, zero where there is none *)
Definition gen_point (n : nat) (e : linexpr) (w : nat -> R) : Prop := forall d, d < n -> ocoeff_in (w d) (lin_coeff e d).
(** the set generated from [P]: vertices are added, points are mixed, rays and lines are followed *)
Inductive hull (n : nat) (P : (nat -> R) -> Prop) (ar : list gener) : (nat -> R) -> Prop :=
| h_base : forall v, P v -> hull n P ar v
| h_vertex : forall e v, In (PkUser.GVertex, e) ar -> gen_point n e v -> hull n P ar v
| h_mix : forall v w t, hull n P ar v -> hull n P ar w -> (0 <= t <= 1)%R ->
    hull n P ar (fun i => ((1 - t) * v i + t * w i)%R)
| h_ray : forall g e v w t, In (g, e) ar -> g = PkUser.GRay \/ g = PkUser.GRayMod ->
    gen_point n e w -> hull n P ar v -> (0 <= t)%R -> hull n P ar (fun i => (v i + t * w i)%R)
| h_line : forall g e v w t, In (g, e) ar -> g = PkUser.GLine \/ g = PkUser.GLineMod ->
    gen_point n e w -> hull n P ar v -> hull n P ar (fun i => (v i + t * w i)%R).
Definition gens_ok (n : nat) (ar : list gener) : Prop := forall g, In g ar -> wf_terms n (le_terms (snd g)).

(** * The double loop *)
Lemma each_cell_at : forall dim f m j k, j < 2 * dim -> k <= or1 j ->
  each_cell dim f m (matpos j k) = f j k (m (matpos j k)).
Proof.
  intros dim f m j k Hj Hk. unfold each_cell.
  assert (A :
    (fun i (x : hmat) => forall j k, j < 2 * dim -> k <= or1 j ->
       x (matpos j k) = if j <? i then f j k (m (matpos j k)) else m (matpos j k)) (2 * dim)
     (for_ 0 (2 * dim) (fun j m => for_ 0 (S (or1 j)) (fun k m => upd m (matpos j k) (f j k (m (matpos j k)))) m) m)).
  { refine (for_ind (fun i (x : hmat) => forall j k, j < 2 * dim -> k <= or1 j ->
       x (matpos j k) = if j <? i then f j k (m (matpos j k)) else m (matpos j k)) 0 (2 * dim) _ m _ _ _); [lia| |].
    - intros j0 k0 _ _. reflexivity.
    - intros i x Hi IH.
      pose proof (for_ind (fun c (y : hmat) => forall j k, j < 2 * dim -> k <= or1 j ->
        y (matpos j k) = if (j <? i) || ((j =? i) && (k <? c)) then f j k (m (matpos j k)) else m (matpos j k))
        0 (S (or1 i)) (fun k m => upd m (matpos i k) (f i k (m (matpos i k)))) x) as Q.
      assert (Q' : forall j k, j < 2 * dim -> k <= or1 j ->
        for_ 0 (S (or1 i)) (fun k m => upd m (matpos i k) (f i k (m (matpos i k)))) x (matpos j k)
        = if (j <? i) || ((j =? i) && (k <? S (or1 i))) then f j k (m (matpos j k)) else m (matpos j k)).
      { apply Q; [lia| |].
        - intros j0 k0 A B. rewrite (IH j0 k0 A B). change (k0 <? 0) with false. rewrite andb_false_r, orb_false_r. reflexivity.
        - intros c y Hc IHc j0 k0 A B. unfold upd. destruct (Nat.eqb (matpos j0 k0) (matpos i c)) eqn:Eq.
          + apply Nat.eqb_eq in Eq. apply matpos_inj in Eq; [|auto|lia]. destruct Eq as [-> ->].
            rewrite Nat.eqb_refl. replace (c <? S c) with true by (symmetry; apply Nat.ltb_lt; lia).
            rewrite orb_true_r. f_equal. rewrite IHc by auto.
            rewrite Nat.ltb_irrefl, (Nat.ltb_irrefl c), andb_false_r. reflexivity.
          + rewrite IHc by auto. destruct (Nat.eqb j0 i) eqn:Ej; [|reflexivity].
            apply Nat.eqb_eq in Ej. subst j0. rewrite Nat.ltb_irrefl. cbn [orb andb].
            destruct (k0 <? c) eqn:K1, (k0 <? S c) eqn:K2; auto.
            * apply Nat.ltb_lt in K1. apply Nat.ltb_ge in K2. lia.
            * apply Nat.ltb_ge in K1. apply Nat.ltb_lt in K2. assert (k0 = c) by lia. subst.
              rewrite Nat.eqb_refl in Eq. discriminate. }
      intros j0 k0 A B. rewrite Q' by auto.
      destruct (Nat.ltb_spec j0 i), (Nat.eqb_spec j0 i), (Nat.ltb_spec j0 (S i)), (Nat.ltb_spec k0 (S (or1 i)));
        cbn [orb andb]; auto; try lia; subst; lia. }
  specialize (A j k Hj Hk). cbv beta in A. rewrite A.
  replace (j <? 2 * dim) with true by (symmetry; apply Nat.ltb_lt; auto). reflexivity.
Qed.

(** * Bounds of a generator *)
Section Bounds.
Context {N : numtype}.
Definition glo (k : option coeff) : bound := match k with None => Fin 0 | Some c => fst (fst (bounds_of_coeff (N:=N) c false)) end.
Definition ghi (k : option coeff) : bound := match k with None => Fin 0 | Some c => snd (fst (bounds_of_coeff (N:=N) c false)) end.
Lemma gput_at : forall i c dst d, gput (N:=N) i c dst (2 * d) = (if d =? i then glo (Some c) else dst (2 * d)) /\
  gput (N:=N) i c dst (2 * d + 1) = (if d =? i then ghi (Some c) else dst (2 * d + 1)).
Proof.
  intros i c dst d. unfold gput, glo, ghi. destruct (bounds_of_coeff c false) as [[lo hi] em]. cbn [fst snd]. unfold upd.
  destruct (Nat.eqb_spec d i) as [->|D].
  - rewrite Nat.eqb_refl. destruct (Nat.eqb_spec (2 * i) (2 * i + 1)); [lia|]. rewrite Nat.eqb_refl. auto.
  - destruct (Nat.eqb_spec (2 * d) (2 * i + 1)); [lia|]. destruct (Nat.eqb_spec (2 * d) (2 * i)); [lia|].
    destruct (Nat.eqb_spec (2 * d + 1) (2 * i + 1)); [lia|]. destruct (Nat.eqb_spec (2 * d + 1) (2 * i)); [lia|]. auto.
Qed.
Lemma gzero_at : forall i dst d, gzero i dst (2 * d) = (if d =? i then Fin 0 else dst (2 * d)) /\
  gzero i dst (2 * d + 1) = (if d =? i then Fin 0 else dst (2 * d + 1)).
Proof.
  intros i dst d. unfold gzero, upd. destruct (Nat.eqb_spec d i) as [->|D].
  - rewrite Nat.eqb_refl. destruct (Nat.eqb_spec (2 * i) (2 * i + 1)); [lia|]. rewrite Nat.eqb_refl. auto.
  - destruct (Nat.eqb_spec (2 * d) (2 * i + 1)); [lia|]. destruct (Nat.eqb_spec (2 * d) (2 * i)); [lia|].
    destruct (Nat.eqb_spec (2 * d + 1) (2 * i + 1)); [lia|]. destruct (Nat.eqb_spec (2 * d + 1) (2 * i)); [lia|]. auto.
Qed.
Lemma gzeros_at : forall lo hi dst d, lo <= hi ->
  for_ lo hi gzero dst (2 * d) = (if (lo <=? d) && (d <? hi) then Fin 0 else dst (2 * d)) /\
  for_ lo hi gzero dst (2 * d + 1) = (if (lo <=? d) && (d <? hi) then Fin 0 else dst (2 * d + 1)).
Proof.
  intros lo hi dst d L.
  pose proof (for_ind (fun i (x : hmat) =>
    x (2 * d) = (if (lo <=? d) && (d <? i) then Fin 0 else dst (2 * d)) /\
    x (2 * d + 1) = (if (lo <=? d) && (d <? i) then Fin 0 else dst (2 * d + 1))) lo hi gzero dst) as Q.
  apply Q; auto.
  - destruct (Nat.leb_spec lo d), (Nat.ltb_spec d lo); cbn [andb]; auto; lia.
  - intros i x Hi (I1 & I2). destruct (gzero_at i x d) as (G1 & G2). rewrite G1, G2, I1, I2.
    destruct (Nat.eqb_spec d i), (Nat.leb_spec lo d), (Nat.ltb_spec d i), (Nat.ltb_spec d (S i)); cbn [andb]; auto; lia.
Qed.
Lemma gdense_at : forall l i dst d,
  gdense (N:=N) i l dst (2 * d) = (if (i <=? d) && (d <? i + length l) then glo (nth_error l (d - i)) else dst (2 * d)) /\
  gdense (N:=N) i l dst (2 * d + 1) = (if (i <=? d) && (d <? i + length l) then ghi (nth_error l (d - i)) else dst (2 * d + 1)).
Proof.
  induction l as [|c l IH]; intros i dst d.
  - cbn [gdense length]. destruct (Nat.leb_spec i d), (Nat.ltb_spec d (i + 0)); cbn [andb]; auto; lia.
  - cbn [gdense]. destruct (IH (S i) (gput (N:=N) i c dst) d) as (I1 & I2). rewrite I1, I2.
    destruct (gput_at i c dst d) as (G1 & G2). rewrite G1, G2. cbn [length].
    destruct (Nat.eqb_spec d i) as [->|D].
    + replace (i - i) with 0 by lia.
      destruct (Nat.leb_spec (S i) i), (Nat.leb_spec i i), (Nat.ltb_spec i (i + S (length l))); cbn [andb]; try lia. auto.
    + destruct (Nat.leb_spec (S i) d), (Nat.leb_spec i d), (Nat.ltb_spec d (S i + length l)), (Nat.ltb_spec d (i + S (length l)));
        cbn [andb]; try lia; auto.
      replace (d - i) with (S (d - S i)) by lia. auto.
Qed.
Lemma gsparse_at : forall l dst d, NoDup (term_dims l) ->
  gsparse (N:=N) l dst (2 * d) = (match sp_coeff l d with Some c => glo (Some c) | None => dst (2 * d) end) /\
  gsparse (N:=N) l dst (2 * d + 1) = (match sp_coeff l d with Some c => ghi (Some c) | None => dst (2 * d + 1) end).
Proof.
  assert (S : forall l d, ~ In d (term_dims l) -> sp_coeff l d = None).
  { induction l as [|[[x|] c] l IH]; intros d H; simpl in *; auto. destruct (Nat.eqb_spec x d); [tauto|apply IH; tauto]. }
  induction l as [|[[x|] c] l IH]; intros dst d ND; cbn [gsparse sp_coeff]; auto.
  simpl in ND. inversion ND as [|? ? Nx ND']; subst. destruct (IH (gput (N:=N) x c dst) d ND') as (I1 & I2). rewrite I1, I2.
  destruct (gput_at x c dst d) as (G1 & G2). rewrite G1, G2. rewrite (Nat.eqb_sym d x).
  destruct (Nat.eqb_spec x d) as [->|D]; auto. rewrite S by auto. auto.
Qed.
Lemma bog_at : forall tmp e n d, wf_terms n (le_terms e) -> d < n ->
  bounds_of_generator (N:=N) tmp e n (2 * d) = glo (lin_coeff e d) /\
  bounds_of_generator (N:=N) tmp e n (2 * d + 1) = ghi (lin_coeff e d).
Proof.
  intros tmp e n d W Hd. unfold bounds_of_generator, lin_coeff. destruct (le_terms e) as [l|l]; simpl in W.
  - destruct W as (L & _). destruct (gzeros_at (length l) n (gdense (N:=N) 0 l tmp) d L) as (G1 & G2). rewrite G1, G2.
    destruct (gdense_at l 0 tmp d) as (D1 & D2). rewrite D1, D2. rewrite Nat.sub_0_r, Nat.add_0_l.
    destruct (Nat.leb_spec (length l) d), (Nat.ltb_spec d n); cbn [andb]; try lia.
    + rewrite (proj2 (nth_error_None l d)) by lia. auto.
    + destruct (Nat.leb_spec 0 d), (Nat.ltb_spec d (length l)); cbn [andb]; try lia. auto.
  - destruct W as (_ & ND & _). destruct (gsparse_at l (for_ 0 n gzero tmp) d ND) as (S1 & S2). rewrite S1, S2.
    destruct (gzeros_at 0 n tmp d) as (Z1 & Z2); [lia|]. rewrite Z1, Z2.
    destruct (Nat.leb_spec 0 d), (Nat.ltb_spec d n); cbn [andb]; try lia. destruct (sp_coeff l d); auto.
Qed.
Lemma glh_in : forall r k, ocoeff_in r k -> le_rb (- r) (glo k) /\ le_rb r (ghi k).
Proof.
  intros r [[s|l u]|] H; cbn [ocoeff_in] in H; unfold glo, ghi, bounds_of_coeff; cbn [fst snd].
  - destruct s as [|q|]; simpl in H; try tauto. subst r. split; [apply bos_lo1|apply bos_up1]; simpl; lra.
  - destruct H. split; [apply bos_lo1|apply bos_up1]; auto.
  - subst r. simpl. rewrite Q2R_0'. lra.
Qed.
Lemma glh_wf : forall k, (forall c, k = Some c -> wf_coeff c) -> glo k <> MInf /\ ghi k <> MInf.
Proof.
  intros [c|] W; [|split; discriminate]. specialize (W c eq_refl). unfold glo, ghi, bounds_of_coeff. destruct c as [s|l u]; cbn [fst snd].
  - simpl in W. destruct s as [|q|]; try tauto.
    split; [apply (bos_not_MInf (N:=N) (Fin q) true false)|apply (bos_not_MInf (N:=N) (Fin q) false false)]; discriminate.
  - split; [apply (bos_not_MInf (N:=N) l true false)|apply (bos_not_MInf (N:=N) u false false)]; apply W.
Qed.
(** cell j bounds the opposite of literal j *)
Lemma bog_in : forall tmp e n w j, wf_terms n (le_terms e) -> gen_point n e w -> j < 2 * n ->
  le_rb (- lit w j) (bounds_of_generator (N:=N) tmp e n j).
Proof.
  intros tmp e n w j W G Hj. destruct (par_cases j) as [d [-> | ->]]; assert (Hd : d < n) by lia;
    destruct (bog_at tmp e n d W Hd) as (A & B); destruct (glh_in (w d) (lin_coeff e d) (G d Hd)) as (C & D).
  - rewrite A, lit_even. auto.
  - rewrite B, lit_odd, Ropp_involutive. auto.
Qed.
Lemma bog_wf : forall tmp e n j, wf_terms n (le_terms e) -> j < 2 * n -> bounds_of_generator (N:=N) tmp e n j <> MInf.
Proof.
  intros tmp e n j W Hj. destruct (par_cases j) as [d [-> | ->]]; assert (Hd : d < n) by lia;
    destruct (bog_at tmp e n d W Hd) as (A & B); destruct (glh_wf (lin_coeff e d)) as (C & D);
    try (intros c Hc; apply (wf_lin_coeff n e d c W Hc)); congruence.
Qed.
End Bounds.

(** * Cells of the result *)
Section Cells.
Context {N : numtype}.
Variable tmp : hmat.
Variable n : nat.
Let T (g : gener) := bounds_of_generator (N:=N) tmp (snd g) n.
Definition vcell (g : gener) (j k : nat) : bound := badd (N:=N) (T g j) (T g (xor1 k)).
Definition grows (g : gener) (j k : nat) : bool :=
  if is_ray g then (0 <? bsgn (badd (N:=N) (T g (xor1 k)) (T g j)))%Z
  else if is_line g then (0 <? bsgn (badd (N:=N) (T g (xor1 k)) (T g j)))%Z || (0 <? bsgn (badd (N:=N) (T g (xor1 j)) (T g k)))%Z
  else false.
Lemma addv_at : forall m g j k, j < 2 * n -> k <= or1 j ->
  add_vertex (N:=N) tmp n m g (matpos j k) = if is_vertex g then bmax (m (matpos j k)) (vcell g j k) else m (matpos j k).
Proof. intros m g j k Hj Hk. unfold add_vertex. destruct (is_vertex g); auto. rewrite each_cell_at by auto. reflexivity. Qed.
Lemma addd_at : forall m g j k, j < 2 * n -> k <= or1 j ->
  add_dir (N:=N) tmp n m g (matpos j k) = if grows g j k then PInf else m (matpos j k).
Proof.
  intros m g j k Hj Hk. unfold add_dir, grows, T. destruct (is_ray g); [rewrite each_cell_at by auto; reflexivity|].
  destruct (is_line g); [rewrite each_cell_at by auto; reflexivity|]. reflexivity.
Qed.
Lemma bb_refl : forall b, le_bb b b.
Proof. intros [|q|]; simpl; auto. apply Qle_refl. Qed.
Lemma bb_PInf : forall b, le_bb b PInf.
Proof. intros [|q|]; simpl; auto. Qed.
Lemma addd_grow : forall ar m j k, j < 2 * n -> k <= or1 j ->
  le_bb (m (matpos j k)) (fold_left (add_dir (N:=N) tmp n) ar m (matpos j k)).
Proof.
  induction ar as [|g ar IH]; intros m j k Hj Hk; simpl; [apply bb_refl|].
  eapply le_bb_trans; [|apply IH; auto]. rewrite addd_at by auto. destruct (grows g j k); [apply bb_PInf|apply bb_refl].
Qed.
Lemma addv_grow : forall ar m j k, j < 2 * n -> k <= or1 j ->
  le_bb (m (matpos j k)) (fold_left (add_vertex (N:=N) tmp n) ar m (matpos j k)).
Proof.
  induction ar as [|g ar IH]; intros m j k Hj Hk; simpl; [apply bb_refl|].
  eapply le_bb_trans; [|apply IH; auto]. rewrite addv_at by auto. destruct (is_vertex g); [apply bmax_ge_l|apply bb_refl].
Qed.
Lemma add_grow : forall ar m j k, j < 2 * n -> k <= or1 j ->
  le_bb (m (matpos j k)) (hmat_add_generators (N:=N) tmp m n ar (matpos j k)).
Proof. intros. unfold hmat_add_generators. eapply le_bb_trans; [apply addv_grow|apply addd_grow]; auto. Qed.
Lemma add_vert : forall ar m g j k, In g ar -> is_vertex g = true -> j < 2 * n -> k <= or1 j ->
  le_bb (vcell g j k) (hmat_add_generators (N:=N) tmp m n ar (matpos j k)).
Proof.
  intros ar m g j k Hg V Hj Hk. unfold hmat_add_generators. eapply le_bb_trans; [|apply addd_grow; auto].
  revert m. induction ar as [|h ar IH]; intros m; [destruct Hg|]. simpl. destruct Hg as [->|Hg]; [|apply IH; auto].
  eapply le_bb_trans; [|apply addv_grow; auto]. rewrite addv_at, V by auto. apply bmax_ge_r.
Qed.
Lemma add_dirs : forall ar m g j k, In g ar -> grows g j k = true -> j < 2 * n -> k <= or1 j ->
  hmat_add_generators (N:=N) tmp m n ar (matpos j k) = PInf.
Proof.
  intros ar m g j k Hg V Hj Hk. unfold hmat_add_generators. generalize (fold_left (add_vertex (N:=N) tmp n) ar m). clear m.
  induction ar as [|h ar IH]; intros m; [destruct Hg|]. simpl. destruct Hg as [->|Hg]; [|apply IH; auto].
  pose proof (addd_grow ar (add_dir (N:=N) tmp n m g) j k Hj Hk) as G. rewrite addd_at, V in G by auto.
  match goal with |- ?x = PInf => destruct x end; simpl in G; tauto.
Qed.
Lemma add_upper : forall ar m b j k, j < 2 * n -> k <= or1 j -> le_bb (m (matpos j k)) b ->
  (forall g, In g ar -> is_vertex g = true -> le_bb (vcell g j k) b) ->
  (forall g, In g ar -> grows g j k = true -> b = PInf) ->
  le_bb (hmat_add_generators (N:=N) tmp m n ar (matpos j k)) b.
Proof.
  intros ar m b j k Hj Hk Hm HV HG. unfold hmat_add_generators.
  assert (A : forall l m, le_bb (m (matpos j k)) b -> (forall g, In g l -> is_vertex g = true -> le_bb (vcell g j k) b) ->
    le_bb (fold_left (add_vertex (N:=N) tmp n) l m (matpos j k)) b).
  { clear - Hj Hk. induction l as [|g l IH]; intros m Hm HV; simpl; auto. apply IH; [|intros; apply HV; simpl; auto].
    rewrite addv_at by auto. destruct (is_vertex g) eqn:V; auto. apply bmax_lub; auto. apply HV; simpl; auto. }
  assert (B : forall l m, le_bb (m (matpos j k)) b -> (forall g, In g l -> grows g j k = true -> b = PInf) ->
    le_bb (fold_left (add_dir (N:=N) tmp n) l m (matpos j k)) b).
  { clear - Hj Hk. induction l as [|g l IH]; intros m Hm HG; simpl; auto. apply IH; [|intros; eapply HG; simpl; eauto].
    rewrite addd_at by auto. destruct (grows g j k) eqn:V; auto. rewrite (HG g) by (simpl; auto). simpl. auto. }
  apply B; auto.
Qed.
(** well-formedness *)
Lemma add_wf : forall ar m, wfm n m /\ nndiag n m ->
  wfm n (hmat_add_generators (N:=N) tmp m n ar) /\ nndiag n (hmat_add_generators (N:=N) tmp m n ar).
Proof.
  intros ar m (W & D). split.
  - intros j k Hj Hk H. pose proof (add_grow ar m j k Hj Hk) as G. rewrite H in G. specialize (W j k Hj Hk).
    destruct (m (matpos j k)); simpl in G; tauto.
  - intros j Hj. pose proof (add_grow ar m j j Hj (or1_ge j)) as G. specialize (D j Hj).
    apply bsgn_ge0_iff. apply bsgn_ge0_iff in D. rewrite le_bb_rb in G. auto.
Qed.
(** ** Soundness *)
Theorem add_sound : forall ar m (P : (nat -> R) -> Prop), gens_ok n ar -> (forall v, P v -> gam n m v) ->
  forall v, hull n P ar v -> gam n (hmat_add_generators (N:=N) tmp m n ar) v.
Proof.
  intros ar m P WG HP v H.
  assert (LL : forall (v w : nat -> R) a b i, lit (fun d => (a * v d + b * w d)%R) i = (a * lit v i + b * lit w i)%R).
  { intros v0 w0 a b i. unfold lit. destruct (Nat.eqb (i mod 2) 0); ring. }
  assert (LE : forall (v w : nat -> R) i, (forall d, v d = w d) -> lit v i = lit w i).
  { intros v0 w0 i Q. unfold lit. rewrite Q. auto. }
  assert (DIR : forall g w j k, In g ar -> wf_terms n (le_terms (snd g)) -> gen_point n (snd g) w -> j < 2 * n -> k < 2 * n ->
    (0 <? bsgn (badd (N:=N) (T g (xor1 k)) (T g j)))%Z = false -> (lit w k - lit w j <= 0)%R).
  { intros g w j k Hg Wt Gp Hj Hk S. apply Z.ltb_ge in S.
    pose proof (bog_in (N:=N) tmp (snd g) n w j Wt Gp Hj) as A.
    pose proof (bog_in (N:=N) tmp (snd g) n w (xor1 k) Wt Gp (xor1_lt _ _ Hk)) as B.
    rewrite lit_xor1, Ropp_involutive in B. pose proof (badd_sound (N:=N) _ _ _ _ B A) as C.
    apply (bsgn_le0 _ S) in C. lra. }
  induction H as [v Pv|e v In1 Gp|v w t H1 IH1 H2 IH2 Ht|g e v w t In1 Hg Gp H1 IH1 Ht|g e v w t In1 Hg Gp H1 IH1]; intros j k Hj Hk;
    assert (Hk' : k < 2 * n) by (pose proof (or1_lt _ _ Hj); lia).
  - pose proof (add_grow ar m j k Hj Hk) as G. rewrite le_bb_rb in G. apply G. apply HP; auto.
  - pose proof (add_vert ar m (PkUser.GVertex, e) j k In1 eq_refl Hj Hk) as G. rewrite le_bb_rb in G. apply G. unfold vcell.
    replace (lit v k - lit v j)%R with (- lit v j + - lit v (xor1 k))%R by (rewrite lit_xor1; ring).
    apply badd_sound; (apply bog_in; [apply (WG _ In1)|auto|]); [auto|apply xor1_lt; auto].
  - specialize (IH1 j k Hj Hk). specialize (IH2 j k Hj Hk).
    assert (Q : (lit (fun i => (1 - t) * v i + t * w i) k - lit (fun i => (1 - t) * v i + t * w i) j)%R =
      ((1 - t) * (lit v k - lit v j) + t * (lit w k - lit w j))%R).
    { rewrite !(LL v w (1 - t)%R t). ring. }
    rewrite Q. destruct (hmat_add_generators tmp m n ar (matpos j k)) as [|q|]; simpl in *; try tauto. nra.
  - specialize (IH1 j k Hj Hk). destruct (grows (g, e) j k) eqn:GR.
    + rewrite (add_dirs ar m (g, e) j k In1 GR Hj Hk). exact I.
    + assert (S : (lit w k - lit w j <= 0)%R).
      { apply (DIR (g, e) w j k); auto. unfold grows in GR. replace (is_ray (g, e)) with true in GR; auto.
        destruct Hg as [-> | ->]; reflexivity. }
      assert (Q : (lit (fun i => v i + t * w i) k - lit (fun i => v i + t * w i) j)%R =
        ((lit v k - lit v j) + t * (lit w k - lit w j))%R).
      { rewrite !(LE (fun i => v i + t * w i)%R (fun d => 1 * v d + t * w d)%R) by (intros; ring). rewrite !(LL v w 1%R t). ring. }
      rewrite Q. destruct (hmat_add_generators tmp m n ar (matpos j k)) as [|q|]; simpl in *; try tauto. nra.
  - specialize (IH1 j k Hj Hk). destruct (grows (g, e) j k) eqn:GR.
    + rewrite (add_dirs ar m (g, e) j k In1 GR Hj Hk). exact I.
    + assert (S : (lit w k - lit w j = 0)%R).
      { assert (SS : (lit w k - lit w j <= 0)%R /\ (lit w j - lit w k <= 0)%R).
        { unfold grows in GR. replace (is_ray (g, e)) with false in GR by (destruct Hg as [-> | ->]; reflexivity).
          replace (is_line (g, e)) with true in GR by (destruct Hg as [-> | ->]; reflexivity).
          apply orb_false_iff in GR. destruct GR as (G1 & G2). split.
          - apply (DIR (g, e) w j k); auto.
          - apply (DIR (g, e) w k j); auto. }
        lra. }
      assert (Q : (lit (fun i => v i + t * w i) k - lit (fun i => v i + t * w i) j)%R =
        ((lit v k - lit v j) + t * (lit w k - lit w j))%R).
      { rewrite !(LE (fun i => v i + t * w i)%R (fun d => 1 * v d + t * w d)%R) by (intros; ring). rewrite !(LL v w 1%R t). ring. }
      rewrite Q, S. replace (lit v k - lit v j + t * 0)%R with (lit v k - lit v j)%R by ring. auto.
Qed.
End Cells.

Section Sound.
Context {N : numtype}.
Lemma add_ray_wfo : forall algo tmp a ar, wfo a -> wfo (oct_add_ray_array (N:=N) algo tmp a ar) /\
  odim (oct_add_ray_array (N:=N) algo tmp a ar) = odim a /\ oint (oct_add_ray_array (N:=N) algo tmp a ar) = oint a.
Proof.
  intros algo tmp a ar W. pose proof (cached_wfo (N:=N) algo a W) as W'. destruct (cached_dim (N:=N) algo a) as (D & I).
  pose proof (wfo_int _ W') as Wi. unfold oct_add_ray_array. destruct (best (cached algo a)) as [m|] eqn:B; unfold set_mat; cbn [odim oint].
  - split; [|auto]. destruct (best_wf _ _ W' B) as (A1 & A2).
    destruct (add_wf (N:=N) tmp (odim (cached (N:=N) algo a)) ar m (conj A1 A2)) as (C1 & C2).
    apply exo_wf. apply exo_single_m; auto.
  - split; [|auto]. apply exo_wf. apply exo_none; auto.
Qed.
Theorem add_ray_sound : forall algo tmp a ar, wfo a -> gens_ok (odim a) ar -> (exists v, gamo a v) ->
  forall v, hull (odim a) (gamo a) ar v -> gamo (oct_add_ray_array (N:=N) algo tmp a ar) v.
Proof.
  intros algo tmp a ar W WG (v0 & G0) v H. pose proof (cached_wfo (N:=N) algo a W) as W'. destruct (cached_dim (N:=N) algo a) as (D & I).
  unfold oct_add_ray_array. destruct (best (cached algo a)) as [m|] eqn:B; unfold set_mat.
  - rewrite gamo_single_m, D. apply add_sound with (P := gamo a); auto. intros w Gw.
    apply (cached_gamo (N:=N) algo a w W) in Gw. rewrite gamo_best, B in Gw by auto. rewrite D in Gw. auto.
  - exfalso. apply (cached_gamo (N:=N) algo a v0 W) in G0. rewrite gamo_best, B in G0 by auto. auto.
Qed.
Lemma find_vertex : forall ar g, find is_vertex ar = Some g -> In g ar /\ is_vertex g = true.
Proof. intros. apply find_some; auto. Qed.
Lemma of_gen_wf : forall tmp i r ar, gens_ok (i + r) ar -> wfo (oct_of_generator_array (N:=N) tmp i r ar) /\
  odim (oct_of_generator_array (N:=N) tmp i r ar) = i + r /\ oint (oct_of_generator_array (N:=N) tmp i r ar) = i.
Proof.
  intros tmp i r ar WG. unfold oct_of_generator_array. destruct (find is_vertex ar) as [g|] eqn:F; cbn [odim oint]; (split; [|auto]).
  - destruct (find_vertex ar g F) as (Hg & V). set (n := i + r) in *.
    set (m := each_cell n _ _). apply exo_wf. apply exo_single_m; [| |unfold n; lia].
    + intros j k Hj Hk H. pose proof (add_vert (N:=N) tmp n ar m g j k Hg V Hj Hk) as G. rewrite H in G.
      assert (Hk' : k < 2 * n) by (pose proof (or1_lt _ _ Hj); lia).
      pose proof (bog_wf (N:=N) tmp (snd g) n j (WG _ Hg) Hj) as B1.
      pose proof (bog_wf (N:=N) tmp (snd g) n (xor1 k) (WG _ Hg) (xor1_lt _ _ Hk')) as B2.
      unfold vcell in G. destruct (bounds_of_generator tmp (snd g) n j) as [|p|], (bounds_of_generator tmp (snd g) n (xor1 k)) as [|q|];
        simpl in G; try tauto. pose proof (rnd_up N (p + q)%Q) as U. destruct (rnd N (p + q)); simpl in *; tauto.
    + intros j Hj. pose proof (add_grow (N:=N) tmp n ar m j j Hj (or1_ge j)) as G.
      apply bsgn_ge0_iff. rewrite le_bb_rb in G. apply G. unfold m. rewrite each_cell_at by (auto; apply or1_ge).
      pose proof (bog_wf (N:=N) tmp (snd g) n j (WG _ Hg) Hj) as B1.
      destruct (bounds_of_generator tmp (snd g) n j) as [|p|]; simpl; try tauto.
      pose proof (rnd_up N (p - p)%Q) as U. rewrite le_bb_rb in U. apply U. simpl. rewrite Q2R_minus. lra.
  - apply exo_wf. apply exo_none. lia.
Qed.
Theorem of_gen_sound : forall tmp i r ar, gens_ok (i + r) ar ->
  forall v, hull (i + r) (fun _ => False) ar v -> gamo (oct_of_generator_array (N:=N) tmp i r ar) v.
Proof.
  intros tmp i r ar WG v H. unfold oct_of_generator_array. destruct (find is_vertex ar) as [g|] eqn:F.
  - rewrite gamo_single_m. apply add_sound with (P := fun _ => False); tauto.
  - exfalso. assert (NV : forall g, In g ar -> is_vertex g = false).
    { intros g Hg. apply (find_none _ _ F g Hg). }
    induction H; auto. apply NV in H. discriminate.
Qed.
Theorem of_gen_no_vertex : forall tmp i r ar v, (forall e, ~ In (PkUser.GVertex, e) ar) ->
  ~ gamo (oct_of_generator_array (N:=N) tmp i r ar) v.
Proof.
  intros tmp i r ar v NV. unfold oct_of_generator_array. destruct (find is_vertex ar) as [[g e]|] eqn:F; [|apply gamo_none].
  destruct (find_vertex _ _ F) as (Hg & V). destruct g; try discriminate. destruct (NV e Hg).
Qed.
End Sound.

(** * Precision with exact numbers *)
Lemma pick_coeff : forall k, (forall c, k = Some c -> wf_coeff c) -> (exists r, ocoeff_in r k) ->
  (forall r, le_rb r (glo (N:=E) k) -> exists x, ocoeff_in x k /\ (r <= - x)%R) /\
  (forall r, le_rb r (ghi (N:=E) k) -> exists x, ocoeff_in x k /\ (r <= x)%R).
Proof.
  intros [[s|l u]|] W (r0 & H0); unfold glo, ghi, bounds_of_coeff, bound_of_scalar; cbn [fst snd ocoeff_in] in *.
  - destruct s as [|q|]; simpl in H0; try tauto. split; intros r H; exists (Q2R q); simpl in *; (split; [auto|]); try rewrite Q2R_opp in H; lra.
  - specialize (W _ eq_refl). destruct W as (W1 & W2). destruct H0 as (A & B). split; intros r H.
    + destruct l as [|p|]; [| |tauto].
      * exists (Rmin r0 (- r))%R. cbn [coeff_in]. pose proof (Rmin_l r0 (- r)). pose proof (Rmin_r r0 (- r)).
        split; [split; [exact I|]|lra]. destruct u as [|q|]; simpl in *; try tauto. lra.
      * exists (Q2R p). simpl in *. rewrite Q2R_opp in H. split; [split; [lra|]|lra]. destruct u as [|q|]; simpl in *; try tauto. lra.
    + destruct u as [|q|]; [tauto| |].
      * exists (Q2R q). simpl in *. split; [split; [|lra]|lra]. destruct l as [|p|]; simpl in *; try tauto. lra.
      * exists (Rmax r0 r)%R. cbn [coeff_in]. pose proof (Rmax_l r0 r). pose proof (Rmax_r r0 r).
        split; [split; [|exact I]|lra]. destruct l as [|p|]; simpl in *; try tauto. lra.
  - split; intros r H; exists 0%R; simpl in *; rewrite Q2R_0' in H; (split; [auto|lra]).
Qed.
(** every value below the bounds of two literals of different variables is reached by one vector of the generator *)
Lemma pick_lit : forall tmp e n j w r, wf_terms n (le_terms e) -> gen_point n e w -> j < 2 * n ->
  le_rb r (bounds_of_generator (N:=E) tmp e n j) ->
  exists w', gen_point n e w' /\ (forall d, d <> j / 2 -> w' d = w d) /\ (r <= - lit w' j)%R.
Proof.
  intros tmp e n j w r W G Hj H. destruct (par_cases j) as [d [-> | ->]]; assert (Hd : d < n) by lia;
    destruct (bog_at (N:=E) tmp e n d W Hd) as (A & B);
    destruct (pick_coeff (lin_coeff e d)) as (P1 & P2);
    try (intros c Hc; apply (wf_lin_coeff n e d c W Hc)); try (exists (w d); apply G; auto).
  - rewrite A in H. destruct (P1 r H) as (x & X1 & X2). exists (fun i => if i =? d then x else w i). split; [|split].
    + intros i Hi. destruct (Nat.eqb_spec i d) as [->|]; auto.
    + intros i Hi. rewrite div2_even in Hi. destruct (Nat.eqb_spec i d); tauto.
    + rewrite lit_even, Nat.eqb_refl. auto.
  - rewrite B in H. destruct (P2 r H) as (x & X1 & X2). exists (fun i => if i =? d then x else w i). split; [|split].
    + intros i Hi. destruct (Nat.eqb_spec i d) as [->|]; auto.
    + intros i Hi. rewrite div2_odd in Hi. destruct (Nat.eqb_spec i d); tauto.
    + rewrite lit_odd, Nat.eqb_refl. lra.
Qed.
Lemma lit_loc : forall v w i, v (i / 2) = w (i / 2) -> lit v i = lit w i.
Proof. intros v w i H. unfold lit. rewrite H. auto. Qed.
Lemma same_var : forall j k, j / 2 = k / 2 -> j <> k -> k = xor1 j.
Proof.
  intros j k H D. destruct (par_cases j) as [a [-> | ->]], (par_cases k) as [b [-> | ->]];
    rewrite ?div2_even, ?div2_odd in H; subst; try tauto; [rewrite xor1_even|rewrite xor1_odd]; auto.
Qed.
Lemma attain : forall tmp e n j k r, wf_terms n (le_terms e) -> (exists w, gen_point n e w) -> j < 2 * n -> k < 2 * n -> j <> k ->
  le_rb r (badd (N:=E) (bounds_of_generator (N:=E) tmp e n j) (bounds_of_generator (N:=E) tmp e n (xor1 k))) ->
  exists w, gen_point n e w /\ (r <= lit w k - lit w j)%R.
Proof.
  intros tmp e n j k r W (w0 & G0) Hj Hk D H.
  pose proof (bog_wf (N:=E) tmp e n j W Hj) as W1. pose proof (bog_wf (N:=E) tmp e n (xor1 k) W (xor1_lt _ _ Hk)) as W2.
  destruct (Nat.eq_dec (j / 2) (k / 2)) as [S|S].
  - apply same_var in S; auto. subst k. rewrite xor1_invol in *.
    destruct (pick_lit tmp e n j w0 (r / 2) W G0 Hj) as (w & G & _ & L).
    + destruct (bounds_of_generator tmp e n j) as [|p|]; simpl in *; try tauto. rewrite Q2R_plus in H. lra.
    + exists w. split; auto. rewrite lit_xor1. lra.
  - set (r2 := match bounds_of_generator (N:=E) tmp e n (xor1 k), bounds_of_generator (N:=E) tmp e n j with
      Fin t, _ => Q2R t | _, Fin p => (r - Q2R p)%R | _, _ => 0%R end).
    destruct (pick_lit tmp e n (xor1 k) w0 r2 W G0 (xor1_lt _ _ Hk)) as (w1 & G1 & _ & L1).
    { unfold r2. destruct (bounds_of_generator tmp e n (xor1 k)) as [|t|], (bounds_of_generator tmp e n j) as [|p|]; simpl; try tauto; lra. }
    set (s := (- lit w1 (xor1 k))%R) in *.
    destruct (pick_lit tmp e n j w1 (r - s) W G1 Hj) as (w2 & G2 & Q2 & L2).
    { unfold r2 in L1. destruct (bounds_of_generator tmp e n j) as [|p|], (bounds_of_generator tmp e n (xor1 k)) as [|t|]; simpl in *; try tauto.
      - rewrite Q2R_plus in H. lra.
      - lra. }
    exists w2. split; auto. assert (Q : lit w2 (xor1 k) = lit w1 (xor1 k)).
    { apply lit_loc. apply Q2. rewrite div2_xor1. auto. }
    rewrite !lit_xor1 in Q. unfold s in L2. rewrite lit_xor1 in L2. lra.
Qed.

Section Best.
Variable tmp : hmat.
Variable n : nat.
(** every generator describes at least one vector *)
Definition gens_full (ar : list gener) : Prop := forall g, In g ar -> exists w, gen_point n (snd g) w.
Lemma grows_real : forall e j k, wf_terms n (le_terms e) -> (exists w, gen_point n e w) -> j < 2 * n -> k < 2 * n -> j <> k ->
  (0 <? bsgn (badd (N:=E) (bounds_of_generator (N:=E) tmp e n (xor1 k)) (bounds_of_generator (N:=E) tmp e n j)))%Z = true ->
  exists w, gen_point n e w /\ (0 < lit w k - lit w j)%R.
Proof.
  intros e j k W F Hj Hk D S. apply Z.ltb_lt in S.
  pose proof (bog_wf (N:=E) tmp e n j W Hj) as W1. pose proof (bog_wf (N:=E) tmp e n (xor1 k) W (xor1_lt _ _ Hk)) as W2.
  assert (X : exists r, (0 < r)%R /\ le_rb r (badd (N:=E) (bounds_of_generator (N:=E) tmp e n j) (bounds_of_generator (N:=E) tmp e n (xor1 k)))).
  { destruct (bounds_of_generator tmp e n j) as [|p|], (bounds_of_generator tmp e n (xor1 k)) as [|q|]; simpl in *; try tauto;
      try (exists 1%R; split; [lra|exact I]).
    exists (Q2R (p + q)). split; [|lra]. assert (L : (0 < q + p)%Q) by (unfold Qlt; simpl; destruct (Qnum (q + p)) eqn:Z; simpl in *; rewrite ?Z in *; lia).
    apply Qlt_Rlt in L. rewrite Q2R_plus in *. change (Q2R 0) with (Q2R 0) in L. rewrite Q2R_0' in L. lra. }
  destruct X as (r & R0 & R1). destruct (attain tmp e n j k r W F Hj Hk D R1) as (w & G & L). exists w. split; auto. lra.
Qed.
Theorem add_best : forall ar m c (P : (nat -> R) -> Prop), gens_ok n ar -> gens_full ar -> wfo c -> odim c = n ->
  (exists v, hull n P ar v) ->
  (forall j k b, j < 2 * n -> k <= or1 j -> j <> k -> (forall v, hull n P ar v -> le_rb (lit v k - lit v j) b) -> le_bb (m (matpos j k)) b) ->
  (forall v, hull n P ar v -> gamo c v) ->
  forall v, gam n (hmat_add_generators (N:=E) tmp m n ar) v -> gamo c v.
Proof.
  intros ar m c P WG WF Wc Dc (v0 & H0) HM HC v G. rewrite gamo_best by auto. pose proof (HC v0 H0) as C0.
  rewrite gamo_best in C0 by auto. destruct (best c) as [y|] eqn:B; [|auto].
  assert (CY : forall v, hull n P ar v -> gam n y v).
  { intros w Hw. apply HC in Hw. rewrite gamo_best, B, Dc in Hw by auto. auto. }
  rewrite Dc in *. intros j k Hj Hk. destruct (Nat.eq_dec j k) as [->|D].
  { replace (lit v k - lit v k)%R with (lit v0 k - lit v0 k)%R by ring. apply C0; auto. }
  assert (Hk' : k < 2 * n) by (pose proof (or1_lt _ _ Hj); lia).
  assert (Y : forall w, hull n P ar w -> le_rb (lit w k - lit w j) (y (matpos j k))) by (intros w Hw; apply CY; auto).
  assert (U : forall w, (forall t, (0 <= t)%R -> hull n P ar (fun i => (v0 i + t * w i)%R)) -> (0 < lit w k - lit w j)%R -> y (matpos j k) = PInf).
  { intros w Hw L. pose proof (Y v0 H0) as Y0. destruct (y (matpos j k)) as [|q|]; simpl in Y0; try tauto. exfalso.
    set (s := (lit w k - lit w j)%R) in *. set (t := ((Q2R q - (lit v0 k - lit v0 j) + 1) / s)%R).
    assert (T0 : (0 <= t)%R). { unfold t. apply Rmult_le_pos; [lra|]. left. apply Rinv_0_lt_compat; auto. }
    specialize (Hw t T0). apply Y in Hw. simpl in Hw.
    assert (Q : (lit (fun i => v0 i + t * w i) k - lit (fun i => v0 i + t * w i) j)%R = ((lit v0 k - lit v0 j) + t * s)%R).
    { unfold s, lit. destruct (Nat.eqb (k mod 2) 0), (Nat.eqb (j mod 2) 0); ring. }
    rewrite Q in Hw. unfold t in Hw. unfold Rdiv in Hw. rewrite Rmult_assoc, Rinv_l in Hw by lra. lra. }
  assert (L : le_bb (hmat_add_generators (N:=E) tmp m n ar (matpos j k)) (y (matpos j k))).
  { apply add_upper; auto.
    - intros [g e] Hg V. destruct g; try discriminate. unfold vcell. cbn [snd]. apply le_bb_rb. intros r Hr.
      destruct (attain tmp e n j k r (WG _ Hg) (WF _ Hg) Hj Hk' D Hr) as (w & Gw & Lw).
      pose proof (Y w (h_vertex n P ar e w Hg Gw)) as Yw. destruct (y (matpos j k)); simpl in *; auto. lra.
    - intros [g e] Hg GR. unfold grows in GR. cbn [snd] in GR. destruct (is_ray (g, e)) eqn:IR.
      + destruct (grows_real e j k (WG _ Hg) (WF _ Hg) Hj Hk' D GR) as (w & Gw & Lw). apply (U w); auto.
        intros t Ht. apply (h_ray n P ar g e v0 w t Hg); auto. destruct g; try discriminate; auto.
      + destruct (is_line (g, e)) eqn:IL; [|discriminate]. assert (LT : g = PkUser.GLine \/ g = PkUser.GLineMod) by (destruct g; try discriminate; auto).
        apply orb_true_iff in GR. destruct GR as [GR|GR].
        * destruct (grows_real e j k (WG _ Hg) (WF _ Hg) Hj Hk' D GR) as (w & Gw & Lw). apply (U w); auto.
          intros t Ht. apply (h_line n P ar g e v0 w t Hg); auto.
        * destruct (grows_real e k j (WG _ Hg) (WF _ Hg) Hk' Hj (not_eq_sym D) GR) as (w & Gw & Lw).
          pose proof (Y v0 H0) as Y0. destruct (y (matpos j k)) as [|q|] eqn:EY; simpl in Y0; try tauto. exfalso.
          set (s := (lit w j - lit w k)%R) in *. set (t := ((Q2R q - (lit v0 k - lit v0 j) + 1) / s)%R).
          pose proof (Y _ (h_line n P ar g e v0 w (- t)%R Hg LT Gw H0)) as Hw. simpl in Hw.
          assert (Q : (lit (fun i => v0 i + - t * w i) k - lit (fun i => v0 i + - t * w i) j)%R = ((lit v0 k - lit v0 j) + t * s)%R).
          { unfold s, lit. destruct (Nat.eqb (k mod 2) 0), (Nat.eqb (j mod 2) 0); ring. }
          rewrite Q in Hw. unfold t in Hw. unfold Rdiv in Hw. rewrite Rmult_assoc, Rinv_l in Hw by lra. lra. }
  rewrite le_bb_rb in L. apply L. apply G; auto.
Qed.
End Best.

Theorem add_ray_best : forall algo tmp a ar c, (0 <= algo)%Z -> exo a -> gens_ok (odim a) ar -> gens_full (odim a) ar ->
  wfo c -> odim c = odim a -> (forall v, hull (odim a) (gamo a) ar v -> gamo c v) ->
  forall v, gamo (oct_add_ray_array (N:=E) algo tmp a ar) v -> gamo c v.
Proof.
  intros algo tmp a ar c Ha X WG WF Wc Dc HC v G. pose proof (exo_wf _ X) as W.
  pose proof (cached_wfo (N:=E) algo a W) as W'. destruct (cached_dim (N:=E) algo a) as (D & I0).
  pose proof (fun m => closed_ex algo a m Ha X) as SC.
  assert (GB : forall w, gamo a w <-> match best (cached (N:=E) algo a) with Some m => gam (odim a) m w | None => False end).
  { intros w. rewrite <- (cached_gamo (N:=E) algo a w W). rewrite gamo_best by auto. rewrite D. tauto. }
  unfold oct_add_ray_array in G. destruct (best (cached algo a)) as [m|] eqn:B; unfold set_mat in G.
  - rewrite gamo_single_m, D in G. specialize (SC m eq_refl).
    destruct (sc_nonempty _ _ SC) as (v0 & G0). apply (add_best tmp (odim a) ar m c (gamo a)); auto.
    + exists v0. apply h_base. apply GB. auto.
    + intros j k b Hj Hk _ HB. rewrite <- (matpos2_half j k) by auto. apply tight_le with (n := odim a); auto.
      * pose proof (or1_lt _ _ Hj). lia.
      * intros w Gw. apply HB. apply h_base. apply GB. auto.
  - destruct (gamo_none _ _ _ G).
Qed.
Theorem of_gen_best : forall tmp i r ar c, gens_ok (i + r) ar -> gens_full (i + r) ar -> wfo c -> odim c = i + r ->
  (forall v, hull (i + r) (fun _ => False) ar v -> gamo c v) ->
  forall v, gamo (oct_of_generator_array (N:=E) tmp i r ar) v -> gamo c v.
Proof.
  intros tmp i r ar c WG WF Wc Dc HC v G. unfold oct_of_generator_array in G. destruct (find is_vertex ar) as [[g e]|] eqn:F;
    [|destruct (gamo_none _ _ _ G)].
  rewrite gamo_single_m in G. destruct (find_vertex _ _ F) as (Hg & V). destruct g; try discriminate. cbn [snd] in G.
  destruct (WF _ Hg) as (w0 & G0). cbn [snd] in G0.
  apply (add_best tmp (i + r) ar (each_cell (i + r) (fun j k _ => bsub (N:=E) (bounds_of_generator (N:=E) tmp e (i + r) j) (bounds_of_generator (N:=E) tmp e (i + r) k)) (hmat_top (i + r))) c (fun _ => False)); auto.
  - exists w0. apply (h_vertex _ _ _ e); auto.
  - intros j k b Hj Hk D HB. rewrite each_cell_at by auto. assert (Hk' : k < 2 * (i + r)) by (pose proof (or1_lt _ _ Hj); lia).
    (* T[j] - T[k] <= T[j] + T[k^1] since the coefficient has a value *)
    assert (L : le_bb (bsub (N:=E) (bounds_of_generator (N:=E) tmp e (i + r) j) (bounds_of_generator (N:=E) tmp e (i + r) k))
                      (badd (N:=E) (bounds_of_generator (N:=E) tmp e (i + r) j) (bounds_of_generator (N:=E) tmp e (i + r) (xor1 k)))).
    { pose proof (bog_in (N:=E) tmp e (i + r) w0 k (WG _ Hg) G0 Hk') as B1.
      pose proof (bog_in (N:=E) tmp e (i + r) w0 (xor1 k) (WG _ Hg) G0 (xor1_lt _ _ Hk')) as B2. rewrite lit_xor1 in B2.
      destruct (bounds_of_generator tmp e (i + r) j) as [|p|], (bounds_of_generator tmp e (i + r) k) as [|q|],
        (bounds_of_generator tmp e (i + r) (xor1 k)) as [|s|]; simpl in *; try tauto.
      apply Qle_Q2R. rewrite Q2R_minus, Q2R_plus. lra. }
    eapply le_bb_trans; [exact L|]. apply le_bb_rb. intros x Hx.
    destruct (attain tmp e (i + r) j k x (WG _ Hg) (ex_intro _ w0 G0) Hj Hk' D Hx) as (w & Gw & Lw).
    pose proof (HB w (h_vertex _ _ _ e w Hg Gw)) as Yw. destruct b; simpl in *; auto. lra.
Qed.

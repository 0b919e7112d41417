(** Property C85: assignment and substitution, in polyhedra, of the linear expressions given by the user
    (rational or interval coefficients).  [updated n l x y] (GenericFacts.v): the point [y] is obtained from [x] by
    all the assignments of [l] at once, for some choice of the interval coefficients. *)
From Coq Require Import Arith ZArith QArith Qreals Bool List Lia Reals Lra.
Import ListNotations.
From Verif Require Import Bound Itv Linexpr LinexprFacts ItvLinCons ItvLinApi ApCore ApCheck PropApCheck Generic GenericFacts PkCone PkVec PkCherni PkSpec PkPoly PkPolyFacts PkOps PkUser PropPkPoly PropPkAssign PropPkUser PropGeneric PkLinUser.
Open Scope R_scope.

(** distinct dimensions of the polyhedron, well formed expressions *)
Definition asn_lin (n : nat) (l : list (nat * linexpr)) : Prop := NoDup (map fst l) /\ Forall (fun p => (fst p < n)%nat /\ lin_ok n (snd p)) l.
Definition rows (n : nat) (l : list (nat * linexpr)) : list (nat * list Z) := map (fun p => (fst p, pk_row n (snd p))) l.
Lemma rows_ok : forall n l, asn_lin n l -> forallb (fun p => linexpr_is_linear (snd p)) l = true -> array_ok n (rows n l).
Proof.
  intros n l (N & F) L. split.
  - unfold rows. apply Forall_map. rewrite Forall_forall in *. rewrite forallb_forall in L. intros p P. destruct (F p P) as (A & B). simpl. split; auto. apply row_value; auto.
  - unfold rows. rewrite map_map. simpl. exact N.
Qed.
Lemma find_row : forall n l i, NoDup (map fst l) -> match find (fun p : nat * list Z => Nat.eqb i (fst p)) (rows n l) with Some p => exists e, In (i, e) l /\ snd p = pk_row n e | None => ~ In i (map fst l) end.
Proof.
  intros n l i ND. unfold rows. induction l as [|[d e] q IH]; simpl. tauto. inversion ND; subst. destruct (Nat.eqb_spec i d) as [->|NE]. simpl. exists e. auto. specialize (IH H2). destruct (find _ (map _ q)) as [p|]. destruct IH as (e' & I & E). exists e'. auto. intros [K|K]; auto.
Qed.
Lemma agree_updated : forall n l x y, asn_lin n l -> forallb (fun p => linexpr_is_linear (snd p)) l = true -> (agree n y (update_all n (rows n l) x) <-> updated n l x y).
Proof.
  intros n l x y (ND & F) L. rewrite forallb_forall in L. rewrite Forall_forall in F. assert (V : forall d e, In (d, e) l -> (expr_val e x (y d) <-> y d = value n (pk_row n e) x)) by (intros d e I; apply row_value; [apply (F (d, e) I)|apply (L (d, e) I)]).
  split.
  - intros A. split.
    + intros d e I. apply V; auto. destruct (F (d, e) I) as (D & _). simpl in D. rewrite (A d D). unfold update_all. pose proof (find_row n l d ND) as X. destruct (find _ (rows n l)) as [p|]. 2: { exfalso. apply X. apply (in_map fst) in I. exact I. } destruct X as (e' & I' & ->). replace e' with e; auto. clear - ND I I'. induction l as [|[a b] q IH]; simpl in *. tauto. inversion ND; subst. destruct I as [I|I], I' as [I'|I']; try congruence; auto. inversion I; subst. exfalso. apply H1. apply (in_map fst) in I'. exact I'. inversion I'; subst. exfalso. apply H1. apply (in_map fst) in I. exact I.
    + intros d D NI. rewrite (A d D). unfold update_all. pose proof (find_row n l d ND) as X. destruct (find _ (rows n l)) as [p|]; auto. destruct X as (e & I & _). exfalso. apply NI. apply (in_map fst) in I. exact I.
  - intros (A & B) i I. unfold update_all. pose proof (find_row n l i ND) as X. destruct (find _ (rows n l)) as [p|]. destruct X as (e & J & ->). apply V; auto. apply B; auto.
Qed.
Lemma updated_exists : forall n l x, asn_lin n l -> forallb (fun p => linexpr_is_linear (snd p)) l = true -> forall z, agree n z (update_all n (rows n l) x) -> updated n l x z.
Proof. intros. apply agree_updated; auto. Qed.

(** rational coefficients: the image, the inverse image, met with the destination.  One assignment or several. *)
Theorem C85_assign_linear : forall lazy pa l dest, wfp pa -> asn_lin (pdim pa) l -> forallb (fun p => linexpr_is_linear (snd p)) l = true -> dest_ok pa dest ->
  exists po pa', pk_asssub_linexpr_array true lazy false pa l dest = Some (po, pa') /\ unchanged pa pa' /\
    result pa po (fun y => (exists x, points pa x /\ updated (pdim pa) l x y) /\ in_dest dest y).
Proof.
  intros lazy pa l dest W A L D. pose proof (rows_ok _ l A L) as RO. unfold pk_asssub_linexpr_array. rewrite L.
  assert (ARR : exists po pa', match poly_asssub_linexpr_array true lazy false pa (rows (pdim pa) l) dest with Some (po, pa, _) => Some (po, pa) | None => None end = Some (po, pa') /\ unchanged pa pa' /\ result pa po (fun y => (exists x, points pa x /\ updated (pdim pa) l x y) /\ in_dest dest y)).
  { destruct (C71_assign_array lazy false pa _ dest W RO D) as (po & pa' & dest' & -> & U & (W' & DM & P)). exists po, pa'. split; auto. split; auto. split; auto. split; auto. intros y. rewrite P. split; intros ((x & X & Y) & Z); split; auto; exists x; split; auto; apply (agree_updated _ l x y A L); auto. }
  destruct l as [|[d e] [|p q]]; try exact ARR. clear ARR. destruct A as (ND & F). inversion F as [|? ? (DL & EO) _]; subst. simpl in L. rewrite andb_true_r in L. simpl in DL, EO. destruct (row_value _ e EO L) as (RE & RV).
  destruct (C71_assign lazy pa d (pk_row (pdim pa) e) dest W RE DL D) as (po & pa' & dest' & -> & U & (W' & DM & P)). exists po, pa'. split; auto. split; auto. split; auto. split; auto.
  intros y. rewrite P. assert (G : forall x, agree (pdim pa) y (update (pdim pa) d (pk_row (pdim pa) e) x) <-> updated (pdim pa) [(d, e)] x y).
  { intros x. unfold update. split. intros H. split. intros d' e' [E|[]]. inversion E; subst. apply RV. rewrite (H d' DL). rewrite Nat.eqb_refl. auto. intros i I N. rewrite (H i I). destruct (Nat.eqb_spec i d) as [->|]; auto. exfalso; apply N; simpl; auto.
    intros (H1 & H2) i I. destruct (Nat.eqb_spec i d) as [->|NE]. apply RV. apply H1; simpl; auto. apply H2; auto. simpl. intros [K|[]]; congruence. }
  split; intros ((x & X & Y) & Z); split; auto; exists x; split; auto; apply G; auto.
Qed.
Theorem C85_substitute_linear : forall lazy pa l dest, wfp pa -> asn_lin (pdim pa) l -> forallb (fun p => linexpr_is_linear (snd p)) l = true -> dest_ok pa dest ->
  match pk_asssub_linexpr_array false lazy false pa l dest with
  | Some (po, pa') => unchanged pa pa' /\ result pa po (fun x => (exists y, points pa y /\ updated (pdim pa) l x y) /\ in_dest dest x)
  | None => lazy = false /\ dest <> None /\ forall x y, updated (pdim pa) l x y -> ~ points pa y
  end.
Proof.
  intros lazy pa l dest W A L D. pose proof (rows_ok _ l A L) as RO.
  assert (EQ : forall x, points pa (update_all (pdim pa) (rows (pdim pa) l) x) <-> exists y, points pa y /\ updated (pdim pa) l x y).
  { intros x. split. intros P. exists (update_all (pdim pa) (rows (pdim pa) l) x). split; auto. apply agree_updated; auto. intros i I; auto. intros (y & Y & U). apply (gamma_agree pa y); auto. apply agree_updated; auto. }
  unfold pk_asssub_linexpr_array. rewrite L.
  assert (ARR : match match poly_asssub_linexpr_array false lazy false pa (rows (pdim pa) l) dest with Some (po, pa, _) => Some (po, pa) | None => None end with
    | Some (po, pa') => unchanged pa pa' /\ result pa po (fun x => (exists y, points pa y /\ updated (pdim pa) l x y) /\ in_dest dest x)
    | None => lazy = false /\ dest <> None /\ forall x y, updated (pdim pa) l x y -> ~ points pa y end).
  { pose proof (C71_substitute_array lazy false pa _ dest W RO D) as X. destruct (poly_asssub_linexpr_array false lazy false pa (rows (pdim pa) l) dest) as [[[po pa'] d']|].
    - destruct X as (U & (W' & DM & P)). split; auto. split; auto. split; auto. intros x. rewrite P, EQ. tauto.
    - destruct X as (X1 & X2 & X3). split; auto. split; auto. intros x y U Y. apply (X3 x). apply EQ. eauto. }
  destruct l as [|[d e] [|p q]]; try exact ARR. clear ARR. destruct A as (ND & F). inversion F as [|? ? (DL & EO) _]; subst. simpl in L. rewrite andb_true_r in L. simpl in DL, EO. destruct (row_value _ e EO L) as (RE & RV).
  assert (EU : forall x, points pa (update (pdim pa) d (pk_row (pdim pa) e) x) <-> points pa (update_all (pdim pa) (rows (pdim pa) [(d, e)]) x)).
  { intros x. split; apply gamma_agree; auto; intros i I; unfold update, update_all; simpl; destruct (Nat.eqb i d); auto. }
  pose proof (C71_substitute lazy pa d (pk_row (pdim pa) e) dest W RE DL D) as X. destruct (poly_asssub_linexpr false lazy false pa d (pk_row (pdim pa) e) dest) as [[[po pa'] d']|].
  - destruct X as (U & (W' & DM & P)). split; auto. split; auto. split; auto. intros x. rewrite P, EU, EQ. tauto.
  - destruct X as (X1 & X2 & X3). split; auto. split; auto. intros x y U Y. apply (X3 x). apply EU, EQ. eauto.
Qed.
(** any coefficients: the result contains the images (the inverse images) with integer values on the integer
    dimensions.  The case of a destination and a non lazy manager may abort. *)
Theorem C85_assign_sound_partial : forall lazy pa l dest po pa' x y, wfp pa -> NoDup (map fst l) -> (forall d e, In (d, e) l -> (d < pdim pa)%nat /\ gexpr_ok (pdim pa) (fun _ => True) e) -> dest_ok pa dest ->
  lazy = true \/ dest = None -> pk_asssub_linexpr_array true lazy false pa l dest = Some (po, pa') ->
  ipoint (pint pa) x -> ipoint (pint pa) y -> updated (pdim pa) l x y -> points pa x -> in_dest dest y -> wfp po /\ same_dims po pa /\ points po y.
Proof.
  intros lazy pa l dest po pa' x y W ND EO D LZ E IX IY U PX PY. assert (AL : asn_lin (pdim pa) l). { split; auto. apply Forall_forall. intros [d e] I. destruct (EO d e I) as (A & (B & S & _)). split; auto. split; auto. simpl. destruct (le_terms e) as [q|ts]. exact Logic.I. apply ApCoreFacts.lin_sorted_iff in S. apply S. }
  destruct (forallb (fun p => linexpr_is_linear (snd p)) l) eqn:L.
  - destruct (C85_assign_linear lazy pa l dest W AL L D) as (po2 & pa2 & E2 & _ & (W' & DM & P)). rewrite E2 in E. injection E as <- <-. split; auto. split; auto. apply P. eauto.
  - unfold pk_asssub_linexpr_array in E. rewrite L in E. set (pa1 := if lazy then pa else poly_chernikova pa) in *. assert (U1 : unchanged pa pa1). { unfold pa1. destruct lazy. split; auto. split. split; auto. intros; tauto. apply C68_chernikova; auto. } destruct U1 as (W1 & (D1 & D2) & P1). assert (PD : pdim pa1 = pdim pa) by (unfold pdim; congruence).
    destruct (isbot pa1) eqn:IB. { exfalso. assert (points pa1 x) by (apply P1; auto). unfold isbot in IB. unfold points in H. destruct (pC pa1), (pF pa1); try discriminate; auto. }
    destruct (asssub_linexpr_array (pk_gdom lazy false) true pa1 l dest) as [[r u]|] eqn:EA; [|discriminate].
    destruct (C50_assign_sound_partial (pk_gdom lazy false) wfp pgam (fun _ => True) (pk_gsound lazy false) pa1 l dest r u x y) as (R1 & R2 & R3 & (_ & R4)); auto; cbn [pk_gdom gd gd_int gd_real]; try (rewrite ?D1, ?D2; auto).
    { intros b ->. destruct (D b eq_refl) as (DB & DB1 & DB2). split; auto. } { split; auto. apply P1; auto. } { intros b ->. destruct (D b eq_refl) as (DB & _). split; auto. }
    injection E as <- <-. cbn [pk_gdom gd_int gd_real] in R2, R3. destruct lazy. split; auto. split. split; congruence. auto. destruct (C68_chernikova r R1) as ((W2 & (E1 & E2) & P2) & _). split; auto. split. split; congruence. apply P2; auto.
Qed.
Theorem C85_substitute_sound_partial : forall lazy pa l dest po pa' x y, wfp pa -> NoDup (map fst l) -> (forall d e, In (d, e) l -> (d < pdim pa)%nat /\ gexpr_ok (pdim pa) (fun _ => True) e) -> dest_ok pa dest ->
  lazy = true \/ dest = None -> pk_asssub_linexpr_array false lazy false pa l dest = Some (po, pa') ->
  ipoint (pint pa) x -> ipoint (pint pa) y -> updated (pdim pa) l x y -> points pa y -> in_dest dest x -> wfp po /\ same_dims po pa /\ points po x.
Proof.
  intros lazy pa l dest po pa' x y W ND EO D LZ E IX IY U PX PY. assert (AL : asn_lin (pdim pa) l). { split; auto. apply Forall_forall. intros [d e] I. destruct (EO d e I) as (A & (B & S & _)). split; auto. split; auto. simpl. destruct (le_terms e) as [q|ts]. exact Logic.I. apply ApCoreFacts.lin_sorted_iff in S. apply S. }
  destruct (forallb (fun p => linexpr_is_linear (snd p)) l) eqn:L.
  - pose proof (C85_substitute_linear lazy pa l dest W AL L D) as X. rewrite E in X. destruct X as (_ & (W' & DM & P)). split; auto. split; auto. apply P. eauto.
  - unfold pk_asssub_linexpr_array in E. rewrite L in E. set (pa1 := if lazy then pa else poly_chernikova pa) in *. assert (U1 : unchanged pa pa1). { unfold pa1. destruct lazy. split; auto. split. split; auto. intros; tauto. apply C68_chernikova; auto. } destruct U1 as (W1 & (D1 & D2) & P1). assert (PD : pdim pa1 = pdim pa) by (unfold pdim; congruence).
    destruct (isbot pa1) eqn:IB. { exfalso. assert (points pa1 y) by (apply P1; auto). unfold isbot in IB. unfold points in H. destruct (pC pa1), (pF pa1); try discriminate; auto. }
    destruct (asssub_linexpr_array (pk_gdom lazy false) false pa1 l dest) as [[r u]|] eqn:EA; [|discriminate].
    destruct (C50_substitute_sound_partial (pk_gdom lazy false) wfp pgam (fun _ => True) (pk_gsound lazy false) pa1 l dest r u x y) as (R1 & R2 & R3 & (_ & R4)); auto; cbn [pk_gdom gd gd_int gd_real]; try (rewrite ?D1, ?D2; auto).
    { intros b ->. destruct (D b eq_refl) as (DB & DB1 & DB2). split; auto. } { split; auto. apply P1; auto. } { intros b ->. destruct (D b eq_refl) as (DB & _). split; auto. }
    injection E as <- <-. cbn [pk_gdom gd_int gd_real] in R2, R3. destruct lazy. split; auto. split. split; congruence. auto. destruct (C68_chernikova r R1) as ((W2 & (E1 & E2) & P2) & _). split; auto. split. split; congruence. apply P2; auto.
Qed.
Print Assumptions C85_assign_linear.
Print Assumptions C85_substitute_linear.
Print Assumptions C85_assign_sound_partial.
Print Assumptions C85_substitute_sound_partial.

(** ** Examples *)
(** the square [0,1]x[0,2]; x0 := 1/2 x1 + 1/3, x1 := x0 at once; x0 := [1,2] x1 goes through the generic function *)
Definition sq : poly := pair_of [[1;0;1;0];[1;1;-1;0];[1;0;0;1];[1;2;0;-1]]%Z.
Definition lsq : list (nat * linexpr) := [(0%nat, mkLin (Scal (Fin (1#3))) (Sparse [(Some 1%nat, Scal (Fin (1#2)))])); (1%nat, mkLin (Scal (Fin 0)) (Dense [Scal (Fin 1)]))].
Definition isq : list (nat * linexpr) := [(0%nat, mkLin (Scal (Fin 0)) (Sparse [(Some 1%nat, Intv (Fin 1) (Fin 2))]))].
Lemma sq_wf : wfp sq. Proof. apply (C69_constraints_wf 0 2). repeat constructor. Qed.
Lemma lsq_ok : asn_lin (pdim sq) lsq.
Proof.
  split. repeat constructor; simpl; intuition lia. constructor; [|constructor; [|constructor]]; (split; [unfold pdim; simpl; lia|]); split; simpl.
  - split. simpl; auto. simpl. split. repeat constructor; simpl; auto; discriminate. split. repeat constructor; simpl; tauto. intros x [<-|[]]. unfold pdim; simpl; lia.
  - exists [(Some 1%nat, Scal (Fin (1#2)))], []. split; auto. split; repeat constructor; simpl; discriminate.
  - split. simpl; auto. simpl. split. unfold pdim; simpl; lia. repeat constructor.
  - exact I.
Qed.
Example C85_linear : wfp sq /\ asn_lin (pdim sq) lsq /\ forallb (fun p => linexpr_is_linear (snd p)) lsq = true /\ dest_ok sq None /\
  updated (pdim sq) lsq (fun i => match i with O => 1 | _ => 2 end) (fun i => match i with O => 4/3 | _ => 1 end).
Proof.
  split. apply sq_wf. split. apply lsq_ok. split. reflexivity. split. intros pb E; discriminate. split.
  - intros d e [E|[E|[]]]; inversion E; subst. exists (1/3), 1. split. simpl. unfold Q2R; simpl; lra. split. exists [1/2]. split. repeat constructor; simpl; unfold Q2R; simpl; lra. simpl. lra. lra. exists 0, 1. split. simpl. unfold Q2R; simpl; lra. split. exists [1]. split. repeat constructor; simpl; unfold Q2R; simpl; lra. simpl. lra. lra.
  - intros [|[|d]] D N; simpl in *; exfalso; try (apply N; auto; fail). unfold pdim in D; simpl in D; lia.
Qed.
Example C85_generic : forallb (fun p => linexpr_is_linear (snd p)) isq = false /\ (forall d e, In (d, e) isq -> (d < pdim sq)%nat /\ gexpr_ok (pdim sq) (fun _ => True) e) /\
  exists po pa', pk_asssub_linexpr_array true true false sq isq None = Some (po, pa') /\ points po (fun i => match i with O => 3 | _ => 2 end).
Proof.
  split. reflexivity. assert (EO : forall d e, In (d, e) isq -> (d < pdim sq)%nat /\ gexpr_ok (pdim sq) (fun _ => True) e).
  { intros d e [E|[]]; inversion E; subst. split. unfold pdim; simpl; lia. split. split. simpl; auto. simpl. split. repeat constructor; simpl; try discriminate; auto. split. repeat constructor; simpl; tauto. intros x [<-|[]]. unfold pdim; simpl; lia. split. apply ApCoreFacts.lin_sorted_iff. split. exists [(Some 1%nat, Intv (Fin 1) (Fin 2))], []. split; auto. split; repeat constructor; simpl; discriminate. repeat constructor. split. intros l E'; discriminate. auto. }
  split. exact EO. destruct (pk_asssub_linexpr_array true true false sq isq None) as [[po pa']|] eqn:E. 2: { vm_compute in E. discriminate. } exists po, pa'. split; auto.
  apply (C85_assign_sound_partial true sq isq None po pa' (fun i => match i with O => 0 | _ => 2 end)); auto.
  - apply sq_wf. - repeat constructor; simpl; tauto. - intros pb E'; discriminate. - intros d D; simpl in D; lia. - intros d D; simpl in D; lia.
  - split. intros d e [E'|[]]; inversion E'; subst. exists 0, 3. split. simpl; unfold Q2R; simpl; lra. split. exists [3/2]. split. repeat constructor; simpl; unfold Q2R; simpl; lra. simpl; lra. lra. intros [|[|d]] D N; simpl in *; auto. exfalso; apply N; auto.
  - unfold points, sq, pair_of, positivity, poly_con, cone. simpl. repeat constructor; unfold row_holds; simpl; lra. - exact I.
Qed.

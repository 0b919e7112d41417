(** Model of the octagon transfer functions: classification of expressions,
    guards, assignments, substitutions, queries on expressions.

    Models /repo/octagons/oct_transfer.c 30-83, 116-540, 596-1166 and
    oct_predicate.c 213-314, 331-413.

    The scratch buffer [pr->tmp] is a map from positions to bounds; its content
    when a function starts is the argument [tmp].                           *)
From Coq Require Import Arith List ZArith QArith Bool.
From Verif Require Import Bound Linexpr OctMat Oct.
Import ListNotations.
Open Scope nat_scope.

(** uexpr, oct_internal.h 505-520. *)
Inductive utype := UEmpty | UZero | UUnary | UBinary | UOther.
Record uexpr : Type := mkU { u_type : utype; u_i : nat; u_j : nat; u_ci : Z; u_cj : Z; u_int : bool }.
Definition u_set_type (u : uexpr) (t : utype) : uexpr := mkU t (u_i u) (u_j u) (u_ci u) (u_cj u) (u_int u).
Definition u_not_int (u : uexpr) : uexpr := mkU (u_type u) (u_i u) (u_j u) (u_ci u) (u_cj u) false.

(** bound_integer, num/bound_def.h 675-676. *)
Definition binteger (b : bound) : bool :=
  match b with Fin q => Qeq_bool q (inject_Z (Qround.Qfloor q)) | _ => false end.

(** [!bound_cmp_int(b,z)], [bound_cmp_int(b,z)<=0], [!bound_sgn(b)], [bound_sgn(b)<0] *)
Definition ieq (b : bound) (z : Z) : bool := (bcmp_int b z =? 0)%Z.
Definition ile (b : bound) (z : Z) : bool := (bcmp_int b z <=? 0)%Z.
Definition szero (b : bound) : bool := (bsgn b =? 0)%Z.
Definition sneg (b : bound) : bool := (bsgn b <? 0)%Z.
Definition snonpos (b : bound) : bool := (bsgn b <=? 0)%Z.
Definition spos (b : bound) : bool := (0 <? bsgn b)%Z.
Definition snonneg (b : bound) : bool := (0 <=? bsgn b)%Z.

Section Transfer.
Context {N U : numtype}.

(** ** Expression classification, oct_transfer.c 30-83 *)
(** COEFF(c,i), 50-53. *)
Definition ucoeff (c : coeff) (i : nat) (s : hmat * uexpr) : hmat * uexpr :=
  let '(dst, u) := s in
  let c := coeff_reduce c in
  let '(lo, hi, empty) := bounds_of_coeff (N:=N) c false in
  let dst := upd (upd dst i lo) (i + 1) hi in
  let u := if empty then u_set_type u UEmpty else u in
  let scalar := match c with Scal _ => true | Intv _ _ => false end in
  let u := if negb scalar || negb (binteger lo) then u_not_int u else u in
  (dst, u).

(** CLASS_COEFF(idx,coef), 33-39; None: falls through. *)
Definition class_coeff (dst : hmat) (u : uexpr) (idx : nat) (coef : Z) : option uexpr :=
  if (ieq (dst (2 * idx + 2)) (- coef)%Z) && (ieq (dst (2 * idx + 3)) coef) then
    match u_type u with
    | UZero => Some (mkU UUnary idx (u_j u) coef (u_cj u) (u_int u))
    | _ => Some (mkU UBinary (u_i u) idx (u_ci u) coef (u_int u))
    end
  else None.
(** CLASS_VAR(idx), 41-48. *)
Definition class_var (intdim idx : nat) (s : hmat * uexpr) : hmat * uexpr :=
  let '(dst, u) := s in
  let u := if Nat.leb intdim idx then u_not_int u else u in
  match u_type u with
  | UEmpty => (dst, u)
  | _ =>
    if (szero (dst (2 * idx + 2))) && (szero (dst (2 * idx + 3))) then (dst, u)
    else match u_type u with
    | UBinary | UOther => (dst, u_set_type u UOther)
    | _ =>
      match class_coeff dst u idx 1 with
      | Some u => (dst, u)
      | None =>
        match class_coeff dst u idx (-1) with
        | Some u => (dst, u)
        | None => (dst, u_set_type u UOther)
        end
      end
    end
  end.
Definition zero2 (i : nat) (dst : hmat) : hmat := upd (upd dst (2 * i + 2) (Fin 0)) (2 * i + 3) (Fin 0).
Fixpoint udense (intdim i : nat) (l : list coeff) (s : hmat * uexpr) : hmat * uexpr :=
  match l with
  | [] => s
  | c :: l => udense intdim (S i) l (class_var intdim i (ucoeff c (2 * i + 2) s))
  end.
Fixpoint usparse (intdim : nat) (l : list (option nat * coeff)) (s : hmat * uexpr) : hmat * uexpr :=
  match l with
  | [] => s
  | (None, _) :: l => usparse intdim l s
  | (Some d, c) :: l => usparse intdim l (class_var intdim d (ucoeff c (2 * d + 2) s))
  end.
(** the argument checks 58 and 76 (dimensions in range) are preconditions *)
Definition uexpr_of_linexpr (tmp : hmat) (e : linexpr) (intdim dim : nat) : hmat * uexpr :=
  let s := ucoeff (le_cst e) 0 (tmp, mkU UZero 0 0 0 0 true) in
  match le_terms e with
  | Dense l =>
    let '(dst, u) := udense intdim 0 l s in
    (for_ (length l) dim zero2 dst, u)
  | Sparse ts =>
    let '(dst, u) := s in
    usparse intdim ts (for_ 0 dim zero2 dst, u)
  end.

(** ** Guards, hmat_add_lincons 116-430 *)
(** literal of variable [i] with sign [c] *)
Definition ulit (i : nat) (c : Z) : nat := if (c =? 1)%Z then 2 * i else 2 * i + 1.

(** loop 218-227: [half] sums; result cb, cinf, cj1, cj2, Cb, Cinf, Cj1, Cj2 and tmp *)
Record osum := mkS { s_b : bound; s_inf : nat; s_1 : nat; s_2 : nat }.
Definition osum_add (j : nat) (t : bound) (s : osum) : osum :=
  if binfty t then mkS (s_b s) (S (s_inf s)) j (s_1 s)
  else mkS (badd (N:=N) (s_b s) t) (s_inf s) (s_1 s) (s_2 s).
Definition other_sums (dim : nat) (b tmp : hmat) : hmat * osum * osum :=
  for_ 0 dim (fun j s =>
    let '(tmp, lo, hi) := s in
    let '(tmp, ta, tb) := bounds_mul (N:=N) tmp (2 * (dim + 1))
        (b (matpos (2 * j) (2 * j + 1))) (b (matpos (2 * j + 1) (2 * j)))
        (tmp (2 * j + 2)) (tmp (2 * j + 3)) in
    (tmp, osum_add j ta lo, osum_add j tb hi))
    (tmp, mkS (bmul_2 (N:=N) (tmp 0)) 0 0 0, mkS (bmul_2 (N:=N) (tmp 1)) 0 0 0).

(** 230-300 (upper) and 305-375 (lower): the same code, where the lower version
    exchanges [tmp[2j+2]] and [tmp[2j+3]]; [lo j], [hi j] stand for
    these two cells. *)
Definition half_sel (b lo hi : hmat) (k : nat) : option (bound * nat) :=
  if (ile (lo k) (-1)) && negb (binfty (b (matpos (2 * k + 1) (2 * k)))) then
    Some (b (matpos (2 * k + 1) (2 * k)), 2 * k + 1)
  else if (ile (hi k) (-1)) && negb (binfty (b (matpos (2 * k) (2 * k + 1)))) then
    Some (b (matpos (2 * k) (2 * k + 1)), 2 * k)
  else None.
Definition half_unit (lo hi : hmat) (k : nat) : option nat :=
  if (ieq (hi k) (-1)) && (ieq (lo k) 1) then Some (2 * k)
  else if (ieq (hi k) 1) && (ieq (lo k) (-1)) then Some (2 * k + 1)
  else None.
Definition other_half (dim : nat) (s : osum) (lo hi : hmat) (b : hmat) : hmat :=
  if binfty (s_b s) then b
  else match s_inf s with
  | 0 =>
    for_ 0 dim (fun j b =>
      match half_sel b lo hi j with
      | None => b
      | Some (mj, uj) =>
        let ta := bsub (N:=N) (s_b s) mj in
        for_ (j + 1) dim (fun k b =>
          match half_sel b lo hi k with
          | None => b
          | Some (mk, uk) =>
            mmin b (matpos (xor1 uk) uj) (bdiv_2 (N:=N) (bsub (N:=N) ta mk))
          end) b
      end) b
  | 1 =>
    match half_unit lo hi (s_1 s) with
    | None => b
    | Some uj =>
      for_ 0 dim (fun k b =>
        if Nat.eqb k (s_1 s) then b
        else match half_sel b lo hi k with
        | None => b
        | Some (mk, uk) =>
          mmin b (matpos2 (xor1 uk) uj) (bdiv_2 (N:=N) (bsub (N:=N) (s_b s) mk))
        end) b
    end
  | 2 =>
    match half_unit lo hi (s_1 s), half_unit lo hi (s_2 s) with
    | Some ui, Some uj => mmin b (matpos2 (xor1 uj) ui) (bdiv_2 (N:=N) (s_b s))
    | _, _ => b
    end
  | _ => b
  end.
Definition cell_lo (tmp : hmat) : hmat := fun k => tmp (2 * k + 2).
Definition cell_hi (tmp : hmat) : hmat := fun k => tmp (2 * k + 3).

(** state of the loop over the constraints *)
Record gst := mkG { g_m : hmat; g_tmp : hmat; g_exact : bool; g_resp : bool; g_pend : bool; g_var : nat }.

(** "can we delay incremental closure further?" 179-183, 199-204; None: empty *)
Definition pend_close (dim : nat) (keep : bool) (g : gst) : option hmat :=
  if g_resp g && g_pend g && negb keep then
    let '(m, empty) := hmat_close_incremental (N:=N) (g_m g) dim (g_var g) in
    if empty then None else Some m
  else Some (g_m g).

(** one iteration, 126-420 *)
Definition add_lincons1 (intdim dim : nat) (c : lincons) (g : gst) : option gst :=
  match lc_typ c with
  | CEqMod | CDisEq => Some (mkG (g_m g) (g_tmp g) false (g_resp g) (g_pend g) (g_var g))
  | typ =>
    let '(tmp, u) := uexpr_of_linexpr (g_tmp g) (lc_expr c) intdim dim in
    let strict_int := u_int u && match typ with CSup => true | _ => false end in
    let typ := if strict_int then CSupEq else typ in
    let tmp := if strict_int
               then upd (upd tmp 0 (badd_uint (N:=N) (tmp 0) 1)) 1 (bsub_uint (N:=N) (tmp 1) 1)
               else tmp in
    let exact := match typ with CSup => false | _ => g_exact g end in
    match u_type u with
    | UEmpty => Some (mkG (g_m g) tmp (g_exact g) (g_resp g) (g_pend g) (g_var g))
    | UZero =>
      if match typ with
         | CSupEq => (snonneg (tmp 1))
         | CSup => (spos (tmp 1))
         | _ => (snonneg (tmp 0)) && (snonneg (tmp 1))
         end
      then Some (mkG (g_m g) tmp (g_exact g) (g_resp g) (g_pend g) (g_var g))
      else None
    | UUnary =>
      match pend_close dim (Nat.eqb (g_var g) (u_i u)) g with
      | None => None
      | Some m =>
        let ui := ulit (u_i u) (u_ci u) in
        let tmp := upd (upd tmp 0 (bmul_2 (N:=N) (tmp 0))) 1 (bmul_2 (N:=N) (tmp 1)) in
        let m := mmin m (matpos ui (xor1 ui)) (tmp 1) in
        let m := match typ with CEq => mmin m (matpos (xor1 ui) ui) (tmp 0) | _ => m end in
        Some (mkG m tmp exact (g_resp g) true (u_i u))
      end
    | UBinary =>
      match pend_close dim (Nat.eqb (g_var g) (u_i u) || Nat.eqb (g_var g) (u_j u)) g with
      | None => None
      | Some m =>
        let ui := ulit (u_i u) (u_ci u) in
        let uj := ulit (u_j u) (u_cj u) in
        let m := mmin m (matpos2 uj (xor1 ui)) (tmp 1) in
        let m := match typ with CEq => mmin m (matpos2 (xor1 uj) ui) (tmp 0) | _ => m end in
        Some (mkG m tmp exact (g_resp g) true
                (if Nat.eqb (g_var g) (u_j u) then u_j u else u_i u))
      end
    | UOther =>
      let '(tmp, cs, Cs) := other_sums dim (g_m g) tmp in
      let m := other_half dim Cs (cell_lo tmp) (cell_hi tmp) (g_m g) in
      let m := match typ with
               | CEq => other_half dim cs (cell_hi tmp) (cell_lo tmp) m
               | _ => m
               end in
      Some (mkG m tmp false false (g_pend g) (g_var g))
    end
  end.
Fixpoint add_lincons_loop (intdim dim : nat) (ar : list lincons) (g : gst) : option gst :=
  match ar with
  | [] => Some g
  | c :: ar => match add_lincons1 intdim dim c g with
               | None => None
               | Some g => add_lincons_loop intdim dim ar g
               end
  end.
(** None: empty; otherwise matrix, *exact, *respect_closure *)
Definition hmat_add_lincons (tmp b : hmat) (intdim dim : nat) (ar : list lincons) (resp : bool)
  : option (hmat * bool * bool) :=
  match add_lincons_loop intdim dim ar (mkG b tmp true resp false 0) with
  | None => None
  | Some g =>
    match pend_close dim false g with
    | None => None
    | Some m => Some (m, g_exact g, g_resp g)
    end
  end.

(** oct_meet_lincons_array 498-540; second component: the flag [exact]. *)
Definition oct_meet_lincons_array (algo : Z) (tmp : hmat) (a : oct) (ar : list lincons) : oct * bool :=
  match best a with
  | None => (set_mat a None None, true)
  | Some b =>
    match hmat_add_lincons tmp b (oint a) (odim a) ar (is_some (ocl a) && (0 <=? algo)%Z) with
    | None => (set_mat a None None, true)
    | Some (m, exact, resp) => (if resp then set_mat a None (Some m) else set_mat a (Some m) None, exact)
    end
  end.

(** ** Queries on expressions, oct_predicate.c *)
(** oct_sat_lincons 213-314. *)
Definition oct_sat_lincons (algo : Z) (tmp : hmat) (a : oct) (c : lincons) : bool :=
  let a := cached (N:=N) algo a in
  match best a with
  | None => true
  | Some b =>
    match lc_typ c with
    | CEqMod | CDisEq => false
    | typ =>
      let '(tmp, u) := uexpr_of_linexpr tmp (lc_expr c) (oint a) (odim a) in
      let test (t0 t1 : bound) : bool :=
        (snonpos t0) &&
        match typ with CSup => (sneg t0) | _ => true end &&
        match typ with CEq => (snonpos t1) | _ => true end in
      match u_type u with
      | UEmpty => true
      | UZero =>
        match typ with
        | CSupEq => (snonpos (tmp 0))
        | CSup => (sneg (tmp 0))
        | _ => (szero (tmp 0)) && (szero (tmp 1))
        end
      | UUnary =>
        let ui := ulit (u_i u) (u_ci u) in
        test (badd (N:=N) (bmul_2 (N:=N) (tmp 0)) (b (matpos ui (xor1 ui))))
             (badd (N:=N) (bmul_2 (N:=N) (tmp 1)) (b (matpos (xor1 ui) ui)))
      | UBinary =>
        let ui := ulit (u_i u) (u_ci u) in
        let uj := ulit (u_j u) (u_cj u) in
        test (badd (N:=N) (tmp 0) (b (matpos uj (xor1 ui))))
             (badd (N:=N) (tmp 1) (b (matpos (xor1 uj) ui)))
      | UOther => false
      end
    end
  end.

(** oct_bound_linexpr 331-413. *)
Definition bound_other (dim : nat) (b tmp : hmat) : hmat :=
  for_ 0 dim (fun i tmp =>
    let tmp := upd tmp (2 * i + 2) (bdiv_2 (N:=N) (tmp (2 * i + 2))) in
    let tmp := upd tmp (2 * i + 3) (bdiv_2 (N:=N) (tmp (2 * i + 3))) in
    let '(tmp, ta, tb) := bounds_mul (N:=N) tmp (2 * (dim + 1))
        (b (matpos (2 * i) (2 * i + 1))) (b (matpos (2 * i + 1) (2 * i)))
        (tmp (2 * i + 2)) (tmp (2 * i + 3)) in
    let tmp := upd (upd tmp (2 * i + 2) ta) (2 * i + 3) tb in
    let tmp := upd tmp 0 (badd (N:=N) (tmp 0) (tmp (2 * i + 2))) in
    upd tmp 1 (badd (N:=N) (tmp 1) (tmp (2 * i + 3)))) tmp.
Definition oct_bound_linexpr (algo : Z) (tmp : hmat) (a : oct) (e : linexpr) : uitv :=
  let a := cached (N:=N) algo a in
  match best a with
  | None => uitv_bottom
  | Some b =>
    let '(tmp, u) := uexpr_of_linexpr tmp e (oint a) (odim a) in
    match u_type u with
    | UEmpty => uitv_bottom
    | UZero => interval_of_bounds (U:=U) (tmp 0) (tmp 1) false
    | UUnary =>
      let ui := ulit (u_i u) (u_ci u) in
      let '(t0, t1, _) := bounds_of_coeff (N:=N) (coeff_reduce (le_cst e)) true in
      interval_of_bounds (U:=U) (badd (N:=N) t0 (b (matpos ui (xor1 ui))))
                                (badd (N:=N) t1 (b (matpos (xor1 ui) ui))) true
    | UBinary =>
      let ui := ulit (u_i u) (u_ci u) in
      let uj := ulit (u_j u) (u_cj u) in
      interval_of_bounds (U:=U) (badd (N:=N) (tmp 0) (b (matpos2 uj (xor1 ui))))
                                (badd (N:=N) (tmp 1) (b (matpos2 (xor1 uj) ui))) false
    | UOther =>
      let tmp := bound_other (odim a) b tmp in
      interval_of_bounds (U:=U) (tmp 0) (tmp 1) false
    end
  end.

(** ** Assignments *)
(** hmat_forget_var 561-575. *)
Definition hmat_forget_var (dim d : nat) (m : hmat) : hmat := forget1 dim false d m.

(** hmat_assign, 587-607: X <- [-a,b] *)
Definition assign_zero (tmp m : hmat) (dim d : nat) (resp : bool) : hmat :=
  let m := if resp then
      let m := for_ 0 (2 * d) (fun k m =>
        let h := bdiv_2 (N:=N) (m (matpos (xor1 k) k)) in
        let m := upd m (matpos (2 * d) k) (badd (N:=N) h (tmp 0)) in
        upd m (matpos (2 * d + 1) k) (badd (N:=N) h (tmp 1))) m in
      for_ (2 * d + 2) (2 * dim) (fun k m =>
        let h := bdiv_2 (N:=N) (m (matpos k (xor1 k))) in
        let m := upd m (matpos k (2 * d)) (badd (N:=N) h (tmp 1)) in
        upd m (matpos k (2 * d + 1)) (badd (N:=N) h (tmp 0))) m
    else hmat_forget_var dim d m in
  let m := upd m (matpos (2 * d) (2 * d + 1)) (bmul_2 (N:=N) (tmp 0)) in
  upd m (matpos (2 * d + 1) (2 * d)) (bmul_2 (N:=N) (tmp 1)).
(** 609-617: X <- c_i X_i + [-a,b], X_i different from X *)
Definition assign_copy (tmp m : hmat) (dim d i : nat) (resp : bool) : hmat :=
  let m := hmat_forget_var dim d m in
  let m := upd m (matpos2 (2 * d) i) (tmp 0) in
  let m := upd m (matpos2 i (2 * d)) (tmp 1) in
  if resp then fst (hmat_close_incremental (N:=N) m dim d) else m.
(** 619-637: X <- - X + [-a,b] *)
Definition assign_opp (tmp m : hmat) (dim d : nat) : hmat :=
  let m := for_ 0 (2 * d) (fun k m =>
    let t := m (matpos (2 * d) k) in
    let m := upd m (matpos (2 * d) k) (badd (N:=N) (m (matpos (2 * d + 1) k)) (tmp 0)) in
    upd m (matpos (2 * d + 1) k) (badd (N:=N) t (tmp 1))) m in
  let m := for_ (2 * d + 2) (2 * dim) (fun k m =>
    let t := m (matpos k (2 * d)) in
    let m := upd m (matpos k (2 * d)) (badd (N:=N) (m (matpos k (2 * d + 1))) (tmp 1)) in
    upd m (matpos k (2 * d + 1)) (badd (N:=N) t (tmp 0))) m in
  let t0 := bmul_2 (N:=N) (tmp 0) in
  let t1 := bmul_2 (N:=N) (tmp 1) in
  let t := m (matpos (2 * d + 1) (2 * d)) in
  let m := upd m (matpos (2 * d + 1) (2 * d)) (badd (N:=N) (m (matpos (2 * d) (2 * d + 1))) t1) in
  upd m (matpos (2 * d) (2 * d + 1)) (badd (N:=N) t t0).
(** 639-655: X <- X + [-a,b] *)
Definition assign_shift (tmp m : hmat) (dim d : nat) : hmat :=
  let badd_at p b m := upd m p (badd (N:=N) (m p) b) in
  let m := for_ 0 (2 * d) (fun k m =>
    badd_at (matpos (2 * d + 1) k) (tmp 1) (badd_at (matpos (2 * d) k) (tmp 0) m)) m in
  let m := for_ (2 * d + 2) (2 * dim) (fun k m =>
    badd_at (matpos k (2 * d + 1)) (tmp 0) (badd_at (matpos k (2 * d)) (tmp 1) m)) m in
  let m := badd_at (matpos (2 * d + 1) (2 * d)) (bmul_2 (N:=N) (tmp 1)) m in
  badd_at (matpos (2 * d) (2 * d + 1)) (bmul_2 (N:=N) (tmp 0)) m.
(** 657-741: general case.  After the two counting loops the code reads
    [tmp[2*i+2]] and [tmp[2*i+3]] with the value of [i] left by the last loop
    that used it, which is [dim]: these are scratch cells. *)
Definition assign_other (tmp m : hmat) (dim d : nat) : hmat :=
  let '(tmp, cs, Cs) := other_sums dim m tmp in
  let m := hmat_forget_var dim d m in
  let stale_pos := (ieq (tmp (2 * dim + 3)) 1) && (ieq (tmp (2 * dim + 2)) (-1)) in
  let stale_neg := (ieq (tmp (2 * dim + 3)) (-1)) && (ieq (tmp (2 * dim + 2)) 1) in
  let m := match s_inf Cs with
    | 0 =>
      let m := upd m (matpos (2 * d + 1) (2 * d)) (s_b Cs) in
      for_ 0 dim (fun i m =>
        if Nat.eqb i d then m
        else if (ile (tmp (2 * i + 2)) (-1)) && negb (binfty (m (matpos (2 * i + 1) (2 * i)))) then
          upd m (matpos2 (2 * i) (2 * d)) (bdiv_2 (N:=N) (bsub (N:=N) (s_b Cs) (m (matpos (2 * i + 1) (2 * i)))))
        else if (ile (tmp (2 * i + 3)) (-1)) && negb (binfty (m (matpos (2 * i) (2 * i + 1)))) then
          upd m (matpos2 (2 * i + 1) (2 * d)) (bdiv_2 (N:=N) (bsub (N:=N) (s_b Cs) (m (matpos (2 * i) (2 * i + 1)))))
        else m) m
    | 1 =>
      if Nat.eqb (s_1 Cs) d then m
      else if stale_pos then upd m (matpos2 (2 * s_1 Cs) (2 * d)) (bdiv_2 (N:=N) (s_b Cs))
      else if stale_neg then upd m (matpos2 (2 * s_1 Cs + 1) (2 * d)) (bdiv_2 (N:=N) (s_b Cs))
      else m
    | _ => m
    end in
  match s_inf cs with
  | 0 =>
    let m := upd m (matpos (2 * d) (2 * d + 1)) (s_b cs) in
    for_ 0 dim (fun i m =>
      if Nat.eqb i d then m
      else if (ile (tmp (2 * i + 2)) (-1)) && negb (binfty (m (matpos (2 * i) (2 * i + 1)))) then
        upd m (matpos2 (2 * i + 1) (2 * d + 1)) (bdiv_2 (N:=N) (bsub (N:=N) (s_b cs) (m (matpos (2 * i) (2 * i + 1)))))
      else if (ile (tmp (2 * i + 3)) (-1)) && negb (binfty (m (matpos (2 * i + 1) (2 * i)))) then
        upd m (matpos2 (2 * i) (2 * d + 1)) (bdiv_2 (N:=N) (bsub (N:=N) (s_b cs) (m (matpos (2 * i + 1) (2 * i)))))
      else m) m
  | 1 =>
    if Nat.eqb (s_1 cs) d then m
    else if stale_pos then upd m (matpos2 (2 * d) (2 * s_1 cs)) (bdiv_2 (N:=N) (s_b cs))
    else if stale_neg then upd m (matpos2 (2 * d) (2 * s_1 cs + 1)) (bdiv_2 (N:=N) (s_b cs))
    else m
  | _ => m
  end.
(** hmat_assign 580-742: matrix and *respect_closure *)
Definition hmat_assign (tmp m : hmat) (u : uexpr) (dim d : nat) (resp : bool) : hmat * bool :=
  match u_type u with
  | UZero => (assign_zero tmp m dim d resp, resp)
  | UUnary =>
    if negb (Nat.eqb (u_i u) d) then (assign_copy tmp m dim d (ulit (u_i u) (u_ci u)) resp, resp)
    else if (u_ci u =? -1)%Z then (assign_opp tmp m dim d, resp)
    else if (u_ci u =? 1)%Z then (assign_shift tmp m dim d, resp)
    else (assign_other tmp m dim d, false)
  | _ => (assign_other tmp m dim d, false)
  end.

(** ** Substitutions, hmat_subst 746-850; None: empty *)
(** 751-783: X -> [-a,b] *)
Definition subst_zero (tmp m : hmat) (dim d : nat) : option hmat :=
  let t2 := badd (N:=N) (bmul_2 (N:=N) (tmp 0)) (m (matpos (2 * d + 1) (2 * d))) in
  let t3 := badd (N:=N) (bmul_2 (N:=N) (tmp 1)) (m (matpos (2 * d) (2 * d + 1))) in
  if (sneg t2) || (sneg t3) then None
  else
    let m := for_ 0 (2 * d) (fun i m =>
      let t2 := bmul_2 (N:=N) (badd (N:=N) (tmp 0) (m (matpos (2 * d + 1) (xor1 i)))) in
      let t3 := bmul_2 (N:=N) (badd (N:=N) (tmp 1) (m (matpos (2 * d) (xor1 i)))) in
      mmin (mmin m (matpos i (xor1 i)) t2) (matpos i (xor1 i)) t3) m in
    let m := for_ (2 * d + 2) (2 * dim) (fun i m =>
      let t2 := bmul_2 (N:=N) (badd (N:=N) (tmp 0) (m (matpos i (2 * d)))) in
      let t3 := bmul_2 (N:=N) (badd (N:=N) (tmp 1) (m (matpos i (2 * d + 1)))) in
      mmin (mmin m (matpos i (xor1 i)) t2) (matpos i (xor1 i)) t3) m in
    Some (hmat_forget_var dim d m).
(** 785-823: X -> c X_i + [-a,b], literal [k] for c X_i, X_i different from X *)
Definition subst_copy (tmp m : hmat) (dim d k : nat) : option hmat :=
  let t2 := badd (N:=N) (tmp 0) (m (matpos2 k (2 * d))) in
  let t3 := badd (N:=N) (tmp 1) (m (matpos2 (2 * d) k)) in
  if (sneg t2) || (sneg t3) then None
  else
    let m := for_ 0 (2 * d) (fun i m =>
      let t2 := badd (N:=N) (tmp 0) (m (matpos (2 * d + 1) i)) in
      let t3 := badd (N:=N) (tmp 1) (m (matpos (2 * d) i)) in
      mmin (mmin m (matpos2 (xor1 k) i) t2) (matpos2 k i) t3) m in
    let m := for_ (2 * d + 2) (2 * dim) (fun i m =>
      let t2 := badd (N:=N) (tmp 0) (m (matpos (xor1 i) (2 * d))) in
      let t3 := badd (N:=N) (tmp 1) (m (matpos (xor1 i) (2 * d + 1))) in
      mmin (mmin m (matpos2 (xor1 k) i) t2) (matpos2 k i) t3) m in
    let t2 := badd (N:=N) (bmul_2 (N:=N) (tmp 0)) (m (matpos (2 * d + 1) (2 * d))) in
    let t3 := badd (N:=N) (bmul_2 (N:=N) (tmp 1)) (m (matpos (2 * d) (2 * d + 1))) in
    let m := mmin (mmin m (matpos (xor1 k) k) t2) (matpos k (xor1 k)) t3 in
    Some (hmat_forget_var dim d m).
Definition hmat_subst (tmp m : hmat) (u : uexpr) (dim d : nat) (resp : bool) : option (hmat * bool) :=
  match u_type u with
  | UZero => match subst_zero tmp m dim d with Some m => Some (m, false) | None => None end
  | UUnary =>
    if negb (Nat.eqb (u_i u) d) then
      match subst_copy tmp m dim d (ulit (u_i u) (u_ci u)) with Some m => Some (m, false) | None => None end
    else if (u_ci u =? -1)%Z then Some (hmat_assign tmp m u dim d resp)
    else if (u_ci u =? 1)%Z then
      Some (hmat_assign (upd (upd (upd tmp (2 * dim + 3) (tmp 0)) 0 (tmp 1)) 1 (tmp 0)) m u dim d resp)
    else Some (hmat_forget_var dim d m, resp)
  | _ => Some (hmat_forget_var dim d m, resp)
  end.

(** ** oct_assign_linexpr 874-925, oct_substitute_linexpr 927-984.
    The check [d<a->dim] is a precondition. *)
Definition inter_dest (m : hmat) (dest : option oct) : hmat :=
  match dest with
  | None => m
  | Some o => match best o with Some m2 => cellwise bmin m m2 | None => m end
  end.
Definition dest_empty (dest : option oct) : bool :=
  match dest with Some o => negb (is_some (ocl o)) && negb (is_some (om o)) | None => false end.
(** [u.type!=UNARY || u.i!=d] *)
Definition non_inv (u : uexpr) (d : nat) : bool :=
  match u_type u with UUnary => negb (Nat.eqb (u_i u) d) | _ => true end.
Definition oct_assign_linexpr (algo : Z) (tmp : hmat) (a : oct) (d : nat) (e : linexpr) (dest : option oct) : oct :=
  let '(tmp, u) := uexpr_of_linexpr tmp e (oint a) (odim a) in
  if dest_empty dest then set_mat a None None
  else match u_type u with
  | UEmpty => set_mat a None None
  | _ =>
    let a := if non_inv u d then cached (N:=N) algo a else a in
    match best a with
    | None => set_mat a None None
    | Some m =>
      let resp := is_some (ocl a) && (0 <=? algo)%Z && negb (is_some dest) in
      let '(m, resp) := hmat_assign tmp m u (odim a) d resp in
      let m := inter_dest m dest in
      if resp then set_mat a None (Some m) else set_mat a (Some m) None
    end
  end.
Definition oct_substitute_linexpr (algo : Z) (tmp : hmat) (a : oct) (d : nat) (e : linexpr) (dest : option oct) : oct :=
  let '(tmp, u) := uexpr_of_linexpr tmp e (oint a) (odim a) in
  if dest_empty dest then set_mat a None None
  else match u_type u with
  | UEmpty => set_mat a None None
  | _ =>
    let a := if non_inv u d then cached (N:=N) algo a else a in
    match best a with
    | None => set_mat a None None
    | Some m =>
      let resp := is_some (ocl a) && (0 <=? algo)%Z && negb (is_some dest) in
      match hmat_subst tmp m u (odim a) d resp with
      | None => set_mat a None None
      | Some (m, resp) =>
        let m := inter_dest m dest in
        if resp then set_mat a None (Some m) else set_mat a (Some m) None
      end
    end
  end.

(** ** oct_assign_linexpr_array 986-1065 (several variables at once). *)
Definition zero_tmp (from count : nat) (tmp : hmat) : hmat :=
  for_ 0 count (fun i tmp => upd tmp (from + i) (Fin 0)) tmp.
(** the buffer content left by hmat_assign and hmat_subst is not tracked between
    two expressions: the next classification rewrites cells 0 .. 2*dim+1, the
    cells of the temporary dimensions are not written by these functions
    (the scratch area starts at [2*(dim+size+1)]) *)
Fixpoint assign_loop (tmp : hmat) (mm : hmat) (intdim dim size i : nat) (es : list linexpr) : option hmat :=
  match es with
  | [] => Some mm
  | e :: es =>
    let '(tmp, u) := uexpr_of_linexpr tmp e intdim dim in
    match u_type u with
    | UEmpty => None
    | _ => let '(mm, _) := hmat_assign tmp mm u (dim + size) (dim + i) false in
           assign_loop tmp mm intdim dim size (S i) es
    end
  end.
Definition close_or (algo : Z) (mm : hmat) (dim : nat) : option hmat :=
  if (0 <=? algo)%Z then
    let '(c, empty) := hmat_close (N:=N) mm dim in if empty then None else Some c
  else Some mm.
(** the array d, 1036-1040 *)
Definition assign_perm (dim : nat) (tdim : list nat) : nat -> nat :=
  for_ 0 (length tdim) (fun i d =>
    fun x => if Nat.eqb x (nth i tdim 0) then dim
             else if Nat.eqb x (dim + i) then nth i tdim 0 else d x) (fun x => x).
Definition oct_assign_linexpr_array (algo : Z) (tmp : hmat) (a : oct) (tdim : list nat) (es : list linexpr)
    (dest : option oct) : oct :=
  match tdim, es with
  | [d], [e] => oct_assign_linexpr algo tmp a d e dest
  | _, _ =>
    if dest_empty dest then set_mat a None None
    else
    let a := cached (N:=N) algo a in
    match best a with
    | None => set_mat a None None
    | Some m =>
      let size := length tdim in
      let mm := bset_array (hmat_top (odim a + size)) m 0 0 (matsize (odim a)) in
      let tmp := zero_tmp (2 * odim a + 2) (2 * size) tmp in
      match assign_loop tmp mm (oint a) (odim a) size 0 es with
      | None => set_mat a None None
      | Some mm =>
        match close_or algo mm (odim a + size) with
        | None => set_mat a None None
        | Some mm =>
          let m := hmat_permute m mm (odim a) (odim a + size) (assign_perm (odim a) tdim) in
          set_mat a (Some (inter_dest m dest)) None
        end
      end
    end
  end.

(** oct_substitute_linexpr_array 1067-1166. *)
Definition subst_temp (dim size i src : nat) (mm : hmat) : hmat :=
  let dst := 2 * (dim + i) in
  let mm := for_ 0 src (fun j mm =>
    mmin (mmin mm (matpos (dst + 1) j) (mm (matpos (src + 1) j)))
         (matpos dst j) (mm (matpos src j))) mm in
  let mm := for_ (src + 2) (2 * dim + 2 * size) (fun j mm =>
    let mm := mmin mm (matpos2 (dst + 1) j) (mm (matpos (xor1 j) src)) in
    mmin mm (matpos2 dst j) (mm (matpos (xor1 j) (src + 1)))) mm in
  let mm := mmin mm (matpos (dst + 1) dst) (mm (matpos (src + 1) src)) in
  let mm := mmin mm (matpos dst (dst + 1)) (mm (matpos src (src + 1))) in
  hmat_forget_var (dim + size) (src / 2) mm.
Fixpoint subst_loop (tmp : hmat) (mm : hmat) (intdim dim size i : nat) (es : list linexpr) : option hmat :=
  match es with
  | [] => Some mm
  | e :: es =>
    let '(tmp, u) := uexpr_of_linexpr tmp e intdim dim in
    match u_type u with
    | UEmpty => None
    | _ => match hmat_subst tmp mm u (dim + size) (dim + i) false with
           | None => None
           | Some (mm, _) => subst_loop tmp mm intdim dim size (S i) es
           end
    end
  end.
Definition oct_substitute_linexpr_array (algo : Z) (tmp : hmat) (a : oct) (tdim : list nat) (es : list linexpr)
    (dest : option oct) : oct :=
  match tdim, es with
  | [d], [e] => oct_substitute_linexpr algo tmp a d e dest
  | _, _ =>
    if dest_empty dest then set_mat a None None
    else
    let a := cached (N:=N) algo a in
    match best a with
    | None => set_mat a None None
    | Some m =>
      let size := length tdim in
      let mm := bset_array (hmat_top (odim a + size)) m 0 0 (matsize (odim a)) in
      let mm := for_ 0 size (fun i mm => subst_temp (odim a) size i (2 * nth i tdim 0) mm) mm in
      let tmp := zero_tmp (2 * odim a + 2) (2 * size) tmp in
      match subst_loop tmp mm (oint a) (odim a) size 0 es with
      | None => set_mat a None None
      | Some mm =>
        match close_or algo mm (odim a + size) with
        | None => set_mat a None None
        | Some mm => set_mat a (Some (inter_dest mm dest)) None
        end
      end
    end
  end.

End Transfer.

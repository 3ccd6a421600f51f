(** Model of qopt/transfer_function.py: transfer functions as objects with mutable times and a cached
    transfer matrix.  A method returns the new state of the object and its value or exception, so the
    state after an exception is modelled too.

    Simplifications: numbers are exact; dtypes are not modelled (arrays hold floats, so the TypeError of
    l.516 does not occur); times are one dimensional arrays (np.squeeze does nothing); the operands of a
    composed transfer function are not shared with other objects; plotting, the deprecated methods of
    ExponentialMTF (l.1438-1500, 1564-1612) and the deprecated GaussianMTF (l.1615-1716, which refers to
    the missing attribute xtimes) are not modelled. *)
Require Import List Arith Lia Bool ZArith.
From Verif Require Import LibBase LibRing LibArr LibCplx.
Import ListNotations.
Open Scope res_scope.
Set Implicit Arguments.

(** bound_type[0], l.156-176 *)
Inductive bkind := BN | BX | BRight | BUnknown.
(** boundary modes of scipy.ndimage *)
Inductive cmode := Nearest | Reflect | Constant | Wrap.

(** np.repeat(l, n) *)
Definition repeat_each {T} (n : nat) (l : list T) : list T := flat_map (fun x => repeat x n) l.

Section Model.
Variable F : OField.
Variable rexp : F -> F.    (** np.exp *)
Notation K := (KStar F).
Notation arrF := (arr (kcar F)).

(** the attributes set in TransferFunction.__init__, l.259-279 *)
Record base := mkb {
  b_ctrls : nat; b_bound : option (bkind * nat); b_os : nat; b_off : option F;
  b_mat : option arrF;
  b_ny : nat; b_yt : option (list F); b_nx : nat; b_xt : option (list F) }.

(** the classes without sub functions: IdentityTF l.552, OversamplingTF l.579, ConvolutionTF l.690 and
    GaussianConvolution l.780 (kernel, forward mode, mode used by the gradient, cval), OversamplingMTF
    l.1135, CustomMTF l.1304, ExponentialMTF l.1407 *)
Inductive leafk :=
| KId | KOver | KConv (ker : list F) (m mg : cmode) (cval : F)
| KOverM | KCustom | KExp (rise : F).

(** ConcatenateTF l.908, ParallelTF l.982, ConcatenateMTF l.1173, ParallelMTF l.1244 *)
Inductive tf :=
| Leaf (k : leafk) (b : base)
| Conc (b : base) (t1 t2 : tf)
| Par (b : base) (t1 t2 : tf)
| ConcM (b : base) (t1 t2 : tf)
| ParM (b : base) (t1 t2 : tf).

Definition tbase (t : tf) : base :=
  match t with Leaf _ b | Conc b _ _ | Par b _ _ | ConcM b _ _ | ParM b _ _ => b end.

Definition set_mat (b : base) (m : option arrF) : base :=
  mkb (b_ctrls b) (b_bound b) (b_os b) (b_off b) m (b_ny b) (b_yt b) (b_nx b) (b_xt b).
Definition set_tm (b : base) (ny : nat) (yt : option (list F)) (nx : nat) (xt : option (list F)) : base :=
  mkb (b_ctrls b) (b_bound b) (b_os b) (b_off b) (b_mat b) ny yt nx xt.
Definition set_os (b : base) (os : nat) : base :=
  mkb (b_ctrls b) (b_bound b) os (b_off b) (b_mat b) (b_ny b) (b_yt b) (b_nx b) (b_xt b).

(** TransferFunction.__init__, l.259-279 *)
Definition base0 (ctrls : nat) (bound : option (bkind * nat)) (os : nat) (off : option F) : base :=
  mkb ctrls bound os off None 0 None 0 None.

(** num_padding_elements, l.304-326 *)
Definition padding (b : base) : res (nat * nat) :=
  match b_bound b with
  | None => Ok (0, 0)
  | Some (BN, p) => Ok (p, p)
  | Some (BX, p) => Ok (p * b_os b, p * b_os b)
  | Some (BRight, p) => Ok (0, p)
  | Some (BUnknown, _) => Err ValueError
  end.

(** ---- times ---- *)
Definition kdivn (x : F) (n : nat) : F := kdiv x (kofnat n).
(** y_times[0], y_times[-1] divided by oversampling, times np.ones(p) *)
Definition ones_times (x : F) (p : nat) : list F := repeat x p.

(** set_times, l.351-419.  Division by oversampling = 0 in the padded cases fills inf (FloatNaN). *)
Definition set_times_base (b : base) (ys : list F) : base * res unit :=
  let os := b_os b in
  let ny := length ys in
  let cells := repeat_each os (map (fun y => kdivn y os) ys) in
  match b_bound b with
  | None => (set_tm b ny (Some ys) (os * ny) (Some cells), Ok tt)
  | Some (kind, p) =>
      let nx := match kind with
                | BN => os * ny + 2 * p
                | BX => os * (ny + 2 * p)
                | BRight => os * ny + p
                | BUnknown => b_nx b
                end in
      let bad := set_tm b ny (Some ys) nx (b_xt b) in
      match kind with
      | BUnknown => (bad, Err ValueError)
      | _ =>
        match ys with
        | [] => (bad, Err IndexError)
        | y0 :: _ =>
          if Nat.eqb os 0 then (bad, Err FloatNaN) else
          let first := kdivn y0 os in
          let last := kdivn (last ys y0) os in
          let xt := match kind with
                    | BN => ones_times first p ++ cells ++ ones_times last p
                    | BX => ones_times first (p * os) ++ cells ++ ones_times last (p * os)
                    | _ => cells ++ ones_times last p
                    end in
          (set_tm b ny (Some ys) nx (Some xt), Ok tt)
        end
      end
  end.

(** CustomMTF.set_times, l.1362-1392.  int(float) truncates; the number of rows is assumed not to be
    smaller than the number of padding rows (else oversampling would be negative).  Division by
    num_y = 0 raises or gives nan, reported as FloatNaN. *)
Definition set_times_custom (b : base) (ys : list F) : base * res unit :=
  match b_xt b with
  | None =>
      if Nat.eqb (b_ny b) 0 then (b, Err FloatNaN) else
      match b_bound b with
      | None =>
          let b1 := set_os b (b_nx b / b_ny b) in
          if negb (Nat.eqb (b_nx b mod b_ny b) 0) then (b1, Err ValueError) else set_times_base b1 ys
      | Some (BN, p) => set_times_base (set_os b ((b_nx b - 2 * p) / b_ny b)) ys
      | Some (BX, p) => set_times_base (set_os b (b_nx b / (2 * p + b_ny b))) ys
      | Some (BRight, p) => set_times_base (set_os b ((b_nx b - p) / b_ny b)) ys
      | Some (BUnknown, _) => (b, Err ValueError)
      end
  | Some _ =>
      let b1 := set_tm b (b_ny b) (b_yt b) (b_nx b) (Some ys) in
      if Nat.eqb (length ys) 1 then (b1, Err TypeError)      (* len() of a zero dimensional array *)
      else if negb (Nat.eqb (length ys) (b_ny b)) then (b1, Err ValueError)
      else (b1, Ok tt)
  end.

Fixpoint set_times (t : tf) (ys : list F) : tf * res unit :=
  match t with
  | Leaf KCustom b => let '(b', r) := set_times_custom b ys in (Leaf KCustom b', r)
  | Leaf k b => let '(b', r) := set_times_base b ys in (Leaf k b', r)
  (* l.961-979, l.1214-1232 *)
  | Conc b t1 t2 =>
      let '(t1', r1) := set_times t1 ys in
      match r1 with
      | Err e => (Conc b t1' t2, Err e)
      | Ok _ =>
        match b_xt (tbase t1') with
        | None => (Conc b t1' t2, Err PyException)
        | Some xs =>
          let '(t2', r2) := set_times t2 xs in
          match r2 with
          | Err e => (Conc b t1' t2', Err e)
          | Ok _ => (Conc (set_tm b (b_ny (tbase t1')) (b_yt (tbase t1')) (b_nx (tbase t2')) (b_xt (tbase t2'))) t1' t2', Ok tt)
          end
        end
      end
  | ConcM b t1 t2 =>
      let '(t1', r1) := set_times t1 ys in
      match r1 with
      | Err e => (ConcM b t1' t2, Err e)
      | Ok _ =>
        match b_xt (tbase t1') with
        | None => (ConcM b t1' t2, Err PyException)
        | Some xs =>
          let '(t2', r2) := set_times t2 xs in
          match r2 with
          | Err e => (ConcM b t1' t2', Err e)
          | Ok _ => (ConcM (set_tm b (b_ny (tbase t1')) (b_yt (tbase t1')) (b_nx (tbase t2')) (b_xt (tbase t2'))) t1' t2', Ok tt)
          end
        end
      end
  (* l.1054-1061, l.1294-1301 *)
  | Par b t1 t2 =>
      let '(t1', r1) := set_times t1 ys in
      match r1 with
      | Err e => (Par b t1' t2, Err e)
      | Ok _ =>
        let '(t2', r2) := set_times t2 ys in
        match r2 with
        | Err e => (Par b t1' t2', Err e)
        | Ok _ => (Par (set_tm b (b_ny (tbase t1')) (b_yt (tbase t1')) (b_nx (tbase t1')) (b_xt (tbase t1'))) t1' t2', Ok tt)
        end
      end
  | ParM b t1 t2 =>
      let '(t1', r1) := set_times t1 ys in
      match r1 with
      | Err e => (ParM b t1' t2, Err e)
      | Ok _ =>
        let '(t2', r2) := set_times t2 ys in
        match r2 with
        | Err e => (ParM b t1' t2', Err e)
        | Ok _ => (ParM (set_tm b (b_ny (tbase t1')) (b_yt (tbase t1')) (b_nx (tbase t1')) (b_xt (tbase t1'))) t1' t2', Ok tt)
        end
      end
  end.

(** set_absolute_times, l.421-445 (the attribute _absolute_y_times is never read) *)
Fixpoint np_diff (l : list F) : list F :=
  match l with
  | x :: ((y :: _) as l') => ksub y x :: np_diff l'
  | _ => []
  end.
Definition set_absolute_times (t : tf) (ts : list F) : tf * res unit :=
  if forallb (fun d => kleb k0 d) (np_diff ts) then set_times t (np_diff ts) else (t, Err PyException).

(** ---- constructors ---- *)
Definition mk_identity (n : nat) : tf := Leaf KId (base0 n None 1 (Some k0)).                    (* l.560-567 *)
Definition mk_over (n : nat) (bt : option (bkind * nat)) (os : nat) : tf := Leaf KOver (base0 n bt os None).  (* l.592-601 *)
Definition mk_conv (ker : list F) (m : cmode) (n : nat) (cval : F) : tf :=                       (* l.702-713, default gradient mode 'reflect' l.764 *)
  Leaf (KConv ker m Reflect cval) (base0 n None 1 None).
Definition mk_gauss (ker : list F) (m : cmode) (n : nat) : tf :=                                 (* l.825-835; the kernel is computed by scipy *)
  Leaf (KConv ker m m k0) (base0 n None 1 None).
Definition mk_overM (os : nat) (bt : option (bkind * nat)) (n : nat) (off : option F) : tf := Leaf KOverM (base0 n bt os off).   (* l.1139-1151 *)
Definition mk_custom (T : arrF) (xt : option (list F)) (bt : option (bkind * nat)) (os : nat) (off : option F) (n : nat) : tf :=  (* l.1337-1355 *)
  Leaf KCustom (mkb n bt os off (Some T) (dim1 T) None (dim0 T) xt).
Definition mk_exp (rise : F) (os : nat) (bt : option (bkind * nat)) (off : option F) (n : nat) : tf := Leaf (KExp rise) (base0 n bt os off).  (* l.1420-1429 *)
Definition conc_base (t1 t2 : tf) : base :=                                                     (* l.927-942, l.1190-1205 *)
  let o t := match b_off (tbase t) with Some x => x | None => k0 end in
  mkb (b_ctrls (tbase t1)) None (b_os (tbase t1) * b_os (tbase t2)) (Some (kadd (o t1) (o t2))) None
    (b_ny (tbase t1)) (b_yt (tbase t1)) (b_nx (tbase t2)) (b_xt (tbase t2)).
Definition mk_conc (t1 t2 : tf) : tf := Conc (conc_base t1 t2) t1 t2.
Definition mk_concM (t1 t2 : tf) : tf := ConcM (conc_base t1 t2) t1 t2.
Definition par_base (t1 t2 : tf) : base :=
  mkb (b_ctrls (tbase t1) + b_ctrls (tbase t2)) (b_bound (tbase t1)) (b_os (tbase t1)) None None
    (b_ny (tbase t1)) (b_yt (tbase t1)) (b_nx (tbase t1)) (b_xt (tbase t1)).
Definition mk_par (t1 t2 : tf) : res tf :=                                                      (* l.1000-1026 *)
  check Nat.eqb (b_ny (tbase t1)) (b_ny (tbase t2)) else ValueError ;;
  check Nat.eqb (b_nx (tbase t1)) (b_nx (tbase t2)) else ValueError ;;
  Ok (Par (par_base t1 t2) t1 t2).
Definition bkind_eqb (a b : bkind) : bool :=
  match a, b with BN, BN | BX, BX | BRight, BRight | BUnknown, BUnknown => true | _, _ => false end.
Definition bound_eqb (a b : option (bkind * nat)) : bool :=
  match a, b with
  | None, None => true
  | Some (k, p), Some (k', p') => bkind_eqb k k' && Nat.eqb p p'
  | _, _ => false
  end.
Definition mk_parM (t1 t2 : tf) : res tf :=                                                     (* l.1262-1287 *)
  check Nat.eqb (b_ny (tbase t1)) (b_ny (tbase t2)) else AssertionError ;;
  check bound_eqb (b_bound (tbase t1)) (b_bound (tbase t2)) else ValueError ;;
  check Nat.eqb (b_os (tbase t1)) (b_os (tbase t2)) else ValueError ;;
  Ok (ParM (par_base t1 t2) t1 t2).

(** ---- np.einsum: equal labels must have equal sizes, size 1 is broadcast ---- *)
Definition lab (a b : nat) : res nat :=
  if Nat.eqb a b then Ok a else if Nat.eqb a 1 then Ok b else if Nat.eqb b 1 then Ok a else Err ValueError.
Definition bi (d i : nat) : nat := if Nat.eqb d 1 then 0 else i.
(** einsum('ijk,jk->ik', T, y) *)
Definition einsum_call (T y : arrF) : res arrF :=
  check Nat.eqb (rank T) 3 && Nat.eqb (rank y) 2 else ValueError ;;
  nj <- lab (dim1 T) (dim0 y) ;;
  nk <- lab (dim2 T) (dim1 y) ;;
  Ok (mk2 (dim0 T) nk (fun i k => sumn (S:=K) nj (fun j =>
        kmul (get3 k0 T i (bi (dim1 T) j) (bi (dim2 T) k)) (get2 k0 y (bi (dim0 y) j) (bi (dim1 y) k))))).
(** einsum('ijk,ifk->jfk', T, g) *)
Definition einsum_grad (T g : arrF) : res arrF :=
  check Nat.eqb (rank T) 3 && Nat.eqb (rank g) 3 else ValueError ;;
  ni <- lab (dim0 T) (dim0 g) ;;
  nk <- lab (dim2 T) (dim2 g) ;;
  Ok (mk3 (dim1 T) (dim1 g) nk (fun j f k => sumn (S:=K) ni (fun i =>
        kmul (get3 k0 T (bi (dim0 T) i) j (bi (dim2 T) k)) (get3 k0 g (bi (dim0 g) i) f (bi (dim2 g) k))))).
(** einsum('ijk,jlk->ilk', T2, T1) *)
Definition einsum_mat (T2 T1 : arrF) : res arrF :=
  check Nat.eqb (rank T2) 3 && Nat.eqb (rank T1) 3 else ValueError ;;
  nj <- lab (dim1 T2) (dim0 T1) ;;
  nk <- lab (dim2 T2) (dim2 T1) ;;
  Ok (mk3 (dim0 T2) (dim1 T1) nk (fun i l k => sumn (S:=K) nj (fun j =>
        kmul (get3 k0 T2 i (bi (dim1 T2) j) (bi (dim2 T2) k)) (get3 k0 T1 (bi (dim0 T1) j) l (bi (dim2 T1) k))))).
(** np.concatenate((A, B), axis=2) *)
Definition concat3 (A B : arrF) : res arrF :=
  check Nat.eqb (rank A) 3 && Nat.eqb (rank B) 3 && Nat.eqb (dim0 A) (dim0 B) && Nat.eqb (dim1 A) (dim1 B) else ValueError ;;
  Ok (mk3 (dim0 A) (dim1 A) (dim2 A + dim2 B) (fun i j k =>
        if Nat.ltb k (dim2 A) then get3 k0 A i j k else get3 k0 B i j (k - dim2 A))).
(** np.concatenate((A, B), axis=1) *)
Definition concat2 (A B : arrF) : res arrF :=
  check Nat.eqb (rank A) 2 && Nat.eqb (rank B) 2 && Nat.eqb (dim0 A) (dim0 B) else ValueError ;;
  Ok (mk2 (dim0 A) (dim1 A + dim1 B) (fun i k =>
        if Nat.ltb k (dim1 A) then get2 k0 A i k else get2 k0 B i (k - dim1 A))).

(** _check_dimensions_datatype, l.483-549 *)
Definition check_dims (b : base) (y : arrF) : res unit :=
  match b_yt b with
  | None => Err RuntimeError
  | Some _ =>
    check Nat.eqb (rank y) 2 else IndexError ;;
    check Nat.eqb (dim0 y) (b_ny b) else IndexError ;;
    check Nat.eqb (dim1 y) (b_ctrls b) else IndexError ;;
    Ok tt
  end.
(** the assertions at the start of gradient_chain_rule, l.661-664 *)
Definition check_grad (b : base) (g : arrF) : res unit :=
  check Nat.eqb (rank g) 3 && Nat.eqb (dim0 g) (b_nx b) && Nat.eqb (dim2 g) (b_ctrls b) else AssertionError ;; Ok tt.

(** ---- OversamplingTF ---- *)
(** l.607-639 *)
Definition over_call (b : base) (y : arrF) : res arrF :=
  _ <- check_dims b y ;;
  p <- padding b ;;
  let '(ps, pe) := p in
  Ok (mk2 (ps + b_os b * dim0 y + pe) (b_ctrls b) (fun i k =>
        if Nat.ltb i ps then k0
        else if Nat.ltb (i - ps) (b_os b * dim0 y) then get2 k0 y ((i - ps) / b_os b) k
        else k0)).
(** l.641-687: crop, reshape to (num_y, oversampling, num_f, num_par), sum over axis 1 *)
Definition over_grad (b : base) (g : arrF) : res arrF :=
  _ <- check_grad b g ;;
  p <- padding b ;;
  let '(ps, pe) := p in
  let rows := dim0 g - pe - ps in
  check Nat.eqb (rows * dim1 g * dim2 g) (b_ny b * b_os b * dim1 g * dim2 g) else ValueError ;;
  Ok (mk3 (b_ny b) (dim1 g) (dim2 g) (fun i f k =>
        sumn (S:=K) (b_os b) (fun j => get3 k0 g (ps + (i * b_os b + j)) f k))).

(** ---- convolution along axis 0 (scipy.ndimage.convolve with a (K, 1) kernel, l.736, l.764):
    out[i] = sum_m ker[m] * in[i + K//2 - m], the index extended beyond the array by the mode.
    ('reflect' is d c b a | a b c d | d c b a.) ---- *)
Definition ext_index (m : cmode) (n : nat) (z : Z) : option nat :=
  let nz := Z.of_nat n in
  if (0 <=? z)%Z && (z <? nz)%Z then Some (Z.to_nat z) else
  match m with
  | Nearest => Some (if (z <? 0)%Z then 0 else n - 1)
  | Reflect => let r := (z mod (2 * nz))%Z in Some (Z.to_nat (if (r <? nz)%Z then r else 2 * nz - 1 - r)%Z)
  | Wrap => Some (Z.to_nat (z mod nz))
  | Constant => None
  end.
Definition conv_at (ker : list F) (m : cmode) (cval : F) (n : nat) (f : nat -> F) (i : nat) : F :=
  sumn (S:=K) (length ker) (fun q =>
    kmul (nth q ker k0)
      (match ext_index m n (Z.of_nat i + Z.of_nat (length ker / 2) - Z.of_nat q) with
       | Some i' => f i' | None => cval end)).
Definition conv_call (ker : list F) (m : cmode) (cval : F) (b : base) (y : arrF) : res arrF :=
  _ <- check_dims b y ;;
  Ok (mk2 (dim0 y) (dim1 y) (fun i k => conv_at ker m cval (dim0 y) (fun i' => get2 k0 y i' k) i)).
Definition conv_grad (ker : list F) (m : cmode) (cval : F) (b : base) (g : arrF) : res arrF :=
  _ <- check_grad b g ;;
  Ok (mk3 (dim0 g) (dim1 g) (dim2 g) (fun i f k => conv_at ker m cval (dim0 g) (fun i' => get3 k0 g i' f k) i)).

(** ---- transfer matrices ---- *)
(** OversamplingMTF._calculate_transfer_matrix, l.1153-1170 *)
Definition over_matrix (b : base) : res arrF :=
  p <- padding b ;;
  let '(ps, pe) := p in
  Ok (mk3 (ps + b_os b * b_ny b + pe) (b_ny b) (b_ctrls b) (fun i j _ =>
        if Nat.ltb i ps then k0
        else if Nat.ltb (i - ps) (b_os b * b_ny b) then (if Nat.eqb ((i - ps) / b_os b) j then k1 else k0)
        else k0)).

(** a[lo:lo+len, col] = v *)
Definition upd_col (a : nat -> nat -> F) (lo len col : nat) (v : nat -> F) : nat -> nat -> F :=
  fun i j => if Nat.eqb j col && Nat.leb lo i && Nat.ltb i (lo + len) then v (i - lo) else a i j.

(** ExponentialMTF._calculate_transfer_matrix, l.1502-1551.  A slice reaching beyond the last row is
    shortened by numpy and the assignment raises ValueError unless oversampling is 1. *)
Definition exp_matrix (rise : F) (b : base) : res arrF :=
  p <- padding b ;;
  let '(ps, pe) := p in
  let os := b_os b in let ny := b_ny b in let nx := b_nx b in
  check Nat.leb ps nx else ValueError ;;
  let rows := nx - ps in
  match b_yt b with
  | None => Err TypeError
  | Some [] => Err IndexError
  | Some (x_tau :: _) =>
    if keqb rise k0 then Err FloatNaN else
    let ex := fun j => rexp (kopp (kdiv (kdivn (kmul (kofnat (j + 1)) x_tau) os) rise)) in
    let om := fun j => ksub k1 (ex j) in
    let a0 := upd_col (fun _ _ => k0) 0 os 0 om in
    check Nat.leb os rows || Nat.eqb os 1 else ValueError ;;
    check negb (Nat.ltb os nx) || Nat.leb (2 * os) rows || Nat.eqb os 1 else ValueError ;;
    let a1 := if Nat.ltb os nx then upd_col a0 os os 0 ex else a0 in
    let a2 := fold_left (fun a i => upd_col (upd_col a (i * os) os i om) ((i + 1) * os) os i ex) (seq 1 (ny - 2)) a1 in
    let a3 := upd_col a2 ((ny - 1) * os) os (ny - 1) om in
    let a4 := fold_left (fun a i =>
        upd_col a (ny * os + i) 1 (ny - 1)
          (fun _ => rexp (kopp (kdiv (kmul (kdivn (kofnat (i + 1)) os) x_tau) rise)))) (seq 0 pe) a3 in
    Ok (mk3 (ps + rows) ny (b_ctrls b) (fun i j _ => if Nat.ltb i ps then k0 else a4 (i - ps) j))
  end.

(** _calculate_transfer_matrix of the classes without sub functions *)
Definition leaf_matrix (k : leafk) (b : base) : res arrF :=
  match k with
  | KOverM => over_matrix b
  | KExp rise => exp_matrix rise b
  | KCustom => match b_mat b with None => Err ValueError | Some T => Ok T end       (* l.1394-1399 *)
  | KOver | KConv _ _ _ _ => Err NotImplementedError
  | KId => Err AttributeError
  end.

(** the property transfer_matrix: l.1095-1108, 1207-1212, 1357-1360, 1431-1436 *)
Fixpoint get_matrix (t : tf) : tf * res arrF :=
  match t with
  | Leaf k b =>
      match k with
      | KId | KOver => (t, Err AttributeError)
      | KConv _ _ _ _ => (t, Err NotImplementedError)
      | _ => match b_mat b with
             | Some T => (t, Ok T)
             | None => match leaf_matrix k b with
                       | Ok T => (Leaf k (set_mat b (Some T)), Ok T)
                       | Err e => (t, Err e)
                       end
             end
      end
  | Conc _ _ _ | Par _ _ _ => (t, Err AttributeError)
  | ConcM b t1 t2 =>
      let '(t2', r2) := get_matrix t2 in
      match r2 with
      | Err e => (ConcM b t1 t2', Err e)
      | Ok T2 => let '(t1', r1) := get_matrix t1 in
                 match r1 with
                 | Err e => (ConcM b t1' t2', Err e)
                 | Ok T1 => (ConcM b t1' t2', einsum_mat T2 T1)
                 end
      end
  | ParM b t1 t2 =>
      match b_mat b with
      | Some T => (t, Ok T)
      | None =>
        let '(t1', r1) := get_matrix t1 in
        match r1 with
        | Err e => (ParM b t1' t2, Err e)
        | Ok T1 => let '(t2', r2) := get_matrix t2 in
                   match r2 with
                   | Err e => (ParM b t1' t2', Err e)
                   | Ok T2 => match concat3 T1 T2 with
                              | Ok T => (ParM (set_mat b (Some T)) t1' t2', Ok T)
                              | Err e => (ParM b t1' t2', Err e)
                              end
                   end
        end
      end
  end.

(** _calculate_transfer_matrix called directly (it recomputes the matrix even if one is cached):
    l.1153, 1238-1241, 1289-1292, 1394, 1502 *)
Fixpoint calc_matrix (t : tf) : tf * res unit :=
  match t with
  | Leaf k b =>
      match leaf_matrix k b with
      | Ok T => (Leaf k (set_mat b (Some T)), Ok tt)
      | Err e => (t, Err e)
      end
  | Conc _ _ _ | Par _ _ _ => (t, Err AttributeError)
  | ConcM b t1 t2 =>
      let '(t1', r1) := calc_matrix t1 in
      match r1 with
      | Err e => (ConcM b t1' t2, Err e)
      | Ok _ => let '(t2', r2) := calc_matrix t2 in (ConcM b t1' t2', r2)
      end
  | ParM b t1 t2 => let '(t', r) := get_matrix (ParM (set_mat b None) t1 t2) in
                    match r with
                    | Ok _ => (t', Ok tt)
                    | Err e => (match t' with ParM _ t1' t2' => ParM b t1' t2' | _ => t' end, Err e)
                    end
  end.

(** the matrix used by MatrixTF.__call__ and gradient_chain_rule: the cached one, else the one computed
    by _calculate_transfer_matrix.  ConcatenateMTF computes the matrices of its parts but does not store
    its own (l.1238-1241), so np.einsum receives None and raises ValueError. *)
Definition own_matrix (t : tf) : tf * res arrF :=
  match t with
  | ConcM b t1 t2 =>
      let '(t', r) := calc_matrix t in
      match r with Err e => (t', Err e) | Ok _ => (t', Err ValueError) end
  | _ => get_matrix t
  end.

Definition add_offset (o : option F) (x : arrF) : arrF :=
  match o with None => x | Some c => mk2 (dim0 x) (dim1 x) (fun i k => kadd (get2 k0 x i k) c) end.

(** y[:, :n] and y[:, n:] *)
Definition cols_lo (n : nat) (y : arrF) : arrF := mk2 (dim0 y) (Nat.min n (dim1 y)) (fun i k => get2 k0 y i k).
Definition cols_hi (n : nat) (y : arrF) : arrF := mk2 (dim0 y) (dim1 y - n) (fun i k => get2 k0 y i (n + k)).
(** g[:, :, :n] and g[:, :, n:] *)
Definition cols3_lo (n : nat) (g : arrF) : arrF := mk3 (dim0 g) (dim1 g) (Nat.min n (dim2 g)) (fun i f k => get3 k0 g i f k).
Definition cols3_hi (n : nat) (g : arrF) : arrF := mk3 (dim0 g) (dim1 g) (dim2 g - n) (fun i f k => get3 k0 g i f (n + k)).

(** MatrixTF.__call__, l.1066-1093 *)
Definition matrix_call (t : tf) (y : arrF) : tf * res arrF :=
  match check_dims (tbase t) y with
  | Err e => (t, Err e)
  | Ok _ =>
    let '(t', r) := own_matrix t in
    (t', T <- r ;; x <- einsum_call T y ;; Ok (add_offset (b_off (tbase t)) x))
  end.
(** MatrixTF.gradient_chain_rule, l.1115-1132; ExponentialMTF has no assertions, l.1553-1562 *)
Definition is_exp (t : tf) : bool := match t with Leaf (KExp _) _ => true | _ => false end.
Definition matrix_grad (t : tf) (g : arrF) : tf * res arrF :=
  match (if is_exp t then Ok tt else check_grad (tbase t) g) with
  | Err e => (t, Err e)
  | Ok _ => let '(t', r) := own_matrix t in (t', T <- r ;; einsum_grad T g)
  end.

(** __call__ *)
Fixpoint call (t : tf) (y : arrF) : tf * res arrF :=
  match t with
  | Leaf KId _ => (t, Ok y)                                                  (* l.569-571 *)
  | Leaf KOver b => (t, over_call b y)
  | Leaf (KConv ker m _ cval) b => (t, conv_call ker m cval b y)
  | Leaf _ _ | ConcM _ _ _ | ParM _ _ _ => matrix_call t y
  | Conc b t1 t2 =>                                                          (* l.944-947 *)
      match check_dims b y with
      | Err e => (t, Err e)
      | Ok _ =>
        let '(t1', r1) := call t1 y in
        match r1 with
        | Err e => (Conc b t1' t2, Err e)
        | Ok x => let '(t2', r2) := call t2 x in (Conc b t1' t2', r2)
        end
      end
  | Par b t1 t2 =>                                                           (* l.1028-1039 *)
      match check_dims b y with
      | Err e => (t, Err e)
      | Ok _ =>
        let '(t1', r1) := call t1 (cols_lo (b_ctrls (tbase t1)) y) in
        match r1 with
        | Err e => (Par b t1' t2, Err e)
        | Ok x1 => let '(t2', r2) := call t2 (cols_hi (b_ctrls (tbase t1)) y) in
                   (Par b t1' t2', x2 <- r2 ;; concat2 x1 x2)
        end
      end
  end.

(** gradient_chain_rule *)
Fixpoint grad (t : tf) (g : arrF) : tf * res arrF :=
  match t with
  | Leaf KId _ => (t, Ok g)                                                  (* l.573-576 *)
  | Leaf KOver b => (t, over_grad b g)
  | Leaf (KConv ker _ mg cval) b => (t, conv_grad ker mg cval b g)
  | Leaf _ _ | ConcM _ _ _ | ParM _ _ _ => matrix_grad t g
  | Conc b t1 t2 =>                                                          (* l.949-955 *)
      let '(t2', r2) := grad t2 g in
      match r2 with
      | Err e => (Conc b t1 t2', Err e)
      | Ok h => let '(t1', r1) := grad t1 h in (Conc b t1' t2', r1)
      end
  | Par b t1 t2 =>                                                           (* l.1041-1052 *)
      match (if Nat.eqb (rank g) 3 then Ok tt else Err IndexError) with
      | Err e => (t, Err e)
      | Ok _ =>
        let '(t1', r1) := grad t1 (cols3_lo (b_ctrls (tbase t1)) g) in
        match r1 with
        | Err e => (Par b t1' t2, Err e)
        | Ok h1 => let '(t2', r2) := grad t2 (cols3_hi (b_ctrls (tbase t1)) g) in
                   (Par b t1' t2', h2 <- r2 ;; concat3 h1 h2)
        end
      end
  end.

(** ---- programs ---- *)
(** how an object is put together from new parts *)
Inductive desc :=
| DId (n : nat)
| DOver (n : nat) (bt : option (bkind * nat)) (os : nat)
| DConv (ker : list F) (m : cmode) (n : nat) (cval : F)
| DGauss (ker : list F) (m : cmode) (n : nat)
| DOverM (os : nat) (bt : option (bkind * nat)) (n : nat) (off : option F)
| DCustom (T : arrF) (xt : option (list F)) (bt : option (bkind * nat)) (os : nat) (off : option F) (n : nat)
| DExp (rise : F) (os : nat) (bt : option (bkind * nat)) (off : option F) (n : nat)
| DConc (d1 d2 : desc) | DPar (d1 d2 : desc) | DConcM (d1 d2 : desc) | DParM (d1 d2 : desc).

Fixpoint build (d : desc) : res tf :=
  match d with
  | DId n => Ok (mk_identity n)
  | DOver n bt os => Ok (mk_over n bt os)
  | DConv ker m n c => Ok (mk_conv ker m n c)
  | DGauss ker m n => Ok (mk_gauss ker m n)
  | DOverM os bt n off => Ok (mk_overM os bt n off)
  | DCustom T xt bt os off n => Ok (mk_custom T xt bt os off n)
  | DExp rise os bt off n => Ok (mk_exp rise os bt off n)
  | DConc a b => x <- build a ;; y <- build b ;; Ok (mk_conc x y)
  | DConcM a b => x <- build a ;; y <- build b ;; Ok (mk_concM x y)
  | DPar a b => x <- build a ;; y <- build b ;; mk_par x y
  | DParM a b => x <- build a ;; y <- build b ;; mk_parM x y
  end.

(** the operations of a client *)
Inductive tfop :=
| TSet (ys : list F) | TSetAbs (ts : list F) | TCall (y : arrF) | TGrad (g : arrF) | TMatrix.
Definition do_op (t : tf) (o : tfop) : tf :=
  match o with
  | TSet ys => fst (set_times t ys)
  | TSetAbs ts => fst (set_absolute_times t ts)
  | TCall y => fst (call t y)
  | TGrad g => fst (grad t g)
  | TMatrix => fst (get_matrix t)
  end.
Definition do_ops (t : tf) (l : list tfop) : tf := fold_left do_op l t.
End Model.
Arguments Leaf {F}. Arguments Conc {F}. Arguments Par {F}. Arguments ConcM {F}. Arguments ParM {F}.
Arguments KId {F}. Arguments KOver {F}. Arguments KOverM {F}. Arguments KCustom {F}. Arguments KConv {F}. Arguments KExp {F}.
Arguments DId {F}. Arguments DOver {F}. Arguments DConv {F}. Arguments DGauss {F}. Arguments DOverM {F}. Arguments DCustom {F}.
Arguments DExp {F}. Arguments DConc {F}. Arguments DPar {F}. Arguments DConcM {F}. Arguments DParM {F}.
Arguments TSet {F}. Arguments TSetAbs {F}. Arguments TCall {F}. Arguments TGrad {F}. Arguments TMatrix {F}.
Arguments base0 {F}. Arguments kdivn {F}. Arguments ones_times {F}. Arguments np_diff {F}. Arguments mk_identity {F}. Arguments mk_over {F}. Arguments mk_conv {F}. Arguments mk_gauss {F}. Arguments mk_overM {F}. Arguments mk_custom {F}. Arguments mk_exp {F}. Arguments einsum_call {F}. Arguments einsum_grad {F}. Arguments einsum_mat {F}. Arguments concat3 {F}. Arguments concat2 {F}. Arguments conv_at {F}. Arguments upd_col {F}. Arguments add_offset {F}. Arguments cols_lo {F}. Arguments cols_hi {F}. Arguments cols3_lo {F}. Arguments cols3_hi {F}.

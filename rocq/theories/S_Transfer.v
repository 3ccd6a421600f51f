(** Specification vocabulary for transfer functions: the model appears only through its class names and the operations of a
    client (building, setting times, calling, gradient). *)
Require Import List Arith.
From Verif Require Import LibBase LibRing LibArr LibCplx M_Transfer.
Import ListNotations.
Set Implicit Arguments.

Section Spec.
Variable F : OField.

(** sum of a list *)
Fixpoint lsumk (l : list F) : F := match l with [] => k0 | x :: l' => kadd x (lsumk l') end.

(** number of padding samples before and after the pulse, as documented in transfer_function.py l.156-176 *)
Definition pads (bt : option (bkind * nat)) (os : nat) : option (nat * nat) :=
  match bt with
  | None => Some (0, 0)
  | Some (BN, p) => Some (p, p)
  | Some (BX, p) => Some (p * os, p * os)
  | Some (BRight, p) => Some (0, p)
  | Some (BUnknown, _) => None
  end.

(** xs is the grid ys with every interval split into os equal parts, ps samples of the first interval's
    length before and pe samples of the last interval's length after *)
Definition is_split_grid (os ps pe : nat) (ys xs : list F) : Prop :=
  length xs = ps + os * length ys + pe /\
  (forall i, i < ps -> nth i xs k0 = kdiv (nth 0 ys k0) (kofnat os)) /\
  (forall i j, i < length ys -> j < os -> nth (ps + (i * os + j)) xs k0 = kdiv (nth i ys k0) (kofnat os)) /\
  (forall i, i < pe -> nth (ps + os * length ys + i) xs k0 = kdiv (nth (length ys - 1) ys k0) (kofnat os)).

(** sum over all entries of the product of gradient component f and an array *)
Definition pairing (m n : nat) (g : nat -> nat -> F) (a : nat -> nat -> F) : F :=
  sumn (S:=KStar F) m (fun i => sumn (S:=KStar F) n (fun k => kmul (g i k) (a i k))).

(** the classes without parts, except CustomMTF: their boundary type, oversampling and number of controls *)
Definition plain (d : desc F) : option (option (bkind * nat) * nat * nat) :=
  match d with
  | DId n => Some (None, 1, n)
  | DOver n bt os => Some (bt, os, n)
  | DConv _ _ n _ => Some (None, 1, n)
  | DGauss _ _ n => Some (None, 1, n)
  | DOverM os bt n _ => Some (bt, os, n)
  | DExp _ os bt _ n => Some (bt, os, n)
  | _ => None
  end.

(** no CustomMTF among the parts *)
Fixpoint no_custom (d : desc F) : Prop :=
  match d with
  | DCustom _ _ _ _ _ _ => False
  | DConc a b | DPar a b | DConcM a b | DParM a b => no_custom a /\ no_custom b
  | _ => True
  end.
(** no part adds padding samples, and all oversampling factors are positive *)
Fixpoint unpadded (d : desc F) : Prop :=
  match d with
  | DCustom _ _ _ _ _ _ => False
  | DConc a b | DPar a b | DConcM a b | DParM a b => unpadded a /\ unpadded b
  | DOver _ bt os | DOverM os bt _ _ | DExp _ os bt _ _ => bt = None /\ os <> 0
  | _ => True
  end.
(** consecutive differences of ts *)
Definition differences (ts ds : list F) : Prop :=
  length ds = length ts - 1 /\ forall i, i < length ds -> nth i ds k0 = ksub (nth (S i) ts k0) (nth i ts k0).
Definition sorted (ts : list F) : Prop := forall i, S i < length ts -> kle (nth i ts k0) (nth (S i) ts k0).
End Spec.
Arguments lsumk {F}.
Arguments is_split_grid {F}. Arguments pairing {F}. Arguments plain {F}. Arguments no_custom {F}. Arguments unpadded {F}. Arguments differences {F}. Arguments sorted {F}.

Section Spec2.
Variable F : OField.
Variable rexp : F -> F.
(** operations that only set times, and operations that only evaluate *)
Definition is_set (o : tfop F) : Prop := match o with TSet _ | TSetAbs _ => True | _ => False end.
Definition is_eval (o : tfop F) : Prop := match o with TCall _ | TGrad _ | TMatrix => True | _ => False end.
(** an object built from d whose times were set (possibly several times, the last time successfully to ys) and which was
    then evaluated any number of times *)
Definition ready (d : desc F) (ys : list F) (t : tf F) : Prop :=
  exists t0 t1 sets evals, build d = Ok t0 /\ Forall is_set sets /\
    set_times (do_ops rexp t0 sets) ys = (t1, Ok tt) /\ Forall is_eval evals /\ t = do_ops rexp t1 evals.
(** number of controls of an object *)
Fixpoint ctrls (d : desc F) : nat :=
  match d with
  | DId n | DOver n _ _ | DConv _ _ n _ | DGauss _ _ n | DOverM _ _ n _ | DCustom _ _ _ _ _ n | DExp _ _ _ _ n => n
  | DConc a _ | DConcM a _ => ctrls a
  | DPar a b | DParM a b => ctrls a + ctrls b
  end.
(** the parts of every concatenation have the same number of controls *)
Fixpoint matched (d : desc F) : Prop :=
  match d with
  | DConc a b | DConcM a b => ctrls a = ctrls b /\ matched a /\ matched b
  | DPar a b | DParM a b => matched a /\ matched b
  | _ => True
  end.
(** no part is a convolution *)
Fixpoint no_conv (d : desc F) : Prop :=
  match d with
  | DConv _ _ _ _ | DGauss _ _ _ => False
  | DConc a b | DPar a b | DConcM a b | DParM a b => no_conv a /\ no_conv b
  | _ => True
  end.
(** the classes that never store a transfer matrix *)
Fixpoint no_matrix (d : desc F) : Prop :=
  match d with
  | DOverM _ _ _ _ | DCustom _ _ _ _ _ _ | DExp _ _ _ _ _ | DConcM _ _ | DParM _ _ => False
  | DConc a b | DPar a b => no_matrix a /\ no_matrix b
  | _ => True
  end.
End Spec2.
Arguments is_set {F}. Arguments is_eval {F}. Arguments ctrls {F}. Arguments matched {F}. Arguments no_conv {F}. Arguments no_matrix {F}.

Section Spec3.
Variable F : OField.
(** an odd, symmetric convolution kernel *)
Definition sym_ker (ker : list F) : Prop :=
  Nat.odd (length ker) = true /\ forall q, q < length ker -> nth (length ker - 1 - q) ker k0 = nth q ker k0.
(** every convolution has a symmetric kernel and a boundary mode that treats both directions alike:
    'reflect', and for GaussianConvolution also 'wrap' and 'constant' *)
Fixpoint sym_convs (d : desc F) : Prop :=
  match d with
  | DConv ker m _ _ => sym_ker ker /\ m = Reflect
  | DGauss ker m _ => sym_ker ker /\ m <> Nearest
  | DConc a b | DPar a b | DConcM a b | DParM a b => sym_convs a /\ sym_convs b
  | _ => True
  end.
(** concatenations of the classes that accept any grid *)
Fixpoint simple (d : desc F) : Prop :=
  match d with
  | DId _ | DOver _ _ _ | DConv _ _ _ _ | DGauss _ _ _ | DOverM _ _ _ _ => True
  | DConc a b => simple a /\ simple b
  | _ => False
  end.
(** matrix transfer functions without offset *)
Definition no_offset (d : desc F) : Prop :=
  match d with DOverM _ _ _ None | DExp _ _ _ None _ | DParM _ _ => True | _ => False end.
End Spec3.
Arguments sym_ker {F}. Arguments sym_convs {F}. Arguments simple {F}. Arguments no_offset {F}.

Section Spec4.
Variable F : OField.
Variable rexp : F -> F.
(** remaining weight of the previous value at the end of sub-step j (counted from 0) of a step of length tau *)
Definition decay (tau rise : F) (os j : nat) : F :=
  rexp (kopp (kdiv (kdiv (kmul (kofnat (j + 1)) tau) (kofnat os)) rise)).
(** response of one control y to an RC low pass with the given rise time: nothing in the starting padding,
    exponential saturation from one value to the next, exponential decay in the final padding *)
Definition exp_response (tau rise : F) (os ps ny : nat) (y : nat -> F) (i : nat) : F :=
  if Nat.ltb i ps then k0 else
  let r := i - ps in
  if Nat.ltb r (os * ny) then
    let e := decay tau rise os (r mod os) in
    kadd (kmul (match r / os with 0 => k0 | S p => y p end) e) (kmul (y (r / os)) (ksub k1 e))
  else kmul (y (ny - 1)) (decay tau rise os (r - os * ny)).
Definition with_offset (off : option F) (x : F) : F := match off with None => x | Some c => kadd x c end.
End Spec4.
Arguments decay {F}. Arguments exp_response {F}. Arguments with_offset {F}.

Section Spec5.
Variable F : OField.
Variable rexp : F -> F.
(** gradient_chain_rule of the object t is the transpose of the linear part of its call: t takes pulses of shape (ny, n) to
    amplitudes of shape (nx, n), and pairing a gradient g with the change of the amplitudes gives the pairing of the returned
    gradient h with the change of the pulse *)
Definition transposes (t : tf F) (ny nx n : nat) : Prop :=
  (forall y x, wfa [ny; n] y -> snd (call rexp t y) = Ok x -> wfa [nx; n] x) /\
  forall f y y' g x x' h, wfa [ny; n] y -> wfa [ny; n] y' -> wfa [nx; f; n] g ->
    snd (call rexp t y) = Ok x -> snd (call rexp t y') = Ok x' -> snd (grad rexp t g) = Ok h ->
    wfa [ny; f; n] h /\
    forall q, q < f ->
      ksub (pairing nx n (fun i k => get3 k0 g i q k) (get2 k0 x')) (pairing nx n (fun i k => get3 k0 g i q k) (get2 k0 x)) =
      ksub (pairing ny n (fun i k => get3 k0 h i q k) (get2 k0 y')) (pairing ny n (fun i k => get3 k0 h i q k) (get2 k0 y)).
End Spec5.

(** Model of qopt/noise.py: sampling of the Gaussian distribution, coloured noise, the noise trace generators.

    The list of standard deviations is an object of the caller (the generator keeps a reference and writes into it) and
    lives in a heap, as do the arrays of samples.  np.random.randn takes consecutive numbers of a stream.  scipy's erfinv,
    np.sqrt, the constant np.sqrt(2) and the roots of unity of numpy.fft are parameters.  Standard deviations are floats
    in a python list (or a float array); counts are None or natural numbers; the extension ratio is an integer.
    RecursionError is a RuntimeError; after one the count of used random numbers is not tracked.  RuntimeWarning (raised)
    and ZeroDivisionError are PyException.  The bell curves and
    sample_2dim_gaussian_distribution are in M_Bell.v.  Not modelled: plotting. *)
Require Import List Arith Bool.
From Verif Require Import LibBase LibRing LibArr LibCplx.
Import ListNotations.
Open Scope res_scope.
Open Scope k_scope.
Set Implicit Arguments.

Section Noise.
Variable F : OField.
Notation arrF := (arr (kcar F)).
Variables erfinv sqrt : F -> F.
Variable sqrt2 : F.
(** the stream of np.random.randn *)
Variable rnd : nat -> F.
(** exp(2 pi i / n) *)
Variable root : nat -> cplx F.

(** inverse_cumulative_gaussian_distribution_function, noise.py l.105-127 *)
Definition inverse_cumulative (z std mean : F) : F := std * sqrt2 * erfinv ((1 + 1) * z - 1) + mean.
(** sample_1dim_gaussian_distribution, l.130-169; np.linspace(0, 1, n, endpoint=False) is arange(n) * (1 / n) + 0;
    1 / (2 * n_samples) raises ZeroDivisionError for no sample *)
Definition gauss (std : F) (n : nat) (mean : F) : res (list F) :=
  if Nat.eqb n 0 then Err PyException else
  Ok (map (fun i => inverse_cumulative (kofnat i * (1 / kofnat n) + 0 + 1 / kofnat (2 * n)) std mean) (seq 0 n)).

(** np.mean, np.std *)
Definition total (l : list F) : F := fold_left kadd l 0.
Definition np_mean (l : list F) : F := total l / kofnat (length l).
Definition np_std (l : list F) : F := let m := np_mean l in sqrt (np_mean (map (fun x => (x - m) * (x - m)) l)).

(** ---- fast_colored_noise, l.251-310 ---- *)
(** int(2 ** np.ceil(np.log2(n))), l.296; 2 ** -inf is 0; exact arithmetic: np.log2 of a number above 2^48 may round down *)
Definition pow2_up (n : nat) : nat := if Nat.eqb n 0 then 0%nat else Nat.pow 2 (Nat.log2_up n).
Fixpoint cpow (z : cplx F) (n : nat) : cplx F := match n with O => c1 | S n => cmul z (cpow z n) end.
(** np.linspace(0, stop, num), l.303 *)
Definition linspace0 (stop : F) (num j : nat) : F := if Nat.leb num 1 then 0 else kofnat j * (stop / kofnat (num - 1)).
(** np.fft.rfft of x of length n: entry j for j <= n // 2 *)
Definition rfft (n : nat) (x : nat -> F) (j : nat) : cplx F :=
  sumn (S:=CStar F) n (fun k => cmul (cofk (x k)) (cpow (cconj (root n)) (j * k))).
(** np.fft.irfft(y, n): the imaginary parts of the first and, for even n, of the last entry are ignored *)
Definition irfft (n : nat) (y : nat -> cplx F) (k : nat) : F :=
  (cre (y 0%nat)
   + sumn (S:=KStar F) ((n - 1) / 2) (fun j => (1 + 1) * cre (cmul (y (S j)) (cpow (root n) (S j * k))))
   + (if Nat.even n then cre (y (n / 2)%nat) * cre (cpow (root n) (n / 2 * k)) else 0)) / kofnat n.
(** the frequencies, l.303, and the spectral density at them, l.304-305 *)
Definition frequency (dt : F) (n j : nat) : F := linspace0 (1 / dt / (1 + 1)) (n / 2 + 1) j.
Definition density (sd : F -> F) (dt : F) (n j : nat) : F := if Nat.eqb j 0 then 0 else sd (frequency dt n j).
(** one trace: filtered white noise, l.292-294, 301-307; the spectral density acts elementwise *)
Definition colour (sd : F -> F) (dt : F) (n : nat) (x : nat -> F) : nat -> F :=
  let s0 := 1 / (1 / dt / (1 + 1)) in
  irfft n (fun j => cmul (rfft n x j) (cofk (sqrt (density sd dt n j / s0)))).
(** fast_colored_noise with output_shape (m1, m2), drawing from position p of the stream; 1 / dt raises
    ZeroDivisionError, a transform of length 0 ValueError *)
Definition fast_colored_noise (sd : F -> F) (dt : F) (n m1 m2 : nat) (r_power_of_two : bool) (p : nat) : nat * res arrF :=
  if keqb dt 0 then (p, Err PyException) else
  let an := if r_power_of_two then pow2_up n else n in
  if Nat.eqb an 0 then (p, Err ValueError) else
  ((p + m1 * m2 * an)%nat, Ok (mk3 m1 m2 an (fun i j k => colour sd dt an (fun k => rnd (p + (i * m2 + j) * an + k)) k))).

(** ---- generators ---- *)
Inductive mode := MDeterministic | MMonteCarlo | MOther.
(** NTGQuasiStatic: reference to standard_deviation, sampling_mode; NTGColoredNoise: spectral density, dt, ratio *)
Inductive kind := QuasiStatic (stds : nat) (m : mode) | Coloured (sd : F -> F) (dt : F) (ratio : nat).
Record gen := mkgen { g_samples : option nat; g_nsamp : option nat; g_ntr : option nat; g_nops : option nat; g_redraw : bool; g_kind : kind }.
(** lists and arrays of the process, used random numbers *)
Record world := mkw { w_lists : list (list F); w_arrays : list arrF; w_used : nat }.
Definition the_list (w : world) (a : nat) : list F := nth a (w_lists w) [].
Definition the_array (w : world) (a : nat) : arrF := nth a (w_arrays w) (Arr [] []).
Definition new_array (w : world) (a : arrF) : world * nat := (mkw (w_lists w) (w_arrays w ++ [a]) (w_used w), length (w_arrays w)).
Definition set_samples (g : gen) (a : nat) : gen := mkgen (Some a) (g_nsamp g) (g_ntr g) (g_nops g) (g_redraw g) (g_kind g).
(** if x: *)
Definition truthy (o : option nat) : option nat := match o with Some (S n) => Some (S n) | _ => None end.
Definition setn {A} (l : list A) (i : nat) (x : A) : list A := firstn i l ++ match skipn i l with [] => [] | _ :: r => x :: r end.

(** the loop of l.500-505 over the zero array, as a function of operator and trace *)
Definition put (f : nat -> nat -> F) (i t : nat) (v : F) : nat -> nat -> F := fun a b => if Nat.eqb a i && Nat.eqb b t then v else f a b.
Definition fill (stds : list F) (n : nat) : res (nat -> nat -> F) :=
  foldM (fun f p => s <- gauss (snd p) n 0 ;; Ok (fold_left (fun f j => put f (fst p) (fst p * n + j) (nth j s 0)) (seq 0 n) f))
        (combine (seq 0 (length stds)) stds) (fun _ _ => 0).

(** NTGQuasiStatic._sample_noise, l.485-517.  A count that is None or 0 is looked up in noise_samples (l.360-382, 466-483), which
    samples again, without end *)
Definition sample_quasi_static (stds : list F) (m : mode) (g : gen) (w : world) : (world * gen) * res unit :=
  let l := length stds in
  match m with
  | MDeterministic =>
      match g_ntr g, truthy (g_nsamp g) with
      | None, _ => ((w, g), Err TypeError)
      | Some n, None => ((w, g), Err RuntimeError)
      | Some n, Some t =>
          match fill stds n with
          | Err e => let '(w, a) := new_array w (mk3 l (n * l) t (fun _ _ _ => 0)) in ((w, set_samples g a), Err e)
          | Ok f => let '(w, a) := new_array w (mk3 l (n * l) t (fun i j _ => f i j)) in ((w, set_samples g a), Ok tt)
          end
      end
  | MMonteCarlo =>
      match truthy (g_ntr g) with
      | None => ((w, g), Err RuntimeError)
      | Some n =>
          let v := fun i j => nth i stds 0 * rnd (w_used w + i * n + j) in
          let '(w, a) := new_array (mkw (w_lists w) (w_arrays w) (w_used w + l * n)) (mk3 l n 1 (fun i j _ => v i j)) in
          let g := set_samples g a in
          match truthy (g_nsamp g), g_redraw g with
          | None, true => ((w, g), Err RuntimeError)
          | None, false => let '(w, a) := new_array w (mk3 l n 1 (fun i j _ => v i j)) in ((w, set_samples g a), Ok tt)
          | Some t, _ => let '(w, a) := new_array w (mk3 l n t (fun i j _ => v i j)) in ((w, set_samples g a), Ok tt)
          end
      end
  | MOther => ((w, g), Err ValueError)
  end.
(** NTGColoredNoise._sample_noise, l.591-607 *)
Definition sample_coloured (sd : F -> F) (dt : F) (ratio : nat) (g : gen) (w : world) : (world * gen) * res unit :=
  match g_nops g, g_ntr g, g_nsamp g with
  | None, _, _ | _, None, _ | _, _, None => ((w, g), Err ValueError)
  | Some l, Some n, Some t =>
      if Nat.eqb t 0 || Nat.eqb l 0 || Nat.eqb n 0 then ((w, g), Err RuntimeError) else
      let '(p, r) := fast_colored_noise sd dt (t * ratio) l n false (w_used w) in
      let w := mkw (w_lists w) (w_arrays w) p in
      match r with
      | Err e => ((w, g), Err e)
      | Ok a => let '(w, b) := new_array w (mk3 (dim0 a) (dim1 a) (Nat.min (dim2 a) t) (fun i j k => get3 0 a i j k)) in ((w, set_samples g b), Ok tt)
      end
  end.
Definition sample_noise (g : gen) (w : world) : (world * gen) * res unit :=
  match g_kind g with
  | QuasiStatic a m => sample_quasi_static (the_list w a) m g w
  | Coloured sd dt ratio => sample_coloured sd dt ratio g w
  end.
(** NoiseTraceGenerator.noise_samples, l.354-358: the array, by reference *)
Definition noise_samples (g : gen) (w : world) : (world * gen) * res nat :=
  match g_samples g, g_redraw g with
  | Some a, false => ((w, g), Ok a)
  | _, _ =>
      match sample_noise g w with
      | (s, Err e) => (s, Err e)
      | ((w, g), Ok _) => match g_samples g with Some a => ((w, g), Ok a) | None => ((w, g), Err PyException) end
      end
  end.
(** NTGQuasiStatic.n_traces, l.466-483; for NTGColoredNoise l.368-374 *)
Definition n_traces (g : gen) (w : world) : (world * gen) * res nat :=
  match truthy (g_ntr g), g_kind g with
  | Some n, QuasiStatic a MDeterministic => ((w, g), Ok (n * length (the_list w a))%nat)
  | Some n, QuasiStatic _ MOther => ((w, g), Err ValueError)
  | Some n, _ => ((w, g), Ok n)
  | None, _ =>
      match noise_samples g w with
      | (s, Err e) => (s, Err e)
      | ((w, g), Ok a) => ((w, g), Ok (dim1 (the_array w a)))
      end
  end.

(** 1e-20, l.460 *)
Definition ten : F := let two := 1 + 1 in two * (two * two + 1).
Definition tiny : F := 1 / Nat.iter 20 (fun x => ten * x) 1.
(** self.standard_deviation[i] *= ..., l.463-464 *)
Definition set_std (w : world) (a i : nat) (v : F) : world := mkw (setn (w_lists w) a (setn (the_list w a) i v)) (w_arrays w) (w_used w).
(** the loop over the standard deviations, l.454-464 *)
Fixpoint correct (a : nat) (is : list nat) (g : gen) (w : world) : (world * gen) * res unit :=
  match is with
  | [] => ((w, g), Ok tt)
  | i :: is =>
      match n_traces g w with
      | (s, Err e) => (s, Err e)
      | ((w, g), Ok n) =>
          let std := nth i (the_list w a) 0 in
          match gauss std n 0 with
          | Err e => ((w, g), Err e)
          | Ok samples =>
              if kltb (np_std samples) tiny then ((w, g), Err RuntimeError)
              else correct a is g (set_std w a i (std * (std / np_std samples)))
          end
      end
  end.
(** NTGQuasiStatic.__init__, l.433-464, and NoiseTraceGenerator.__init__, l.344-352 *)
Definition new_quasi_static (stds : nat) (nsamp ntr samples : option nat) (redraw correction : bool) (m : mode) (w : world) : world * res gen :=
  let l := length (the_list w stds) in
  let g := mkgen samples nsamp ntr (Some l) redraw (QuasiStatic stds m) in
  if correction then
    match n_traces g w with
    | ((w, _), Err e) => (w, Err e)
    | ((w, g), Ok n) =>
        if Nat.eqb n 1 then (w, Err PyException) else
        match m with
        | MDeterministic => match correct stds (seq 0 l) g w with ((w, g), Ok _) => (w, Ok g) | ((w, _), Err e) => (w, Err e) end
        | _ => (w, Ok g)
        end
    end
  else (w, Ok g).
(** NTGColoredNoise.__init__, l.569-589; dt: None for a sequence *)
Definition new_coloured (nsamp ntr nops : option nat) (sd : F -> F) (dt : option F) (redraw : bool) (ratio : nat) (w : world) : world * res gen :=
  if Nat.ltb ratio 1 then (w, Err ValueError) else
  match dt with None => (w, Err ValueError) | Some dt => (w, Ok (mkgen None nsamp ntr nops redraw (Coloured sd dt ratio))) end.

(** ---- a client: creates lists, arrays and generators, reads samples and trace numbers, sets always_redraw_samples ---- *)
Inductive event :=
| NewList (l : list F)
| NewArray (a : arrF)
| NewQuasiStatic (stds : nat) (nsamp ntr samples : option nat) (redraw correction : bool) (m : mode)
| NewColoured (nsamp ntr nops : option nat) (sd : F -> F) (dt : option F) (redraw : bool) (ratio : nat)
| Read (i : nat)
| ReadTraces (i : nat)
| SetRedraw (i : nat) (b : bool).
Definition state := (world * list gen)%type.
Definition made (s : world * res gen) (gs : list gen) : state := (fst s, match snd s with Ok g => gs ++ [g] | Err _ => gs end).
Definition on {A} (f : gen -> world -> (world * gen) * res A) (i : nat) (s : state) : state :=
  match nth_error (snd s) i with
  | None => s
  | Some g => let '((w, g), _) := f g (fst s) in (w, setn (snd s) i g)
  end.
Definition step (s : state) (e : event) : state :=
  match e with
  | NewList l => (mkw (w_lists (fst s) ++ [l]) (w_arrays (fst s)) (w_used (fst s)), snd s)
  | NewArray a => (fst (new_array (fst s) a), snd s)
  | NewQuasiStatic stds nsamp ntr samples redraw correction m => made (new_quasi_static stds nsamp ntr samples redraw correction m (fst s)) (snd s)
  | NewColoured nsamp ntr nops sd dt redraw ratio => made (new_coloured nsamp ntr nops sd dt redraw ratio (fst s)) (snd s)
  | Read i => on noise_samples i s
  | ReadTraces i => on n_traces i s
  | SetRedraw i b => on (fun g w => ((w, mkgen (g_samples g) (g_nsamp g) (g_ntr g) (g_nops g) b (g_kind g)), Ok tt)) i s
  end.
Definition run (es : list event) (s : state) : state := fold_left step es s.
Definition start : state := (mkw [] [] 0, []).
End Noise.
Arguments inverse_cumulative {F}. Arguments gauss {F}. Arguments total {F}. Arguments np_mean {F}. Arguments np_std {F}. Arguments linspace0 {F}. Arguments frequency {F}. Arguments density {F}. Arguments put {F}. Arguments fill {F}. Arguments ten {F}. Arguments tiny {F}. Arguments start {F}.
Arguments QuasiStatic {F}. Arguments Coloured {F}. Arguments mkgen {F}. Arguments mkw {F}. Arguments NewList {F}. Arguments NewArray {F}. Arguments NewQuasiStatic {F}. Arguments NewColoured {F}. Arguments Read {F}. Arguments ReadTraces {F}. Arguments SetRedraw {F}.

(** Theorems about qopt/noise.py, properties C57 to C61 and C63 to C65 of properties.jsonl.  Statements only; the proofs are
    in P_Noise.v, P_NoiseStd.v, P_NoiseHist.v, P_NoiseFft.v; the concrete cases and the refuting run in P_NoiseWit.v. *)
Require Import List Arith Lia Bool Reals.
From Verif Require Import LibBase LibRing LibArr LibCplx M_Noise S_Noise P_Noise P_NoiseStd P_NoiseHist P_NoiseFft P_NoiseWit.
Import ListNotations.
Open Scope k_scope.
Set Implicit Arguments.
Local Notation RF := RField.

(** ---------- C57: quasi-static traces ---------- *)
Theorem c57_deterministic : forall (F : OField) (erfinv : F -> F) (sqrt : F -> F) (sqrt2 : F) (rnd : nat -> F) (root : nat -> cplx F) s (g g' : gen F) w w' a,
  g_kind g = QuasiStatic s MDeterministic -> drawn g -> (noise_samples erfinv sqrt sqrt2 rnd root) g w = ((w', g'), Ok a) ->
  exists n t, g_ntr g = Some n /\ g_nsamp g = Some t /\ wfa [length (the_list w s); n * length (the_list w s); t]%nat (the_array w' a) /\
   quasi_static (get3 0 (the_array w' a)) (length (the_list w s)) n (n * length (the_list w s)) t (fun i j => (sample erfinv sqrt2) (nth i (the_list w s) 0) 0 n j)
   /\ (n <> 0%nat -> (n_traces erfinv sqrt sqrt2 rnd root) g' w' = ((w', g'), Ok (n * length (the_list w s))%nat)).
Proof. exact @deterministic_traces. Qed.
Print Assumptions c57_deterministic.
Theorem c57_returns : forall (F : OField) (erfinv : F -> F) (sqrt : F -> F) (sqrt2 : F) (rnd : nat -> F) (root : nat -> cplx F) s (g : gen F) w n t,
  g_kind g = QuasiStatic s MDeterministic -> g_ntr g = Some (S n) -> g_nsamp g = Some (S t) ->
  exists w' g' a, (noise_samples erfinv sqrt sqrt2 rnd root) g w = ((w', g'), Ok a).
Proof. exact @deterministic_returns. Qed.
Print Assumptions c57_returns.
Theorem c57_monte_carlo : forall (F : OField) (erfinv : F -> F) (sqrt : F -> F) (sqrt2 : F) (rnd : nat -> F) (root : nat -> cplx F) s (g g' : gen F) w w' a,
  g_kind g = QuasiStatic s MMonteCarlo -> drawn g -> g_nsamp g <> None -> g_nsamp g <> Some 0%nat -> (noise_samples erfinv sqrt sqrt2 rnd root) g w = ((w', g'), Ok a) ->
  exists n t, g_ntr g = Some n /\ g_nsamp g = Some t /\ wfa [length (the_list w s); n; t] (the_array w' a) /\ w_used w' = (w_used w + length (the_list w s) * n)%nat /\
   (forall i j k, (i < length (the_list w s))%nat -> (j < n)%nat -> (k < t)%nat -> get3 0 (the_array w' a) i j k = nth i (the_list w s) 0 * rnd (w_used w + (i * n + j))%nat)
   /\ (n_traces erfinv sqrt sqrt2 rnd root) g' w' = ((w', g'), Ok n).
Proof. exact @monte_carlo_traces. Qed.
Print Assumptions c57_monte_carlo.
Example c57_case : exists w' g' a, g_kind (gen1 2 4 MDeterministic) = QuasiStatic 0 MDeterministic /\ drawn (gen1 2 4 MDeterministic) /\
  noise_samples cube rsqrt rsqrt2 rstream croot (gen1 2 4 MDeterministic) (wlist [1; 2]%R) = ((w', g'), Ok a).
Proof. destruct det_reads as (w' & g' & a & E). exists w', g', a. split; [reflexivity|]. split; [now left|exact E]. Qed.
Example c57_case_mc : exists w' g' a, noise_samples cube rsqrt rsqrt2 rstream croot (gen1 2 4 MMonteCarlo) (wlist [1; 2]%R) = ((w', g'), Ok a).
Proof. exact mc_reads. Qed.

(** ---------- C58: discrete Gaussian samples ---------- *)
Theorem c58_symmetric : forall (F : OField) (erfinv : F -> F) (sqrt2 : F) std n m l,
  odd erfinv -> (gauss erfinv sqrt2) std n m = Ok l ->
  length l = n /\ (forall j, (j < n)%nat -> nth j l 0 - m = m - nth (n - 1 - j) l 0) /\ is_mean n (fun j => nth j l 0) m.
Proof. exact @gauss_symmetric. Qed.
Print Assumptions c58_symmetric.
Theorem c58_std_partial : forall (F : OField) (erfinv : F -> F) (sqrt : F -> F) (sqrt2 : F) (rnd : nat -> F) (root : nat -> cplx F) stds t n samples redraw w w1 w2 g g' a std,
  is_sqrt sqrt -> the_list w stds = [std] -> 0 < std ->
  (new_quasi_static erfinv sqrt sqrt2 rnd root) stds (Some t) (Some (S n)) samples redraw true MDeterministic w = (w1, Ok g) -> drawn g ->
  (noise_samples erfinv sqrt sqrt2 rnd root) g w1 = ((w2, g'), Ok a) ->
  exists s, quasi_static (get3 0 (the_array w2 a)) 1 (S n) (S n) t s /\ is_std (S n) (s 0%nat) std.
Proof. exact @corrected_one. Qed.
Print Assumptions c58_std_partial.
Theorem c58_std_all_partial : forall (F : OField) (erfinv : F -> F) (sqrt : F -> F) (sqrt2 : F) (rnd : nat -> F) (root : nat -> cplx F) stds t n samples redraw w w1 w2 g g' a,
  is_sqrt sqrt -> (forall i, (i < length (the_list w stds))%nat -> 0 < nth i (the_list w stds) 0) ->
  (new_quasi_static erfinv sqrt sqrt2 rnd root) stds (Some t) (Some (S n)) samples redraw true MDeterministic w = (w1, Ok g) -> drawn g ->
  (noise_samples erfinv sqrt sqrt2 rnd root) g w1 = ((w2, g'), Ok a) ->
  exists s u u', is_std (S n) (fun j => (sample erfinv sqrt2) 1 0 (S n) j) u /\ is_std (S n * length (the_list w stds)) (fun j => (sample erfinv sqrt2) 1 0 (S n * length (the_list w stds)) j) u' /\
   quasi_static (get3 0 (the_array w2 a)) (length (the_list w stds)) (S n) (S n * length (the_list w stds)) t s /\
   forall i, (i < length (the_list w stds))%nat -> exists d, is_std (S n) (s i) d /\ 0 < u' /\ d * u' = nth i (the_list w stds) 0 * u.
Proof. exact @corrected_std. Qed.
Print Assumptions c58_std_all_partial.
Theorem c58_returns : forall (F : OField) (erfinv : F -> F) (sqrt : F -> F) (sqrt2 : F) (rnd : nat -> F) (root : nat -> cplx F) stds nsamp n samples redraw w,
  is_sqrt sqrt -> odd erfinv -> 0 < sqrt2 -> positive erfinv -> (2 <= S n * length (the_list w stds))%nat ->
  exists u, is_std (S n * length (the_list w stds)) (fun j => (sample erfinv sqrt2) 1 0 (S n * length (the_list w stds)) j) u /\ 0 < u /\
   ((forall i, (i < length (the_list w stds))%nat -> 0 <= nth i (the_list w stds) 0 /\ tiny <= nth i (the_list w stds) 0 * u) ->
    exists w' g, (new_quasi_static erfinv sqrt sqrt2 rnd root) stds nsamp (Some (S n)) samples redraw true MDeterministic w = (w', Ok g)).
Proof. exact @corrected_returns. Qed.
Print Assumptions c58_returns.
Theorem c58_single_refuted : forall (F : OField) (erfinv : F -> F) (sqrt : F -> F) (sqrt2 : F) (rnd : nat -> F) (root : nat -> cplx F) a t s1 s2 redraw w,
  is_sqrt sqrt -> odd erfinv -> 0 < sqrt2 -> positive erfinv -> the_list w a = [s1; s2] -> t <> 0%nat ->
  0 < s1 -> 0 < s2 -> tiny <= s1 * (sqrt2 * erfinv (1 / (1 + 1))) -> tiny <= s2 * (sqrt2 * erfinv (1 / (1 + 1))) ->
  exists w1 g, (new_quasi_static erfinv sqrt sqrt2 rnd root) a (Some t) (Some 1%nat) None redraw true MDeterministic w = (w1, Ok g) /\
   forall w2 g' b, (noise_samples erfinv sqrt sqrt2 rnd root) g w1 = ((w2, g'), Ok b) -> wfa [2; 2; t]%nat (the_array w2 b) /\
    forall i j k, (i < 2)%nat -> (j < 2)%nat -> (k < t)%nat -> get3 0 (the_array w2 b) i j k = 0.
Proof. exact @single_trace_zero. Qed.
Print Assumptions c58_single_refuted.
Theorem c58_two_refuted : forall (F : OField) (erfinv : F -> F) (sqrt : F -> F) (sqrt2 : F) (rnd : nat -> F) (root : nat -> cplx F) a t samples redraw w w1 w2 g g' b s1 s2,
  is_sqrt sqrt -> odd erfinv -> 0 < sqrt2 -> positive erfinv -> midpoint_convex erfinv ->
  the_list w a = [s1; s2] -> 0 < s1 -> 0 < s2 ->
  (new_quasi_static erfinv sqrt sqrt2 rnd root) a (Some t) (Some 2%nat) samples redraw true MDeterministic w = (w1, Ok g) -> drawn g ->
  (noise_samples erfinv sqrt sqrt2 rnd root) g w1 = ((w2, g'), Ok b) ->
  exists s d1 d2, quasi_static (get3 0 (the_array w2 b)) 2 2 4 t s /\ is_std 2 (s 0%nat) d1 /\ is_std 2 (s 1%nat) d2 /\ d1 < s1 /\ d2 < s2.
Proof. exact @two_operators_small. Qed.
Print Assumptions c58_two_refuted.
Example c58_case : odd (F:=RF) cube /\ is_sqrt (F:=RF) rsqrt /\ exists w1 g w2 g' a, the_list (wone k1) 0 = [k1 : RF] /\
  new_quasi_static cube rsqrt rsqrt2 rstream croot 0 (Some 4%nat) (Some 2%nat) None false true MDeterministic (wone k1) = (w1, Ok g) /\ drawn g /\
  noise_samples cube rsqrt rsqrt2 rstream croot g w1 = ((w2, g'), Ok a).
Proof. split; [apply cube_odd|]. split; [apply rsqrt_ok|]. destruct one_corrected as (w1 & g & w2 & g' & a & H). exists w1, g, w2, g', a. split; [reflexivity|exact H]. Qed.
Example c58_case_two : 0 < rsqrt2 /\ positive (F:=RF) cube /\ midpoint_convex (F:=RF) cube /\ exists s w1 g w2 g' a, (0 < s)%R /\
  new_quasi_static cube rsqrt rsqrt2 rstream croot 0 (Some 4%nat) (Some 2%nat) None false true MDeterministic (wtwo s) = (w1, Ok g) /\ drawn g /\
  noise_samples cube rsqrt rsqrt2 rstream croot g w1 = ((w2, g'), Ok a).
Proof. split; [apply rsqrt2_pos|]. split; [apply cube_positive|]. split; [apply cube_convex|apply two_corrected]. Qed.

(** ---------- C59: data of the caller ---------- *)
Theorem c59_unchanged_partial : forall (F : OField) (erfinv : F -> F) (sqrt : F -> F) (sqrt2 : F) (rnd : nat -> F) (root : nat -> cplx F) es s a l,
  Forall (fun e => corrects e = false) es -> nth_error (w_lists (fst s)) a = Some l -> nth_error (w_lists (fst ((run erfinv sqrt sqrt2 rnd root) es s))) a = Some l.
Proof. exact @lists_unchanged. Qed.
Print Assumptions c59_unchanged_partial.
Theorem c59_same_noise_partial : forall (F : OField) (erfinv : F -> F) (sqrt : F -> F) (sqrt2 : F) (rnd : nat -> F) (root : nat -> cplx F) es s a l g1 g2 w1 w2 g1' g2' b1 b2,
  Forall (fun e => corrects e = false) es -> nth_error (w_lists (fst s)) a = Some l ->
  g_kind g1 = QuasiStatic a MDeterministic -> g_kind g2 = QuasiStatic a MDeterministic -> g_ntr g1 = g_ntr g2 -> g_nsamp g1 = g_nsamp g2 -> drawn g1 -> drawn g2 ->
  (noise_samples erfinv sqrt sqrt2 rnd root) g1 (fst s) = ((w1, g1'), Ok b1) -> (noise_samples erfinv sqrt sqrt2 rnd root) g2 (fst ((run erfinv sqrt sqrt2 rnd root) es s)) = ((w2, g2'), Ok b2) ->
  the_array w1 b1 = the_array w2 b2.
Proof. exact @same_noise. Qed.
Print Assumptions c59_same_noise_partial.
Theorem c59_refuted : forall (F : OField) (erfinv : F -> F) (sqrt : F -> F) (sqrt2 : F) (rnd : nat -> F) (root : nat -> cplx F) a t s0 samples redraw w,
  is_sqrt sqrt -> odd erfinv -> 0 < sqrt2 -> positive erfinv -> the_list w a = [s0] -> 0 < s0 ->
  tiny <= s0 * (sqrt2 * erfinv (1 / (1 + 1))) -> sqrt2 * erfinv (1 / (1 + 1)) <> 1 ->
  exists w1 g, (new_quasi_static erfinv sqrt sqrt2 rnd root) a (Some t) (Some 2%nat) samples redraw true MDeterministic w = (w1, Ok g) /\ the_list w1 a = [s0 / (sqrt2 * erfinv (1 / (1 + 1)))] /\ the_list w1 a <> the_list w a.
Proof. exact @list_overwritten. Qed.
Print Assumptions c59_refuted.
Theorem c59_second_refuted : forall (F : OField) (erfinv : F -> F) (sqrt : F -> F) (sqrt2 : F) (rnd : nat -> F) (root : nat -> cplx F) a t s0 w w1 w2 w3 g1 g2 g3 b,
  is_sqrt sqrt -> odd erfinv -> 0 < sqrt2 -> positive erfinv -> the_list w a = [s0] -> 0 < s0 -> sqrt2 * erfinv (1 / (1 + 1)) <> 1 ->
  (new_quasi_static erfinv sqrt sqrt2 rnd root) a (Some t) (Some 2%nat) None true true MDeterministic w = (w1, Ok g1) -> (new_quasi_static erfinv sqrt sqrt2 rnd root) a (Some t) (Some 2%nat) None true true MDeterministic w1 = (w2, Ok g2) ->
  (noise_samples erfinv sqrt sqrt2 rnd root) g2 w2 = ((w3, g3), Ok b) ->
  exists s d, quasi_static (get3 0 (the_array w3 b)) 1 2 2 t s /\ is_std 2 (s 0%nat) d /\ d <> s0.
Proof. exact @second_generator. Qed.
Print Assumptions c59_second_refuted.
Example c59_case : Forall (fun e => corrects e = false) hist /\ nth_error (w_lists (fst st1)) 0 = Some [1; 2]%R.
Proof. split; [apply hist_ok|reflexivity]. Qed.
Example c59_case_second : rsqrt2 * cube (1 / (1 + 1)) <> 1 /\ exists s w1 g1 w2 g2 w3 g3 b, (0 < s)%R /\
  new_quasi_static cube rsqrt rsqrt2 rstream croot 0 (Some 4%nat) (Some 2%nat) None true true MDeterministic (wone s) = (w1, Ok g1) /\
  new_quasi_static cube rsqrt rsqrt2 rstream croot 0 (Some 4%nat) (Some 2%nat) None true true MDeterministic w1 = (w2, Ok g2) /\
  noise_samples cube rsqrt rsqrt2 rstream croot g2 w2 = ((w3, g3), Ok b).
Proof. split; [exact unit2_neq1|exact twice_corrected]. Qed.

(** ---------- C60: caching ---------- *)
Theorem c60_cached : forall (F : OField) (erfinv : F -> F) (sqrt : F -> F) (sqrt2 : F) (rnd : nat -> F) (root : nat -> cplx F) es s i g w1 g1 a,
  nth_error (snd s) i = Some g -> g_redraw g = false -> (noise_samples erfinv sqrt sqrt2 rnd root) g (fst s) = ((w1, g1), Ok a) -> Forall (no_redraw i) es ->
  exists g2, nth_error (snd ((run erfinv sqrt sqrt2 rnd root) (Read i :: es) s)) i = Some g2 /\
   (noise_samples erfinv sqrt sqrt2 rnd root) g2 (fst ((run erfinv sqrt sqrt2 rnd root) (Read i :: es) s)) = ((fst ((run erfinv sqrt sqrt2 rnd root) (Read i :: es) s), g2), Ok a) /\
   ((a < length (w_arrays w1))%nat -> the_array (fst ((run erfinv sqrt sqrt2 rnd root) (Read i :: es) s)) a = the_array w1 a).
Proof. exact @cached_reads. Qed.
Print Assumptions c60_cached.
Theorem c60_redrawn : forall (F : OField) (erfinv : F -> F) (sqrt : F -> F) (sqrt2 : F) (rnd : nat -> F) (root : nat -> cplx F) s i g w1 g1 a,
  nth_error (snd s) i = Some g -> g_redraw g = true -> (noise_samples erfinv sqrt sqrt2 rnd root) g (fst s) = ((w1, g1), Ok a) ->
  (length (w_arrays (fst s)) <= a < length (w_arrays w1))%nat /\ forall es, exists l, w_arrays (fst ((run erfinv sqrt sqrt2 rnd root) (Read i :: es) s)) = w_arrays w1 ++ l.
Proof. exact @redrawn_reads. Qed.
Print Assumptions c60_redrawn.
Example c60_case : nth_error (snd st1) 0 = Some (gen1 2 4 MMonteCarlo) /\ Forall (no_redraw 0) hist /\
  exists w' g' a, noise_samples cube rsqrt rsqrt2 rstream croot (gen1 2 4 MMonteCarlo) (fst st1) = ((w', g'), Ok a).
Proof. split; [reflexivity|]. split; [apply hist_ok|exact mc_reads]. Qed.
Example c60_case_redraw : exists g w1 g1 a, nth_error (snd st2) 0 = Some g /\ g_redraw g = true /\ noise_samples cube rsqrt rsqrt2 rstream croot g (fst st2) = ((w1, g1), Ok a).
Proof. destruct st2_reads as (w1 & g1 & a & E). eexists. exists w1, g1, a. split; [reflexivity|]. split; [reflexivity|exact E]. Qed.

(** ---------- C61: length of coloured noise ---------- *)
Theorem c61_shape : forall (F : OField) (erfinv : F -> F) (sqrt : F -> F) (sqrt2 : F) (rnd : nat -> F) (root : nat -> cplx F) sd dt ratio g g' w w' a,
  g_kind g = Coloured sd dt ratio -> (1 <= ratio)%nat -> drawn g -> (noise_samples erfinv sqrt sqrt2 rnd root) g w = ((w', g'), Ok a) ->
  exists l n t, g_nops g = Some l /\ g_ntr g = Some n /\ g_nsamp g = Some t /\ wfa [l; n; t] (the_array w' a) /\ w_used w' = (w_used w + l * n * (t * ratio))%nat /\
   forall i j k, (i < l)%nat -> (j < n)%nat -> (k < t)%nat -> get3 0 (the_array w' a) i j k = colour sqrt root sd dt (t * ratio) (fun k => rnd (w_used w + (i * n + j) * (t * ratio) + k)%nat) k.
Proof. exact @coloured_shape. Qed.
Print Assumptions c61_shape.
Theorem c61_returns : forall (F : OField) (erfinv : F -> F) (sqrt : F -> F) (sqrt2 : F) (rnd : nat -> F) (root : nat -> cplx F) sd dt ratio g w l n t,
  g_kind g = Coloured sd dt ratio -> (1 <= ratio)%nat -> dt <> 0 -> g_nops g = Some (S l) -> g_ntr g = Some (S n) -> g_nsamp g = Some (S t) ->
  exists w' g' a, (noise_samples erfinv sqrt sqrt2 rnd root) g w = ((w', g'), Ok a).
Proof. exact @coloured_returns. Qed.
Print Assumptions c61_returns.
Theorem c61_ratios : forall (F : OField) (erfinv : F -> F) (sqrt : F -> F) (sqrt2 : F) (rnd : nat -> F) (root : nat -> cplx F) es,
  forall s, Forall ratio_ok (snd s) -> Forall ratio_ok (snd ((run erfinv sqrt sqrt2 rnd root) es s)).
Proof. exact @ratios. Qed.
Print Assumptions c61_ratios.
Theorem c61_rounded : forall (F : OField) (sqrt : F -> F) rnd root sd dt n m1 m2 p q a,
  fast_colored_noise sqrt rnd root sd dt n m1 m2 true p = (q, Ok a) ->
  exists m, next_pow2 n m /\ wfa [m1; m2; m] a /\ q = (p + m1 * m2 * m)%nat.
Proof. exact @rounded_shape. Qed.
Print Assumptions c61_rounded.
Theorem c61_rounded_returns : forall (F : OField) (sqrt : F -> F) rnd root sd dt n m1 m2 r p,
  dt <> k0 -> n <> 0%nat -> exists q a, fast_colored_noise sqrt rnd root sd dt n m1 m2 r p = (q, Ok a).
Proof. exact @rounded_returns. Qed.
Print Assumptions c61_rounded_returns.
Example c61_case : exists w' g' a, noise_samples cube rsqrt rsqrt2 rstream croot (genc (fun f => f) 3) (wlist []) = ((w', g'), Ok a).
Proof. apply coloured_reads. lia. Qed.
Example c61_case_rounded : next_pow2 5 8 /\ exists q a, fast_colored_noise rsqrt rstream croot (fun f : RF => f) 1 5 2 3 true 0 = (q, Ok a).
Proof. split; [apply (@pow2_up_ok 5); lia|]. apply rounded_returns; [apply k1_neq_0|lia]. Qed.

(** ---------- C63: no offset ---------- *)
Theorem c63_mean : forall (F : OField) (sqrt : F -> F) (root : nat -> cplx F) (rnd : nat -> F) sd dt n m1 m2 r p q a,
  is_sqrt sqrt -> (forall m, m <> 0%nat -> primitive m (root m)) -> (fast_colored_noise sqrt rnd root) sd dt n m1 m2 r p = (q, Ok a) ->
  forall i j, (i < m1)%nat -> (j < m2)%nat -> is_mean (dim2 a) ((fun k => get3 0 a i j k)) 0.
Proof. exact @noise_mean. Qed.
Print Assumptions c63_mean.
(** ---------- C64: spectral density ---------- *)
Theorem c64_power_partial : forall (F : OField) (sqrt : F -> F) (root : nat -> cplx F) (rnd : nat -> F) sd dt n m1 m2 r p q a,
  is_sqrt sqrt -> (forall m, m <> 0%nat -> primitive m (root m)) -> 0 < dt -> (forall f, 0 <= sd f) ->
  (fast_colored_noise sqrt rnd root) sd dt n m1 m2 r p = (q, Ok a) -> Nat.even (dim2 a) = true ->
  forall i j f, (i < m1)%nat -> (j < m2)%nat -> (0 < f <= dim2 a / 2)%nat ->
  (1 + 1) * dt * cnorm2 (transform (dim2 a) (root (dim2 a)) ((fun k => get3 0 a i j k)) f) = sd (kofnat f / (kofnat (dim2 a) * dt)) * cnorm2 (transform (dim2 a) (root (dim2 a)) ((fun k => rnd (p + (i * m2 + j) * (dim2 a) + k)%nat)) f).
Proof. exact @noise_power. Qed.
Print Assumptions c64_power_partial.
Theorem c64_odd_partial : forall (F : OField) (sqrt : F -> F) (root : nat -> cplx F) (rnd : nat -> F) sd dt n m1 m2 r p q a,
  is_sqrt sqrt -> (forall m, m <> 0%nat -> primitive m (root m)) -> 0 < dt -> (forall f, 0 <= sd f) ->
  (fast_colored_noise sqrt rnd root) sd dt n m1 m2 r p = (q, Ok a) -> Nat.even (dim2 a) = false ->
  forall i j f, (i < m1)%nat -> (j < m2)%nat -> (0 < f <= dim2 a / 2)%nat ->
  (1 + 1) * dt * cnorm2 (transform (dim2 a) (root (dim2 a)) ((fun k => get3 0 a i j k)) f) = sd (kofnat f / (kofnat (dim2 a - 1) * dt)) * cnorm2 (transform (dim2 a) (root (dim2 a)) ((fun k => rnd (p + (i * m2 + j) * (dim2 a) + k)%nat)) f).
Proof. exact @noise_power_odd. Qed.
Print Assumptions c64_odd_partial.
Theorem c64_odd_refuted :
  exists (sd : RF -> RF) (dt : RF) (n f : nat) q a,
  klt k0 dt /\ (forall f, kle k0 (sd f)) /\ fast_colored_noise rsqrt impulse croot sd dt n 1 1 false 0 = (q, Ok a) /\ dim2 a = n /\ (0 < f <= n / 2)%nat /\
  ((1 + 1) * dt * cnorm2 (transform n (croot n) (fun k => get3 k0 a 0 0 k) f))%k <> (sd (kofnat f / (kofnat n * dt)) * cnorm2 (transform n (croot n) impulse f))%k.
Proof. exact @odd_spectrum_refuted. Qed.
Print Assumptions c64_odd_refuted.
(** ---------- C65: white noise ---------- *)
Theorem c65_white : forall (F : OField) (sqrt : F -> F) (root : nat -> cplx F) (rnd : nat -> F) dt n m1 m2 r p q a,
  is_sqrt sqrt -> (forall m, m <> 0%nat -> primitive m (root m)) ->
  (fast_colored_noise sqrt rnd root) (fun _ => (1 + 1) * dt) dt n m1 m2 r p = (q, Ok a) ->
  forall i j k m, (i < m1)%nat -> (j < m2)%nat -> (k < dim2 a)%nat -> is_mean (dim2 a) ((fun k => rnd (p + (i * m2 + j) * (dim2 a) + k)%nat)) m ->
  get3 0 a i j k = rnd (p + (i * m2 + j) * dim2 a + k)%nat - m.
Proof. exact @noise_white. Qed.
Print Assumptions c65_white.
Example c63_case : is_sqrt (F:=RF) rsqrt /\ (forall m, m <> 0%nat -> primitive (F:=RF) m (croot m)) /\
  exists q a, fast_colored_noise rsqrt rstream croot (fun f : RF => f * f) 1 4 2 3 false 0 = (q, Ok a).
Proof. split; [apply rsqrt_ok|]. split; [exact croot_primitive|]. apply rounded_returns; [apply k1_neq_0|lia]. Qed.

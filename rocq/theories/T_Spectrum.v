(** Theorems about vector_color_map and plot_energy_spectrum in qopt/energy_spectrum.py, property C82 of properties.jsonl.
    Statements only; the proofs and the concrete cases are in P_Spectrum.v and P_SpectrumWit.v. *)
Require Import List Arith Lia Bool Reals Lra.
From Verif Require Import LibBase LibRing LibArr LibCplx LibMat M_Matrix S_Linear S_Deriv M_Spectrum S_Spectrum P_Spectrum P_SpectrumWit.
Import ListNotations.
Open Scope nat_scope.
Set Implicit Arguments.
Notation herm n := (is_hermitian (S:=CStar RField) n : op RField -> Prop).

(** ---------- C82 ---------- *)
Theorem c82_colours : forall (cmap : R -> list R), color_map cmap -> forall (v : arr RC) n k, wfa [n; k] v -> (forall r, r < n -> exists i, i < k /\ get2 (c0 : RC) v r i <> c0) ->
  exists c, vector_color_map cmap v = Ok c /\ wfa [n; 3] c /\
  forall r, r < n -> is_mixture k (basis_colors cmap k) (fun i => modulus (get2 (c0 : RC) v r i)) (fun j => get2 0%R c r j).
Proof. exact colors_ok. Qed.
Print Assumptions c82_colours.
Theorem c82_ratios : forall (cmap : R -> list R), color_map cmap -> forall (v v' : arr RC) n k, wfa [n; k] v -> wfa [n; k] v' -> (forall r, r < n -> exists i, i < k /\ get2 (c0 : RC) v r i <> c0) ->
  (forall r, r < n -> exists l, (0 < l)%R /\ forall i, i < k -> modulus (get2 (c0 : RC) v' r i) = (l * modulus (get2 (c0 : RC) v r i))%R) ->
  vector_color_map cmap v' = vector_color_map cmap v.
Proof. exact colors_scale. Qed.
Print Assumptions c82_ratios.
Theorem c82_basis : forall cmap (v : arr RC) n k c r i, color_map cmap -> wfa [n; k] v -> (forall r', r' < n -> exists i', i' < k /\ get2 (c0 : RC) v r' i' <> c0) ->
  vector_color_map cmap v = Ok c -> r < n -> i < k -> (forall i', i' < k -> i' <> i -> get2 (c0 : RC) v r i' = c0) ->
  exists s, (0 < s)%R /\ forall j, j < 3 -> basis_colors cmap k i j = (s * get2 0%R c r j)%R.
Proof. exact colors_basis. Qed.
Print Assumptions c82_basis.
Theorem c82_zero : forall (cmap : R -> list R), color_map cmap -> forall (v : arr RC) n k r, wfa [n; k] v -> r < n -> (forall i, i < k -> get2 (c0 : RC) v r i = c0) -> vector_color_map cmap v = Err FloatNaN.
Proof. exact colors_zero. Qed.
Print Assumptions c82_zero.
Theorem c82_spectrum : forall cmap eigh (hams : list (op RField)) x_val d, color_map cmap -> eigh_ok eigh d hams -> hams <> [] -> Forall (herm d) hams -> length x_val = length hams ->
  exists ls, plot_energy_spectrum cmap eigh hams x_val true = Ok ls /\ length ls = d /\
  forall i, i < d -> exists y c, nth_error ls i = Some (x_val, y, Some c) /\ length y = length hams /\ wfa [length hams; 3] c /\
  forall n H, nth_error hams n = Some H -> exists V, is_unitary d V /\ eigenpair d H V i (nth n y 0%R) /\
    is_mixture d (basis_colors cmap d) (fun a => modulus V.[a,i]) (fun j => get2 0%R c n j).
Proof. exact spectrum. Qed.
Print Assumptions c82_spectrum.
Theorem c82_black : forall cmap eigh (hams : list (op RField)) x_val d, eigh_ok eigh d hams -> hams <> [] -> Forall (herm d) hams -> length x_val = length hams ->
  exists ls, plot_energy_spectrum cmap eigh hams x_val false = Ok ls /\ length ls = d /\
  forall i, i < d -> exists y, nth_error ls i = Some (x_val, y, None) /\ length y = length hams /\
  forall n H, nth_error hams n = Some H -> exists V, is_unitary d V /\ eigenpair d H V i (nth n y 0%R).
Proof. exact spectrum_black. Qed.
Print Assumptions c82_black.
Theorem c82_errors : forall cmap eigh (hams : list (op RField)) x_val b, (hams = [] -> plot_energy_spectrum cmap eigh hams x_val b = Err IndexError) /\
  (forall d, d <> 0 -> color_map cmap -> eigh_ok eigh d hams -> hams <> [] -> Forall (herm d) hams -> length x_val <> length hams ->
    plot_energy_spectrum cmap eigh hams x_val b = Err ValueError).
Proof. exact spectrum_errors. Qed.
Print Assumptions c82_errors.
Theorem c82_columns_refuted : exists cmap (v : arr RC), color_map cmap /\ wfa [3; 3] v /\ (forall r, r < 3 -> exists i, i < 3 /\ get2 (c0 : RC) v r i <> c0) /\ (forall q, q < 3 -> exists i, i < 3 /\ get2 (c0 : RC) v i q <> c0) /\
  exists c, vector_color_map cmap v = Ok c /\ wfa [3; 3] c /\
  forall q, q < 3 -> ~ is_mixture 3 (basis_colors cmap 3) (fun i => modulus (get2 (c0 : RC) v i q)) (fun j => get2 0%R c j q).
Proof. exact (ex_intro _ brg (ex_intro _ cyc (conj brg_map (conj (wfa_mk2 _ _ _) (conj cyc_row (conj cyc_col columns_wrong)))))). Qed.
Print Assumptions c82_columns_refuted.
(** the vectors (3/5, 4/5 i) and (30, -40) with matplotlib's map: blue and green mixed 3 : 4 *)
Example c82_case : color_map brg /\ wfa [2; 2] vcase /\ exists c, vector_color_map brg vcase = Ok c /\ forall r, r < 2 -> (get2 0 c r 0 = 0 /\ get2 0 c r 1 = 1 /\ get2 0 c r 2 = 3/4)%R.
Proof. exact (conj brg_map (conj (conj eq_refl eq_refl) vcase_colors)). Qed.
(** two Hamiltonians of a qubit with the eigenvalues 0, 25 and 1, 2 *)
Example c82_case_spectrum : color_map brg /\ eigh_ok eighAB 2 [hA; hB] /\ Forall (herm 2) [hA; hB] /\
  plot_energy_spectrum brg eighAB [hA; hB] [0; 1]%R false = Ok [([0; 1]%R, [0; 1]%R, None); ([0; 1]%R, [25; 2]%R, None)].
Proof. exact (conj brg_map (conj eighAB_ok (conj hAB_herm spectrum_case))). Qed.

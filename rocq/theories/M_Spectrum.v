(** Model of energy_spectrum.py: the colours of eigenvectors and what plot_energy_spectrum draws.

    Real numbers instead of floats.  The colour map 'brg' of matplotlib (a function from [0, 1] to RGBA) and scipy's eigh are
    parameters.  A row that is divided by zero (numpy fills it with nan) is reported as FloatNaN.  The drawing itself is
    matplotlib's; the model returns the arguments of the calls of ax.scatter. *)
Require Import List Arith Bool Reals.
From Verif Require Import LibBase LibRing LibArr LibCplx LibMat M_Matrix S_Deriv.
Import ListNotations.
Open Scope res_scope.
Set Implicit Arguments.

Section Spectrum.
Notation RC := (cplx RField).
(** mpl.cm.get_cmap('brg') on one point: RGBA *)
Variable cmap : R -> list R.
(** scipy.linalg.eigh, matrix.py l.1076: eigenvalues and the matrix with the eigenvectors as columns *)
Variable eigh : op RField -> list R * op RField.

(** np.linspace(0, 1, k, endpoint=True)[i], l.65 *)
Definition lin01 (k i : nat) : R := if Nat.leb k 1 then 0%R else (INR i / INR (k - 1))%R.
(** the colours of the basis vectors without alpha, l.67-68 *)
Definition basis_color (k i : nat) : list R := removelast (cmap (lin01 k i)).
(** np.abs *)
Definition rabs (z : RC) : R := sqrt (fst z * fst z + snd z * snd z).
(** np.einsum('ij, ni -> nj', basis_colors, np.abs(vectors)), l.70 *)
Definition mixed_color (v : arr RC) (n j : nat) : R :=
  Rsum (dim1 v) (fun i => (nth j (basis_color (dim1 v) i) 0 * rabs (get2 (c0 : RC) v n i))%R).
(** np.max(values, axis=-1): three colours *)
Definition brightest (v : arr RC) (n : nat) : R := Rmax (mixed_color v n 0) (Rmax (mixed_color v n 1) (mixed_color v n 2)).
Definition is_zero (x : R) : bool := if Req_EM_T x 0 then true else false.
(** vector_color_map, l.46-76 *)
Definition vector_color_map (v : arr RC) : res (arr R) :=
  check Nat.eqb (rank v) 2 else AssertionError ;;
  if existsb (fun n => is_zero (brightest v n)) (seq 0 (dim0 v)) then Err FloatNaN
  else Ok (mk2 (dim0 v) 3 (fun n j => (mixed_color v n j / brightest v n)%R)).

(** one call of ax.scatter: x, y, colours (None: black) *)
Definition scatter : Type := (list R * list R * option (arr R))%type.
Definition draw (x y : list R) (c : option (arr R)) : res scatter :=
  check Nat.eqb (length x) (length y) else ValueError ;; Ok (x, y, c).
(** plot_energy_spectrum, l.79-128.  hamiltonian[0] of an empty list raises IndexError.  Hamiltonians of different size, or that are
    not square, raise ValueError (not modelled: numpy would broadcast the spectrum of a 1 x 1 matrix into longer rows). *)
Definition plot_energy_spectrum (hams : list (op RField)) (x_val : list R) (use_spectral : bool) : res (list scatter) :=
  match hams with
  | [] => Err IndexError
  | h0 :: _ =>
      let d := nr h0 in
      check forallb (fun h => Nat.eqb (nr h) d && Nat.eqb (nc h) d) hams else ValueError ;;
      let eigenvalues n i := nth i (fst (eigh (nth n hams (Arr [] [])))) 0%R in
      let eigenvectors n a i := rabs (mg (S:=CStar RField) (snd (eigh (nth n hams (Arr [] [])))) a i) in
      let N := length hams in
      mapM (fun i =>
        let y := map (fun n => eigenvalues n i) (seq 0 N) in
        if use_spectral
        then c <- vector_color_map (mk2 N d (fun n a => (cofk (eigenvectors n a i : RField) : RC))) ;; draw x_val y (Some c)
        else draw x_val y None) (seq 0 d)
  end.
End Spectrum.

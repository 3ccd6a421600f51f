(** Theorems about qopt/transfer_function.py, properties C13 to C21 of properties.jsonl.  Statements
    only; the proofs are in the P_Transfer*.v files.  After the theorems of each property there is a
    concrete case. *)
Require Import List Arith Lia Bool ZArith QArith.
From Verif Require Import LibBase LibRing LibArr LibCplx LibMat LibEx M_Transfer S_Transfer P_Transfer P_Transfer2 P_Transfer3
  P_Transfer4 P_Transfer5 P_Transfer6 P_Transfer7 P_TransferWit.
Import ListNotations.
Open Scope nat_scope.
Open Scope res_scope.
Set Implicit Arguments.

(** ---------- C13: the time grid ---------- *)
Theorem c13_grid : forall (F : OField) (rexp : F -> F) d bt os n t ops ys t',
  plain d = Some (bt, os, n) -> os <> 0 -> build d = Ok t ->
  set_times (do_ops rexp t ops) ys = (t', Ok tt) ->
  exists ps pe xs, pads bt os = Some (ps, pe) /\
    b_ny (tbase t') = length ys /\ b_xt (tbase t') = Some xs /\ b_nx (tbase t') = length xs /\
    is_split_grid os ps pe ys xs /\
    lsumk xs = kadd (kadd (kmul (kofnat ps) (kdiv (nth 0 ys k0) (kofnat os))) (lsumk ys))
                    (kmul (kofnat pe) (kdiv (nth (length ys - 1) ys k0) (kofnat os))).
Proof. exact @plain_grid. Qed.
Print Assumptions c13_grid.
Theorem c13_defined : forall (F : OField) (rexp : F -> F) d bt os n t ops ys,
  plain d = Some (bt, os, n) -> os <> 0 -> build d = Ok t -> ys <> [] ->
  (exists t', set_times (do_ops rexp t ops) ys = (t', Ok tt)) <-> pads bt os <> None.
Proof. exact @plain_set_times_defined. Qed.
Print Assumptions c13_defined.
Theorem c13_composed : forall (F : OField) (rexp : F -> F) d t ops ys t',
  no_custom d -> build d = Ok t -> set_times (do_ops rexp t ops) ys = (t', Ok tt) ->
  b_ny (tbase t') = length ys /\
  exists xs, b_xt (tbase t') = Some xs /\ b_nx (tbase t') = length xs /\ (unpadded d -> lsumk xs = lsumk ys).
Proof. exact @tree_grid. Qed.
Print Assumptions c13_composed.
(** CustomMTF whose matrix has exactly the rows its boundary type requires *)
Theorem c13_custom : forall (F : OField) (rexp : F -> F) T nx ny n bt os0 off os ps pe (ys : list F) t0,
  wfa [nx; ny; n] T -> ny <> 0 -> os <> 0 -> pads bt os = Some (ps, pe) -> nx = ps + os * ny + pe -> length ys = ny ->
  build (DCustom T None bt os0 off n) = Ok t0 ->
  exists t xs, set_times t0 ys = (t, Ok tt) /\ b_ny (tbase t) = ny /\ b_nx (tbase t) = nx /\ b_xt (tbase t) = Some xs /\ is_split_grid os ps pe ys xs.
Proof. exact @custom_grid. Qed.
Print Assumptions c13_custom.
(** a second call with another number of times is refused *)
Theorem c13_custom_recount : forall (F : OField) T nx ny n bt os0 off os ps pe (ys zs : list F) t0 t,
  wfa [nx; ny; n] T -> ny <> 0 -> os <> 0 -> pads bt os = Some (ps, pe) -> nx = ps + os * ny + pe -> length ys = ny ->
  build (DCustom T None bt os0 off n) = Ok t0 -> set_times t0 ys = (t, Ok tt) -> length zs <> ny ->
  snd (set_times t zs) = Err (if Nat.eqb (length zs) 1 then TypeError else ValueError).
Proof. exact @custom_recount. Qed.
Print Assumptions c13_custom_recount.
Example c13_custom_recount_case : exists t, set_times (mk_custom (mC 4) None None 1 None 1) (ones 2) = (t, Ok tt) /\ snd (set_times t (ones 3)) = Err ValueError.
Proof. eexists. split; reflexivity. Qed.
Theorem c13_custom_refuted :
  exists t t', build dC = Ok t /\ set_times t (ones 2) = (t', Ok tt) /\ b_yt (tbase t') = None /\
  forall y, wfa [2; 1] y -> exists e, snd (call qexp t' y) = Err e.
Proof. exact @custom_times. Qed.
Print Assumptions c13_custom_refuted.
Theorem c13_custom_twice_refuted :
  exists t u v, build dC2 = Ok t /\ set_times t (ones 2) = (u, Ok tt) /\ set_times u [iq 6; iq 4] = (v, Ok tt) /\
  b_nx (tbase u) = 4 /\ (exists xs, b_xt (tbase u) = Some xs /\ length xs = 4) /\
  b_nx (tbase v) = 4 /\ b_xt (tbase v) = Some [iq 6; iq 4] /\ b_yt (tbase v) = Some (ones 2).
Proof. exact @custom_times_twice. Qed.
Print Assumptions c13_custom_twice_refuted.
Theorem c13_custom_rows_refuted :
  exists t u, build dC3 = Ok t /\ set_times t (ones 2) = (u, Ok tt) /\ b_nx (tbase u) = 4 /\
  forall y, wfa [2; 1] y -> exists x, snd (call qexp u y) = Ok x /\ dim0 x = 5.
Proof. exact @custom_rounded. Qed.
Print Assumptions c13_custom_rows_refuted.
Theorem c13_custom_length_refuted :
  exists t u, build dC2 = Ok t /\ set_times t (ones 3) = (u, Ok tt) /\ b_ny (tbase u) = 3 /\ b_nx (tbase u) = 6 /\
  forall y, wfa [3; 1] y -> snd (call qexp u y) = Err ValueError.
Proof. exact @custom_length. Qed.
Print Assumptions c13_custom_length_refuted.
(** six rows, two columns, one padding sample on each side: oversampling 2 *)
Example c13_custom_case : wfa [6; 2; 1] (mC 6) /\ pads (Some (BN, 1)) 2 = Some (1, 1) /\ 6 = 1 + 2 * 2 + 1 /\
  b_os (tbase (after (DCustom (mC 6) None (Some (BN, 1)) 1 None 1) [TSet (ones 2)])) = 2.
Proof. split; [apply wfa_mk3|]. repeat split; reflexivity. Qed.
Example c13_case : plain (DOver 1 (Some (BX, 1)) 2 : desc Q) = Some (Some (BX, 1), 2, 1) /\
  settable (DOver 1 (Some (BX, 1)) 2) [iq 2; iq 4] = true /\
  b_nx (tbase (after (DOver 1 (Some (BX, 1)) 2) [TSet [iq 2; iq 4]])) = 8 /\
  no_custom (DConc (DOver 1 None 2) (DOver 1 None 3) : desc Q) /\ unpadded (DConc (DOver 1 None 2) (DOver 1 None 3) : desc Q) /\
  b_nx (tbase (after (DConc (DOver 1 None 2) (DOver 1 None 3)) [TSet [iq 2; iq 4]])) = 12.
Proof.
  split; [reflexivity|]. split; [vm_compute; reflexivity|]. split; [vm_compute; reflexivity|]. split; [cbn; auto|].
  split; [cbn; auto|]. vm_compute. reflexivity.
Qed.

(** ---------- C14: OversamplingTF ---------- *)
Theorem c14_call : forall (F : OField) (rexp : F -> F) n bt os ys t y ps pe,
  os <> 0 -> ready rexp (DOver n bt os) ys t -> pads bt os = Some (ps, pe) -> wfa [length ys; n] y ->
  b_nx (tbase t) = ps + os * length ys + pe /\
  exists x, snd (call rexp t y) = Ok x /\ wfa [ps + os * length ys + pe; n] x /\
    (forall i k, i < ps -> k < n -> get2 k0 x i k = k0) /\
    (forall i j k, i < length ys -> j < os -> k < n -> get2 k0 x (ps + (i * os + j)) k = get2 k0 y i k) /\
    (forall i k, i < pe -> k < n -> get2 k0 x (ps + os * length ys + i) k = k0).
Proof. exact @oversampling_call. Qed.
Print Assumptions c14_call.
Theorem c14_wrong_shape : forall (F : OField) (rexp : F -> F) n bt os ys t y sh,
  ready rexp (DOver n bt os) ys t -> wfa sh y -> sh <> [length ys; n] ->
  snd (call rexp t y) = Err IndexError.
Proof. exact @oversampling_wrong_shape. Qed.
Print Assumptions c14_wrong_shape.
Theorem c14_no_times : forall (F : OField) (rexp : F -> F) n bt os y t,
  build (DOver n bt os) = Ok t -> call rexp t y = (t, Err RuntimeError).
Proof. exact @oversampling_no_times. Qed.
Print Assumptions c14_no_times.
Theorem c14_gradient : forall (F : OField) (rexp : F -> F) n bt os ys t g f ps pe,
  os <> 0 -> ready rexp (DOver n bt os) ys t -> pads bt os = Some (ps, pe) ->
  wfa [ps + os * length ys + pe; f; n] g ->
  exists h, snd (grad rexp t g) = Ok h /\ wfa [length ys; f; n] h /\
    forall i q k, i < length ys -> q < f -> k < n -> get3 k0 h i q k = sumn (S:=KStar F) os (fun j => get3 k0 g (ps + (i * os + j)) q k).
Proof. exact @oversampling_grad. Qed.
Print Assumptions c14_gradient.
Example c14_case : ready qexp (DOver 1 (Some (BN, 1)) 2) (ones 2) (after (DOver 1 (Some (BN, 1)) 2) [TSet (ones 2)]) /\
  (exists x, snd (call qexp (after (DOver 1 (Some (BN, 1)) 2) [TSet (ones 2)]) (aq 2 1 [[3]; [7]]%Z)) = Ok x /\ get2 k0 x 4 0 = iq 7) /\
  (exists x, snd (call qexp (after (DOver 1 (Some (BN, 1)) 2) [TSet (ones 2)]) (aq 2 1 [[3]; [7]]%Z)) = Ok x /\ get2 k0 x 5 0 = iq 0).
Proof. split; [apply ready_after; vm_compute; reflexivity|]. split; apply is_entry_ok; vm_compute; reflexivity. Qed.

(** ---------- C15: OversamplingTF and OversamplingMTF ---------- *)
Theorem c15_call : forall (F : OField) (rexp : F -> F) n bt os off ys t tm y sh,
  ready rexp (DOver n bt os) ys t -> ready rexp (DOverM os bt n off) ys tm -> wfa sh y ->
  match snd (call rexp t y), snd (call rexp tm y) with
  | Ok x, Ok xm => exists m, wfa [m; n] x /\ wfa [m; n] xm /\ forall i k, i < m -> k < n -> get2 k0 xm i k = with_offset off (get2 k0 x i k)
  | Err e, Err em => e = em
  | _, _ => False
  end.
Proof. exact @oversampling_matrix_call. Qed.
Print Assumptions c15_call.
Theorem c15_gradient : forall (F : OField) (rexp : F -> F) n bt os off ys t tm g f,
  ready rexp (DOver n bt os) ys t -> ready rexp (DOverM os bt n off) ys tm ->
  wfa [b_nx (tbase t); f; n] g -> snd (grad rexp tm g) = snd (grad rexp t g) /\ snd (grad rexp t g) <> Err ValueError.
Proof. exact @oversampling_matrix_grad. Qed.
Print Assumptions c15_gradient.
Example c15_case : ready qexp (DOver 1 None 2) (ones 2) (after (DOver 1 None 2) [TSet (ones 2)]) /\
  ready qexp (DOverM 2 None 1 (Some (iq 5))) (ones 2) (after (DOverM 2 None 1 (Some (iq 5))) [TSet (ones 2)]) /\
  (exists x, snd (call qexp (after (DOver 1 None 2) [TSet (ones 2)]) (aq 2 1 [[3]; [7]]%Z)) = Ok x /\ get2 k0 x 3 0 = iq 7) /\
  (exists x, snd (call qexp (after (DOverM 2 None 1 (Some (iq 5))) [TSet (ones 2)]) (aq 2 1 [[3]; [7]]%Z)) = Ok x /\ get2 k0 x 3 0 = iq 12).
Proof.
  split; [apply ready_after; vm_compute; reflexivity|]. split; [apply ready_after; vm_compute; reflexivity|].
  split; apply is_entry_ok; vm_compute; reflexivity.
Qed.

(** ---------- C16: the gradient is the transpose ---------- *)
Theorem c16_transpose : forall (F : OField) (rexp : F -> F) d ys t y y' g x x' h f,
  no_custom d -> matched d -> sym_convs d -> ready rexp d ys t ->
  wfa [length ys; ctrls d] y -> wfa [length ys; ctrls d] y' -> wfa [b_nx (tbase t); f; ctrls d] g ->
  snd (call rexp t y) = Ok x -> snd (call rexp t y') = Ok x' -> snd (grad rexp t g) = Ok h ->
  wfa [b_nx (tbase t); ctrls d] x /\ wfa [b_nx (tbase t); ctrls d] x' /\ wfa [length ys; f; ctrls d] h /\
  forall q, q < f ->
    ksub (pairing (b_nx (tbase t)) (ctrls d) (fun i k => get3 k0 g i q k) (get2 k0 x'))
         (pairing (b_nx (tbase t)) (ctrls d) (fun i k => get3 k0 g i q k) (get2 k0 x)) =
    ksub (pairing (length ys) (ctrls d) (fun i k => get3 k0 h i q k) (get2 k0 y'))
         (pairing (length ys) (ctrls d) (fun i k => get3 k0 h i q k) (get2 k0 y)).
Proof. exact @gradient_is_transpose. Qed.
Print Assumptions c16_transpose.
Theorem c16_defined : forall (F : OField) (rexp : F -> F) d ys t,
  simple d -> matched d -> ready rexp d ys t ->
  (forall y, wfa [length ys; ctrls d] y -> exists x, snd (call rexp t y) = Ok x) /\
  (forall g f, wfa [b_nx (tbase t); f; ctrls d] g -> exists h, snd (grad rexp t g) = Ok h).
Proof. exact @simple_call_defined. Qed.
Print Assumptions c16_defined.
(** any transfer function that accepts one pulse accepts all pulses and gradients of the shape *)
Theorem c16_defined_everywhere : forall (F : OField) (rexp : F -> F) d ys t y x,
  no_custom d -> matched d -> ready rexp d ys t -> wfa [length ys; ctrls d] y -> snd (call rexp t y) = Ok x ->
  (forall y', wfa [length ys; ctrls d] y' -> exists x', snd (call rexp t y') = Ok x') /\
  (forall g f, wfa [b_nx (tbase t); f; ctrls d] g -> exists h, snd (grad rexp t g) = Ok h).
Proof. exact @call_total. Qed.
Print Assumptions c16_defined_everywhere.
Theorem c16_asymmetric_kernel_refuted :
  mismatch dA.
Proof. exact @asymmetric_kernel. Qed.
Print Assumptions c16_asymmetric_kernel_refuted.
Theorem c16_mode_refuted :
  sym_ker [iq 1; iq 2; iq 4; iq 2; iq 1] /\ mismatch (DConv [iq 1; iq 2; iq 4; iq 2; iq 1] Constant 1 k0).
Proof. exact @wrong_mode. Qed.
Print Assumptions c16_mode_refuted.
(** CustomMTF *)
Theorem c16_custom : forall (F : OField) (rexp : F -> F) T nx ny n bt os0 off os ps pe (ys : list F) t0 t evals,
  wfa [nx; ny; n] T -> ny <> 0 -> os <> 0 -> pads bt os = Some (ps, pe) -> nx = ps + os * ny + pe -> length ys = ny ->
  build (DCustom T None bt os0 off n) = Ok t0 -> set_times t0 ys = (t, Ok tt) -> Forall is_eval evals ->
  let u := do_ops rexp t evals in
  (forall y, wfa [ny; n] y -> exists x, snd (call rexp u y) = Ok x /\ wfa [nx; n] x /\
     forall i k, i < nx -> k < n -> get2 k0 x i k = with_offset off (sumn (S:=KStar F) ny (fun j => kmul (get3 k0 T i j k) (get2 k0 y j k)))) /\
  (forall g f, wfa [nx; f; n] g -> exists h, snd (grad rexp u g) = Ok h /\ wfa [ny; f; n] h /\
     forall j q k, j < ny -> q < f -> k < n -> get3 k0 h j q k = sumn (S:=KStar F) nx (fun i => kmul (get3 k0 T i j k) (get3 k0 g i q k))) /\
  transposes rexp u ny nx n.
Proof. exact @custom_adjoint. Qed.
Print Assumptions c16_custom.
(** composed objects, whatever the parts are *)
Theorem c16_parts : forall (F : OField) (rexp : F -> F) d ys t,
  no_custom d -> matched d -> sym_convs d -> ready rexp d ys t -> transposes rexp t (length ys) (b_nx (tbase t)) (ctrls d).
Proof. exact @ready_transposes. Qed.
Print Assumptions c16_parts.
Theorem c16_concatenated : forall (F : OField) (rexp : F -> F) b t1 t2 ny m nx n,
  transposes rexp t1 ny m n -> transposes rexp t2 m nx n -> transposes rexp (Conc b t1 t2) ny nx n.
Proof. exact @concat_transposes. Qed.
Print Assumptions c16_concatenated.
Theorem c16_parallel : forall (F : OField) (rexp : F -> F) b t1 t2 ny nx n1 n2,
  transposes rexp t1 ny nx n1 -> transposes rexp t2 ny nx n2 -> b_ctrls (tbase t1) = n1 ->
  transposes rexp (Par b t1 t2) ny nx (n1 + n2).
Proof. exact @parallel_transposes. Qed.
Print Assumptions c16_parallel.
Example c16_custom_case : wfa [4; 2; 1] (mC 4) /\ (exists t, set_times (mk_custom (mC 4) None None 1 None 1) (ones 2) = (t, Ok tt)) /\
  (exists x, snd (call qexp (after (DConc dC2 (DOver 1 None 2)) [TSet (ones 2)]) (aq 2 1 [[3]; [7]]%Z)) = Ok x /\ get2 k0 x 5 0 = iq 7) /\
  exists x, snd (call qexp (after (DConc dC2 (DOver 1 None 2)) [TSet (ones 2)]) (aq 2 1 [[3]; [7]]%Z)) = Ok x /\ get2 k0 x 3 0 = iq 3.
Proof.
  split; [apply wfa_mk3|]. split; [eexists; reflexivity|]. split; apply is_entry_ok; vm_compute; reflexivity.
Qed.
Definition ex16 : desc Q := DConc (DOver 1 None 2) (DGauss [iq 1; iq 2; iq 1] Wrap 1).
Example c16_case : simple ex16 /\ no_custom ex16 /\ matched ex16 /\ sym_convs ex16 /\ ready qexp ex16 (ones 2) (after ex16 [TSet (ones 2)]) /\
  (exists x, snd (call qexp (after ex16 [TSet (ones 2)]) (aq 2 1 [[1]; [5]]%Z)) = Ok x /\ get2 k0 x 0 0 = iq 8).
Proof.
  split; [cbn; auto|]. split; [cbn; auto|]. split; [cbn; auto|]. split; [split; [exact I|split; [exact sym_121|discriminate]]|].
  split; [apply ready_after; vm_compute; reflexivity|]. apply is_entry_ok. vm_compute. reflexivity.
Qed.
Example c16_everywhere_case : let d : desc Q := DPar (DExp k1 1 None None 1) (DOverM 1 None 1 None) in
  no_custom d /\ matched d /\ ready qexp d (ones 2) (after d [TSet (ones 2)]) /\
  (exists x, snd (call qexp (after d [TSet (ones 2)]) (aq 2 2 [[1; 5]; [2; 0]]%Z)) = Ok x /\ get2 k0 x 0 1 = iq 5).
Proof.
  split; [cbn; auto|]. split; [cbn; auto|]. split; [apply ready_after; vm_compute; reflexivity|]. apply is_entry_ok. vm_compute. reflexivity.
Qed.

(** ---------- C17: setting new times ---------- *)
Theorem c17_without_matrix : forall (F : OField) (rexp : F -> F) d t ops ys,
  no_matrix d -> build d = Ok t ->
  snd (set_times (do_ops rexp t ops) ys) = snd (set_times t ys) /\
  (snd (set_times t ys) = Ok tt -> fst (set_times (do_ops rexp t ops) ys) = fst (set_times t ys)).
Proof. exact @set_times_takes_effect. Qed.
Print Assumptions c17_without_matrix.
Theorem c17_before_evaluation : forall (F : OField) (rexp : F -> F) d t ops ys,
  no_custom d -> build d = Ok t -> Forall is_set ops ->
  snd (set_times (do_ops rexp t ops) ys) = snd (set_times t ys) /\
  (snd (set_times t ys) = Ok tt -> fst (set_times (do_ops rexp t ops) ys) = fst (set_times t ys)).
Proof. exact @set_times_again. Qed.
Print Assumptions c17_before_evaluation.
Theorem c17_same_results : forall (F : OField) (rexp : F -> F) d ys t t',
  no_custom d -> ready rexp d ys t -> ready rexp d ys t' ->
  (forall y, snd (call rexp t y) = snd (call rexp t' y)) /\ (forall g, snd (grad rexp t g) = snd (grad rexp t' g)) /\
  snd (get_matrix rexp t) = snd (get_matrix rexp t').
Proof. exact @ready_same. Qed.
Print Assumptions c17_same_results.
Theorem c17_cached_matrix_raises_refuted :
  exists t, build dM = Ok t /\
  snd (set_times (do_ops qexp t [TSet (ones 2); TCall (aq 2 1 [[1]; [2]]%Z)]) (ones 3)) = Ok tt /\
  snd (call qexp (do_ops qexp t [TSet (ones 2); TCall (aq 2 1 [[1]; [2]]%Z); TSet (ones 3)]) (aq 3 1 [[1]; [2]; [3]]%Z)) = Err ValueError /\
  exists x, snd (call qexp (do_ops qexp t [TSet (ones 3)]) (aq 3 1 [[1]; [2]; [3]]%Z)) = Ok x /\ get2 k0 x 5 0 = iq 3.
Proof. exact @stale_matrix_raises. Qed.
Print Assumptions c17_cached_matrix_raises_refuted.
Theorem c17_cached_matrix_wrong_refuted :
  exists t, build dM = Ok t /\
  (exists x, snd (call qexp (do_ops qexp t [TSet (ones 1); TCall (aq 1 1 [[1]]%Z); TSet (ones 2)]) (aq 2 1 [[1]; [2]]%Z)) = Ok x /\ get2 k0 x 0 0 = iq 3 /\ dim0 x = 2) /\
  exists x, snd (call qexp (do_ops qexp t [TSet (ones 2)]) (aq 2 1 [[1]; [2]]%Z)) = Ok x /\ get2 k0 x 0 0 = iq 1 /\ dim0 x = 4.
Proof. exact @stale_matrix_wrong. Qed.
Print Assumptions c17_cached_matrix_wrong_refuted.
Example c17_case : no_matrix ex16 /\ settable ex16 (ones 3) = true /\
  b_nx (tbase (after ex16 [TSet (ones 2); TCall (aq 2 1 [[1]; [5]]%Z); TSet (ones 3)])) = 6 /\
  Forall is_set [TSet (ones 2); TSet (ones 1) : tfop Q].
Proof.
  split; [cbn; auto|]. split; [vm_compute; reflexivity|]. split; [vm_compute; reflexivity|]. repeat constructor.
Qed.

(** ---------- C18: concatenation ---------- *)
Theorem c18_call : forall (F : OField) (rexp : F -> F) d1 d2 ys xs t t1 t2 y,
  no_custom d1 -> no_custom d2 -> ready rexp (DConc d1 d2) ys t ->
  ready rexp d1 ys t1 -> b_xt (tbase t1) = Some xs -> ready rexp d2 xs t2 -> wfa [length ys; ctrls d1] y ->
  snd (call rexp t y) = (x <- snd (call rexp t1 y) ;; snd (call rexp t2 x)).
Proof. exact @concat_call. Qed.
Print Assumptions c18_call.
Theorem c18_gradient : forall (F : OField) (rexp : F -> F) d1 d2 ys xs t t1 t2 g,
  no_custom d1 -> no_custom d2 -> ready rexp (DConc d1 d2) ys t ->
  ready rexp d1 ys t1 -> b_xt (tbase t1) = Some xs -> ready rexp d2 xs t2 ->
  snd (grad rexp t g) = (h <- snd (grad rexp t2 g) ;; snd (grad rexp t1 h)).
Proof. exact @concat_grad. Qed.
Print Assumptions c18_gradient.
Theorem c18_times : forall (F : OField) (rexp : F -> F) d1 d2 ys xs t t1 t2,
  no_custom d1 -> no_custom d2 -> ready rexp (DConc d1 d2) ys t ->
  ready rexp d1 ys t1 -> b_xt (tbase t1) = Some xs -> ready rexp d2 xs t2 ->
  b_xt (tbase t) = b_xt (tbase t2) /\ b_nx (tbase t) = b_nx (tbase t2).
Proof. exact @concat_times. Qed.
Print Assumptions c18_times.
Theorem c18_defined : forall (F : OField) (rexp : F -> F) (d1 d2 : desc F) ys t t1 (u1 : (tf F)),
  no_custom d1 -> build (DConc d1 d2) = Ok t -> build d1 = Ok t1 -> set_times t1 ys = (u1, Ok tt) ->
  forall t2 : (tf F), build d2 = Ok t2 -> exists xs, b_xt (tbase u1) = Some xs /\ snd (set_times t ys) = snd (set_times t2 xs).
Proof. exact @concat_defined. Qed.
Print Assumptions c18_defined.
(** a concatenation of arbitrary objects, in any state *)
Theorem c18_any : forall (F : OField) (rexp : F -> F) t1 t2 (ys : list F) t,
  set_times (mk_conc t1 t2) ys = (t, Ok tt) ->
  exists u1 xs u2, set_times t1 ys = (u1, Ok tt) /\ b_xt (tbase u1) = Some xs /\ set_times t2 xs = (u2, Ok tt) /\
    b_xt (tbase t) = b_xt (tbase u2) /\ b_nx (tbase t) = b_nx (tbase u2) /\
    (forall y, b_yt (tbase u1) <> None -> wfa [b_ny (tbase u1); b_ctrls (tbase t1)] y ->
       snd (call rexp t y) = (x <- snd (call rexp u1 y) ;; snd (call rexp u2 x))) /\
    (forall g, snd (grad rexp t g) = (h <- snd (grad rexp u2 g) ;; snd (grad rexp u1 h))).
Proof. exact @concat_any. Qed.
Print Assumptions c18_any.
Theorem c18_matrix_refuted :
  exists t, build (DConcM dM dM) = Ok t /\ snd (set_times t (ones 2)) = Ok tt /\
  snd (call qexp (do_ops qexp t [TSet (ones 2)]) (aq 2 1 [[1]; [2]]%Z)) = Err ValueError /\
  exists x, snd (call qexp (after (DConc dM dM) [TSet (ones 2)]) (aq 2 1 [[1]; [2]]%Z)) = Ok x /\ get2 k0 x 7 0 = iq 2.
Proof. exact @concat_matrix_call. Qed.
Print Assumptions c18_matrix_refuted.
Example c18_any_case : exists t, set_times (mk_conc (mk_custom (mC 4) None None 1 None 1) (mk_over 1 None 2)) (ones 2) = (t, Ok tt) /\
  b_nx (tbase t) = 8 /\ exists x, snd (call qexp t (aq 2 1 [[3]; [7]]%Z)) = Ok x /\ get2 k0 x 4 0 = iq 7.
Proof. eexists. split; [reflexivity|]. split; [reflexivity|]. apply is_entry_ok. vm_compute. reflexivity. Qed.
Example c18_case : ready qexp ex16 (ones 2) (after ex16 [TSet (ones 2)]) /\
  ready qexp (DOver 1 None 2) (ones 2) (after (DOver 1 None 2) [TSet (ones 2)]) /\
  exists xs, b_xt (tbase (after (DOver 1 None 2) [TSet (ones 2)])) = Some xs /\ length xs = 4 /\
    ready qexp (DGauss [iq 1; iq 2; iq 1] Wrap 1) xs (after (DGauss [iq 1; iq 2; iq 1] Wrap 1) [TSet xs]).
Proof.
  split; [apply ready_after; vm_compute; reflexivity|]. split; [apply ready_after; vm_compute; reflexivity|].
  eexists. split; [reflexivity|]. split; [reflexivity|]. apply ready_after. vm_compute. reflexivity.
Qed.

(** ---------- C19: parallel transfer functions ---------- *)
Theorem c19_call : forall (F : OField) (rexp : F -> F) d1 d2 ys t t1 t2 y x1 x2,
  no_custom d1 -> no_custom d2 -> ready rexp (DPar d1 d2) ys t ->
  ready rexp d1 ys t1 -> ready rexp d2 ys t2 -> wfa [length ys; ctrls d1 + ctrls d2] y ->
  snd (call rexp t1 (mk2 (length ys) (ctrls d1) (fun i k => get2 k0 y i k))) = Ok x1 ->
  snd (call rexp t2 (mk2 (length ys) (ctrls d2) (fun i k => get2 k0 y i (ctrls d1 + k)))) = Ok x2 ->
  forall m1 m2 c1 c2, wfa [m1; c1] x1 -> wfa [m2; c2] x2 ->
  snd (call rexp t y) = (if Nat.eqb m1 m2 then Ok (mk2 m1 (c1 + c2) (fun i k => if Nat.ltb k c1 then get2 k0 x1 i k else get2 k0 x2 i (k - c1)))
                         else Err ValueError).
Proof. exact @parallel_call. Qed.
Print Assumptions c19_call.
Theorem c19_gradient : forall (F : OField) (rexp : F -> F) d1 d2 ys t t1 t2 g f h1 h2,
  no_custom d1 -> no_custom d2 -> ready rexp (DPar d1 d2) ys t ->
  ready rexp d1 ys t1 -> ready rexp d2 ys t2 -> forall nx, wfa [nx; f; ctrls d1 + ctrls d2] g ->
  snd (grad rexp t1 (mk3 nx f (ctrls d1) (fun i q k => get3 k0 g i q k))) = Ok h1 ->
  snd (grad rexp t2 (mk3 nx f (ctrls d2) (fun i q k => get3 k0 g i q (ctrls d1 + k)))) = Ok h2 ->
  forall c1 c2, wfa [length ys; f; c1] h1 -> wfa [length ys; f; c2] h2 ->
  snd (grad rexp t g) = Ok (mk3 (length ys) f (c1 + c2) (fun i q k => if Nat.ltb k c1 then get3 k0 h1 i q k else get3 k0 h2 i q (k - c1))).
Proof. exact @parallel_grad. Qed.
Print Assumptions c19_gradient.
Theorem c19_matrix : forall (F : OField) (rexp : F -> F) d1 d2 ys t t1 t2 T,
  no_custom d1 -> no_custom d2 -> matched d1 -> matched d2 -> ready rexp (DParM d1 d2) ys t ->
  ready rexp d1 ys t1 -> ready rexp d2 ys t2 -> snd (get_matrix rexp t) = Ok T ->
  exists T1 T2, snd (get_matrix rexp t1) = Ok T1 /\ snd (get_matrix rexp t2) = Ok T2 /\ wfa [b_nx (tbase t1); length ys; ctrls d1 + ctrls d2] T /\
    forall i j k, i < b_nx (tbase t1) -> j < length ys -> k < ctrls d1 + ctrls d2 ->
      get3 k0 T i j k = if Nat.ltb k (ctrls d1) then get3 k0 T1 i j k else get3 k0 T2 i j (k - ctrls d1).
Proof. exact @parallelM_matrix. Qed.
Print Assumptions c19_matrix.
Theorem c19_matrix_call : forall (F : OField) (rexp : F -> F) d1 d2 ys t t1 t2 y x,
  no_custom d1 -> no_custom d2 -> matched d1 -> matched d2 -> no_offset d1 -> no_offset d2 ->
  ready rexp (DParM d1 d2) ys t -> ready rexp d1 ys t1 -> ready rexp d2 ys t2 -> wfa [length ys; ctrls d1 + ctrls d2] y ->
  snd (call rexp t y) = Ok x ->
  exists x1 x2,
    snd (call rexp t1 (mk2 (length ys) (ctrls d1) (fun i k => get2 k0 y i k))) = Ok x1 /\
    snd (call rexp t2 (mk2 (length ys) (ctrls d2) (fun i k => get2 k0 y i (ctrls d1 + k)))) = Ok x2 /\
    wfa [b_nx (tbase t1); ctrls d1 + ctrls d2] x /\
    forall i k, i < b_nx (tbase t1) -> k < ctrls d1 + ctrls d2 ->
      get2 k0 x i k = if Nat.ltb k (ctrls d1) then get2 k0 x1 i k else get2 k0 x2 i (k - ctrls d1).
Proof. exact @parallelM_call. Qed.
Print Assumptions c19_matrix_call.
Theorem c19_matrix_gradient : forall (F : OField) (rexp : F -> F) d1 d2 ys t t1 t2 g h f,
  no_custom d1 -> no_custom d2 -> matched d1 -> matched d2 -> no_offset d1 -> no_offset d2 ->
  ready rexp (DParM d1 d2) ys t -> ready rexp d1 ys t1 -> ready rexp d2 ys t2 -> wfa [b_nx (tbase t1); f; ctrls d1 + ctrls d2] g ->
  snd (grad rexp t g) = Ok h ->
  exists h1 h2,
    snd (grad rexp t1 (mk3 (b_nx (tbase t1)) f (ctrls d1) (fun i q k => get3 k0 g i q k))) = Ok h1 /\
    snd (grad rexp t2 (mk3 (b_nx (tbase t1)) f (ctrls d2) (fun i q k => get3 k0 g i q (ctrls d1 + k)))) = Ok h2 /\
    wfa [length ys; f; ctrls d1 + ctrls d2] h /\
    forall j q k, j < length ys -> q < f -> k < ctrls d1 + ctrls d2 ->
      get3 k0 h j q k = if Nat.ltb k (ctrls d1) then get3 k0 h1 j q k else get3 k0 h2 j q (k - ctrls d1).
Proof. exact @parallelM_grad. Qed.
Print Assumptions c19_matrix_gradient.
Theorem c19_offset_refuted :
  (exists x, snd (call qexp (after (DParM dO dO) [TSet (ones 1)]) (aq 1 2 [[1; 2]]%Z)) = Ok x /\ get2 k0 x 0 0 = iq 1) /\
  exists x, snd (call qexp (after (DPar dO dO) [TSet (ones 1)]) (aq 1 2 [[1; 2]]%Z)) = Ok x /\ get2 k0 x 0 0 = iq 6.
Proof. exact @parallel_offset. Qed.
Print Assumptions c19_offset_refuted.
Definition ex19 : desc Q := DPar (DOver 1 None 2) (DOver 2 None 2).
Definition ex19M : desc Q := DParM (DOverM 2 None 1 None) (DOverM 2 None 2 None).
Example c19_case : ready qexp ex19 (ones 2) (after ex19 [TSet (ones 2)]) /\ ready qexp ex19M (ones 2) (after ex19M [TSet (ones 2)]) /\
  (exists x, snd (call qexp (after ex19 [TSet (ones 2)]) (aq 2 3 [[1; 2; 3]; [4; 5; 6]]%Z)) = Ok x /\ get2 k0 x 3 2 = iq 6) /\
  (exists x, snd (call qexp (after ex19M [TSet (ones 2)]) (aq 2 3 [[1; 2; 3]; [4; 5; 6]]%Z)) = Ok x /\ get2 k0 x 3 2 = iq 6) /\
  no_offset (DOverM 2 None 1 None : desc Q).
Proof.
  split; [apply ready_after; vm_compute; reflexivity|]. split; [apply ready_after; vm_compute; reflexivity|].
  split; [apply is_entry_ok; vm_compute; reflexivity|]. split; [apply is_entry_ok; vm_compute; reflexivity|]. exact I.
Qed.

Example c19_gradient_case : match snd (grad qexp (after ex19M [TSet (ones 2)]) (aq3 4 1 3 (fun i _ k => Z.of_nat (i + 10 * k)))) with
  | Ok h => keqb (get3 k0 h 1 0 2) (iq 45) && keqb (get3 k0 h 0 0 0) (iq 1) | Err _ => false end = true.
Proof. vm_compute. reflexivity. Qed.

(** ---------- C20: ExponentialMTF ---------- *)
Theorem c20_response : forall (F : OField) (rexp : F -> F) rise os bt off n tau l t y x,
  ready rexp (DExp rise os bt off n) (tau :: l) t -> os <> 0 ->
  wfa [length (tau :: l); n] y -> snd (call rexp t y) = Ok x ->
  exists ps pe, pads bt os = Some (ps, pe) /\ wfa [ps + os * length (tau :: l) + pe; n] x /\
    forall i k, i < ps + os * length (tau :: l) + pe -> k < n ->
      get2 k0 x i k = with_offset off (exp_response rexp tau rise os ps (length (tau :: l)) (fun j => get2 k0 y j k) i).
Proof. exact @exponential_call. Qed.
Print Assumptions c20_response.
Theorem c20_defined : forall (F : OField) (rexp : F -> F) rise os bt off n tau l t y ps pe,
  ready rexp (DExp rise os bt off n) (tau :: l) t -> os <> 0 -> rise <> k0 ->
  pads bt os = Some (ps, pe) -> (os = 1 \/ l <> [] \/ os <= pe \/ (ps = 0 /\ pe = 0)) ->
  wfa [length (tau :: l); n] y -> exists x, snd (call rexp t y) = Ok x.
Proof. exact @exponential_defined. Qed.
Print Assumptions c20_defined.
Theorem c20_bounded : forall (F : OField) (rexp : F -> F) tau rise os ps ny (y : nat -> F) i lo hi,
  (forall j, kle k0 (decay rexp tau rise os j) /\ kle (decay rexp tau rise os j) k1) -> os <> 0 -> 1 <= ny ->
  kle lo k0 -> kle k0 hi -> (forall j, j < ny -> kle lo (y j) /\ kle (y j) hi) ->
  kle lo (exp_response rexp tau rise os ps ny y i) /\ kle (exp_response rexp tau rise os ps ny y i) hi.
Proof. exact @exponential_bounded. Qed.
Print Assumptions c20_bounded.
Theorem c20_one_step_refuted :
  exists t, build dE = Ok t /\ snd (set_times t (ones 1)) = Ok tt /\ snd (call qexp (do_ops qexp t [TSet (ones 1)]) (aq 1 1 [[1]]%Z)) = Err ValueError.
Proof. exact @exponential_one_step. Qed.
Print Assumptions c20_one_step_refuted.
Definition ex20 : desc Q := DExp k1 2 (Some (BN, 1)) None 1.
Example c20_case : ready qexp ex20 (ones 2) (after ex20 [TSet (ones 2)]) /\ (k1 : Q) <> k0 /\
  pads (Some (BN, 1)) 2 = Some (1, 1) /\
  decay qexp (k1 : Q) k1 2 0 = qq 2 3 /\ decay qexp (k1 : Q) k1 2 1 = qq 1 2 /\
  (exists x, snd (call qexp (after ex20 [TSet (ones 2)]) (aq 2 1 [[6]; [12]]%Z)) = Ok x /\ get2 k0 x 2 0 = iq 3) /\
  (exists x, snd (call qexp (after ex20 [TSet (ones 2)]) (aq 2 1 [[6]; [12]]%Z)) = Ok x /\ get2 k0 x 3 0 = iq 8) /\
  (exists x, snd (call qexp (after ex20 [TSet (ones 2)]) (aq 2 1 [[6]; [12]]%Z)) = Ok x /\ get2 k0 x 5 0 = iq 8).
Proof.
  split; [apply ready_after; vm_compute; reflexivity|]. split; [intros E; apply keqb_eq in E; vm_compute in E; discriminate|].
  split; [reflexivity|]. split; [qc|]. split; [qc|]. repeat split; apply is_entry_ok; vm_compute; reflexivity.
Qed.

(** ---------- C21: absolute times ---------- *)
Theorem c21_absolute : forall (F : OField) t (ts ds : list F),
  sorted ts -> differences ts ds -> set_absolute_times t ts = set_times t ds.
Proof. exact @absolute_times. Qed.
Print Assumptions c21_absolute.
Theorem c21_unsorted : forall (F : OField) t (ts : list F) i,
  S i < length ts -> klt (nth (S i) ts k0) (nth i ts k0) ->
  set_absolute_times t ts = (t, Err PyException).
Proof. exact @absolute_times_unsorted. Qed.
Print Assumptions c21_unsorted.
Theorem c21_duration : forall (F : OField) (rexp : F -> F) d t ops (ts : list F) t',
  unpadded d -> no_custom d -> build d = Ok t -> ts <> [] ->
  set_absolute_times (do_ops rexp t ops) ts = (t', Ok tt) ->
  exists xs, b_xt (tbase t') = Some xs /\ lsumk xs = ksub (last ts k0) (hd k0 ts).
Proof. exact @absolute_times_duration. Qed.
Print Assumptions c21_duration.
Example c21_case : b_nx (tbase (fst (set_absolute_times (mk_over 1 None 2 : tf Q) [iq 0; iq 2; iq 5]))) = 4 /\
  snd (set_absolute_times (mk_over 1 None 2 : tf Q) [iq 0; iq 2; iq 1]) <> Ok tt.
Proof. split; [vm_compute; reflexivity|]. vm_compute. discriminate. Qed.

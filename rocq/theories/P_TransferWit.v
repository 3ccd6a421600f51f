(** Concrete transfer functions over the rationals: witnesses for the refuted claims. *)
Require Import List Arith Lia ZArith QArith Qcanon Bool.
From Verif Require Import LibBase LibRing LibArr LibCplx LibMat LibEx M_Transfer S_Transfer P_Transfer P_Transfer2 P_Transfer3 P_Transfer4 P_Transfer5.
Import ListNotations.
Open Scope nat_scope.
Open Scope res_scope.
Set Implicit Arguments.

Notation Q := QcField.
(** stands in for np.exp: 1 at 0, in (0, 1] for non-positive arguments *)
Definition qexp (z : Q) : Q := kdiv k1 (ksub k1 z).
Definition iq (a : Z) : Q := qq a 1.
Definition aq (m n : nat) (l : list (list Z)) : arr (kcar Q) := mk2 m n (fun i j => iq (nth j (nth i l []) 0%Z)).
Definition aq3 (m n p : nat) (f : nat -> nat -> nat -> Z) : arr (kcar Q) := mk3 m n p (fun i j k => iq (f i j k)).
(** state of an object after a list of operations *)
Definition after (d : desc Q) (l : list (tfop Q)) : tf Q := match build d with Ok t => do_ops qexp t l | Err _ => mk_identity 0 end.
Definition is_entry (r : res (arr (kcar Q))) (i k : nat) (v : Q) : bool := match r with Ok x => keqb (get2 k0 x i k) v | Err _ => false end.
Lemma is_entry_ok r i k v : is_entry r i k v = true -> exists x, r = Ok x /\ get2 k0 x i k = v.
Proof. destruct r as [x|]; [|discriminate]. intros H. apply keqb_eq in H. eauto. Qed.
Definition ones (n : nat) : list Q := repeat k1 n.

(** C17: after a call, set_times does not discard the cached transfer matrix *)
Definition dM : desc Q := DOverM 2 None 1 None.
Lemma stale_matrix_raises :
  exists t, build dM = Ok t /\
  snd (set_times (do_ops qexp t [TSet (ones 2); TCall (aq 2 1 [[1]; [2]]%Z)]) (ones 3)) = Ok tt /\
  snd (call qexp (do_ops qexp t [TSet (ones 2); TCall (aq 2 1 [[1]; [2]]%Z); TSet (ones 3)]) (aq 3 1 [[1]; [2]; [3]]%Z)) = Err ValueError /\
  exists x, snd (call qexp (do_ops qexp t [TSet (ones 3)]) (aq 3 1 [[1]; [2]; [3]]%Z)) = Ok x /\ get2 k0 x 5 0 = iq 3.
Proof.
  eexists. split; [reflexivity|]. split; [vm_compute; reflexivity|]. split; [vm_compute; reflexivity|].
  apply is_entry_ok. vm_compute. reflexivity.
Qed.
(** ... and with one time step first, the old matrix is broadcast and the values are wrong *)
Lemma stale_matrix_wrong :
  exists t, build dM = Ok t /\
  (exists x, snd (call qexp (do_ops qexp t [TSet (ones 1); TCall (aq 1 1 [[1]]%Z); TSet (ones 2)]) (aq 2 1 [[1]; [2]]%Z)) = Ok x /\ get2 k0 x 0 0 = iq 3 /\ dim0 x = 2) /\
  exists x, snd (call qexp (do_ops qexp t [TSet (ones 2)]) (aq 2 1 [[1]; [2]]%Z)) = Ok x /\ get2 k0 x 0 0 = iq 1 /\ dim0 x = 4.
Proof.
  eexists. split; [reflexivity|]. split.
  - destruct (@is_entry_ok (snd (call qexp (after dM [TSet (ones 1); TCall (aq 1 1 [[1]]%Z); TSet (ones 2)]) (aq 2 1 [[1]; [2]]%Z))) 0 0 (iq 3)) as [x [E V]]; [vm_compute; reflexivity|].
    exists x. split; [exact E|]. split; [exact V|]. vm_compute in E. injection E as <-. reflexivity.
  - destruct (@is_entry_ok (snd (call qexp (after dM [TSet (ones 2)]) (aq 2 1 [[1]; [2]]%Z))) 0 0 (iq 1)) as [x [E V]]; [vm_compute; reflexivity|].
    exists x. split; [exact E|]. split; [exact V|]. vm_compute in E. injection E as <-. reflexivity.
Qed.

(** C13: CustomMTF never stores y_times, so every call after set_times raises *)
Definition dC : desc Q := DCustom (aq3 2 2 1 (fun i j _ => if Nat.eqb i j then 1%Z else 0%Z)) (Some (ones 2)) None 1 None 1.
Lemma custom_times :
  exists t t', build dC = Ok t /\ set_times t (ones 2) = (t', Ok tt) /\ b_yt (tbase t') = None /\
  forall y, wfa [2; 1] y -> exists e, snd (call qexp t' y) = Err e.
Proof.
  eexists. eexists. split; [reflexivity|]. split; [reflexivity|]. split; [reflexivity|].
  intros y Hy. eexists. reflexivity.
Qed.
(** ... without x_times the first set_times is right, but it stores x_times, so the next one copies the given times there *)
Definition mC (m : nat) : arr (kcar Q) := aq3 m 2 1 (fun i j _ => if Nat.eqb (i / 2) j then 1%Z else 0%Z).
Definition dC2 : desc Q := DCustom (mC 4) None None 1 None 1.
Lemma custom_times_twice :
  exists t u v, build dC2 = Ok t /\ set_times t (ones 2) = (u, Ok tt) /\ set_times u [iq 6; iq 4] = (v, Ok tt) /\
  b_nx (tbase u) = 4 /\ (exists xs, b_xt (tbase u) = Some xs /\ length xs = 4) /\
  b_nx (tbase v) = 4 /\ b_xt (tbase v) = Some [iq 6; iq 4] /\ b_yt (tbase v) = Some (ones 2).
Proof.
  eexists. eexists. eexists. split; [reflexivity|]. split; [reflexivity|]. split; [reflexivity|]. split; [reflexivity|].
  split; [eexists; split; reflexivity|]. repeat split; reflexivity.
Qed.
(** ... a number of rows that does not fit the padding is rounded down instead of rejected *)
Definition dC3 : desc Q := DCustom (mC 5) None (Some (BN, 1)) 1 None 1.
Lemma custom_rounded :
  exists t u, build dC3 = Ok t /\ set_times t (ones 2) = (u, Ok tt) /\ b_nx (tbase u) = 4 /\
  forall y, wfa [2; 1] y -> exists x, snd (call qexp u y) = Ok x /\ dim0 x = 5.
Proof.
  eexists. eexists. split; [reflexivity|]. split; [reflexivity|]. split; [reflexivity|]. intros y Hy.
  destruct (dim_wfa2 Hy) as [D0 [D1 R]]. eexists. cbn [call]. unfold matrix_call. cbn [tbase check_dims b_yt b_ny b_ctrls]. unfold check_dims. cbn [b_yt b_ny b_ctrls set_tm set_os]. rewrite D0, D1, R.
  cbn [Nat.eqb length ones repeat own_matrix get_matrix b_mat snd bind set_tm set_os]. unfold einsum_call. rewrite D0, D1, R. split; reflexivity.
Qed.
(** ... and a grid of another length is accepted, but no pulse on it *)
Lemma custom_length :
  exists t u, build dC2 = Ok t /\ set_times t (ones 3) = (u, Ok tt) /\ b_ny (tbase u) = 3 /\ b_nx (tbase u) = 6 /\
  forall y, wfa [3; 1] y -> snd (call qexp u y) = Err ValueError.
Proof.
  eexists. eexists. split; [reflexivity|]. split; [reflexivity|]. split; [reflexivity|]. split; [reflexivity|]. intros y Hy.
  destruct (dim_wfa2 Hy) as [D0 [D1 R]]. cbn [call]. unfold matrix_call. cbn [tbase check_dims b_yt b_ny b_ctrls]. unfold check_dims. cbn [b_yt b_ny b_ctrls set_tm set_os]. rewrite D0, D1, R.
  cbn [Nat.eqb length ones repeat own_matrix get_matrix b_mat snd bind set_tm set_os]. unfold einsum_call. rewrite D0, D1, R. reflexivity.
Qed.

(** C16: a convolution with an asymmetric kernel is not the transpose of its gradient *)
Definition dA : desc Q := DConv [iq 1; iq 2; iq 4] Reflect 1 k0.
Definition y0 := aq 3 1 [[0]; [0]; [0]]%Z.
Definition y1 := aq 3 1 [[1]; [0]; [0]]%Z.
Definition g1 := aq3 3 1 1 (fun i _ _ => if Nat.eqb i 1 then 1%Z else 0%Z).
Definition mismatch (d : desc Q) : Prop :=
  exists x x' h, snd (call qexp (after d [TSet (ones 3)]) y0) = Ok x /\ snd (call qexp (after d [TSet (ones 3)]) y1) = Ok x' /\
    snd (grad qexp (after d [TSet (ones 3)]) g1) = Ok h /\
    ksub (pairing 3 1 (fun i k => get3 k0 g1 i 0 k) (get2 k0 x')) (pairing 3 1 (fun i k => get3 k0 g1 i 0 k) (get2 k0 x)) <>
    ksub (pairing 3 1 (fun i k => get3 k0 h i 0 k) (get2 k0 y1)) (pairing 3 1 (fun i k => get3 k0 h i 0 k) (get2 k0 y0)).
Definition mismatchb (d : desc Q) : bool :=
  match snd (call qexp (after d [TSet (ones 3)]) y0), snd (call qexp (after d [TSet (ones 3)]) y1), snd (grad qexp (after d [TSet (ones 3)]) g1) with
  | Ok x, Ok x', Ok h => negb (keqb
     (ksub (pairing 3 1 (fun i k => get3 k0 g1 i 0 k) (get2 k0 x')) (pairing 3 1 (fun i k => get3 k0 g1 i 0 k) (get2 k0 x)))
     (ksub (pairing 3 1 (fun i k => get3 k0 h i 0 k) (get2 k0 y1)) (pairing 3 1 (fun i k => get3 k0 h i 0 k) (get2 k0 y0))))
  | _, _, _ => false
  end.
Lemma mismatchb_ok d : mismatchb d = true -> mismatch d.
Proof.
  unfold mismatchb, mismatch. destruct (snd (call qexp _ y0)) as [x|]; [|discriminate]. destruct (snd (call qexp _ y1)) as [x'|]; [|discriminate].
  destruct (snd (grad qexp _ g1)) as [h|]; [|discriminate]. intros H. exists x, x', h. do 3 (split; [reflexivity|]). intros E. apply keqb_eq in E. rewrite E in H. discriminate.
Qed.
Lemma asymmetric_kernel : mismatch dA.
Proof. apply mismatchb_ok. vm_compute. reflexivity. Qed.
(** even for a symmetric kernel: the gradient of ConvolutionTF always uses 'reflect', whatever the mode *)
Lemma wrong_mode : sym_ker [iq 1; iq 2; iq 4; iq 2; iq 1] /\ mismatch (DConv [iq 1; iq 2; iq 4; iq 2; iq 1] Constant 1 k0).
Proof.
  split; [|apply mismatchb_ok; vm_compute; reflexivity].
  split; [reflexivity|]. cbn [length]. intros q Hq. do 5 (destruct q as [|q]; [reflexivity|]). lia.
Qed.

(** C18: ConcatenateMTF cannot be called *)
Lemma concat_matrix_call :
  exists t, build (DConcM dM dM) = Ok t /\ snd (set_times t (ones 2)) = Ok tt /\
  snd (call qexp (do_ops qexp t [TSet (ones 2)]) (aq 2 1 [[1]; [2]]%Z)) = Err ValueError /\
  exists x, snd (call qexp (after (DConc dM dM) [TSet (ones 2)]) (aq 2 1 [[1]; [2]]%Z)) = Ok x /\ get2 k0 x 7 0 = iq 2.
Proof.
  eexists. split; [reflexivity|]. split; [vm_compute; reflexivity|]. split; [vm_compute; reflexivity|]. apply is_entry_ok. vm_compute. reflexivity.
Qed.

(** C19: ParallelMTF ignores the offsets of its parts *)
Definition dO : desc Q := DOverM 1 None 1 (Some (iq 5)).
Lemma parallel_offset :
  (exists x, snd (call qexp (after (DParM dO dO) [TSet (ones 1)]) (aq 1 2 [[1; 2]]%Z)) = Ok x /\ get2 k0 x 0 0 = iq 1) /\
  exists x, snd (call qexp (after (DPar dO dO) [TSet (ones 1)]) (aq 1 2 [[1; 2]]%Z)) = Ok x /\ get2 k0 x 0 0 = iq 6.
Proof. split; apply is_entry_ok; vm_compute; reflexivity. Qed.

(** C20: one time step, oversampling 2 and one padding element on each side *)
Definition dE : desc Q := DExp k1 2 (Some (BN, 1)) None 1.
Lemma exponential_one_step :
  exists t, build dE = Ok t /\ snd (set_times t (ones 1)) = Ok tt /\ snd (call qexp (do_ops qexp t [TSet (ones 1)]) (aq 1 1 [[1]]%Z)) = Err ValueError.
Proof. eexists. split; [reflexivity|]. split; vm_compute; reflexivity. Qed.

(** a freshly built object with times set is ready *)
Definition settable (d : desc Q) (ys : list Q) : bool :=
  match build d with Ok t => match snd (set_times t ys) with Ok _ => true | Err _ => false end | Err _ => false end.
Lemma ready_after d ys : settable d ys = true -> ready qexp d ys (after d [TSet ys]).
Proof.
  unfold settable, after. destruct (build d) as [t|] eqn:E; [|discriminate]. destruct (snd (set_times t ys)) as [[]|] eqn:S; [|discriminate]. intros _.
  exists t, (fst (set_times t ys)), [], []. split; [exact E|]. split; [constructor|]. split; [cbn [do_ops fold_left]; rewrite <- S; apply surjective_pairing|]. split; [constructor|]. reflexivity.
Qed.
Lemma sym_121 : sym_ker [iq 1; iq 2; iq 1].
Proof. split; [reflexivity|]. cbn [length]. intros q Hq. do 3 (destruct q as [|q]; [reflexivity|]). lia. Qed.

(** The points on the Bloch sphere for the forward propagators of a solver (C81), and concrete cases. *)
Require Import List Arith Lia Bool Reals Lra QArith Qcanon.
From Verif Require Import LibBase LibRing LibArr LibCplx LibMat LibNorm LibDeriv LibEx M_Matrix S_Linear S_Deriv S_Exp P_Linear P_Matrix P_Frechet P_Mexp P_Mexp2 M_OpHeap M_Transfer S_Transfer M_Amplitude S_Amplitude M_Solver S_Solver M_Simulator S_Simulator S_Gradient P_GradWit S_Invariance P_Invariance P_Invariance2 P_Invariance3 P_InvarianceWit M_Bloch S_Bloch P_Bloch.
Import ListNotations.
Local Open Scope res_scope.
Open Scope nat_scope.
Set Implicit Arguments.

Section Solver.
Notation op := (op RField).
Notation st := (@st RField).
Add Field Cfield_bloch2 : (c_field RField).
Variable rexp : R -> R.
Variable la : LinAlg RField.
Variable eps : cplx RField.
Variable other : op -> res (point RField).
Notation evolution := (evolution rexp la eps).
Notation herm n := (is_hermitian (S:=RS) n : op -> Prop).

Lemma identity_carries n H : carries n n (mk2 n n (delta (S:=RS)) : mat RS) H H.
Proof.
  intros i j Hi Hj. transitivity (mg (S:=RS) H i j).
  - rewrite <- (@sumn_kd_l RS n i (fun l => mg (S:=RS) H l j) Hi). apply sumn_ext. intros l Hl. rewrite mg_mk2 by auto. reflexivity.
  - rewrite <- (@sumn_kd_r RS n j (fun l => mg (S:=RS) H i l) Hj). apply sumn_ext. intros l Hl. rewrite mg_mk2 by auto. reflexivity.
Qed.
Lemma identity_expectation n f a b : expectation n (mk2 n n (delta (S:=RS)) : mat RS) f a b = sumn (S:=RS) n (fun i => cmul (cconj (mg (S:=RS) f i a)) (mg (S:=RS) f i b)).
Proof.
  unfold expectation. apply sumn_ext. intros i Hi. rewrite <- (@sumn_kd_l RS n i (fun j => cmul (cconj (mg (S:=RS) f i a)) (mg (S:=RS) f j b)) Hi).
  apply sumn_ext. intros j Hj. rewrite mg_mk2 by auto. unfold delta, kd. tocplx. destruct (Nat.eqb i j); tocplx; ring.
Qed.
Lemma forward_isometry (s : st) u ps fs : evolution s 2 2 u ps fs -> length (s_drift s) = length (s_time s) ->
  Forall (herm 2) (s_drift s) -> Forall (herm 2) (c_ctrl (s_conf s)) -> is_identity (S:=RS) 2 (c_init (s_conf s)) -> Forall (isometry (F:=RField)) fs.
Proof.
  intros E L HD HC [W HI]. apply Forall_forall. intros f Hf. apply In_nth_error in Hf. destruct Hf as [t Ht].
  destruct (steps E) as (_ & _ & _ & WF & _). split; [apply is_matrix_wfm; eauto|]. intros i j Hi Hj.
  pose proof (@conserved rexp la eps s 2 2 u ps fs (mk2 2 2 (delta (S:=RS))) E ltac:(apply is_matrix_wfm, wfm_mk2) L HD HC
    (fun _ _ => @identity_carries 2 _) (fun _ _ => @identity_carries 2 _) t f i j Ht Hi Hj) as X.
  rewrite !identity_expectation in X. etransitivity; [exact X|]. 
  transitivity (sumn (S:=RS) 2 (fun k => smul (kd (S:=RS) i k) (delta (S:=RS) k j))).
  - apply sumn_ext. intros k Hk. rewrite !HI by auto. unfold delta, kd. rewrite (Nat.eqb_sym i k). destruct (Nat.eqb k i), (Nat.eqb k j); tocplx; unfold cconj, cmul, c0, c1; cbn; f_equal; lra.
  - exact (@sumn_kd_l RS 2 i (fun k => delta (S:=RS) k j) Hi).
Qed.
Theorem bloch_solver (s : st) u ps fs psi : evolution s 2 2 u ps fs -> length (s_drift s) = length (s_time s) ->
  Forall (herm 2) (s_drift s) -> Forall (herm 2) (c_ctrl (s_conf s)) -> is_identity (S:=RS) 2 (c_init (s_conf s)) -> qubit (F:=RField) psi ->
  exists pts, bloch_points other fs psi = Ok pts /\ length pts = S (length (s_time s)) /\
    (exists p, nth_error pts 0 = Some p /\ describes (F:=RField) p psi) /\
    forall t f, nth_error fs t = Some f -> exists p phi, nth_error pts t = Some p /\ is_product (S:=RS) 2 2 1 f psi phi /\ on_sphere (F:=RField) p /\ describes (F:=RField) p phi.
Proof.
  intros E L HD HC HI Q. pose proof (forward_isometry E L HD HC HI) as FI. destruct (steps E) as (_ & Lf & N0 & _ & _).
  assert (NE : fs <> []) by (destruct fs; [discriminate Lf|congruence]).
  destruct (@bloch_evolution RField other fs psi NE FI Q) as (pts & E1 & E2 & E3). exists pts. split; [exact E1|]. split; [congruence|]. split; [|exact E3].
  destruct (E3 0 _ N0) as (p & phi & P1 & P2 & _ & P4). exists p. split; [exact P1|].
  assert (phi = psi); [|now subst].
  destruct P2 as [W2 P2]. destruct Q as [WQ _]. apply is_matrix_wfm in W2. apply is_matrix_wfm in WQ. apply (@mat_ext RS 2 1); auto. intros i j Hi Hj. rewrite P2 by auto.
  destruct HI as [_ HI]. rewrite <- (@sumn_kd_l RS 2 i (fun k => mg (S:=RS) psi k j) Hi). apply sumn_ext. intros k Hk. rewrite HI by auto. reflexivity.
Qed.
End Solver.

(** ---- concrete cases ---- *)
Lemma case_bloch_solver : forall rexp : R -> R, (exists ps fs, evolution rexp wla c0 (s_base rexp) 2 2 upulse ps fs) /\ length (s_drift (s_base rexp)) = length (s_time (s_base rexp)) /\
  Forall (is_hermitian (S:=RS) 2 : op RField -> Prop) (s_drift (s_base rexp)) /\ Forall (is_hermitian (S:=RS) 2 : op RField -> Prop) (c_ctrl (s_conf (s_base rexp))) /\
  is_identity (S:=RS) 2 (c_init (s_conf (s_base rexp))) /\ qubit (F:=RField) (Arr [2; 1] [(3 / 5, 0); (0, 4 / 5)]%R).
Proof.
  intros rexp. split; [apply base_evo|]. destruct (base_parts rexp) as (a & b & c & d). rewrite a, b, c, d.
  assert (Z : is_hermitian (S:=RS) 2 (mk2 2 2 hz)) by apply wsz_herm. assert (X : is_hermitian (S:=RS) 2 (mk2 2 2 hx)) by apply wsx_herm.
  split; [reflexivity|]. split; [exact (Forall_cons _ Z (Forall_cons _ X (Forall_nil _)))|]. split; [exact (Forall_cons _ X (Forall_nil _))|]. split.
  - split; [apply is_matrix_wfm, wfm_mk2|]. intros i j Hi Hj. rewrite mg_mk2 by auto. reflexivity.
  - split; [split; reflexivity|]. unfold braket, mg, get2, getn. cbn. unfold cadd, cmul, cconj, c1. cbn. f_equal; lra.
Qed.

(** (3, 4i)/5 under the identity, a bit flip and a rotation by the matrix ((3, 4i), (4i, 3))/5 *)
Definition qf (a b : Z) : QcField := Q2Qc (a # Z.to_pos b).
Definition bpsi : op QcField := Arr [2; 1] [(qf 3 5, qf 0 1); (qf 0 1, qf 4 5)].
Definition bprops : list (op QcField) :=
  [Arr [2; 2] [(qf 1 1, qf 0 1); (qf 0 1, qf 0 1); (qf 0 1, qf 0 1); (qf 1 1, qf 0 1)];
   Arr [2; 2] [(qf 0 1, qf 0 1); (qf 1 1, qf 0 1); (qf 1 1, qf 0 1); (qf 0 1, qf 0 1)];
   Arr [2; 2] [(qf 3 5, qf 0 1); (qf 0 1, qf 4 5); (qf 0 1, qf 4 5); (qf 3 5, qf 0 1)]].
Definition bpts : list (point QcField) := [(qf 0 1, qf 24 25, qf (-7) 25); (qf 0 1, qf (-24) 25, qf 7 25); (qf 0 1, qf (-336) 625, qf (-527) 625)].
Lemma bprops_ok : bprops <> [] /\ Forall (isometry (F:=QcField)) bprops /\ qubit (F:=QcField) bpsi.
Proof.
  split; [discriminate|]. split.
  - repeat apply Forall_cons; try apply Forall_nil; (split; [split; reflexivity|]); intros [|[|i]] [|[|j]] Hi Hj; try lia; apply ceqb_eq; vm_compute; reflexivity.
  - split; [split; reflexivity|]. apply ceqb_eq; vm_compute; reflexivity.
Qed.
Definition peqb (p q : point QcField) : bool :=
  let '(x, y, z) := p in let '(x', y', z') := q in (keqb (x : QcField) x' && keqb (y : QcField) y' && keqb (z : QcField) z')%bool.
Lemma bpts_ok : match bloch_points (F:=QcField) (fun _ => Err TypeError) bprops bpsi with
  | Ok pts => (Nat.eqb (length pts) 3 && forallb (fun pq => peqb (fst pq) (snd pq)) (combine pts bpts))%bool | Err _ => false end = true.
Proof. vm_compute. reflexivity. Qed.
Definition bzero : op QcField := Arr [2; 1] [(qf 1 1, qf 0 1); (qf 0 1, qf 0 1)].
Lemma bzero_qubit : qubit (F:=QcField) bzero.
Proof. split; [split; reflexivity|]. apply ceqb_eq; vm_compute; reflexivity. Qed.
(** forward propagators of a solver that starts with a ket *)
Lemma case_bloch_errors : is_matrix (S:=CStar QcField) 2 1 bpsi /\ bloch_points (F:=QcField) (fun _ => Err TypeError) [bpsi; bpsi] bpsi = Err ValueError.
Proof. split; [split; reflexivity|]. vm_compute. reflexivity. Qed.

(** Theorems about the propagators of LindbladSolver in qopt/solver_algorithms.py whose dissipation is given as super operators
    or by a function, property C67 of properties.jsonl.
    Statements only; the proofs are in P_ChannelSuper.v, the concrete cases in P_ChannelSuperWit.v. *)
Require Import List Arith Reals.
From Verif Require Import LibBase LibRing LibArr LibCplx LibMat LibDeriv M_Matrix S_Linear S_Exp M_Transfer S_Transfer M_Solver S_Solver S_Lindblad S_Channel S_ChannelSuper
  P_Channel2 P_ChannelWit P_ChannelSuper P_ChannelSuperWit.
Import ListNotations.
Set Implicit Arguments.

(** ---------- C67: Lindblad propagators are quantum channels, dissipation given as super operators ---------- *)
Theorem c67_super_operators : forall (rexp : R -> R) (la : LinAlg RField) (eps : cplx RField) d (s0 s : @st RField) n l u w ps,
  used (F:=RField) rexp la eps d s0 s -> closed_part n l s u -> given_super n l s0 s u w -> exponentiates la (n * n) s ->
  returns (F:=RField) rexp la eps s SPropag (VProp ps) ->
  length ps = length (s_time s) /\ forall t, t < length (s_time s) -> exists E, nth_error ps t = Some (Some E) /\ channel n E.
Proof. exact @super_channels. Qed.
Print Assumptions c67_super_operators.
Theorem c67_function : forall (rexp : R -> R) (la : LinAlg RField) (eps : cplx RField) d (s0 s : @st RField) n l u ps,
  used (F:=RField) rexp la eps d s0 s -> closed_part n l s u -> given_function n l s u -> exponentiates la (n * n) s ->
  returns (F:=RField) rexp la eps s SPropag (VProp ps) ->
  length ps = length (s_time s) /\ forall t, t < length (s_time s) -> exists E, nth_error ps t = Some (Some E) /\ channel n E.
Proof. exact @function_channels. Qed.
Print Assumptions c67_function.
Theorem c67_super_forward : forall (rexp : R -> R) (la : LinAlg RField) (eps : cplx RField) d (s0 s : @st RField) n l u w ps fs,
  used (F:=RField) rexp la eps d s0 s -> closed_part n l s u -> given_super n l s0 s u w \/ given_function n l s u -> exponentiates la (n * n) s ->
  returns (F:=RField) rexp la eps s SPropag (VProp ps) -> channel n (c_init (s_conf s)) -> returns (F:=RField) rexp la eps s SFwd (VOps fs) ->
  length fs = Datatypes.S (length (s_time s)) /\ Forall (channel n) fs.
Proof. exact @either_forward. Qed.
Print Assumptions c67_super_forward.
Theorem c67_super_states : forall (rexp : R -> R) (la : LinAlg RField) (eps : cplx RField) d (s0 s : @st RField) n l u w ps fs rho,
  used (F:=RField) rexp la eps d s0 s -> closed_part n l s u -> given_super n l s0 s u w \/ given_function n l s u -> exponentiates la (n * n) s ->
  returns (F:=RField) rexp la eps s SPropag (VProp ps) -> vectorised n rho (c_init (s_conf s)) -> density n rho -> returns (F:=RField) rexp la eps s SFwd (VOps fs) ->
  length fs = Datatypes.S (length (s_time s)) /\ Forall (fun f => exists sigma, vectorised n sigma f /\ density n sigma) fs.
Proof. exact @either_states. Qed.
Print Assumptions c67_super_states.
(** the super operator that the code computes from an operator qualifies *)
Theorem c67_computed : forall n (L : mat RS), is_matrix (S:=RS) n n L -> exists D, dissipator (F:=RField) (mid (S:=RS) n) L = Ok D /\ dissipative n D.
Proof. exact @computed_dissipative. Qed.
Print Assumptions c67_computed.
(** a driven spin whose relaxation is given as a super operator with the rates 1 and 2 *)
Example c67_case_super : forall i, used (F:=RField) (fun x => x) lla c0 (DId 1) (psolver pconf i) (prun pconf i) /\ closed_part 2 pconf (prun pconf i) ly /\
  given_super 2 pconf (psolver pconf i) (prun pconf i) ly lrates /\ exponentiates lla 4 (prun pconf i) /\
  (exists ps, returns (F:=RField) (fun x => x) lla c0 (prun pconf i) SPropag (VProp ps)) /\ length (s_time (prun pconf i)) = 2.
Proof. intros i. split; [apply pused; auto|]. split; [apply pclosed; auto|]. split; [apply pgiven|]. split; [apply pexact; auto|]. split; [apply ppropagators; auto|]. reflexivity. Qed.
(** the same with a function that returns a super operator for each time step *)
Example c67_case_function : forall i, used (F:=RField) (fun x => x) lla c0 (DId 1) (psolver fconf i) (prun fconf i) /\ closed_part 2 fconf (prun fconf i) ly /\
  given_function 2 fconf (prun fconf i) ly /\ exponentiates lla 4 (prun fconf i) /\
  (exists ps, returns (F:=RField) (fun x => x) lla c0 (prun fconf i) SPropag (VProp ps)) /\ length (s_time (prun fconf i)) = 2.
Proof. intros i. split; [apply pused; auto|]. split; [apply pclosed; auto|]. split; [apply fgiven|]. split; [apply pexact; auto|]. split; [apply ppropagators; auto|]. reflexivity. Qed.
Example c67_case_super_forward : forall l, l = pconf \/ l = fconf ->
  channel 2 (c_init (s_conf (prun l None))) /\ (exists fs, returns (F:=RField) (fun x => x) lla c0 (prun l None) SFwd (VOps fs)) /\
  vectorised 2 lexc (c_init (s_conf (prun l (Some lvec)))) /\ density 2 lexc /\ exists fs, returns (F:=RField) (fun x => x) lla c0 (prun l (Some lvec)) SFwd (VOps fs).
Proof.
  intros l Hl. split; [destruct Hl; subst; exact (channel_mid 2)|]. split; [apply pforward; auto|]. split; [destruct Hl; subst; apply lvec_state|]. split; [apply lvec_state|].
  apply pforward; auto. right. exists lvec. split; [reflexivity|]. apply lvec_state.
Qed.

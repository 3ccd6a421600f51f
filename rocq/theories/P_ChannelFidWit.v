(** An instance for C68: two noise traces of a spin, one of them flips it. *)
Require Import List Arith Lia Bool Reals Lra.
From Verif Require Import LibBase LibRing LibArr LibCplx LibMat LibNorm LibDeriv M_Matrix S_Linear P_Linear P_Matrix M_Cost S_Cost S_Channel S_ChannelCost.
Import ListNotations.
Set Implicit Arguments.

Definition tsx : mat RS := mk2 2 2 (fun i j => if Nat.eqb i j then c0 else c1).
Definition tid : mat RS := mid (S:=RS) 2.
Definition treads : @reads RField := mkreads (F:=RField) [tid; tsx] [] [] [[tid; tsx]; [tid; tid]] [] [] 2 1 1.
Ltac tnum := match goal with |- ?x = _ => let y := eval cbv -[Rplus Rmult Ropp Rinv Rminus IZR Rdiv] in x in change x with y end.
Ltac tpair := match goal with |- ?x = ?z => let y := eval cbv -[Rplus Rmult Ropp Rinv Rminus IZR Rdiv] in x in change x with y; let w := eval cbv -[Rplus Rmult Ropp Rinv Rminus IZR Rdiv] in z in change z with w end; apply (f_equal2 pair); (match goal with |- ?a = ?b => change (@eq R a b); ring end).
Lemma tinfidelity : liouville_infidelity (F:=RField) treads tid None = Ok (/ 2)%R.
Proof. tnum. apply f_equal. field. Qed.
Lemma tinfidelity_sub : liouville_infidelity (F:=RField) treads (mid (S:=RS) 1) (Some [1]) = Ok (/ 2)%R.
Proof. tnum. apply f_equal. field. Qed.
Lemma tleak : leakage_liouville (F:=RField) treads 2 [0] true true = Ok (/ 2)%R.
Proof. tnum. apply f_equal. field. Qed.
Lemma tunitary (U : mat RS) : U = tsx \/ U = tid -> is_unitary (S:=RS) 2 U.
Proof.
  intros [->| ->].
  - split; [apply is_matrix_wfm; apply wfm_mk2|]. split; intros [|[|?]] [|[|?]]; try lia; intros _ _; tpair.
  - split; [apply is_matrix_wfm; apply wfm_mid|]. split; intros [|[|?]] [|[|?]]; try lia; intros _ _; tpair.
Qed.
Lemma tunitary1 : is_unitary (S:=RS) 1 (mid (S:=RS) 1).
Proof. split; [apply is_matrix_wfm; apply wfm_mid|]. split; intros [|?] [|?]; try lia; intros _ _; tpair. Qed.
Lemma ttraces : traces_of (is_unitary (S:=RS) 2) (r_nfwd treads).
Proof.
  split; [discriminate|]. intros fs Hf. cbn [In r_nfwd treads] in Hf.
  destruct Hf as [<-|[<-|[]]]; (split; [discriminate|]); (apply Forall_cons; [apply tunitary; now right|]); (apply Forall_cons; [|constructor]); [apply tunitary; now left|apply tunitary; now right].
Qed.

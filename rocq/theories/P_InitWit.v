(** Concrete calls for C89; the client's values are numbers. *)
Require Import List Arith Lia String.
From Verif Require Import LibBase M_Init S_Init P_Init P_Init2.
Import ListNotations.
Local Open Scope string_scope.
Set Implicit Arguments.

(** NTGColoredNoise(10, density, 3, n_traces=5), noise.py l.569 *)
Definition noise_args : list (val nat) := [VGiven 10; VGiven 7; VGiven 3].
Definition noise_kws : list (string * val nat) := [("n_traces", VGiven 5)].
Lemma noise_call : signature_of classes "NTGColoredNoise" (sig_of "NTGColoredNoise") /\ fits (sig_of "NTGColoredNoise") noise_args noise_kws /\
  receives (sig_of "NTGColoredNoise") noise_args noise_kws "dt" (VGiven 3) /\ receives (sig_of "NTGColoredNoise") noise_args noise_kws "n_traces" (VGiven 5) /\
  receives (sig_of "NTGColoredNoise") noise_args noise_kws "n_noise_operators" (VText "1").
Proof.
  split; [|split; [|split; [|split]]].
  - destruct (@signature_exists "NTGColoredNoise") as (s & H); [vm_compute; tauto|]. pose proof (signature_unique H) as E. now rewrite <- E.
  - split; [vm_compute; lia|]. split; [vm_compute; repeat constructor; simpl; intuition discriminate|]. split.
    + intros k [<-|[]]. vm_compute. tauto.
    + intros p H. vm_compute in H. left. repeat (destruct H as [H|H]; [try discriminate; injection H as <-; vm_compute; tauto|]). destruct H.
  - left. exists 2. split; reflexivity.
  - right. left. now left.
  - right. right. split; [vm_compute; intuition discriminate|]. split; [vm_compute; intuition discriminate|]. exists (ETxt "1"). split; [vm_compute; tauto|reflexivity].
Qed.
(** the duration is missing *)
Lemma noise_misfit : ~ fits (sig_of "NTGColoredNoise") [VGiven 10; VGiven 7] noise_kws.
Proof. intros (_ & _ & _ & H). specialize (H "dt"). vm_compute in H. destruct H as [H|H]; [tauto|intuition discriminate|intuition discriminate]. Qed.
Lemma noise_case : In "NTGColoredNoise" concrete /\ signature_of classes "NTGColoredNoise" (sig_of "NTGColoredNoise") /\ fits (sig_of "NTGColoredNoise") noise_args noise_kws /\
  ~ fits (sig_of "NTGColoredNoise") [VGiven 10; VGiven 7] noise_kws /\
  receives (sig_of "NTGColoredNoise") noise_args noise_kws "dt" (VGiven 3) /\ receives (sig_of "NTGColoredNoise") noise_args noise_kws "n_traces" (VGiven 5) /\
  receives (sig_of "NTGColoredNoise") noise_args noise_kws "n_noise_operators" (VText "1") /\ ~ In ("NTGColoredNoise", "dt") converted.
Proof.
  destruct noise_call as (H1 & H2 & H3 & H4 & H5). split; [vm_compute; tauto|]. repeat (split; [assumption|]). split; [exact noise_misfit|]. repeat (split; [assumption|]).
  intros H. apply pair_in_ok in H. vm_compute in H. discriminate.
Qed.
Lemma norm_case : exists (args : list (val nat)) sig, signature_of classes "OperatorMatrixNorm" sig /\ fits sig args [].
Proof.
  exists [VGiven 1; VGiven 2], (sig_of "OperatorMatrixNorm"). split.
  - destruct (find (fun c => c_name c =? "OperatorMatrixNorm") classes) as [k|] eqn:E; [|vm_compute in E; discriminate]. pose proof (find_some _ _ E) as [E1 E2]. apply String.eqb_eq in E2. rewrite <- E2.
    destruct (c_init k) as [[s b]|] eqn:EI; [|vm_compute in E; injection E as <-; vm_compute in EI; discriminate]. pose proof (sig_own classes k E1 EI) as H. pose proof (signature_unique H) as U. now rewrite <- U.
  - split; [vm_compute; lia|]. split; [constructor|]. split; [intros k []|]. intros p H. vm_compute in H. left. repeat (destruct H as [H|H]; [try discriminate; injection H as <-; vm_compute; tauto|]). destruct H.
Qed.

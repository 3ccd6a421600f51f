(** Theorems about the constructors of the classes of qopt, property C89 of properties.jsonl.
    Statements only; the proofs are in P_Init.v and P_Init2.v, the concrete calls in P_InitWit.v. *)
Require Import List Arith String.
From Verif Require Import LibBase M_Init S_Init P_Init P_Init2 P_InitWit.
Import ListNotations.
Local Open Scope string_scope.
Set Implicit Arguments.

(** ---------- C89: constructors ---------- *)
(** every class has one signature *)
Theorem c89_signature : forall c, In c concrete -> exists sig, signature_of classes c sig /\ forall sig', signature_of classes c sig' -> sig' = sig.
Proof. exact signature_exists_unique. Qed.
Print Assumptions c89_signature.
(** arguments that fit to the signature also fit to all constructors of the parents; the others are refused *)
Theorem c89_construct_partial : forall V c sig (args : list (val V)) kws, In c concrete -> signature_of classes c sig ->
  (fits sig args kws -> exists obj, construct (val_ops V) classes c args kws = Ok obj) /\ (~ fits sig args kws -> construct (val_ops V) classes c args kws = Err TypeError).
Proof. exact @constructible. Qed.
Print Assumptions c89_construct_partial.
(** the object keeps the arguments *)
Theorem c89_stored : forall V c sig (args : list (val V)) kws obj p v, In c concrete -> signature_of classes c sig -> construct (val_ops V) classes c args kws = Ok obj ->
  receives sig args kws p v -> v <> VNone -> ~ In (c, p) converted -> exists a, keeps p a /\ attribute obj a v.
Proof. exact @stored. Qed.
Print Assumptions c89_stored.
Theorem c89_abstract : forall V c (args : list (val V)) kws, In c abstract -> construct (val_ops V) classes c args kws = Err TypeError.
Proof. exact @abstract_raise. Qed.
Print Assumptions c89_abstract.
(** OperatorMatrixNorm is no abstract class, but no call constructs one *)
Theorem c89_matrix_norm_refuted : forall V (args : list (val V)) kws, construct (val_ops V) classes "OperatorMatrixNorm" args kws = Err TypeError.
Proof. exact @norm_raises. Qed.
Print Assumptions c89_matrix_norm_refuted.
Example c89_case : In "NTGColoredNoise" concrete /\ signature_of classes "NTGColoredNoise" (sig_of "NTGColoredNoise") /\ fits (sig_of "NTGColoredNoise") noise_args noise_kws /\
  ~ fits (sig_of "NTGColoredNoise") [VGiven 10; VGiven 7] noise_kws /\
  receives (sig_of "NTGColoredNoise") noise_args noise_kws "dt" (VGiven 3) /\ receives (sig_of "NTGColoredNoise") noise_args noise_kws "n_traces" (VGiven 5) /\
  receives (sig_of "NTGColoredNoise") noise_args noise_kws "n_noise_operators" (VText "1") /\ ~ In ("NTGColoredNoise", "dt") converted.
Proof. exact noise_case. Qed.
Example c89_case_abstract : In "MatrixTF" abstract.
Proof. vm_compute. tauto. Qed.
Example c89_case_norm : exists (args : list (val nat)) sig, signature_of classes "OperatorMatrixNorm" sig /\ fits sig args [].
Proof. exact norm_case. Qed.

(** Concrete cases and refuting runs for containers, results, run selection and parallel runs. *)
Require Import List Arith Lia Bool ZArith QArith Qcanon String Permutation.
From Verif Require Import LibBase LibRing LibArr LibCplx LibEx M_OpHeap M_Pool M_Optimizer S_Optimizer P_OptimizerWit M_Data S_Data P_Data P_Data2 M_Parallel.
Import ListNotations.
Open Scope list_scope.
Open Scope nat_scope.
Set Implicit Arguments.
Local Notation length := List.length.
Local Notation Q := QcField.
Local Notation qarr := (arr (kcar QcField)).

(** ---- containers ---- *)
Definition ob (n : nat) : val nat := VObj n.
Definition rA (n : nat) (s : val nat) : ores nat := mkres (ob n) (VStrs ["a"; "b"]%string) (ob (n + 1)) VNone (ob (n + 2)) VNone VNone (ob (n + 3)) VNone VNone s.
Definition rB (n : nat) : ores nat := mkres (ob n) (VStrs ["b"]%string) (ob (n + 1)) VNone (ob (n + 2)) VNone VNone (ob (n + 3)) VNone VNone VNone.
(** two containers; the third append is rejected *)
Definition evs : list (dev nat) := [ENew nat; EAppend 0 (rA 10 VNone); ENew nat; EAppend 0 (rA 20 (VSummary (ob 1) (ob 2))); EAppend 0 (rB 30); EAppend 1 (rB 40); EAppend 5 (rB 50)].
Lemma rA_ok n s : s = VNone \/ (exists c p, s = VSummary c p) -> result_ok (rA n s).
Proof. intros H. split; [eexists; reflexivity|exact H]. Qed.
Lemma rB_ok n : result_ok (rB n).
Proof. split; [eexists; reflexivity|left; reflexivity]. Qed.
Lemma evs_ok : Forall event_ok evs.
Proof. unfold evs. repeat (apply Forall_cons; [first [exact I|apply rB_ok|apply rA_ok; eauto]|]). apply Forall_nil. Qed.
Lemma evs_logs : logs evs [[rA 10 VNone; rA 20 (VSummary (ob 1) (ob 2))]; [rB 40]].
Proof.
  unfold evs.
  assert (L1 : logs [ENew nat] [[]]) by (apply (@logs_new nat [] []); constructor).
  assert (L2 : logs [ENew nat; EAppend 0 (rA 10 VNone)] [[rA 10 VNone]]) by (apply (@logs_append nat [ENew nat] [[]] 0 _ [] L1 eq_refl I)).
  assert (L3 : logs [ENew nat; EAppend 0 (rA 10 VNone); ENew nat] [[rA 10 VNone]; []]) by (apply (@logs_new nat [ENew nat; EAppend 0 (rA 10 VNone)] [[rA 10 VNone]] L2)).
  pose proof (@logs_append nat _ _ 0 (rA 20 (VSummary (ob 1) (ob 2))) _ L3 eq_refl eq_refl) as L4. cbn [app lset] in L4.
  assert (N : ~ accepts [rA 10 VNone; rA 20 (VSummary (ob 1) (ob 2))] (rB 30)) by (cbn; discriminate).
  pose proof (@logs_reject nat _ _ 0 (rB 30) _ L4 eq_refl N) as L5. cbn [app] in L5.
  pose proof (@logs_append nat _ _ 1 (rB 40) _ L5 eq_refl I) as L6. cbn [app lset] in L6.
  exact (@logs_nobody nat _ _ 5 (rB 50) L6 eq_refl).
Qed.
Lemma evs_rejected : ~ accepts [rA 10 VNone; rA 20 (VSummary (ob 1) (ob 2))] (rB 30).
Proof. cbn. discriminate. Qed.

(** ---- serialisation ---- *)
Definition dmade : dcont nat := mkdc (VStr "/data"%string) (VStr "x.pkl"%string) (VStrs ["a"; "b"]%string) (VRef 0) (VRef 1) (VRef 2) (VRef 3) (VRef 4) (VRef 5) (VRef 6) (VBool true).
Definition kwmade : kwargs nat := [("storage_path", VStr "/data"%string); ("file_name", VStr "x.pkl"%string)]%string.
Definition hmade : lheap nat := [[ob 10]; [ob 12]; [ob 11]; [VRef 7]; [VRef 8]; [ob 13]; [VNone]; []; []].
Lemma made_ok : exists h1 d0, new_container kwmade [] = (h1, Ok d0) /\ append_optim_result Nat.eqb d0 (rA 10 VNone) h1 = (hmade, Ok dmade).
Proof.
  exists [[]; []; []; []; []; []; []], (mkdc (VStr "/data"%string) (VStr "x.pkl"%string) (VStrs []) (VRef 0) (VRef 1) (VRef 2) (VRef 3) (VRef 4) (VRef 5) (VRef 6) (VBool true)).
  split; vm_compute; reflexivity.
Qed.
Lemma dmade_made : made Nat.eqb dmade.
Proof. destruct made_ok as (h1 & d0 & A & B). eapply made_append; [|apply rA_ok; left; reflexivity|exact B]. eapply made_new; exact A. Qed.
Lemma hmade_closed : closed hmade /\ closed_container hmade dmade.
Proof. split; repeat constructor; cbn; lia. Qed.
Lemma dmade_pickle : pickle_name dmade VNone = Ok "/data/x.pkl"%string /\ exists fs, to_pickle (fun _ => true) dmade VNone hmade [] = (fs, Ok tt).
Proof. split; [reflexivity|eexists; reflexivity]. Qed.
(** a result with its status is read back without it *)
Theorem result_status_refuted : exists (r r' : ores nat), result_from_dict (result_to_dict r) = Ok r' /\ r_stat r = ob 5 /\ r_stat r' <> r_stat r.
Proof. exists (mkres (ob 1) (VStrs []) (ob 2) VNone VNone VNone VNone (ob 5) VNone VNone VNone). eexists. split; [reflexivity|]. split; [reflexivity|]. discriminate. Qed.
(** a container that got its indices from a result without indices *)
Theorem none_indices_refuted : exists (d0 d d' : dcont nat) r h0 h h', new_container [] [] = (h0, Ok d0) /\ append_optim_result Nat.eqb d0 r h0 = (h, Ok d) /\
  dc_from_dict (dc_to_dict d) h = (h', Ok d') /\ d_indices d' <> d_indices d.
Proof.
  set (mk := fun ix => mkdc (VStr default_path) (VStr "Temp File") ix (VRef 0) (VRef 1) (VRef 2) (VRef 3) (VRef 4) (VRef 5) (VRef 6) (VBool true) : dcont nat).
  set (h := [[ob 1]; [VNone]; [ob 2]; [VRef 7]; [VRef 8]; [ob 5]; [VNone]; []; []] : lheap nat).
  exists (mk (VStrs [])), (mk VNone), (mk (VStrs [])), (mkres (ob 1) VNone (ob 2) VNone VNone VNone VNone (ob 5) VNone VNone VNone), [[]; []; []; []; []; []; []], h, h.
  split; [vm_compute; reflexivity|]. split; [vm_compute; reflexivity|]. split; [vm_compute; reflexivity|]. discriminate.
Qed.
(** the container made from the dictionary shares its lists with the original: appending to one appends to the other *)
Theorem dict_shares_refuted : exists (d d' d2 : dcont nat) r h h1 h2, made Nat.eqb d /\ dc_from_dict (dc_to_dict d) h = (h1, Ok d') /\ result_ok r /\
  append_optim_result Nat.eqb d' r h1 = (h2, Ok d2) /\ dc_len h1 d = Ok 1 /\ dc_len h2 d = Ok 2.
Proof.
  exists dmade, dmade, dmade, (rA 20 VNone), hmade, hmade, [[ob 10; ob 20]; [ob 12; ob 22]; [ob 11; ob 21]; [VRef 7; VRef 9]; [VRef 8; VRef 10]; [ob 13; ob 23]; [VNone; VNone]; []; []; []; []].
  split; [apply dmade_made|]. split; [vm_compute; reflexivity|]. split; [apply rA_ok; auto|]. split; [vm_compute; reflexivity|]. split; vm_compute; reflexivity.
Qed.

(** ---- run selection ---- *)
Definition runs : list (fcost Q) := [FVec [qq 3 1; qq 0 1]; FVec [qq 1 1; qq (-2) 1]; FVec [qq 2 1; qq 1 1]].
Lemma runs_uniform : uniform runs.
Proof. right. exists 2. intros c [<-|[<-|[<-|[]]]]; eexists; split; reflexivity. Qed.
Lemma runs_best : n_least_square runs = Ok 1.
Proof.
  assert (H : match n_least_square runs with Ok 1 => true | _ => false end = true) by (vm_compute; reflexivity).
  destruct (n_least_square runs) as [[|[|]]|]; try discriminate. reflexivity.
Qed.

(** ---- parallel runs with the optimiser of M_Optimizer ---- *)
Definition orun2 := @opt_run Q (@record Q nat) (rec_costs sct) (rec_jac sjt) LeastSquares LBFGSB (cf2 None true) progt ["c"]%string (fun p => kadd p (qq 1 1)).
Lemma opt_run_indices (F : OField) W simc simj kd me cf sp ix tick (o : @ost F W) : has_indices (opt_run simc simj kd me cf sp ix tick) o ix.
Proof.
  intros u p o' p' r E. unfold opt_run in E. destruct (run_optimization simc simj kd me cf u p sp o) as [s' [x|]]; inversion E; subst. split; reflexivity.
Qed.
Definition pyeq (x y : pyv Q) : bool := false.
Definition pul2 : qarr := mk2 2 1 (fun t _ => qq (Z.of_nat (t + 1)) 1).
Definition sched2 : list (nat * nat) := [(1, 0); (2, 1); (0, 1)].
Lemma sched2_ok : Permutation (map fst sched2) (seq 0 (length (chunks 1 [yt; pul2; yt]))).
Proof. cbn. apply perm_trans with [1; 0; 2]; [apply perm_skip, perm_swap|apply perm_swap]. Qed.
Lemma par2_returns : exists oh h d, run_optimization_parallel pyeq orun2 0 [yt; pul2; yt] (qq 0 1) 1 sched2 [rs0] [] = (oh, (h, Ok d)).
Proof.
  assert (H : match run_optimization_parallel pyeq orun2 0 [yt; pul2; yt] (qq 0 1) 1 sched2 [rs0] [] with (_, (_, Ok _)) => true | _ => false end = true) by (vm_compute; reflexivity).
  destruct (run_optimization_parallel pyeq orun2 0 [yt; pul2; yt] (qq 0 1) 1 sched2 [rs0] []) as [oh [h [d|]]]; [eauto|discriminate].
Qed.

(** Concrete cases for the theorems about cost functions. *)
Require Import List Arith Lia Bool ZArith QArith Qcanon Reals Lra.
From Verif Require Import LibBase LibRing LibArr LibCplx LibMat LibNorm LibEx LibDeriv M_Matrix S_Linear P_Linear P_Matrix M_Solver M_Cost S_Cost S_CostGrad P_Cost P_Cost2 P_Cost3 P_CostGrad P_CostGrad2.
Import ListNotations.
Open Scope nat_scope.
Set Implicit Arguments.
Notation Qf := QcField.
Notation QS := (CStar QcField).
Notation qop := (op QcField).

Ltac qunit := split; [split; [reflexivity|vm_compute; reflexivity]|split; qfin].
(** a rotation, a phase times the rotation, and a rotation that leaks from level 1 to level 2 *)
Definition ru : qop := mq 2 2 [[cq 3 0 5; cq (-4)%Z 0 5]; [cq 4 0 5; cq 3 0 5]].
Definition iru : qop := mq 2 2 [[cq 0 3 5; cq 0 (-4)%Z 5]; [cq 0 4 5; cq 0 3 5]].
Definition lu : qop := mq 3 3 [[cq 1 0 1; c0; c0]; [c0; cq 3 0 5; cq (-4)%Z 0 5]; [c0; cq 4 0 5; cq 3 0 5]].
Definition lblk : qop := mq 2 2 [[cq 1 0 1; c0]; [c0; cq 3 0 5]].
Definition q2 : qop := mid (S:=QS) 2.
Lemma ru_unitary : is_unitary (S:=QS) 2 ru. Proof. qunit. Qed.
Lemma iru_unitary : is_unitary (S:=QS) 2 iru. Proof. qunit. Qed.
Lemma lu_unitary : is_unitary (S:=QS) 3 lu. Proof. qunit. Qed.
Lemma q2_unitary : is_unitary (S:=QS) 2 q2. Proof. qunit. Qed.
Lemma ru_phase : same_up_to_phase (F:=Qf) 2 2 ru iru.
Proof. exists (cq 0 1 1). split; [qc|]. split; [split; [reflexivity|vm_compute; reflexivity]|qfin]. Qed.
Lemma lblk_block : is_block (F:=Qf) [0; 1] lu lblk.
Proof. split; [split; [reflexivity|vm_compute; reflexivity]|]. cbn [length]. qfin. Qed.
Lemma lvl01 : levels 3 [0; 1].
Proof. split. constructor. intros [H|[]]; discriminate. constructor. intros []. constructor. intros i [<-|[<-|[]]]; lia. Qed.

Definition e0 : qop := mq 2 1 [[c1]; [c0]].
Definition e34 : qop := mq 2 1 [[cq 3 0 5]; [cq 0 4 5]].
Definition e0b : qop := mq 1 2 [[c1; c0]].
Lemma e0_state : is_state (F:=Qf) 2 e0. Proof. split; [split; [reflexivity|vm_compute; reflexivity]|qc]. Qed.
Lemma e34_state : is_state (F:=Qf) 2 e34. Proof. split; [split; [reflexivity|vm_compute; reflexivity]|qc]. Qed.
Lemma e0_bra : is_bra_of (F:=Qf) 2 e0b e0. Proof. split; [split; [reflexivity|vm_compute; reflexivity]|qfin]. Qed.

Definition keqr (r : res (kcar Qf)) (v : Qf) : bool := match r with Ok x => keqb x v | Err _ => false end.
Lemma keqr_ok r v : keqr r v = true -> r = Ok v.
Proof. destruct r; cbn; [|discriminate]. intros H. apply keqb_eq in H. now subst. Qed.
Definition ceqr (r : res (cplx Qf)) (v : cplx Qf) : bool := match r with Ok x => ceqb x v | Err _ => false end.
Lemma ceqr_ok r v : ceqr r v = true -> r = Ok v.
Proof. destruct r; cbn; [|discriminate]. intros H. apply ceqb_eq in H. now subst. Qed.
(** no linear algebra is called in these cases *)
Definition qla0 : LinAlg Qf := mkLA (fun _ => ([], e0)) (fun _ => ([], e0)) (fun A => A) (fun A B => (A, B)) (fun A => (A, [], A)) (fun z => z).

Lemma state_case : state_fidelity qla0 e0b e34 None false = Ok (qq 9 25).
Proof. apply keqr_ok. vm_compute. reflexivity. Qed.
Lemma ent_case : entanglement_fidelity qla0 ru q2 None false = Ok (qq 9 25) /\ entanglement_fidelity qla0 ru iru None false = Ok k1.
Proof. split; apply keqr_ok; vm_compute; reflexivity. Qed.
Lemma sub_case : entanglement_fidelity qla0 q2 lu (Some [0; 1]) false = Ok (qq 16 25).
Proof. apply keqr_ok; vm_compute; reflexivity. Qed.
Lemma super_case : is_super_of (F:=Qf) 2 iru (op_to_super iru) /\ entanglement_fidelity_super ru (op_to_super iru) None = Ok k1.
Proof. split. apply super_is. apply iru_unitary. apply keqr_ok; vm_compute; reflexivity. Qed.
(** a solver whose noiseless and noisy propagators end in lu *)
Definition lreads : reads Qf := mkreads [mid (S:=QS) 3; lu] [] [] [[mid (S:=QS) 3; lu]; [mid (S:=QS) 3; lu]] [] [] 2 1 1.
Lemma lreads_last : is_last (r_fwd lreads) lu. Proof. now exists [mid (S:=QS) 3]. Qed.
Lemma lreads_finals : finals lreads (fun _ => lu).
Proof. intros i Hi. exists [mid (S:=QS) 3; lu]. split. destruct i as [|[|i]]; try reflexivity. cbn in Hi. lia. now exists [mid (S:=QS) 3]. Qed.
Lemma leak_case : leakage qla0 lreads [0; 1] = Ok (qq 8 25) /\ leakage_liouville lreads 3 [0; 1] true false = Ok (qq 8 25) /\ staying (F:=Qf) [0;1] lu = qq 17 25.
Proof. split; [|split]. apply keqr_ok; vm_compute; reflexivity. apply keqr_ok; vm_compute; reflexivity. apply keqb_eq. vm_compute. reflexivity. Qed.
(** neglecting systematic errors: every trace ends in the noiseless propagator and the cost is not zero *)
Lemma noise_neglect_leaks : exists (r : reads Qf) (U : op Qf) cs, finals r (fun _ => U) /\ is_last (r_fwd r) U /\ is_unitary (S:=QS) 3 U /\ levels 3 cs /\
  (forall la, noise_infidelity la r None (Some cs) false true = Ok (qq 336 625)) /\ qq 336 625 <> k0.
Proof.
  exists lreads, lu, [0;1]. split; [apply lreads_finals|]. split; [apply lreads_last|]. split; [apply lu_unitary|]. split; [apply lvl01|]. split.
  - intros la. rewrite (@noise_identical_sub Qf la 3 lreads None true lu [0;1]).
    + f_equal.
    + now left. + apply lreads_finals. + apply lreads_last. + apply lu_unitary. + apply lvl01. + discriminate. + cbn. discriminate.
  - intros E. apply (f_equal (fun x => keqb x k0)) in E. revert E. vm_compute. discriminate.
Qed.
Lemma agf_case : average_gate_fidelity ru q2 = Ok (cq 43 0 75).
Proof. apply ceqr_ok. vm_compute. reflexivity. Qed.
Lemma far_case : off_by (F:=Qf) (kadd (qq 1 100000000) (qq 1 100000)) (gram2 (mq 2 2 [[cq 2 0 1; c0]; [c0; c1]]) 0 0) k1.
Proof. unfold off_by, kle. vm_compute. discriminate. Qed.

(** ---- a singular value decomposition of real 1 x 1 matrices ---- *)
Definition rsvd (A : rop) : rop * list RField * rop :=
  let x := cre (mg A 0 0) : R in
  if Rle_dec 0 x then (mid (S:=RS) 1, [x : RField], mid (S:=RS) 1) else (mscale (S:=RS) (copp c1) (mid (S:=RS) 1), [(- x)%R : RField], mid (S:=RS) 1).
Definition rla : LinAlg RField := mkLA (fun _ => ([], rid)) (fun _ => ([], rid)) (fun A => A) (fun A B => (A, B)) rsvd (fun z => z).
Lemma rsvd_ok h : exists U s W, la_svd rla (mk2 1 1 (fun _ _ => rr (cos h))) = (U, s, W) /\ is_svd 1 (mk2 1 1 (fun _ _ => rr (cos h))) U s W.
Proof.
  cbn [la_svd rla]. unfold rsvd. rewrite mg_mk2 by auto. cbn [rr cofk cre fst]. 
  assert (U1 : is_unitary (S:=RS) 1 (mid (S:=RS) 1)) by (apply is_unitary_m; apply munitary_id).
  destruct (Rle_dec 0 (cos h)) as [L|L]; do 3 eexists; (split; [reflexivity|]).
  - split; [apply is_matrix_wfm; apply wfm_mk2|]. do 2 (split; [exact U1|]). split; [reflexivity|]. split.
    + intros k Hk. assert (k = 0) by lia. subst. apply r_leb_le; exact L.
    + intros i j Hi Hj. assert (i = 0) by lia. assert (j = 0) by lia. subst. rewrite mg_mk2 by auto. cbn [sumn nth]. rewrite !mg_mid by auto. unfold kd, rr, cofk, cmul, cadd, c1, c0. apply injective_projections; cbn; ring.
  - assert (W1 : wfm (S:=RS) 1 1 (mscale (S:=RS) (copp c1) (mid (S:=RS) 1))) by wf_solve.
    assert (V1 : mg (mscale (S:=RS) (copp c1) (mid (S:=RS) 1)) 0 0 = copp c1). { rewrite (@mg_mscale RS 1 1) by (auto; wf_solve). rewrite mg_mid by auto. unfold kd. cbn. unfold cmul, copp, c1. apply injective_projections; cbn; ring. }
    assert (U2 : is_unitary (S:=RS) 1 (mscale (S:=RS) (copp c1) (mid (S:=RS) 1))).
    { split; [apply is_matrix_wfm; exact W1|]. split; intros i j Hi Hj; assert (i = 0) by lia; assert (j = 0) by lia; subst; cbn [sumn]; rewrite V1; cbn; unfold cmul, copp, c1, cconj, cadd, c0; apply injective_projections; cbn; ring. }
    split; [apply is_matrix_wfm; apply wfm_mk2|]. split; [exact U2|]. split; [exact U1|]. split; [reflexivity|]. split.
    + intros k Hk. assert (k = 0) by lia. subst. apply r_leb_le; cbn; lra.
    + intros i j Hi Hj. assert (i = 0) by lia. assert (j = 0) by lia. subst. rewrite mg_mk2 by auto. cbn [sumn nth]. rewrite V1, !mg_mid by auto. unfold kd, rr, cofk, cmul, cadd, copp, c1, c0. apply injective_projections; cbn; ring.
Qed.
Lemma sqrt_ok : is_sqrt (F:=RField) sqrt.
Proof.
  intros x H. apply r_leb_le in H. split. apply r_leb_le. apply sqrt_pos. exact (sqrt_sqrt x H).
Qed.
Lemma bad_u_refutes : exists u : op QcField, is_matrix 2 2 u /\ ~ is_unitary (S:=CStar QcField) 2 u /\
  forall s a p, s (k0 : QcField) = k0 -> angle_axis (float_rf s a p) u = Ok (k0, [k1; k0; k0]).
Proof. exists bad_u. split; [apply is_matrix_wfm; apply wfm_mk2|]. split; [exact bad_u_not_unitary|exact bad_u_accepted]. Qed.

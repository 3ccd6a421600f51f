(** Further lemmas about the solvers and the concrete cases of the theorems in T_Solver.v *)
Require Import List Arith Lia ZArith QArith Qcanon Bool Ring Field.
From Verif Require Import LibBase LibRing LibArr LibCplx LibNorm LibMat LibEx M_Matrix S_Linear S_Exp P_Linear P_Spectral M_OpHeap M_Transfer S_Transfer M_Amplitude P_TransferWit M_Solver S_Solver S_Lindblad P_Solver9 P_SolverMC P_Lindblad P_SolverRest P_SolverWit.
Import ListNotations.
Open Scope nat_scope.
Open Scope res_scope.
Set Implicit Arguments.

Section Phys.
Variable F : OField.
Variable rexp : F -> F.
Variable la : LinAlg F.
Variable eps : cplx F.
Notation op := (mat (CStar F)).
Notation S := (CStar F).
Notation Sg := (sumn (S:=CStar F)).
Notation dop := (Arr [] [] : mat (CStar F)).
(** C33 *)
Lemma used_lindblad_physical d (s0 s : @st F) n l Ls u w ps : used rexp la eps d s0 s -> c_class (s_conf s) = CLindblad l -> li_func l = None -> li_ops l = Some Ls ->
  Forall (is_matrix (S:=S) n n : op -> Prop) Ls ->
  Forall (is_hermitian (S:=S) n : op -> Prop) (s_drift s) -> Forall (is_hermitian (S:=S) n : op -> Prop) (c_ctrl (s_conf s)) -> length (s_drift s) = length (s_time s) ->
  amplitudes s u -> rates l u (s_tpars s) (length Ls) w ->
  returns rexp la eps s SPropag (VProp ps) ->
  propagates la s (fun t G => is_matrix (S:=S) (n * n) (n * n) G /\
    (forall rho, Sg n (fun i => apply_super n G rho i i) = c0) /\ (forall rho, hermitian_fun n rho -> hermitian_fun n (apply_super n G rho))) ps.
Proof.
  intros U C LF LO WL HD HC LD A R Rt. destruct (@used_lindblad_ops F rexp la eps d s0 s n l Ls u w ps U C LF LO WL HD HC A R Rt) as [E Q].
  split; auto. intros t Ht. destruct (Q t Ht) as (P & G & tau & H1 & H2 & H3 & H4). exists P, G, tau. split; auto. split; auto. split; auto.
  split; [exact (proj1 H3)|]. split; intros rho; [exact (acts_trace rho H3)|]. apply (acts_herm H3). apply hamiltonian_herm; auto.
  rewrite Forall_forall in HD. apply HD. apply nth_In. lia.
Qed.
End Phys.

(** ---- the exponential of dexp is not that of exp for the series methods ---- *)
Definition qla1 : LinAlg Qf :=
  @mkLA Qf (fun M => ([] : list Qf, M)) (fun M => ([mg M 0 0], mid (S:=QS) 1)) cayley (fun X Y => (cayley X, Y)) (fun M => (M, [], M)) (fun _ => c1).
Definition sser : @st Qf := sget (sfresh CSchroedinger [mq 1 1 [[c0]]] [mq 1 1 [[c1]]] (ones 1) FirstOrder false GNone 1 AIdentity None).
Definition y1 : arr (kcar Qf) := aq 1 1 [[1]]%Z.
Fixpoint all_okb' (la : LinAlg Qf) (s : @st Qf) (hist : list (@sop Qf)) : bool :=
  match hist with [] => true | o :: rest => let p := sstep qexp la c0 s o in if is_ok (snd p) then all_okb' la (fst p) rest else false end.
Lemma all_okb'_ok la hist : forall s, all_okb' la s hist = true -> all_ok qexp la c0 s hist.
Proof.
  induction hist as [|o hist IH]; intros s H; [exact I|]. cbn [all_okb' all_ok] in *. destruct (snd (sstep qexp la c0 s o)) as [v|] eqn:E; cbn [is_ok] in H; [|discriminate].
  split; [eauto|now apply IH].
Qed.
Definition vops (r : res (@sval Qf)) : list qop := match r with Ok (VOps l) => l | _ => [] end.
Lemma ok_ops (r : res (@sval Qf)) : (match r with Ok (VOps _) => true | _ => false end) = true -> r = Ok (VOps (vops r)).
Proof. destruct r as [[]|]; intros; try discriminate; reflexivity. Qed.
Lemma ok_der (r : res (@sval Qf)) : (match r with Ok (VDer _) => true | _ => false end) = true -> r = Ok (VDer (vder r)).
Proof. destruct r as [[]|]; intros; try discriminate; reflexivity. Qed.
Definition squareb (n : nat) (o : option qop) : bool := match o with Some P => (if list_eq_dec Nat.eq_dec (shape P) [n; n] then true else false) && Nat.eqb (length (data P)) (n * n) | None => false end.
Lemma squareb_ok n ps : forallb (squareb n) ps = true -> all_square n ps.
Proof.
  rewrite forallb_forall. intros H P HP. specialize (H _ HP). cbn in H. destruct (list_eq_dec _ _ _); [|discriminate]. apply Nat.eqb_eq in H. split; auto.
Qed.
Definition hermb (n : nat) (A : qop) : bool := squareb n (Some A) && forallb (fun i => forallb (fun j => ceqb (mg A j i) (cconj (mg A i j))) (seq 0 n)) (seq 0 n).
Lemma hermb_ok n A : hermb n A = true -> is_hermitian (S:=QS) n A.
Proof.
  unfold hermb. rewrite andb_true_iff. intros [H1 H2]. split.
  - assert (Q : all_square n [Some A]) by (apply squareb_ok; cbn [forallb]; rewrite H1; reflexivity). apply Q. now left.
  - intros i j Hi Hj. rewrite forallb_forall in H2. specialize (H2 i ltac:(apply in_seq; lia)). rewrite forallb_forall in H2. specialize (H2 j ltac:(apply in_seq; lia)). now apply ceqb_eq in H2.
Qed.
Lemma hermb_all n l : forallb (hermb n) l = true -> Forall (is_hermitian (S:=QS) n : qop -> Prop) l.
Proof. rewrite forallb_forall, Forall_forall. intros H A HA. apply hermb_ok. now apply H. Qed.
Lemma square_all n l : forallb (fun A : qop => squareb n (Some A)) l = true -> Forall (is_matrix (S:=QS) n n : qop -> Prop) l.
Proof. rewrite forallb_forall, Forall_forall. intros H A HA. specialize (H A HA). cbn in H. destruct (list_eq_dec _ _ _); [|discriminate]. apply Nat.eqb_eq in H. split; auto. Qed.
Lemma square_one n (A : qop) : squareb n (Some A) = true -> is_matrix (S:=QS) n n A.
Proof. intros H. cbn in H. destruct (list_eq_dec _ _ _); [|discriminate]. apply Nat.eqb_eq in H. split; auto. Qed.

Definition dq : qop := Arr [] [].
Lemma series_exponentials : exists (la : LinAlg Qf) (d : desc Qf) (s0 : @st Qf) y ps ps' fs,
  constructed d s0 /\ exp_laws (la_cexp la) /\ (forall A : qop, is_matrix (S:=QS) 1 1 A -> eig_ok la false 1 A) /\
  all_ok qexp la c0 s0 [SSet y; SFwd; SDer] /\
  returns qexp la c0 (srun qexp la c0 s0 [SSet y]) SPropag (VProp ps) /\
  returns qexp la c0 (srun qexp la c0 s0 [SSet y; SFwd; SDer]) SPropag (VProp ps') /\
  returns qexp la c0 (srun qexp la c0 s0 [SSet y; SFwd; SDer]) SFwd (VOps fs) /\
  all_square 1 ps' /\ is_matrix 1 1 (c_init (s_conf s0)) /\ ps' <> ps /\ ~ cumulative 1 1 (c_init (s_conf s0)) ps' fs.
Proof.
  set (r1 := snd (sstep qexp qla1 c0 (srun qexp qla1 c0 sser [SSet y1]) SPropag)). set (r2 := snd (sstep qexp qla1 c0 (srun qexp qla1 c0 sser [SSet y1; SFwd; SDer]) SPropag)).
  set (r3 := snd (sstep qexp qla1 c0 (srun qexp qla1 c0 sser [SSet y1; SFwd; SDer]) SFwd)).
  exists qla1, (DId 1), sser, y1, (vprop r1), (vprop r2), (vops r3).
  split; [apply sget_constructed; vm_compute; reflexivity|].
  split. { split; [reflexivity|]. split; intros; apply ceqb_eq; vm_compute; reflexivity. }
  split. { intros A HA. unfold eig_ok. cbn [la_eig qla1 fst snd]. split; [|split; [|split]]; auto.
    - split; [split; reflexivity|]. split; intros i j Hi Hj; destruct i as [|?], j as [|?]; try lia; apply ceqb_eq; vm_compute; reflexivity.
    - intros i j Hi Hj. destruct i as [|?], j as [|?]; try lia. cbn [sumn nth]. change (mg (mid (S:=QS) 1) 0 0) with (@c1 QcField). tocplx. unfold cconj, cadd, c0, cmul, c1. destruct (mg A 0 0) as [a b]. cbn [fst snd]. apply (f_equal2 pair); ring. }
  split; [apply all_okb'_ok; vm_compute; reflexivity|].
  split; [apply ok_prop; vm_compute; reflexivity|]. split; [apply ok_prop; vm_compute; reflexivity|]. split; [apply ok_ops; vm_compute; reflexivity|].
  split; [apply squareb_ok; vm_compute; reflexivity|]. split; [apply square_one; vm_compute; reflexivity|]. split.
  - intros H. apply (f_equal (fun l => ceqb (pentry l 0 0 0) (pentry (vprop r1) 0 0 0))) in H. vm_compute in H. discriminate.
  - intros (_ & _ & H). destruct (H 0) as (P & f & f' & H1 & H2 & H3 & H4); [vm_compute; lia|].
    assert (E : mg f' 0 0 = cmul (mg P 0 0) (mg f 0 0)).
    { destruct H4 as (_ & H4). specialize (H4 0 0 ltac:(lia) ltac:(lia)). rewrite H4. cbn [sumn]. tocplx. unfold cadd, c0. destruct (cmul _ _). cbn [fst snd]. apply (f_equal2 pair); ring. }
    apply (f_equal (ceqb (mg f' 0 0))) in E.
    assert (EP' : P = nth 0 (map (fun o => match o with Some x => x | None => dq end) (vprop r2)) dq). { revert H1. generalize (vprop r2). intros [|[|] ?]; cbn; congruence. }
    assert (Ef2 : f = nth 0 (vops r3) dq). { revert H2. generalize (vops r3). intros [|? ?]; cbn; congruence. }
    assert (Ef2' : f' = nth 1 (vops r3) dq). { revert H3. generalize (vops r3). intros [|? [|? ?]]; cbn; congruence. }
    rewrite EP', Ef2, Ef2' in E. vm_compute in E. discriminate.
Qed.

Lemma some_is (o : option (arr (kcar Qf))) b : (match o with Some a => aeqb a b | None => false end) = true -> o = Some b.
Proof. destruct o; intros; [f_equal; now apply aeqb_eq|discriminate]. Qed.
(** ---- cases ---- *)
Local Ltac vmr := vm_compute; reflexivity.
Definition rd (s : @st Qf) (o : @sop Qf) := snd (qstep s o).
Definition sch1 : @st Qf := qrun ssch [SSet yb; SPropag; SSet ya].
Lemma sch1_used : used qexp qla c0 (DId 1) ssch sch1.
Proof. apply qused; [apply ssch_constructed|apply ssch_good|vmr|vmr]. Qed.
Lemma case_products : used qexp qla c0 (DId 1) ssch sch1 /\ returns qexp qla c0 sch1 SPropag (VProp (vprop (rd sch1 SPropag))) /\
  returns qexp qla c0 sch1 SFwd (VOps (vops (rd sch1 SFwd))) /\ returns qexp qla c0 sch1 SRev (VOps (vops (rd sch1 SRev))) /\
  all_square 2 (vprop (rd sch1 SPropag)) /\ is_matrix 2 2 (c_init (s_conf sch1)) /\ length (vops (rd sch1 SFwd)) = 3 /\ length (vops (rd sch1 SRev)) = 3.
Proof.
  split; [exact sch1_used|]. split; [apply ok_prop; vmr|]. split; [apply ok_ops; vmr|]. split; [apply ok_ops; vmr|].
  split; [apply squareb_ok; vmr|]. split; [apply square_one; vmr|]. split; vmr.
Qed.
(** an actual entry: the first propagator is (2 + G)/(2 - G) for the generator G = -i (1 + 1) *)
Lemma case_entry : pentry (vprop (rd sch1 SPropag)) 0 0 0 = cdiv (csub (cq 2 0 1) (cq 0 2 1)) (cadd (cq 2 0 1) (cq 0 2 1)).
Proof. apply ceqb_eq. vmr. Qed.
Definition amp_of (s : @st Qf) := oget (s_amps s).
Lemma case_unitary : schroedinger (s_conf sch1) /\ Forall (is_hermitian (S:=QS) 2 : qop -> Prop) (s_drift sch1) /\
  Forall (is_hermitian (S:=QS) 2 : qop -> Prop) (c_ctrl (s_conf sch1)) /\ amplitudes sch1 (amp_of sch1) /\
  length (s_drift sch1) = length (s_time sch1) /\ is_unitary (S:=QS) 2 (c_init (s_conf sch1)) /\
  (forall (A E : qop) (tau : Qf), is_skew_hermitian (S:=QS) 2 A -> op_exp qla A (cofk tau) (c_meth (s_conf sch1)) (c_skew (s_conf sch1)) = Ok E -> is_unitary (S:=QS) 2 E).
Proof.
  split; [exact I|]. split; [apply hermb_all; vmr|]. split; [apply hermb_all; vmr|]. split; [split; [apply ok_some; vmr|vmr]|]. split; [vmr|].
  split. { split; [apply square_one; vmr|]. split; intros i j Hi Hj; destruct i as [|[|?]], j as [|[|?]]; try lia; apply ceqb_eq; vmr. }
  intros A E tau. replace (c_meth (s_conf sch1)) with Frechet by vmr. replace (c_skew (s_conf sch1)) with false by vmr. apply cayley_unitary.
Qed.
Lemma case_derivatives : square_hamiltonians 2 sch1 /\ c_approx (s_conf sch1) = GNone /\ returns qexp qla c0 sch1 SDer (VDer (vder (rd sch1 SDer))) /\
  length (vder (rd sch1 SDer)) = 1.
Proof. split; [split; apply square_all; vmr|]. split; [vmr|]. split; [apply ok_der; vmr|vmr]. Qed.
(** two noise traces for the two time steps *)
Definition smp : arr (kcar Qf) := aq3 1 2 2 (fun _ k t => Z.of_nat (5 * k + t)).
Definition mc1 p := qrun (smc smp 2 p) [SSet ya].
Lemma smc_good sm tr p : good qla c0 (s_conf (smc sm tr p)).
Proof. apply qgood; try reflexivity; try discriminate; exact I. Qed.
Lemma case_samples : used qexp qla c0 (DId 1) (smc smp 2 PSeq) (mc1 PSeq) /\ sampled 2 (mc1 PSeq) (mkmc [hz] 2 smp NNone PSeq) /\ square_hamiltonians 2 (mc1 PSeq) /\
  amplitudes (mc1 PSeq) (amp_of (mc1 PSeq)) /\ returns qexp qla c0 (mc1 PSeq) SNProp (VDer (vder (rd (mc1 PSeq) SNProp))) /\
  pentry (nth 1 (vder (rd (mc1 PSeq) SNProp)) []) 0 0 0 = cdiv (csub (cq 2 0 1) (cq 0 7 1)) (cadd (cq 2 0 1) (cq 0 7 1)).
Proof.
  split; [apply qused; [apply sget_constructed; reflexivity|apply smc_good|vmr|vmr]|].
  split. { split; [reflexivity|]. split; [apply square_all; vmr|]. split; vmr. }
  split; [split; apply square_all; vmr|]. split; [split; [apply ok_some; vmr|vmr]|]. split; [apply ok_der; vmr|]. apply ceqb_eq. vmr.
Qed.
Definition zmp : arr (kcar Qf) := aq3 1 2 2 (fun _ _ _ => 0%Z).
Definition mcz := qrun (smc zmp 2 PSeq) [SSet ya].
Lemma case_zero : used qexp qla c0 (DId 1) (smc zmp 2 PSeq) mcz /\ same_problem mcz sch1 /\ sampled 2 mcz (mkmc [hz] 2 zmp NNone PSeq) /\ square_hamiltonians 2 mcz /\
  amplitudes mcz ya /\ amplitudes sch1 ya /\ returns qexp qla c0 mcz SNProp (VDer (vder (rd mcz SNProp))) /\ length (vder (rd mcz SNProp)) = 2.
Proof.
  split; [apply qused; [apply sget_constructed; reflexivity|apply smc_good|vmr|vmr]|].
  split. { repeat split; try reflexivity. }
  split. { split; [reflexivity|]. split; [apply square_all; vmr|]. split; vmr. }
  split; [split; apply square_all; vmr|]. split; [split; [apply some_is; vmr|vmr]|].
  split; [split; [apply some_is; vmr|vmr]|]. split; [apply ok_der; vmr|vmr].
Qed.
Lemma case_processes : constructed (DId 1) (smc smp 2 PPool) /\ same_problem (smc smp 2 PSeq) (smc smp 2 PPool) /\ s_tf (smc smp 2 PSeq) = s_tf (smc smp 2 PPool) /\
  all_ok qexp qla c0 (smc smp 2 PSeq) [SSet yb; SNProp; SSet ya; SPropag] /\ all_ok qexp qla c0 (smc smp 2 PPool) [SSet ya] /\
  returns qexp qla c0 (mc1 PPool) SNProp (VDer (vder (rd (mc1 PPool) SNProp))) /\ length (vder (rd (mc1 PPool) SNProp)) = 2.
Proof.
  split; [apply sget_constructed; reflexivity|]. split; [repeat split; reflexivity|]. split; [reflexivity|]. split; [apply all_okb_ok; vmr|]. split; [apply all_okb_ok; vmr|].
  split; [apply ok_der; vmr|vmr].
Qed.
(** control noise *)
Definition smcc : @st Qf := sget (sfresh (CMonteCarlo (mkmc [hz] 2 smp NControl PSeq)) [hd] [hz] (ones 2) Frechet false GNone 1 AIdentity None).
Definition mcc := qrun smcc [SSet ya].
Definition yk : arr (kcar Qf) := aq 2 1 [[1 + 5]; [2 + 6]]%Z.
Definition schk := qrun ssch [SSet yk].
Lemma case_control : used qexp qla c0 (DId 1) smcc mcc /\ used qexp qla c0 (DId 1) ssch schk /\ same_problem mcc schk /\ sampled 2 mcc (mkmc [hz] 2 smp NControl PSeq) /\
  s_tpars mcc = Some ya /\ s_amps mcc = Some ya /\ perturbed ya smp 2 1 1 yk /\ amp_call (c_amp (s_conf mcc)) yk = Ok yk /\ amplitudes schk yk /\
  returns qexp qla c0 mcc SNProp (VDer (vder (rd mcc SNProp))) /\ returns qexp qla c0 schk SPropag (VProp (vprop (rd schk SPropag))).
Proof.
  split; [apply qused; [apply sget_constructed; reflexivity|apply qgood; try reflexivity; try discriminate; exact I|vmr|vmr]|].
  split; [apply qused; [apply ssch_constructed|apply ssch_good|vmr|vmr]|].
  split; [repeat split; reflexivity|]. split. { split; [reflexivity|]. split; [apply square_all; vmr|]. split; vmr. }
  split; [apply some_is; vmr|]. split; [apply some_is; vmr|].
  split. { split; [split; vmr|]. intros t c Ht Hc. destruct t as [|[|?]], c as [|?]; try lia; apply keqb_eq; vmr. }
  split; [reflexivity|]. split; [split; [apply some_is; vmr|vmr]|]. split; [apply ok_der; vmr|apply ok_prop; vmr].
Qed.
(** relaxation of a spin with an amplitude dependent rate *)
Definition lm : qop := mq 2 2 [[c0; c1]; [c0; c0]].
Definition lic : @liconf Qf := mkli (Some [lm]) (Some (fun u _ => Ok (aq 2 1 [[3]; [4]]%Z))) None None None.
Definition slin : @st Qf := sget (sfresh (CLindblad lic) [hd] [hz] (ones 2) Frechet false GNone 1 AIdentity None).
Definition lin1 := qrun slin [SSet ya].
Definition wrate (t i : nat) : Qf := get2 k0 (aq 2 1 [[3]; [4]]%Z) t i.
Lemma case_lindblad : used qexp qla c0 (DId 1) slin lin1 /\ c_class (s_conf lin1) = CLindblad lic /\ Forall (is_matrix (S:=QS) 2 2 : qop -> Prop) [lm] /\
  Forall (is_hermitian (S:=QS) 2 : qop -> Prop) (s_drift lin1) /\ Forall (is_hermitian (S:=QS) 2 : qop -> Prop) (c_ctrl (s_conf lin1)) /\ length (s_drift lin1) = length (s_time lin1) /\
  amplitudes lin1 (amp_of lin1) /\ rates lic (amp_of lin1) (s_tpars lin1) 1 wrate /\ returns qexp qla c0 lin1 SPropag (VProp (vprop (rd lin1 SPropag))) /\
  length (vprop (rd lin1 SPropag)) = 2.
Proof.
  split; [apply qused; [apply sget_constructed; reflexivity|apply qgood; try reflexivity; try discriminate; intros [H|H]; exfalso; apply H; reflexivity|vmr|vmr]|].
  split; [reflexivity|]. split; [apply square_all; vmr|]. split; [apply hermb_all; vmr|]. split; [apply hermb_all; vmr|]. split; [vmr|].
  split; [split; [apply ok_some; vmr|vmr]|]. split; [exists (aq 2 1 [[3]; [4]]%Z); split; [reflexivity|split; [vmr|reflexivity]]|]. split; [apply ok_prop; vmr|vmr].
Qed.

(** Proofs for C83, part 3: other bases, conserved quantities, other units, divided time steps. *)
Require Import List Arith Lia Bool Reals Lra.
From Verif Require Import LibBase LibRing LibArr LibCplx LibMat LibNorm LibDeriv LibSeries M_Matrix S_Linear S_Deriv S_Exp P_Linear P_Matrix P_Frechet P_Mexp P_Mexp2 M_OpHeap M_Transfer S_Transfer M_Amplitude S_Amplitude P_Amplitude M_Solver S_Solver P_Solver7 S_Lindblad S_Channel P_Lindblad P_Channel P_Channel2 S_Invariance P_Invariance S_OpenSym P_OpenSym P_OpenSym2.
Import ListNotations.
Local Open Scope res_scope.
Set Implicit Arguments.

Section Mat.
Add Field Cfield_os3 : (c_field RField).
Notation op := (mat RS).
Notation st := (@st RField).
Notation S := RS.
Notation mm := (mmul (S:=RS)).
Notation ma := (madd (S:=RS)).
Notation mb := (msub (S:=RS)).
Notation ms := (mscale (S:=RS)).
Notation md := (mdag (S:=RS)).
Notation tr := (mtrace (S:=RS)).
Notation app := (apply_super (F:=RField)).
Notation dop := (Arr [] [] : mat RS).
Notation half := (cofk (kdiv k1 (kofnat 2) : RField)).
Notation wf n A := (wfm (S:=RS) n n A).
Hint Resolve wfm_mexp wfm_mpw : wfm.

(** ---- matrix form ---- *)
Definition cm (H R : op) : op := ms (copp ci) (mb (mm H R) (mm R H)).
Definition dm (L R : op) : op := mb (mm (mm L R) (md L)) (ms half (ma (mm (mm (md L) L) R) (mm R (mm (md L) L)))).
Lemma wf_cm n H R : wf n H -> wf n R -> wf n (cm H R). Proof. intros. unfold cm. wf_solve. Qed.
Lemma wf_dm n L R : wf n L -> wf n R -> wf n (dm L R). Proof. intros. unfold dm. wf_solve. Qed.
Definition asm (n : nat) (rho : nat -> nat -> RC) : op := mk2 n n rho.
Lemma wf_asm n rho : wf n (asm n rho). Proof. apply wfm_mk2. Qed.
Lemma mg_asm n rho i j : i < n -> j < n -> mg (asm n rho) i j = rho i j. Proof. intros. unfold asm. now rewrite mg_mk2. Qed.
Hint Resolve wf_asm : core.
Lemma comm_mat n h rho i j : i < n -> j < n -> commutation (F:=RField) n h rho i j = mg (cm (asm n h) (asm n rho)) i j.
Proof.
  intros Hi Hj. assert (W1 := wf_asm n h). assert (W2 := wf_asm n rho). unfold cm, commutation. rewrite (@mg_mscale S n n) by (auto; wf_solve). rewrite (@mg_msub S n n) by (auto; wf_solve).
  rewrite !(@mg_mmul S n n n) by auto. tocplx. do 2 f_equal; apply (@Sg_ext RField); intros a Ha; now rewrite !mg_asm.
Qed.
Lemma num_mat n L i j : wf n L -> i < n -> j < n -> number_op (F:=RField) n L i j = mg (mm (md L) L) i j.
Proof. intros W Hi Hj. rewrite (@mg_mmul S n n n) by (auto; wf_solve). apply (@Sg_ext RField). intros l Hl. now rewrite (@mg_mdag S n n). Qed.
Lemma diss_mat n L rho i j : wf n L -> i < n -> j < n -> dissipation (F:=RField) n L rho i j = mg (dm L (asm n rho)) i j.
Proof.
  intros W Hi Hj. assert (W2 := wf_asm n rho). unfold dm, dissipation. rewrite (@mg_msub S n n) by (auto; wf_solve). rewrite (@mg_mscale S n n) by (auto; wf_solve). rewrite (@mg_madd S n n) by (auto; wf_solve).
  tocplx. f_equal; [|f_equal; f_equal].
  - rewrite (@mg_mmul S n n n) by (auto; wf_solve). apply (@Sg_ext RField). intros b Hb. rewrite (@mg_mmul S n n n) by auto. rewrite (@mg_mdag S n n) by auto. tocplx. rewrite csumn_mul_r.
    apply (@Sg_ext RField). intros a Ha. now rewrite mg_asm.
  - rewrite (@mg_mmul S n n n) by (auto; wf_solve). apply (@Sg_ext RField). intros a Ha. rewrite num_mat by auto. now rewrite mg_asm.
  - rewrite (@mg_mmul S n n n) by (auto; wf_solve). apply (@Sg_ext RField). intros a Ha. rewrite num_mat by auto. now rewrite mg_asm.
Qed.
Lemma asm_ext n f g : (forall i j, i < n -> j < n -> f i j = g i j) -> asm n f = asm n g.
Proof. intros H. apply (@mat_ext S n n); auto. intros i j Hi Hj. rewrite !mg_asm by auto. auto. Qed.
Lemma asm_mg n A : wf n A -> asm n (fun i j => mg A i j) = A.
Proof. intros W. apply (@mat_ext S n n); auto. intros i j Hi Hj. now rewrite mg_asm. Qed.

(** ---- another basis ---- *)
Section Turn.
Variables (n : nat) (V : op).
Hypothesis UV : munitary (S:=RS) n V.
Definition tn (A : op) : op := mm (mm V A) (md V).
Lemma WV : wf n V. Proof. apply UV. Qed.
Lemma VV : mm (md V) V = mid (S:=RS) n. Proof. apply UV. Qed.
Lemma wf_tn A : wf n A -> wf n (tn A). Proof. intros W. pose proof WV. unfold tn. wf_solve. Qed.
Hint Resolve wf_tn WV : core.
Lemma tn_mm A B : wf n A -> wf n B -> tn (mm A B) = mm (tn A) (tn B).
Proof.
  intros WA WB. pose proof WV as W. unfold tn.
  transitivity (mm (mm V (mm A (mm (mm (md V) V) B))) (md V)).
  - rewrite VV. now rewrite (@mmul_1_l S n n B WB).
  - rewrite !(@mmul_assoc S n n n n) by wf_solve. reflexivity.
Qed.
Lemma tn_ma A B : wf n A -> wf n B -> tn (ma A B) = ma (tn A) (tn B).
Proof. intros WA WB. pose proof WV as W. unfold tn. rewrite (@mmul_add_r S n n n) by auto. rewrite (@mmul_add_l S n n n) by wf_solve. reflexivity. Qed.
Lemma tn_mb A B : wf n A -> wf n B -> tn (mb A B) = mb (tn A) (tn B).
Proof. intros WA WB. pose proof WV as W. unfold tn. rewrite (@mmul_sub_r S n n n) by auto. rewrite (@mmul_sub_l S n n n) by wf_solve. reflexivity. Qed.
Lemma tn_ms z A : wf n A -> tn (ms z A) = ms z (tn A).
Proof. intros WA. pose proof WV as W. unfold tn. rewrite (@mmul_scale_r S n n n) by auto. rewrite (@mmul_scale_l S n n n) by wf_solve. reflexivity. Qed.
Lemma tn_md A : wf n A -> tn (md A) = md (tn A).
Proof.
  intros WA. pose proof WV as W. unfold tn. rewrite (@mdag_mmul S n n n (mm V A) (md V)) by wf_solve. rewrite (@mdag_mmul S n n n V A) by wf_solve. rewrite (@mdag_mdag S n n V) by auto.
  rewrite !(@mmul_assoc S n n n n) by wf_solve. reflexivity.
Qed.
Lemma tn_cm H R : wf n H -> wf n R -> tn (cm H R) = cm (tn H) (tn R).
Proof. intros WH WR. unfold cm. rewrite tn_ms by wf_solve. rewrite tn_mb by wf_solve. now rewrite !tn_mm by auto. Qed.
Lemma tn_dm L R : wf n L -> wf n R -> tn (dm L R) = dm (tn L) (tn R).
Proof. intros WL WR. unfold dm. rewrite tn_mb by wf_solve. rewrite tn_ms by wf_solve. rewrite tn_ma by wf_solve. rewrite !tn_mm by wf_solve. now rewrite !tn_md by auto. Qed.
Lemma tn_carried A A' : wf n A -> wf n A' -> carries n n V A A' -> tn A = A'.
Proof.
  intros WA WA' C. pose proof WV as W. unfold tn.
  assert (E : mm V A = mm A' V) by (apply (@mat_ext S n n); [wf_solve|wf_solve|]; intros i j Hi Hj; rewrite !(@mg_mmul S n n n) by auto; now apply C).
  rewrite E. rewrite <- (@mmul_assoc S n n n n) by wf_solve. rewrite (proj2 (proj2 UV)). now apply (@mmul_1_r S n n).
Qed.
Lemma turned_mat rho i j : i < n -> j < n -> turned n V rho i j = mg (tn (asm n rho)) i j.
Proof.
  intros Hi Hj. pose proof WV as W. assert (W2 := wf_asm n rho). unfold tn, turned. rewrite (@mg_mmul S n n n) by (auto; wf_solve). apply (@Sg_ext RField). intros b Hb.
  rewrite (@mg_mmul S n n n) by auto. rewrite (@mg_mdag S n n) by auto. tocplx. rewrite csumn_mul_r. apply (@Sg_ext RField). intros a Ha. rewrite mg_asm by auto. cbn [sconj S RS CStar]. cring.
Qed.
Lemma turned_ext rho rho' i j : (forall a b, a < n -> b < n -> rho a b = rho' a b) -> turned n V rho i j = turned n V rho' i j.
Proof. intros H. unfold turned. apply (@Sg_ext RField). intros b Hb. apply (@Sg_ext RField). intros a Ha. now rewrite H. Qed.
Lemma turned_add rho rho' i j : turned n V (fun a b => cadd (rho a b) (rho' a b)) i j = cadd (turned n V rho i j) (turned n V rho' i j).
Proof.
  unfold turned. rewrite csumn_add. apply (@Sg_ext RField). intros b Hb. rewrite csumn_add. apply (@Sg_ext RField). intros a Ha. cring.
Qed.
Lemma turned_mul z rho i j : turned n V (fun a b => cmul z (rho a b)) i j = cmul z (turned n V rho i j).
Proof. unfold turned. rewrite csumn_mul_l. apply (@Sg_ext RField). intros b Hb. rewrite csumn_mul_l. apply (@Sg_ext RField). intros a Ha. cring. Qed.
Lemma turned_sum m (g : nat -> nat -> nat -> RC) i j : turned n V (fun a b => Sg m (fun k => g k a b)) i j = Sg m (fun k => turned n V (g k) i j).
Proof.
  induction m as [|m IH].
  - cbn [sumn]. unfold turned. apply (@Sg_0 RField). intros b Hb. apply (@Sg_0 RField). intros a Ha. tocplx. cring.
  - cbn [sumn]. rewrite <- IH. exact (turned_add (fun a b => Sg m (fun k => g k a b)) (g m) i j).
Qed.
Lemma turned_master h h' (Ls Ls' : list op) (w : nat -> R) rho i j : carries n n V (asm n h) (asm n h') -> Forall (is_matrix (S:=RS) n n : op -> Prop) Ls -> Forall (is_matrix (S:=RS) n n : op -> Prop) Ls' ->
  length Ls = length Ls' -> (forall k, k < length Ls -> carries n n V (Lk Ls k) (Lk Ls' k)) -> i < n -> j < n ->
  turned n V (master (F:=RField) n h Ls w rho) i j = master (F:=RField) n h' Ls' w (turned n V rho) i j.
Proof.
  intros CH FL FL' EL CL Hi Hj. unfold master.
  assert (NL : forall k, k < length Ls -> wf n (Lk Ls k)) by (intros k Hk; apply is_matrix_wfm; apply (proj1 (Forall_forall _ _) FL); now apply nth_In).
  assert (NL' : forall k, k < length Ls -> wf n (Lk Ls' k)) by (intros k Hk; apply is_matrix_wfm; apply (proj1 (Forall_forall _ _) FL'); apply nth_In; lia).
  rewrite (turned_add (commutation (F:=RField) n h rho) (fun a b => Sg (length Ls) (fun k => cmul (cofk (w k : RField)) (dissipation (F:=RField) n (Lk Ls k) rho a b)))).
  assert (AT : asm n (turned n V rho) = tn (asm n rho)).
  { rewrite <- (asm_mg (wf_tn (wf_asm n rho))). apply asm_ext. intros a b Ha Hb. now apply turned_mat. }
  f_equal.
  - rewrite turned_mat, comm_mat by auto. rewrite AT. rewrite <- (tn_carried (wf_asm n h) (wf_asm n h') CH). rewrite <- tn_cm by auto. do 2 f_equal.
    rewrite <- (asm_mg (wf_cm (wf_asm n h) (wf_asm n rho))). apply asm_ext. intros a b Ha Hb. now apply comm_mat.
  - rewrite (turned_sum (length Ls) (fun k a b => cmul (cofk (w k : RField)) (dissipation (F:=RField) n (Lk Ls k) rho a b))). rewrite <- EL. apply (@Sg_ext RField). intros k Hk.
    rewrite (turned_mul (cofk (w k : RField)) (dissipation (F:=RField) n (Lk Ls k) rho)). f_equal.
    rewrite turned_mat by auto. rewrite diss_mat by auto. rewrite AT. rewrite <- (tn_carried (NL k Hk) (NL' k Hk) (CL k Hk)). rewrite <- tn_dm by auto. do 2 f_equal.
    rewrite <- (asm_mg (wf_dm (NL k Hk) (wf_asm n rho))). apply asm_ext. intros a b Ha Hb. apply diss_mat; auto.
Qed.
(** the super operator *)
Definition tsup : op := mkron (S:=RS) (mconj (S:=RS) V) V.
Lemma wf_tsup : wf (n * n) tsup. Proof. pose proof WV as W. unfold tsup. apply (@wfm_mkron S n n n n); auto. apply (@wfm_mconj S n n); auto. Qed.
Lemma tsup_acts rho i j : i < n -> j < n -> app n tsup rho i j = turned n V rho i j.
Proof.
  intros Hi Hj. pose proof WV as W. unfold tsup. rewrite (@app_mkron RField) by (auto; apply (@wfm_mconj S n n); auto). unfold turned. apply (@Sg_ext RField). intros b Hb. apply (@Sg_ext RField). intros a Ha.
  rewrite (@mg_mconj S n n) by auto. reflexivity.
Qed.
End Turn.

(** ---- conserved quantities ---- *)
Lemma mean_tr n Q rho : wf n Q -> mean n Q rho = tr (mm Q (asm n rho)).
Proof.
  intros W. rewrite (@mtrace_mmul S n n) by auto. unfold mean. apply (@Sg_ext RField). intros b Hb. apply (@Sg_ext RField). intros a Ha. now rewrite mg_asm.
Qed.
Lemma tr_cm n Q H R : wf n Q -> wf n H -> wf n R -> mm Q H = mm H Q -> tr (mm Q (cm H R)) = c0.
Proof.
  intros WQ WH WR E. unfold cm. rewrite (@mmul_scale_r S n n n) by wf_solve. rewrite (@mtrace_mscale S n) by wf_solve. rewrite (@mmul_sub_r S n n n) by wf_solve. rewrite (@mtrace_msub S n) by wf_solve.
  assert (X : tr (mm Q (mm R H)) = tr (mm Q (mm H R))).
  { rewrite (@mmul_assoc S n n n n) by auto. rewrite (@mtrace_comm S n n (mm Q R) H) by wf_solve. rewrite !(@mmul_assoc S n n n n) by auto. now rewrite E. }
  rewrite X. tocplx. cring.
Qed.
Lemma tr_dm n Q L R : wf n Q -> wf n L -> wf n R -> mm Q L = mm L Q -> mm Q (md L) = mm (md L) Q -> tr (mm Q (dm L R)) = c0.
Proof.
  intros WQ WL WR E E'. assert (WD : wf n (md L)) by wf_solve. unfold dm. rewrite (@mmul_sub_r S n n n) by wf_solve. rewrite (@mtrace_msub S n) by wf_solve. rewrite (@mmul_scale_r S n n n) by wf_solve. rewrite (@mtrace_mscale S n) by wf_solve.
  rewrite (@mmul_add_r S n n n) by wf_solve. rewrite (@mtrace_madd S n) by wf_solve.
  assert (X : tr (mm Q (mm (mm L R) (md L))) = tr (mm Q (mm (mm (md L) L) R))).
  { rewrite (@mmul_assoc S n n n n) by wf_solve. rewrite (@mtrace_comm S n n (mm Q (mm L R)) (md L)) by wf_solve. f_equal. rewrite !(@mmul_assoc S n n n n) by wf_solve. now rewrite E'. }
  assert (Y : tr (mm Q (mm R (mm (md L) L))) = tr (mm Q (mm (mm (md L) L) R))).
  { rewrite (@mmul_assoc S n n n n) by wf_solve. rewrite (@mtrace_comm S n n (mm Q R) (mm (md L) L)) by wf_solve. f_equal. rewrite !(@mmul_assoc S n n n n) by wf_solve. rewrite E'. rewrite <- (@mmul_assoc S n n n n (md L) Q L) by wf_solve. rewrite E. now rewrite !(@mmul_assoc S n n n n) by wf_solve. }
  rewrite X, Y. tocplx. rewrite two_halves. cring.
Qed.
Lemma mean_add n Q rho rho' : mean n Q (fun a b => cadd (rho a b) (rho' a b)) = cadd (mean n Q rho) (mean n Q rho').
Proof. unfold mean. rewrite csumn_add. apply (@Sg_ext RField). intros b Hb. rewrite csumn_add. apply (@Sg_ext RField). intros a Ha. cring. Qed.
Lemma mean_mul n Q z rho : mean n Q (fun a b => cmul z (rho a b)) = cmul z (mean n Q rho).
Proof. unfold mean. rewrite csumn_mul_l. apply (@Sg_ext RField). intros b Hb. rewrite csumn_mul_l. apply (@Sg_ext RField). intros a Ha. cring. Qed.
Lemma mean_ext n Q rho rho' : (forall a b, a < n -> b < n -> rho a b = rho' a b) -> mean n Q rho = mean n Q rho'.
Proof. intros H. unfold mean. apply (@Sg_ext RField). intros b Hb. apply (@Sg_ext RField). intros a Ha. now rewrite H. Qed.
Lemma mean_sum n Q m (g : nat -> nat -> nat -> RC) : (forall k, k < m -> mean n Q (g k) = c0) -> mean n Q (fun a b => Sg m (fun k => g k a b)) = c0.
Proof.
  induction m as [|m IH]; intros H.
  - cbn [sumn]. unfold mean. apply (@Sg_0 RField). intros b Hb. apply (@Sg_0 RField). intros a Ha. tocplx. cring.
  - cbn [sumn]. etransitivity; [exact (mean_add n Q (fun a b => Sg m (fun k => g k a b)) (g m))|]. rewrite IH by (intros; apply H; lia). rewrite H by lia. cring.
Qed.
Lemma mean_master n Q h (Ls : list op) (w : nat -> R) rho : is_hermitian (S:=RS) n Q -> carries n n Q (asm n h) (asm n h) -> Forall (is_matrix (S:=RS) n n : op -> Prop) Ls ->
  (forall k, k < length Ls -> carries n n Q (Lk Ls k) (Lk Ls k)) -> mean n Q (master (F:=RField) n h Ls w rho) = c0.
Proof.
  intros [HQ HH] CH FL CL. pose proof HQ as WQ. apply is_matrix_wfm in WQ.
  assert (NL : forall k, k < length Ls -> wf n (Lk Ls k)) by (intros k Hk; apply is_matrix_wfm; apply (proj1 (Forall_forall _ _) FL); now apply nth_In).
  assert (QQ : md Q = Q). { apply (@mat_ext S n n); auto; [wf_solve|]. intros i j Hi Hj. rewrite (@mg_mdag S n n) by auto. symmetry. now apply HH. }
  assert (CM : forall A, wf n A -> carries n n Q A A -> mm Q A = mm A Q).
  { intros A WA C. apply (@mat_ext S n n); [wf_solve|wf_solve|]. intros i j Hi Hj. rewrite !(@mg_mmul S n n n) by auto. now apply C. }
  unfold master. rewrite (mean_add n Q (commutation (F:=RField) n h rho) (fun a b => Sg (length Ls) (fun k => cmul (cofk (w k : RField)) (dissipation (F:=RField) n (Lk Ls k) rho a b)))).
  assert (X : mean n Q (commutation (F:=RField) n h rho) = c0).
  { rewrite (@mean_ext n Q _ (fun i j => mg (cm (asm n h) (asm n rho)) i j)) by (intros; now apply comm_mat). rewrite mean_tr by auto. rewrite asm_mg by (now apply wf_cm). apply (@tr_cm n); auto. }
  rewrite X. rewrite mean_sum; [cring|]. intros k Hk. rewrite (mean_mul n Q (cofk (w k : RField)) (dissipation (F:=RField) n (Lk Ls k) rho)).
  rewrite (@mean_ext n Q _ (fun i j => mg (dm (Lk Ls k) (asm n rho)) i j)) by (intros; apply diss_mat; auto). rewrite mean_tr by auto. rewrite asm_mg by (apply wf_dm; auto).
  assert (E := CM _ (NL k Hk) (CL k Hk)). rewrite (@tr_dm n); auto; [cring|]. assert (W := NL k Hk). assert (Y : md (mm Q (Lk Ls k)) = md (mm (Lk Ls k) Q)) by now rewrite E.
  rewrite (@mdag_mmul S n n n) in Y by auto. rewrite (@mdag_mmul S n n n) in Y by auto. rewrite QQ in Y. now symmetry.
Qed.
End Mat.

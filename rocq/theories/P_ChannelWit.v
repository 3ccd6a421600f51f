(** An instance for C67: a driven spin that relaxes, two time steps. *)
Require Import List Arith Lia Bool Reals Lra.
From Verif Require Import LibBase LibRing LibArr LibCplx LibMat LibNorm LibDeriv M_Matrix S_Linear S_Exp P_Linear P_Matrix P_Frechet P_Mexp M_OpHeap M_Transfer S_Transfer M_Amplitude M_Solver S_Solver
  S_Lindblad S_Channel P_Lindblad P_Channel P_Channel2 P_GradWit.
Import ListNotations.
Local Open Scope res_scope.
Set Implicit Arguments.

Section Wit.
Add Field Cfield_cw : (c_field RField).
Notation op := (op RField).
Notation st := (@st RField).

(** expm with a result of the shape of its argument *)
Definition expm_sq (A : op) : op := mk2 (nr A) (nr A) (fun i j => mg (S:=RS) (expm A) i j).
Definition lla : LinAlg RField := mkLA (F:=RField) (fun A => ([], A)) (fun A => ([], A)) expm_sq (fun A D => (expm_sq A, D)) (fun A => (A, [], A)) (fun z => z).
Lemma expm_sq_exact n (A : op) : is_matrix (S:=RS) n n A -> is_exponential n A (expm_sq A).
Proof.
  intros HA. apply is_matrix_wfm in HA. assert (E : expm_sq A = mexp HA 1).
  { unfold expm_sq. rewrite (wfm_nr HA). apply (@mat_ext RS n n); [apply wfm_mk2|apply wfm_mexp|]. intros i j Hi Hj. rewrite mg_mk2 by auto. now rewrite (expm_wf HA). }
  rewrite E. apply mexp_exponential.
Qed.
Definition llow : op := mk2 2 2 (fun i j => if Nat.eqb i 0 && Nat.eqb j 1 then c1 else c0).
(** the rates of the two time steps *)
Definition lpref : arr (kcar RField) := mk2 2 1 (fun t _ => INR (t + 1)).
Definition lconf : @liconf RField := mkli (F:=RField) (Some [llow]) (Some (fun _ _ => Ok lpref)) None None None.
Definition lbuild (init : option op) : res st :=
  build_solver (F:=RField) (CLindblad lconf) [wsz] [wsx] [1; 2]%R init None Frechet false false GNone (mk_identity (F:=RField) 1) AIdentity None.
Definition lsolver (init : option op) : st :=
  match lbuild init with
  | Ok s => s
  | Err _ => mkst (mkconf CSchroedinger [] (Arr [] []) Frechet false false GNone AIdentity) [] (mk_identity (F:=RField) 0) [] None None None false false (k_none (F:=RField)) (n_none (F:=RField)) (mkl None None) None
  end.
Lemma lbuild_ok i : lbuild i = Ok (lsolver i).
Proof. unfold lsolver. destruct (lbuild i) eqn:E; auto. exfalso. discriminate. Qed.
Definition ly : arr (kcar RField) := mk2 2 1 (fun t _ => INR t).
Definition lrun (init : option op) : st := srun (F:=RField) (fun x => x) lla c0 (lsolver init) [SSet ly].
Lemma lused i : used (F:=RField) (fun x => x) lla c0 (DId 1) (lsolver i) (lrun i).
Proof.
  split; [|split].
  - split; [exact I|]. exists (CLindblad lconf), [wsz], [wsx], [1; 2]%R, i, None, Frechet, false, false, GNone, (mk_identity (F:=RField) 1), AIdentity, None.
    split; [reflexivity|]. exact (lbuild_ok i).
  - constructor.
    + intros [H|H]; exfalso; apply H; reflexivity.
    + intros A D E X t. change (c_meth (s_conf (lsolver i))) with Frechet. unfold op_dexp, op_exp. destruct (Nat.eqb (nr A) (nc A)); cbn [andb negb]; [|discriminate].
      destruct (Nat.eqb (nr D) (nr A) && Nat.eqb (nc D) (nc A)); cbn [negb]; [|discriminate]. intros H. apply (f_equal (fun r => match r with Ok p => Ok (fst p) | Err e => Err e end)) in H. exact H.
    + discriminate.
    + discriminate.
  - exists [SSet ly]. split; [constructor; [unfold allowed; eauto|constructor]|]. split; [|reflexivity]. split; [|exact I]. eexists. reflexivity.
Qed.
Definition lrates (t k : nat) : R := get2 (0%R : RField) lpref t k.
Lemma lphysical i : physical 2 lconf (lrun i) ly lrates.
Proof.
  split; [reflexivity|]. split; [reflexivity|]. split; [|split; [|split; [|split; [|split]]]].
  - exists [llow]. split; [reflexivity|]. split; [repeat constructor; apply is_matrix_wfm, wfm_mk2|]. split.
    + exists lpref. split; [reflexivity|]. split; [reflexivity|]. reflexivity.
    + intros t k Ht Hk. change (t < 2) in Ht. change (k < 1) in Hk. unfold lrates, lpref. rewrite get2_mk2 by auto. apply pos_INR.
  - change (Forall (is_hermitian (S:=RS) 2 : op -> Prop) [wsz; wsz]). repeat constructor; apply wsz_herm.
  - change (Forall (is_hermitian (S:=RS) 2 : op -> Prop) [wsx]). repeat constructor; apply wsx_herm.
  - cbn. lia.
  - split; reflexivity.
  - change (Forall (fun tau => 0 <= tau)%R [kdivn (F:=RField) 1%R 1; kdivn (F:=RField) 2%R 1]). unfold kdivn. cbn. repeat constructor; lra.
Qed.
Lemma lexact i : exponentiates lla 4 (lrun i).
Proof.
  intros G P tau HG. change (c_meth (s_conf (lrun i))) with Frechet. unfold op_exp. apply is_matrix_wfm in HG. rewrite (wfm_nr HG), (wfm_nc HG). cbn. intros E. injection E as <-.
  apply expm_sq_exact. apply is_matrix_wfm. now apply wfm_mscale.
Qed.
Lemma lpropagators i : exists ps, returns (F:=RField) (fun x => x) lla c0 (lrun i) SPropag (VProp ps).
Proof. eexists. reflexivity. Qed.
Lemma lforward i : (i = None \/ exists v, i = Some v /\ is_matrix (S:=RS) 4 1 v) -> exists fs, returns (F:=RField) (fun x => x) lla c0 (lrun i) SFwd (VOps fs).
Proof.
  intros [->|(v & -> & W)].
  - eexists. reflexivity.
  - apply is_matrix_wfm in W. destruct v as [sh dt]. destruct W as [W1 W2]. cbn in W1, W2. subst sh. eexists. reflexivity.
Qed.
(** the state |1><1| *)
Definition lexc (a b : nat) : RC := if Nat.eqb a 1 && Nat.eqb b 1 then c1 else c0.
Definition lvec : op := mk2 4 1 (fun p _ => lexc (p mod 2) (p / 2)).
Lemma lvec_state : vectorised 2 lexc lvec /\ density 2 lexc.
Proof.
  split; [split; [apply is_matrix_wfm, wfm_mk2|]|split].
  - intros a b Ha Hb. unfold lvec. rewrite mg_mk2 by lia. destruct a as [|[|]], b as [|[|]]; try lia; reflexivity.
  - intros v. cbn. unfold lexc. cbn. unfold cre, cim, cmul, cconj, cadd, c0, c1. cbn. change (kcar RField) with R in *.
    destruct (v 0 0) as [p q]. destruct (v 1 0) as [x z]. cbn [fst snd]. change (kcar RField) with R in *. split; [rring|].
    match goal with |- (0 <= ?b)%R => replace b with (x * x + z * z)%R by rring end. nra.
  - cbn. unfold lexc. cbn. cring.
Qed.
End Wit.

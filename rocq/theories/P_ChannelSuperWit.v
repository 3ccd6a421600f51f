(** Instances for C67 with super operators: the relaxing spin of P_ChannelWit.v, its dissipation given as a super operator or by
    a function. *)
Require Import List Arith Lia Bool Reals Lra.
From Verif Require Import LibBase LibRing LibArr LibCplx LibMat LibNorm LibDeriv M_Matrix S_Linear S_Exp P_Linear P_Matrix P_Frechet P_Mexp M_OpHeap M_Transfer S_Transfer M_Amplitude M_Solver S_Solver
  S_Lindblad S_Channel S_ChannelSuper P_Lindblad P_Channel P_Channel2 P_GradWit P_ChannelWit P_ChannelSuper.
Import ListNotations.
Local Open Scope res_scope.
Set Implicit Arguments.

Section Wit.
Add Field Cfield_csw : (c_field RField).
Notation op := (op RField).
Notation st := (@st RField).

(** the relaxation to the lower state as a super operator *)
Definition ldis : op := match dissipator (F:=RField) (mid (S:=RS) 2) llow with Ok D => D | Err _ => Arr [] [] end.
Lemma ldis_dissipative : dissipative 2 ldis.
Proof.
  destruct (@computed_dissipative 2 llow) as (D & E & H); [apply is_matrix_wfm, wfm_mk2|]. unfold ldis. rewrite E. exact H.
Qed.
Lemma ldis_given : dissipator (F:=RField) (mid (S:=RS) 2) llow = Ok ldis.
Proof. destruct (@computed_dissipative 2 llow) as (D & E & H); [apply is_matrix_wfm, wfm_mk2|]. unfold ldis. now rewrite E. Qed.
Definition pconf : @liconf RField := mkli (F:=RField) None (Some (fun _ _ => Ok lpref)) None None None.
Definition fconf : @liconf RField := mkli (F:=RField) None None None (Some (fun _ _ => Ok [ldis; ldis])) None.
Definition pbuild (l : @liconf RField) (init : option op) : res st :=
  build_solver (F:=RField) (CLindblad l) [wsz] [wsx] [1; 2]%R init None Frechet false false GNone (mk_identity (F:=RField) 1) AIdentity (Some [ldis]).
Definition psolver (l : @liconf RField) (init : option op) : st :=
  match pbuild l init with
  | Ok s => s
  | Err _ => mkst (mkconf CSchroedinger [] (Arr [] []) Frechet false false GNone AIdentity) [] (mk_identity (F:=RField) 0) [] None None None false false (k_none (F:=RField)) (n_none (F:=RField)) (mkl None None) None
  end.
Lemma pbuild_ok l i : l = pconf \/ l = fconf -> pbuild l i = Ok (psolver l i).
Proof. intros H. unfold psolver. destruct (pbuild l i) eqn:E; auto. exfalso. destruct H; subst; discriminate. Qed.
Definition prun (l : @liconf RField) (init : option op) : st := srun (F:=RField) (fun x => x) lla c0 (psolver l init) [SSet ly].
Lemma pused l i : l = pconf \/ l = fconf -> used (F:=RField) (fun x => x) lla c0 (DId 1) (psolver l i) (prun l i).
Proof.
  intros Hl. split; [|split].
  - split; [exact I|]. exists (CLindblad l), [wsz], [wsx], [1; 2]%R, i, None, Frechet, false, false, GNone, (mk_identity (F:=RField) 1), AIdentity, (Some [ldis]).
    split; [reflexivity|]. exact (pbuild_ok i Hl).
  - assert (M : c_meth (s_conf (psolver l i)) = Frechet) by (destruct Hl; subst; reflexivity).
    constructor.
    + intros [H|H]; exfalso; apply H; destruct Hl; subst; reflexivity.
    + intros A D E X t. rewrite M. unfold op_dexp, op_exp. destruct (Nat.eqb (nr A) (nc A)); cbn [andb negb]; [|discriminate].
      destruct (Nat.eqb (nr D) (nr A) && Nat.eqb (nc D) (nc A)); cbn [negb]; [|discriminate]. intros H. apply (f_equal (fun r => match r with Ok p => Ok (fst p) | Err e => Err e end)) in H. exact H.
    + destruct Hl; subst; discriminate.
    + destruct Hl; subst; discriminate.
  - exists [SSet ly]. split; [constructor; [unfold allowed; eauto|constructor]|]. split; [|reflexivity]. split; [|exact I]. eexists. destruct Hl; subst; reflexivity.
Qed.
Lemma pclosed l i : l = pconf \/ l = fconf -> closed_part 2 l (prun l i) ly.
Proof.
  intros Hl. split; [destruct Hl; subst; reflexivity|]. split; [|split; [|split; [|split]]].
  - assert (E : s_drift (prun l i) = [wsz; wsz]) by (destruct Hl; subst; reflexivity). rewrite E. repeat constructor; apply wsz_herm.
  - assert (E : c_ctrl (s_conf (prun l i)) = [wsx]) by (destruct Hl; subst; reflexivity). rewrite E. repeat constructor; apply wsx_herm.
  - destruct Hl; subst; cbn; lia.
  - split; destruct Hl; subst; reflexivity.
  - assert (E : s_time (prun l i) = [kdivn (F:=RField) 1%R 1; kdivn (F:=RField) 2%R 1]) by (destruct Hl; subst; reflexivity). rewrite E. unfold kdivn. cbn. repeat constructor; lra.
Qed.
Lemma pgiven i : given_super 2 pconf (psolver pconf i) (prun pconf i) ly lrates.
Proof.
  split; [reflexivity|]. split; [reflexivity|]. exists [ldis]. split; [reflexivity|]. split; [repeat constructor; apply ldis_dissipative|]. split.
  - exists lpref. split; [reflexivity|]. split; reflexivity.
  - intros t k Ht Hk. change (t < 2) in Ht. change (k < 1) in Hk. unfold lrates, lpref. rewrite get2_mk2 by auto. apply pos_INR.
Qed.
Lemma fgiven i : given_function 2 fconf (prun fconf i) ly.
Proof.
  exists (fun _ _ => Ok [ldis; ldis]), [ldis; ldis]. split; [reflexivity|]. split; [reflexivity|]. split; [repeat constructor; apply ldis_dissipative|]. cbn. lia.
Qed.
Lemma pexact l i : l = pconf \/ l = fconf -> exponentiates lla 4 (prun l i).
Proof.
  intros Hl G P tau HG. assert (M : c_meth (s_conf (prun l i)) = Frechet) by (destruct Hl; subst; reflexivity). rewrite M. unfold op_exp. apply is_matrix_wfm in HG. rewrite (wfm_nr HG), (wfm_nc HG). cbn. intros E. injection E as <-.
  apply expm_sq_exact. apply is_matrix_wfm. now apply wfm_mscale.
Qed.
Lemma ppropagators l i : l = pconf \/ l = fconf -> exists ps, returns (F:=RField) (fun x => x) lla c0 (prun l i) SPropag (VProp ps).
Proof. intros [H|H]; subst; eexists; reflexivity. Qed.
Lemma pforward l i : l = pconf \/ l = fconf -> (i = None \/ exists v, i = Some v /\ is_matrix (S:=RS) 4 1 v) -> exists fs, returns (F:=RField) (fun x => x) lla c0 (prun l i) SFwd (VOps fs).
Proof.
  intros Hl [->|(v & -> & W)].
  - destruct Hl; subst; eexists; reflexivity.
  - apply is_matrix_wfm in W. destruct v as [sh dt]. destruct W as [W1 W2]. cbn in W1, W2. subst sh. destruct Hl; subst; eexists; reflexivity.
Qed.
End Wit.

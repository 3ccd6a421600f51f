(** Noise: the curves of the final propagators of all traces and the derivative of their fidelity with a target that may
    move as well (C75). *)
Require Import List Arith Lia Bool Reals Lra.
From Verif Require Import LibBase LibRing LibArr LibCplx LibMat LibNorm LibDeriv M_Matrix S_Linear S_Deriv S_Exp P_Linear P_Matrix P_Frechet P_Mexp P_Total M_OpHeap M_Transfer S_Transfer M_Amplitude S_Amplitude P_Transfer P_Transfer3 P_Transfer4 P_Transfer6 P_Amplitude M_Solver S_Solver M_Cost S_Cost S_CostGrad M_Simulator M_CostProg S_Simulator S_Gradient P_Loops P_Solver P_Solver2 P_Solver3 P_Solver4 P_Solver5 P_Solver6 P_Solver7 P_Solver8 P_Solver9 P_SolverMC P_SolverGrape P_Cost P_Cost2 P_CostGrad P_CostGrad2 P_GradCurve P_Grad P_GradTotal.
Import ListNotations.
Local Open Scope res_scope.
Set Implicit Arguments.

Section Generic.
Add Field Cfield_gn : (c_field RField).
Notation op := (op RField).
Notation wfs n := (Forall (wfm (S:=RS) n n : op -> Prop)).

(** the generator of a time step with the drift h *)
Definition gen1 n (h : op) (ctrl : list op) (u : nat -> R) : op :=
  mk2 n n (fun i j => cmul (copp ci) (cadd h.[i,j] (sumn (S:=RS) (length ctrl) (fun c => cmul (cofk (u c : RField)) (nth c ctrl dop).[i,j])))).
Lemma wfm_gen1 n h ctrl u : wfm (S:=RS) n n (gen1 n h ctrl u).
Proof. apply wfm_mk2. Qed.
Lemma gen1_is n h ctrl u : is_generator (F:=RField) n h ctrl u (gen1 n h ctrl u).
Proof. split; [apply is_matrix_wfm, wfm_gen1|]. intros i j Hi Hj. unfold gen1. rewrite mg_mk2 by auto. reflexivity. Qed.
Lemma gen1_unique n h ctrl u G : is_generator (F:=RField) n h ctrl u G -> G = gen1 n h ctrl u.
Proof.
  intros [W H]. destruct (gen1_is n h ctrl u) as [W' H']. apply (@mat_ext RS n n); [now apply is_matrix_wfm|apply wfm_gen1|]. intros i j Hi Hj. rewrite H, H' by auto. reflexivity.
Qed.

(** amplitudes that move: the final propagator moves as the solver's derivatives say *)
Lemma curve_final n k T C (dr : nat -> op) (ctrl : list op) (stp : nat -> R) (U : R -> RA) vu (E : nat -> R -> op) es ders (init : op) :
  length ctrl = C -> wfs n ctrl -> curve_at T C (U 0%R) U vu -> length es = T -> length ders = C ->
  Forall (fun row : list op => length row = T /\ Forall (is_matrix n n) row) ders -> wfs n es -> wfm (S:=RS) n k init ->
  (forall t s, t < T -> is_exponential n (mscale (S:=RS) (cofk (stp t : RField)) (gen1 n (dr t) ctrl (fun c => ent (U s) t c))) (E t s)) ->
  (forall t, t < T -> nth_error es t = Some (E t 0%R)) ->
  (forall c t, c < C -> t < T -> exists D, is_direction (F:=RField) n (nth c ctrl dop) D /\
     is_exp_derivative n (cofk (stp t : RField)) (gen1 n (dr t) ctrl (fun c => ent (U 0%R) t c)) D (nth t (nth c ders []) dop)) ->
  final_propagator n k T C (init :: prods es init) ders (mid (S:=RS) n :: rprods (rev es) (mid (S:=RS) n)) vu (fun s => Fw (fun t => E t s) init T) 0%R.
Proof.
  intros LC WC CU L L1 F1 WE Wi PT K KD. rewrite <- L1. replace T with (length es) by exact L.
  apply (@lists_final es ders n k init (fun t s => E t s)); auto.
  - rewrite L. exact F1.
  - intros t Ht. apply K. lia.
  - intros t s Ht. destruct (PT t s ltac:(lia)) as (Z & Z1 & _ & _ & <-). apply is_matrix_wfm. apply Z1.
  - intros t i j Ht Hi' Hj. assert (Ht' : t < T) by lia. pose proof CU as (_ & _ & CV).
    set (D := fun c => mscale (S:=RS) (copp ci) (nth c ctrl dop) : op).
    assert (WH : forall c, c < C -> wfm (S:=RS) n n (nth c ctrl dop)). { intros c Hcc. rewrite Forall_forall in WC. apply WC, nth_In. lia. }
    assert (WD : forall c, c < C -> wfm (S:=RS) n n (D c)) by (intros c Hcc; apply wfm_mscale; auto).
    assert (SD : mderiv n (fun s => E t s) 0 (dsum n C (fun c => vu t c) (fun c => nth t (nth c ders []) dop))).
    { apply (@step_deriv n (cofk (stp t : RField)) C (fun c => vu t c) (fun s => gen1 n (dr t) ctrl (fun c => ent (U s) t c)) (fun s => E t s) D (fun c => nth t (nth c ders []) dop)); auto.
      - intros; apply wfm_gen1.
      - intros a0 b0 Ha Hb. apply (@cderiv_ext (fun s => cadd (cmul (copp ci) (mg (dr t) a0 b0)) (sumn (S:=RS) C (fun c => cmul (cofk (ent (U s) t c : RField)) (mg (D c) a0 b0))))).
        + intros s. unfold gen1. rewrite mg_mk2 by auto. rewrite LC.
          assert (EQ : sumn (S:=RS) C (fun c => cmul (cofk (ent (U s) t c : RField)) (mg (D c) a0 b0)) = cmul (copp ci) (sumn (S:=RS) C (fun c => cmul (cofk (ent (U s) t c : RField)) (mg (nth c ctrl dop) a0 b0)))).
          { etransitivity; [|apply (@sumn_mul_l RS)]. apply sumn_ext. intros c Hcc. unfold D. rewrite (@mg_mscale RS n n) by auto. simpl. cring. }
          rewrite EQ. simpl. cring.
        + eapply cderiv_eq; [|apply cderiv_add; [apply cderiv_const|apply cderiv_sumn; intros c Hcc; apply cderiv_scale_r; apply cofk_deriv; apply (CV t c Ht' Hcc)]].
          cring.
      - intros c Hcc. destruct (KD c t Hcc Ht') as (D' & [D1 D2] & D3). replace (D c) with D'; auto.
        apply (@mat_ext RS n n); [now apply is_matrix_wfm|auto|]. intros a0 b0 Ha Hb. rewrite D2 by auto. unfold D. now rewrite (@mg_mscale RS n n) by auto. }
    eapply cderiv_eq; [|apply SD; auto]. rewrite L1. apply mg_dsum; auto. intros c Hcc. destruct (KD c t Hcc Ht') as (_ & _ & [D3 _]). now apply is_matrix_wfm.
Qed.

(** noise is a change of the drift *)
Definition shifted n (h : op) (ops : list op) (v : nat -> R) : op :=
  mk2 n n (fun i j => cadd h.[i,j] (sumn (S:=RS) (length ops) (fun o => cmul (cofk (v o : RField)) (nth o ops dop).[i,j]))).
Lemma noisy_shifted n h ctrl u ops v G : is_noisy_generator (F:=RField) n h ctrl u ops v G <-> is_generator (F:=RField) n (shifted n h ops v) ctrl u G.
Proof.
  split; intros [W H]; (split; [exact W|]); intros i j Hi Hj; rewrite H by auto; unfold shifted; rewrite ?mg_mk2 by auto; tocplx; cring.
Qed.

(** ---- the fidelity on the computational states ---- *)
Definition blk d (cs : option (list nat)) (U : op) : op := match cs with None => U | Some l => mk2 d d (fun a b => mg (S:=RS) U (nth a l 0) (nth b l 0)) end.
Lemma blk_wf n d cs U : subspace n cs d -> is_matrix n n U -> is_matrix d d (blk d cs U).
Proof. intros Hcs H. destruct cs; cbn in *; [apply is_matrix_wfm, wfm_mk2|]. now subst d. Qed.
Lemma blk_block n d l U : subspace n (Some l) d -> is_block l U (blk d (Some l) U).
Proof. intros (-> & _). split; [apply is_matrix_wfm, wfm_mk2|]. intros a b Ha Hb. unfold blk. now rewrite mg_mk2. Qed.
Lemma trunc_blk (la : LinAlg RField) n d cs U b : subspace n cs d -> is_matrix n n U -> cs = None \/ b = false -> op_truncate la U cs b = Ok (blk d cs U).
Proof.
  intros Hcs HU Hb. destruct cs as [l|]; [|reflexivity]. destruct Hb as [Hb|Hb]; [discriminate|subst b]. pose proof Hcs as (Ed & _ & Hl).
  destruct (@block_of RField la n U l HU Hl) as (B & [HB EB] & ->). f_equal. destruct (blk_block U Hcs) as [WB2 EB2]. rewrite is_matrix_wfm in HB, WB2. apply (@mat_ext RS (length l) (length l)); auto.
  intros i j Hi Hj. rewrite EB2 by auto. now apply EB.
Qed.
Definition fidel d cs (V U : op) : R := fid (F:=RField) d (mat_overlap d V (blk d cs U)).
Lemma fid_blk (la : LinAlg RField) n d cs V U b : subspace n cs d -> is_matrix d d V -> is_matrix n n U -> cs = None \/ b = false -> entanglement_fidelity la V U cs b = Ok (fidel d cs V U).
Proof.
  intros Hcs HV HU Hb. destruct cs as [l|].
  - destruct Hb as [Hb|Hb]; [discriminate|subst b]. pose proof (blk_block U Hcs) as HB. pose proof Hcs as (Ed & _ & Hl). pose proof HV as HV'. rewrite Ed in HV'.
    rewrite (@ent_fid_sub RField la n V U l false _ HV' HU Hl HB). rewrite (ent_fid_val la false HV' (proj1 HB)). rewrite <- Ed. reflexivity.
  - cbn in Hcs. rewrite <- Hcs in HU. now apply ent_fid_val.
Qed.
Lemma grad_blk (la : LinAlg RField) n d T C cs V fwd ders revs : subspace n cs d -> is_matrix d d V -> propagator_lists n n T C fwd ders revs ->
  exists g, derivative_entanglement_fidelity la V fwd ders revs cs false = Ok g /\ is_gradient n n T C fwd ders revs (fun U v => is_matrix n n U /\ v = fidel d cs V U) g.
Proof.
  intros Hcs HV HL.
  assert (X : exists g, derivative_entanglement_fidelity la V fwd ders revs cs false = Ok g /\ is_gradient n n T C fwd ders revs (fun (U : rop) (v : R) => entanglement_fidelity (F:=RField) la V U cs false = Ok v) g).
  { destruct cs as [l|]; cbn in Hcs; [destruct Hcs as (-> & H1 & H2); now apply ent_gradient_sub|]. subst d. now apply ent_gradient. }
  destruct X as (g & E & W & H). exists g. split; auto. split; auto. intros v Y a w HY Hq. apply (H v Y a w HY). intros h. destruct (Hq h) as [H1 ->]. apply (@fid_blk la n); auto.
Qed.

(** both propagators of the fidelity move *)
Lemma moving_overlap d (A B : R -> op) (A' B' : nat -> nat -> RC) :
  (forall i j, i < d -> j < d -> cderiv (fun s => mg (S:=RS) (A s) i j) 0 (A' i j)) -> (forall i j, i < d -> j < d -> cderiv (fun s => mg (S:=RS) (B s) i j) 0 (B' i j)) ->
  exists la lb, cderiv (fun s => mat_overlap d (A s) (B 0%R)) 0 la /\ cderiv (fun s => mat_overlap d (A 0%R) (B s)) 0 lb /\
    cderiv (fun s => mat_overlap d (A s) (B s)) 0 (cadd la lb).
Proof.
  intros HA HB.
  exists (sumn (S:=RS) d (fun i => sumn (S:=RS) d (fun j => cmul (cconj (A' i j)) (mg (S:=RS) (B 0%R) i j)))), (sumn (S:=RS) d (fun i => sumn (S:=RS) d (fun j => cmul (cconj (mg (S:=RS) (A 0%R) i j)) (B' i j)))).
  split; [|split]; unfold mat_overlap.
  - apply cderiv_sumn; intros i Hi; apply cderiv_sumn; intros j Hj. apply cderiv_scale_r. apply cderiv_conj. auto.
  - apply cderiv_sumn; intros i Hi; apply cderiv_sumn; intros j Hj. apply cderiv_scale. auto.
  - eapply cderiv_eq; [apply (@sumn_add RS)|]. apply cderiv_sumn; intros i Hi. eapply cderiv_eq; [apply (@sumn_add RS)|]. apply cderiv_sumn; intros j Hj.
    apply (@cderiv_mul (fun s => cconj (mg (S:=RS) (A s) i j)) (fun s => mg (S:=RS) (B s) i j) 0%R (cconj (A' i j)) (B' i j)); [apply cderiv_conj|]; auto.
Qed.
Lemma overlap_swap d (A B : op) : mat_overlap d B A = cconj (mat_overlap d A B).
Proof.
  unfold mat_overlap. rewrite csumn_conj. apply sumn_ext. intros i Hi. rewrite csumn_conj. apply sumn_ext. intros j Hj. rewrite cconj_mul, cconj_cconj. cring.
Qed.
Lemma fid_swap d (A B : op) : fid (F:=RField) d (mat_overlap d A B) = fid (F:=RField) d (mat_overlap d B A).
Proof. rewrite (overlap_swap d A B). unfold fid. now rewrite cnorm2_conj. Qed.
Lemma final_entries n k T C fwd ders revs v Y a : final_propagator n k T C fwd ders revs v Y a ->
  exists Y' : nat -> nat -> RC, forall i j, i < n -> j < k -> cderiv (fun s => mg (S:=RS) (Y s) i j) a (Y' i j).
Proof. intros (_ & _ & Z & _ & H). eexists. exact H. Qed.
Lemma blk_entries n d cs (Y : R -> op) (Y' : nat -> nat -> RC) : subspace n cs d -> (forall i j, i < n -> j < n -> cderiv (fun s => mg (S:=RS) (Y s) i j) 0 (Y' i j)) ->
  exists B' : nat -> nat -> RC, forall i j, i < d -> j < d -> cderiv (fun s => mg (S:=RS) (blk d cs (Y s)) i j) 0 (B' i j).
Proof.
  intros Hcs H. destruct cs as [l|]; cbn [subspace] in Hcs; [|subst d; exists Y'; exact H]. destruct Hcs as (-> & _ & Hl).
  exists (fun i j => Y' (nth i l 0) (nth j l 0)). intros i j Hi Hj. apply (@cderiv_ext (fun s => mg (S:=RS) (Y s) (nth i l 0) (nth j l 0))).
  - intros s. unfold blk. now rewrite mg_mk2.
  - apply H; apply Hl, nth_In; auto.
Qed.
Lemma Rsum_plus n f g : Rsum n (fun i => (f i + g i)%R) = (Rsum n f + Rsum n g)%R.
Proof. induction n; cbn [Rsum]; [ring|rewrite IHn; ring]. Qed.
Lemma both_move n d T C cs fwd ders revs fwd' ders' revs' v (A B : R -> op) g h : subspace n cs d ->
  final_propagator n n T C fwd ders revs v A 0%R -> final_propagator n n T C fwd' ders' revs' v B 0%R ->
  is_gradient n n T C fwd' ders' revs' (fun U w => is_matrix n n U /\ w = fidel d cs (blk d cs (A 0%R)) U) g ->
  is_gradient n n T C fwd ders revs (fun U w => is_matrix n n U /\ w = fidel d cs (blk d cs (B 0%R)) U) h ->
  derivable_pt_lim (fun s => fidel d cs (blk d cs (A s)) (B s)) 0 (Rsum T (fun t => Rsum C (fun c => ((get2 0%R g t c + get2 0%R h t c) * v t c)%R))).
Proof.
  intros Hcs FA FB [_ Hg] [_ Hh]. pose proof (proj1 FA) as WA. pose proof (proj1 FB) as WB.
  specialize (Hg v B 0%R (fun s => fidel d cs (blk d cs (A 0%R)) (B s)) FB). specialize (Hh v A 0%R (fun s => fidel d cs (blk d cs (B 0%R)) (A s)) FA).
  cbv beta in Hg, Hh. specialize (Hg (fun s => conj (WB s) eq_refl)). specialize (Hh (fun s => conj (WA s) eq_refl)).
  destruct (final_entries FA) as [A1 EA]. destruct (final_entries FB) as [B1 EB]. destruct (@blk_entries n d cs A A1 Hcs EA) as [A2 EA2]. destruct (@blk_entries n d cs B B1 Hcs EB) as [B2 EB2].
  destruct (@moving_overlap d (fun s => blk d cs (A s)) (fun s => blk d cs (B s)) A2 B2 EA2 EB2) as (la & lb & M1 & M2 & M3). cbv beta in M1, M2, M3.
  pose proof (deriv_fid d M1) as D1. pose proof (deriv_fid d M2) as D2. pose proof (deriv_fid d M3) as D3.
  assert (G1 : derivable_pt_lim (fun s => fid (F:=RField) d (mat_overlap d (blk d cs (A s)) (blk d cs (B 0%R)))) 0 (Rsum T (fun t => Rsum C (fun c => (get2 0%R h t c * v t c)%R)))).
  { eapply derivable_pt_lim_ext; [|exact Hh]. intros s. unfold fidel. apply fid_swap. }
  pose proof (uniqueness_limite _ _ _ _ D1 G1) as U1. pose proof (uniqueness_limite _ _ _ _ D2 Hg) as U2.
  replace (Rsum T (fun t => Rsum C (fun c => ((get2 0%R g t c + get2 0%R h t c) * v t c)%R))) with (Rsum T (fun t => Rsum C (fun c => (get2 0%R h t c * v t c)%R)) + Rsum T (fun t => Rsum C (fun c => (get2 0%R g t c * v t c)%R)))%R.
  - rewrite <- U1, <- U2. match type of D3 with derivable_pt_lim _ _ ?l => match goal with |- derivable_pt_lim _ _ ?l' => replace l' with l; [exact D3|] end end. match goal with |- ?a = ?b => change (@eq R a b) end.
    destruct la as [l1 l2], lb as [m1 m2]. cbv beta. unfold cmul, cadd, cconj, cre, cim. destruct (mat_overlap d (blk d cs (A 0%R)) (blk d cs (B 0%R))) as [x y]. cbn [fst snd]. cbn. ring.
  - rewrite <- Rsum_plus. apply Rsum_ext. intros t Ht. rewrite <- Rsum_plus. apply Rsum_ext. intros c Hc. ring.
Qed.
End Generic.

(** The deprecated derivatives of cost_functions.py are derivatives (C73, C74). *)
Require Import List Arith Lia Bool Reals Lra.
From Verif Require Import LibBase LibRing LibArr LibCplx LibMat LibNorm LibDeriv M_Matrix M_Solver M_Cost M_CostDeriv S_Linear S_Deriv P_Linear P_Matrix P_Loops S_Cost S_CostGrad S_CostDeriv P_Cost P_Cost2 P_CostDeriv P_CostGrad.
Import ListNotations.
Set Implicit Arguments.

Section G.
Variable F : OField.
Variable la : LinAlg F.
Add Field Kfield_pcdg : (k_field F).
Add Field Cfield_pcdg : (c_field F).
Notation S := (CStar F).
Notation C := (cplx F).
Notation op := (op F).
Local Open Scope k_scope.

Lemma wfs n l : Forall (@is_matrix S n n) l -> Forall (wfm (S:=S) n n) l.
Proof. apply Forall_impl. intros a. apply is_matrix_wfm. Qed.
Lemma get2_default {E : Type} T N (a : arr E) x y t c : wfa [T; N] a -> (t < T)%nat -> (c < N)%nat -> get2 x a t c = get2 y a t c.
Proof. intros [Ws Wl] Ht Hc. unfold get2, getn. apply nth_indep. rewrite Wl, Ws. apply ravel_lt. now apply vidx2. Qed.
Lemma real_entries_eq T N (a b : arr C) x y : real_entries T N a x -> real_entries T N b y -> (forall t c, (t < T)%nat -> (c < N)%nat -> x t c = y t c) -> a = b.
Proof.
  intros [Wa Ea] [Wb Eb] H. apply (arr2_ext c0 Wa Wb). intros t c Ht Hc. rewrite Ea, Eb by auto. now rewrite H.
Qed.
Lemma grape_derivative_eq n dt (H P D : op) : wfm (S:=S) n n H -> wfm (S:=S) n n P -> grape_derivative n dt H P D -> D = mscale (S:=S) (cmul (copp ci) (cofk dt)) (mmul (S:=S) H P).
Proof.
  intros WH WP [WD E]. rewrite is_matrix_wfm in WD. apply (@mat_ext S n n); auto. wf_solve. intros i j Hi Hj. rewrite E by auto. rewrite (@mg_mscale S n n) by (auto; wf_solve). rewrite (@mg_mmul S n n n) by auto. reflexivity.
Qed.
Lemma grape_is_du (T N : nat) (V : op) ps past revs (ham dus : arr op) dt : T <> 0%nat -> N <> 0%nat -> is_matrix 2 2 V -> evolution 2 ps past revs -> length ps = T ->
  length past = Datatypes.S T -> length revs = Datatypes.S T -> Forall (is_matrix 2 2) past -> Forall (is_matrix 2 2) revs ->
  wfa [T; N] ham -> wfa [T; N] dus ->
  (forall t c x p, (t < T)%nat -> (c < N)%nat -> nth_error ps t = Some p -> is_hermitian 2 (get2 x ham t c) /\ grape_derivative 2 dt (get2 x ham t c) p (get2 x dus t c)) ->
  derivative_average_gate_fidelity ham ps past (OScal (cofk dt)) V = derivative_average_gate_fid_with_du ps past dus V.
Proof.
  intros HT HN HV HE L1 L2 L3 WF WR Wh Wd HD. apply wfs in WF, WR. rewrite is_matrix_wfm in HV.
  assert (exists l, is_last past l) as (l & Hl). { destruct (@exists_last _ past) as (past' & l & El). { intros ->; discriminate. } exists l. now exists past'. }
  assert (G : forall t c x, (t < T)%nat -> (c < N)%nat -> get2 x ham t c = get2 (z0 F) ham t c /\ get2 x dus t c = get2 (z0 F) dus t c).
  { intros t c x Ht Hc. split; [exact (get2_default _ _ Wh Ht Hc)|exact (get2_default _ _ Wd Ht Hc)]. }
  assert (P : forall t, (t < T)%nat -> nth_error ps t = Some (nth t ps (z0 F)) /\ wfm (S:=S) 2 2 (nth t ps (z0 F))).
  { intros t Ht. split. apply nth_error_nth'. lia. apply is_matrix_wfm. destruct HE as (HP & _). rewrite Forall_forall in HP. apply HP. apply nth_In. lia. }
  destruct (@grape_val F ps past revs ham V T N l (fun t c => get2 (z0 F) ham t c) dt) as (a & Ea & Ra); auto.
  { intros t c x Ht Hc. split. now apply G. destruct (P t Ht) as [P1 P2]. destruct (HD t c (z0 F) _ Ht Hc P1) as ([W HH] & _). rewrite is_matrix_wfm in W. split; auto.
    apply (@mat_ext S 2 2); auto. wf_solve. intros i j Hi Hj. rewrite (@mg_mdag S 2 2) by auto. symmetry. exact (HH j i Hj Hi). }
  destruct (@with_du_val F ps past revs dus V T N l (fun t c => get2 (z0 F) dus t c)) as (b & Eb & Rb); auto.
  { intros t c x Ht Hc. split. now apply G. destruct (P t Ht) as [P1 P2]. destruct (HD t c (z0 F) _ Ht Hc P1) as (_ & [W _]). now apply is_matrix_wfm. }
  rewrite Ea, Eb. f_equal. apply (real_entries_eq Ra Rb). intros t c Ht Hc. cbv beta. f_equal.
  destruct (P t Ht) as [P1 P2]. destruct (HD t c (z0 F) _ Ht Hc P1) as ([W _] & HG). rewrite is_matrix_wfm in W. symmetry. exact (grape_derivative_eq W P2 HG).
Qed.
Lemma du_dimension n ps past dus (V : op) : ps <> [] -> Forall (is_matrix n n) ps -> n <> 2%nat -> derivative_average_gate_fid_with_du ps past dus V = Err NotImplementedError.
Proof.
  intros Hne HF Hn. unfold derivative_average_gate_fid_with_du. destruct ps as [|p0 ps']; [congruence|]. apply wfs in HF. 
  assert (exists fs, propagators_future (p0 :: ps') = Ok fs) as [fs ->].
  { unfold propagators_future. unfold idx at 1. cbn [nth_error bind]. inversion HF as [|? ? W0 _]; subst. rewrite (wfm_nr W0).
    assert (G : forall (qs acc : list op) (r : op), is_last acc r -> wfm (S:=S) n n r -> Forall (wfm (S:=S) n n) qs -> exists fs, foldM (fun fs p => bind (idx_last fs) (fun l => bind (np_matmul l p) (fun x => Ok (fs ++ [x])))) qs acc = Ok fs).
    { induction qs as [|q qs IH]; intros acc r Hl Wr Hq. now exists acc. inversion Hq; subst. cbn [foldM]. rewrite (idx_last_ok Hl). cbn [bind]. rewrite (@mm_ok F n n n) by auto. cbn [bind].
      apply (IH _ (mmul (S:=S) r q)); auto. now exists acc. wf_solve. }
    destruct (G (rev (p0 :: ps')) [mid (S:=S) n] (mid (S:=S) n)) as [fs E]. now exists []. wf_solve. now apply Forall_rev. exists (rev fs). exact (f_equal (fun z => bind z (fun fs => Ok (rev fs))) E). }
  unfold idx. cbn [nth_error bind]. inversion HF as [|? ? W0 _]; subst. rewrite (wfm_nr W0). unfold orthogonal_set. apply Nat.eqb_neq in Hn. rewrite Hn. reflexivity.
Qed.
End G.

Local Open Scope R_scope.
Section R.
Variable la : LinAlg RField.

Lemma du_relation T Cn V ps fwd ders revs dus b : T <> 0%nat -> is_matrix 2 2 V -> length ps = T -> propagator_lists 2 2 T Cn fwd ders revs -> evolution 2 ps fwd revs -> array_of T Cn ders dus ->
  exists a e, derivative_average_gate_fid_with_du ps fwd dus V = Ok a /\ derivative_entanglement_fidelity la V fwd ders revs None b = Ok e /\ wfa [T; Cn] e /\
    real_entries (F:=RField) T Cn a (fun t c => 2 / 3 * get2 0 e t c).
Proof.
  intros HT HV LP HL HE HA. pose proof HV as WV. rewrite is_matrix_wfm in WV. pose proof HL as (L1 & F1 & L2 & F2 & L3 & L4 & F3). destruct HA as [WA HA].
  assert (exists l, is_last fwd l /\ wfm (S:=RS) 2 2 l) as (l & Hl & Wl).
  { destruct (@exists_last _ fwd) as (fwd' & l & El). { intros ->; discriminate. } subst fwd. exists l. split. now exists fwd'.
    rewrite Forall_forall in F1. apply is_matrix_wfm, F1. apply in_or_app. right. now left. }
  destruct (@with_du_val RField ps fwd revs dus V T Cn l (fun t c => nth t (nth c ders []) (z0 RField))) as (a & Ea & Ra); auto.
  - intros t c x Ht Hc. destruct (total_ok HL Hc Ht) as (row & D & Rt & f0 & G1 & G2 & G3 & G4 & W1 & _).
    rewrite (nth_error_nth _ _ _ G1), (nth_error_nth _ _ _ G2). split; auto. exact (HA t c row D x G1 G2).
  - exists a. eexists. split; [exact Ea|]. unfold derivative_entanglement_fidelity. rewrite (idx_last_ok Hl). cbn [bind trunc_if]. rewrite (op_dag_mdag WV). rewrite (@mm_ok RField 2 2 2) by wf_solve. cbn [bind].
    destruct ders as [|row0 ders']; [cbn in L3; lia|]. unfold idx at 1. cbn [nth_error bind].
    assert (Er : length row0 = T) by (inversion F3; tauto). rewrite Er, L3. unfold op_tr at 1. rewrite (overlap_tr WV Wl). rewrite (wfm_nr WV).
    split.
    + apply (@fill_ok T Cn _ (fun c t => kmul (kdiv (kdiv (two RField) (kofnat 2)) (kofnat 2)) (cre (cmul (cconj (mat_overlap 2 V l)) (mat_overlap 2 V (mmul (S:=RS) (nth (S t) (rev revs) (z0 RField)) (mmul (S:=RS) (nth t (nth c (row0 :: ders') []) (z0 RField)) (nth t fwd (z0 RField))))))))).
      intros c t Hc Ht. destruct (total_ok HL Hc Ht) as (row & D & Rt & f0 & G1 & G2 & G3 & G4 & W1 & W2 & W3 & E). rewrite E. cbn [bind trunc_if]. rewrite (@mm_ok RField 2 2 2) by wf_solve. cbn [bind]. unfold op_tr.
      assert (WZ : wfm (S:=RS) 2 2 (mmul (S:=RS) Rt (mmul (S:=RS) D f0))) by wf_solve. rewrite (overlap_tr WV WZ).
      rewrite (nth_error_nth _ _ (z0 RField) G3), (nth_error_nth _ _ (z0 RField) G4), (nth_error_nth _ _ [] G1), (nth_error_nth _ _ (z0 RField) G2). reflexivity.
    + split; [apply wfa_mk2|]. destruct Ra as [Wa Ea']. split; auto. intros t c Ht Hc. rewrite (Ea' t c Ht Hc). f_equal. rewrite get2_mk2 by auto. unfold du_value.
      match goal with |- kdiv ?x _ = _ => set (z := x) end. change (cre _) with z.
      assert (E2 : (kofnat (F:=RField) 2 : R) = 2) by (cbn; ring). assert (E3 : (kofnat (F:=RField) 3 : R) = 3) by (cbn; ring).
      rewrite E2, E3, two_R. clearbody z. change (z / 3 = 2 / 3 * (2 / 2 / 2 * z))%R. field.
Qed.

Lemma du_gradient T Cn V ps fwd ders revs dus : T <> 0%nat -> is_matrix 2 2 V -> length ps = T -> propagator_lists 2 2 T Cn fwd ders revs -> evolution 2 ps fwd revs -> array_of T Cn ders dus ->
  exists a g, derivative_average_gate_fid_with_du ps fwd dus V = Ok a /\ real_entries (F:=RField) T Cn a (get2 0 g) /\
    is_gradient 2 2 T Cn fwd ders revs (fun (U : rop) (v : R) => average_gate_fidelity (F:=RField) U V = Ok (cofk (v : RField))) g.
Proof.
  intros HT HV LP HL HE HA. destruct (@du_relation T Cn V ps fwd ders revs dus true HT HV LP HL HE HA) as (a & e & Ea & Ee & We & Ra).
  exists a, (mk2 T Cn (fun t c => (2 / 3 * get2 0 e t c)%R) : arr (kcar RField)). split; auto. split.
  { destruct Ra as [W E]. split; auto. intros t c Ht Hc. rewrite (E t c Ht Hc). now rewrite get2_mk2. }
  destruct (@ent_gradient la 2 T Cn V fwd ders revs true true HV HL) as (e' & Ee' & [_ HG]). assert (e' = e) by congruence. subst e'.
  split; [apply wfa_mk2|]. intros v Y x w HF Hw.
  assert (Hf : forall h, exists f, entanglement_fidelity (F:=RField) la V (Y h) None true = Ok f /\ w h = ((2 * f + 1) / 3)%R).
  { intros h. destruct HF as (HY & _). destruct (@agf_val RField la (Y h) V true (HY h) HV) as (f & E1 & E2). exists f. split; auto. specialize (Hw h). cbv beta in Hw. rewrite E2 in Hw. injection Hw as Hw. etransitivity; [symmetry; exact Hw|]. cbn. field. }
  pose (w' := fun h => ((3 * w h - 1) / 2)%R).
  assert (Hw' : forall h, entanglement_fidelity (F:=RField) la V (Y h) None true = Ok (w' h)).
  { intros h. destruct (Hf h) as (f & E1 & E2). rewrite E1. f_equal. unfold w'. rewrite E2. match goal with |- ?a = ?b => change (@eq R a b) end. lra. }
  specialize (HG v Y x w' HF Hw').
  apply (@derivable_pt_lim_ext (fun h => (2 / 3 * w' h + 1 / 3)%R)). { intros h. unfold w'. field. }
  replace (Rsum T _) with (2 / 3 * Rsum T (fun t => Rsum Cn (fun c => (get2 0 e t c * v t c)%R)) + 0)%R.
  - apply derivable_pt_lim_plus. now apply deriv_scale. apply derivable_pt_lim_const.
  - rewrite Rplus_0_r. rewrite <- Rsum_scale. apply Rsum_eq. intros t Ht. rewrite <- Rsum_scale. apply Rsum_eq. intros c Hc. rewrite get2_mk2 by auto. ring.
Qed.

(** C74 *)
Lemma fill_complex_first T N (f : nat -> nat -> res (cplx RField)) e : T <> 0%nat -> N <> 0%nat -> f 0%nat 0%nat = Err e -> fill_complex T N f = Err e.
Proof. intros HT HN H. unfold fill_complex. destruct N; [congruence|]. destruct T; [congruence|]. cbn [seq mapM]. rewrite H. reflexivity. Qed.
Lemma grape_list d (fwd revs hs : list rop) l (V x : rop) : is_last fwd x -> is_matrix d d x -> is_matrix d d V -> hs <> [] -> l <> [] ->
  derivative_entanglement_fidelity_grape hs fwd revs (TList l) V = Err TypeError.
Proof.
  intros Hx HX HV Hh Hl. rewrite is_matrix_wfm in HX, HV. unfold derivative_entanglement_fidelity_grape. rewrite (idx_last_ok Hx). cbn [bind]. rewrite (op_dag_mdag HV). rewrite (@mm_ok RField d d d) by wf_solve. cbn [bind].
  apply fill_complex_first. cbn. destruct l; cbn; congruence. destruct hs; cbn; congruence. reflexivity.
Qed.
Lemma grape_array d (fwd revs hs : list rop) l (V : rop) T : is_matrix d d V -> T = length l -> length fwd = S T -> length revs = S T -> Forall (is_matrix d d) fwd -> Forall (is_matrix d d) revs -> Forall (is_matrix d d) hs -> hs <> [] -> (1 < T)%nat ->
  derivative_entanglement_fidelity_grape hs fwd revs (TArray l) V = Err ValueError.
Proof.
  intros HV ET L1 L2 HF HR HH Hh Hl. rewrite is_matrix_wfm in HV. 
  destruct (@exists_last _ fwd) as (fwd' & x & Ex). { intros ->; discriminate. } pose proof HF as HF'. rewrite Forall_forall in HF, HR, HH.
  assert (WX : wfm (S:=RS) d d x) by (apply is_matrix_wfm, HF; rewrite Ex; apply in_or_app; right; now left).
  assert (Hx : is_last fwd x) by now exists fwd'.
  unfold derivative_entanglement_fidelity_grape. rewrite (idx_last_ok Hx). cbn [bind]. rewrite (op_dag_mdag HV). rewrite (@mm_ok RField d d d) by wf_solve. cbn [bind].
  apply fill_complex_first. { destruct l; cbn in ET |- *; [lia|congruence]. } destruct hs; cbn; congruence. unfold grape_entry, rev_at, idx.
  destruct (@nth_err_ex _ (rev revs) 1) as [r Er]; [rewrite rev_length; lia|]. rewrite Er.
  destruct (@nth_err_ex _ fwd 1) as [f Ef]; [lia|]. rewrite Ef. destruct hs as [|h hs']; [congruence|]. cbn [nth_error bind].
  assert (Wr : wfm (S:=RS) d d r) by (apply is_matrix_wfm, HR, in_rev; eapply nth_error_In; eauto). assert (Wf : wfm (S:=RS) d d f) by (apply is_matrix_wfm, HF; eapply nth_error_In; eauto).
  assert (Wh : wfm (S:=RS) d d h) by (apply is_matrix_wfm, HH; now left).
  rewrite (@mm_ok RField d d d) by wf_solve. cbn [bind]. rewrite (@mm_ok RField d d d) by wf_solve. cbn [bind]. rewrite (@mm_ok RField d d d) by wf_solve. cbn [bind].
  destruct l as [|x1 [|x2 l']]; cbn in ET; try lia. reflexivity.
Qed.
Lemma grape_one d Cn (V p f0 f1 r0 r1 : rop) (hs Ds : list rop) (dt : R) b b' : is_matrix d d V -> is_matrix d d p -> propagator_lists d d 1 Cn [f0; f1] (map (fun D => [D]) Ds) [r0; r1] -> is_product (S:=RS) d d d p f0 f1 ->
  length hs = Cn -> Forall (is_matrix d d) hs -> (forall c h D, nth_error hs c = Some h -> nth_error Ds c = Some D -> grape_derivative (F:=RField) d dt h p D) ->
  exists a g, derivative_entanglement_fidelity_grape hs [f0; f1] [r0; r1] (TArray (F:=RField) [dt]) V = Ok a /\ real_entries (F:=RField) 1 Cn a (get2 0 g) /\
    derivative_entanglement_fidelity la V [f0; f1] (map (fun D => [D]) Ds) [r0; r1] None b = Ok g /\
    is_gradient d d 1 Cn [f0; f1] (map (fun D => [D]) Ds) [r0; r1] (fun (U : rop) (v : R) => entanglement_fidelity (F:=RField) la V U None b' = Ok v) g.
Proof.
  intros HV Hp HL HP Lh HH HG. destruct (@ent_gradient la d 1 Cn V [f0;f1] (map (fun D => [D]) Ds) [r0;r1] b b' HV HL) as (g & Eg & Gg).
  pose proof HL as (L1 & F1 & L2 & F2 & L3 & L4 & F3). rewrite is_matrix_wfm in HV, Hp.
  assert (Wf0 : wfm (S:=RS) d d f0) by (inversion F1; subst; now apply is_matrix_wfm).
  assert (Wf1 : wfm (S:=RS) d d f1) by (inversion F1 as [|? ? ? F1']; subst; inversion F1'; subst; now apply is_matrix_wfm).
  assert (Wr0 : wfm (S:=RS) d d r0) by (inversion F2; subst; now apply is_matrix_wfm).
  rewrite map_length in L3.
  assert (Hl : is_last [f0; f1] f1) by now exists [f0].
  set (z := fun c => mat_overlap d V (mmul (S:=RS) r0 (mmul (S:=RS) (nth c hs (z0 RField)) f1))).
  set (x := fun c => kmul (kmul (kdiv (kdiv (two RField) (kofnat d)) (kofnat d)) dt) (cim (cmul (cconj (mat_overlap d V f1)) (z c)))).
  assert (EA : exists a, derivative_entanglement_fidelity_grape hs [f0; f1] [r0; r1] (TArray (F:=RField) [dt]) V = Ok a /\ real_entries (F:=RField) 1 Cn a (fun _ c => x c)).
  { unfold derivative_entanglement_fidelity_grape. rewrite (idx_last_ok Hl). cbn [bind]. rewrite (op_dag_mdag HV). rewrite (@mm_ok RField d d d) by wf_solve. cbn [bind durations_len length].
    rewrite Lh. apply fill_complex_ok. intros c t Hc Ht. assert (t = 0%nat) by lia. subst t. unfold grape_entry, rev_at, idx. cbn [rev app nth_error bind].
    destruct (@nth_err_ex _ hs c) as [h Eh]; [lia|]. rewrite Eh. cbn [bind]. rewrite Forall_forall in HH. assert (Wh : wfm (S:=RS) d d h) by (apply is_matrix_wfm, HH; eapply nth_error_In; eauto).
    rewrite (@mm_ok RField d d d) by wf_solve. cbn [bind]. rewrite (@mm_ok RField d d d) by wf_solve. cbn [bind]. rewrite (@mm_ok RField d d d) by wf_solve. cbn [bind]. f_equal. f_equal. unfold x. rewrite (wfm_nr HV). f_equal. f_equal. f_equal.
    - f_equal. unfold op_tr. now rewrite (overlap_tr HV Wf1).
    - unfold z, op_tr. rewrite (nth_error_nth _ _ _ Eh). assert (WZ : wfm (S:=RS) d d (mmul (S:=RS) r0 (mmul (S:=RS) h f1))) by wf_solve. rewrite <- (overlap_tr HV WZ). rewrite (@mmul_assoc RS d d d d r0 h f1) by auto. reflexivity. }
  destruct EA as (a & Ea & [Wa Ra]). exists a, g. split; auto. split; [|split; auto]. split; auto. intros t c Ht Hc. rewrite (Ra t c Ht Hc). f_equal.
  assert (t = 0%nat) by lia. subst t. destruct (total_ok HL Hc Ht) as (row & D & Rt & f & G1 & G2 & G3 & G4 & W1 & W2 & W3 & E).
  cbn in G3, G4. injection G3 as <-. injection G4 as <-.
  assert (ED : nth_error Ds c = Some D).
  { rewrite nth_error_map in G1. destruct (nth_error Ds c) as [D'|]; cbn in G1; [|discriminate]. injection G1 as <-. cbn in G2. exact G2. }
  destruct (@nth_err_ex _ hs c) as [h Eh]; [lia|]. rewrite Forall_forall in HH. assert (Wh : wfm (S:=RS) d d h) by (apply is_matrix_wfm, HH; eapply nth_error_In; eauto).
  pose proof (@grape_derivative_eq RField d dt h p D Wh Hp (HG c h D Eh ED)) as EDv. apply is_product_eq in HP; auto.
  assert (Gv : get2 0 g 0 c = kmul (kdiv (kdiv (two RField) (kofnat d)) (kofnat d)) (cre (cmul (cconj (mat_overlap d V f1)) (mat_overlap d V (mmul (S:=RS) r0 (mmul (S:=RS) D f0)))))).
  { revert Eg. unfold derivative_entanglement_fidelity. rewrite (idx_last_ok Hl). cbn [bind trunc_if]. rewrite (op_dag_mdag HV). rewrite (@mm_ok RField d d d) by wf_solve. cbn [bind].
    destruct Ds as [|D0 Ds']; [cbn in L3; lia|]. cbn [map]. unfold idx at 1. cbn [nth_error bind length]. rewrite map_length. change (S (length Ds')) with (length (D0 :: Ds')). rewrite L3. rewrite (wfm_nr HV).
    unfold op_tr at 1. rewrite (overlap_tr HV Wf1). change ([D0] :: map (fun D => [D]) Ds') with (map (fun D => [D]) (D0 :: Ds')).
    rewrite (@fill_ok 1 Cn _ (fun c t => match total_derivative (F:=RField) [f0; f1] (map (fun D => [D]) (D0 :: Ds')) [r0; r1] c t with Ok Z => kmul (kdiv (kdiv (two RField) (kofnat d)) (kofnat d)) (cre (cmul (cconj (mat_overlap d V f1)) (mat_overlap d V Z))) | Err _ => 0%R end)).
    - intros Eg. injection Eg as <-. rewrite get2_mk2 by auto. cbv beta. match goal with |- match ?x with _ => _ end = _ => replace x with (Ok (mmul (S:=RS) r0 (mmul (S:=RS) D f0)) : res rop) by (symmetry; exact E) end. reflexivity.
    - intros c' t' Hc' Ht'. destruct (total_ok HL Hc' Ht') as (? & D' & Rt' & f' & _ & _ & _ & _ & W1' & W2' & W3' & E'). rewrite E'. cbn [bind trunc_if]. rewrite (@mm_ok RField d d d) by wf_solve. cbn [bind]. unfold op_tr.
      assert (WZ : wfm (S:=RS) d d (mmul (S:=RS) Rt' (mmul (S:=RS) D' f'))) by wf_solve. rewrite (overlap_tr HV WZ). reflexivity. }
  rewrite Gv. unfold x, z. rewrite (nth_error_nth _ _ _ Eh). rewrite EDv.
  rewrite (@mmul_scale_l RS d d d) by wf_solve. rewrite (@mmul_scale_r RS d d d) by wf_solve. rewrite <- (@mmul_assoc RS d d d d) by wf_solve. rewrite <- HP.
  assert (WZ : wfm (S:=RS) d d (mmul (S:=RS) r0 (mmul (S:=RS) h f1))) by wf_solve.
  assert (WZ' : wfm (S:=RS) d d (mscale (S:=RS) (cmul (copp ci) (cofk (dt : RField))) (mmul (S:=RS) r0 (mmul (S:=RS) h f1)))) by wf_solve.
  rewrite <- (overlap_tr HV WZ), <- (overlap_tr HV WZ'). rewrite (@mmul_scale_l RS d d d) by wf_solve. rewrite (@mtrace_mscale RS d) by wf_solve.
  destruct (mat_overlap d V f1) as [u u'], (mtrace (S:=RS) (mmul (S:=RS) (mmul (S:=RS) r0 (mmul (S:=RS) h f1)) (mdag (S:=RS) V))) as [y y'].
  set (k := kdiv (kdiv (two RField) (kofnat d)) (kofnat d)). clearbody k. unfold cim, cre, cconj, cofk, ci, copp. cbn [smul CStar]. unfold cmul. cbn [fst snd]. cbn. ring.
Qed.
End R.

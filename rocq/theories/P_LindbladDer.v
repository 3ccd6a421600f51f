(** The derivative directions of the Lindblad solver. *)
Require Import List Arith Lia Bool Ring Field Reals.
From Verif Require Import LibBase LibRing LibArr LibCplx LibNorm LibMat LibDeriv M_Matrix S_Linear P_Linear P_Matrix M_OpHeap M_Transfer S_Transfer M_Amplitude P_Transfer M_Solver S_Solver S_Lindblad P_Loops P_Solver P_Solver2 P_Solver3 P_Solver4 P_Solver5 P_Solver6 P_Solver7 P_Solver8 P_Solver9 P_Lindblad.
Import ListNotations.
Open Scope nat_scope.
Open Scope res_scope.
Set Implicit Arguments.

Lemma nth_combine {A B} (a : list A) (b : list B) c x y : c < length a -> c < length b -> nth c (combine a b) (x, y) = (nth c a x, nth c b y).
Proof. revert b c. induction a as [|a0 a IH]; intros [|b0 b] [|c] Ha Hb; cbn in *; try lia; auto. apply IH; lia. Qed.

Section Dir.
Variable F : OField.
Notation S := (CStar F).
Notation C := (cplx F).
Notation op := (op F).
Notation Sg := (sumn (S:=CStar F)).
Notation dop := (Arr [] [] : op).
Notation wfs n := (Forall (wfm (S:=S) n n : op -> Prop)).
Add Field Kfield_pld : (k_field F).
Add Field Cfield_pld : (c_field F).

Lemma cofk1_mul (x : C) : cmul (cofk k1) x = x.
Proof. destruct x. unfold cofk, cmul. cbn [fst snd]. apply (f_equal2 pair); ring. Qed.
Lemma lind_dir_acts n (h : op) : wfm (S:=S) n n h -> exists D, lind_dir (neg_i (mid (S:=S) n)) h = Ok D /\ acts_as n D (commutation n (entries h)).
Proof.
  intros Wh.
  assert (Wi : wfm (S:=S) n n (neg_i (mid (S:=S) n : op))) by (apply wfm_mscale, wfm_mid). assert (Wt : wfm (S:=S) n n (op_transpose h)) by now apply wfm_mtr.
  assert (Wa : wfm (S:=S) (n * n) (n * n) (mkron (S:=S) (neg_i (mid (S:=S) n)) h)) by now apply wfm_mkron.
  assert (Wb : wfm (S:=S) (n * n) (n * n) (mkron (S:=S) (op_transpose h) (neg_i (mid (S:=S) n)))) by now apply wfm_mkron.
  eexists. split.
  - unfold lind_dir. cbn [op_kron bind]. apply (@isub_same F (n * n) (n * n)); auto.
  - split; [apply is_matrix_wfm; now apply wfm_msub|]. intros rho i j Hi Hj. rewrite app_msub by auto. rewrite !app_mkron by auto. unfold commutation, entries.
    assert (NI : forall a b, a < n -> b < n -> mg (neg_i (mid (S:=S) n)) a b = cmul (copp ci) (kd (S:=S) a b)).
    { intros a b Ha Hb. unfold neg_i. rewrite (@mg_mscale S n n) by (auto; apply wfm_mid). rewrite mg_mid by auto. reflexivity. }
    assert (E1 : Sg n (fun b => Sg n (fun a => cmul (cmul (mg (neg_i (mid (S:=S) n)) j b) (mg h i a)) (rho a b))) = cmul (copp ci) (Sg n (fun a => cmul (mg h i a) (rho a j)))).
    { transitivity (Sg n (fun b => cmul (kd (S:=S) j b) (cmul (copp ci) (Sg n (fun a => cmul (mg h i a) (rho a b)))))).
      - apply Sg_ext. intros b Hb. rewrite !csumn_mul_l. apply Sg_ext. intros a Ha. rewrite NI by auto. cring.
      - now rewrite Sg_kd_l. }
    assert (E2 : Sg n (fun b => Sg n (fun a => cmul (cmul (mg (op_transpose h) j b) (mg (neg_i (mid (S:=S) n)) i a)) (rho a b))) = cmul (copp ci) (Sg n (fun b => cmul (rho i b) (mg h b j)))).
    { rewrite csumn_mul_l. apply Sg_ext. intros b Hb.
      transitivity (Sg n (fun a => cmul (kd (S:=S) i a) (cmul (copp ci) (cmul (rho a b) (mg h b j))))).
      - apply Sg_ext. intros a Ha. rewrite NI by auto. unfold op_transpose, op_copy. rewrite (@mg_mtr S n n) by auto. cring.
      - now rewrite Sg_kd_l. }
    etransitivity; [exact (f_equal2 csub E1 E2)|]. cring.
Qed.

Variable rexp : F -> F.
Variable la : LinAlg F.
Variable eps : cplx F.

Lemma lind_dirs n (hl : list op) : hl <> [] -> wfs n hl -> exists hs, (h0 <- idx hl 0 ;; ident <- op_identity_like h0 ;; mapM (lind_dir (neg_i ident)) hl) = Ok hs /\ length hs = length hl /\
    forall c, c < length hl -> acts_as n (nth c hs dop) (commutation n (entries (nth c hl dop))).
Proof.
  intros Hne Wc. destruct hl as [|h0 hr] eqn:E; [congruence|]. cbn [idx nth_error bind]. assert (W0 : wfm (S:=S) n n h0) by now inversion Wc.
  unfold op_identity_like. rewrite (wfm_nr W0), (wfm_nc W0), Nat.eqb_refl. cbn [bind]. clear - Wc.
  induction Wc as [|x xs Wx Wxs IH]; cbn [mapM]; [exists []; repeat split; auto; intros; cbn in *; lia|].
  destruct (lind_dir_acts Wx) as (Dx & Ex & Ax). destruct IH as (hs & Eh & Lh & Ah). rewrite Ex, Eh. exists (Dx :: hs). split; auto. split; [cbn; now rewrite Lh|].
  intros [|c] Hc; cbn [nth]; auto. apply Ah. cbn in Hc. lia.
Qed.
(** the directions for dissipation super operators [const] *)
Lemma pdirs_lind n (l : @liconf F) (b : @st F) u const dirs w : c_class (s_conf b) = CLindblad l -> li_func_d l = None ->
  l_ddiss (s_l b) = None -> (li_pref_d l <> None -> const_diss l (s_udiss b) = Ok (Some const)) -> wfs (n * n) const -> wfs n (c_ctrl (s_conf b)) -> s_amps b = Some u ->
  slopes l u (s_tpars b) (length const) w -> pdirs b = Ok dirs ->
  forall t row c D, idx dirs t = Ok row -> idx row c = Ok D -> c < length (c_ctrl (s_conf b)) ->
   acts_as n D (master_super n (entries (nth c (c_ctrl (s_conf b)) dop)) const (w t c)).
Proof.
  intros Hcl Hf Hl Hc W Wc Hu Hw H t row c D Ht Hr Hcc. unfold pdirs, directions in H. rewrite Hcl, Hl in H.
  destruct (@lind_dirs n (c_ctrl (s_conf b)) ltac:(intros X; rewrite X in Hcc; cbn in Hcc; lia) Wc) as (hs & Eh & Lh & Ah).
  rewrite Eh in H. unfold calc_diss_deriv in H. rewrite Hu, Hf in H. unfold slopes in Hw.
  destruct (li_pref_d l) as [f|].
  - rewrite (Hc ltac:(discriminate)) in H. cbn [bind] in H. destruct Hw as (p & Hp & Dp & Hw). rewrite Hp in H. cbn [bind] in H.
    destruct (mapM _ (seq 0 (dim0 p))) as [dd|] eqn:E; cbn [bind snd] in H; [|discriminate].
    destruct (idx_inv _ _ Ht) as [T1 T2]. destruct (idx_inv _ _ Hr) as [R1 R2]. assert (L1 : length dirs = length dd) by now apply mapM_length in H.
    assert (L2 : length dd = dim0 p) by (apply mapM_length in E; now rewrite E, seq_length).
    pose proof (@mapM_nth _ _ _ _ _ [] [] H t ltac:(lia)) as Q. rewrite T2 in Q.
    pose proof (@mapM_seq _ _ _ _ _ [] E) as [_ Q2]. specialize (Q2 t ltac:(lia)). cbn [Nat.add] in Q2.
    assert (L3 : length (nth t dd []) = dim1 p) by (apply mapM_length in Q2; now rewrite Q2, seq_length).
    assert (L4 : c < dim1 p). { apply mapM_length in Q. rewrite combine_length in Q. lia. }
    pose proof (@mapM_nth _ _ _ _ _ (dop, dop) dop Q c ltac:(rewrite combine_length; lia)) as Q3.
    pose proof (@mapM_seq _ _ _ _ _ dop Q2) as [_ Q4]. specialize (Q4 c L4). cbn [Nat.add] in Q4.
    destruct (@weighted_acts F n const (row3 p t c) (nth c (nth t dd []) dop) W Q4) as [A1 A2]. { unfold row3. now rewrite map_length, seq_length. }
    destruct (Ah c Hcc) as [B1 B2].
    assert (LL : nth c (combine (nth t dd []) hs) (dop, dop) = (nth c (nth t dd []) dop, nth c hs dop)).
    { apply nth_combine; lia. }
    rewrite LL in Q3. cbn [fst snd] in Q3. rewrite R2 in Q3.
    apply is_matrix_wfm in A1. apply is_matrix_wfm in B1.
    assert (Q5 : op_add (nth c (nth t dd []) dop) (ODense (nth c hs dop)) = Ok (madd (S:=S) (nth c (nth t dd []) dop) (nth c hs dop))).
    { apply (@iadd_same F (n * n) (n * n)); auto. }
    rewrite Q5 in Q3. inversion Q3; subst D. split; [apply is_matrix_wfm; now apply wfm_madd|]. intros rho i j Hi Hj. rewrite app_madd by auto. rewrite A2, B2 by auto.
    unfold master_super. match goal with |- cadd ?x ?y = _ => transitivity (cadd y x); [cring|] end. f_equal. apply Sg_ext. intros k Hk. rewrite Hw. unfold row3. rewrite nth_map_seq by (rewrite Dp; exact Hk). reflexivity.
  - inversion H; subst dirs. destruct (idx_inv _ _ Ht) as [T1 T2]. specialize (T2 []). rewrite repeat_length in T1. rewrite nth_repeat_lt in T2 by auto. subst row.
    destruct (idx_inv _ _ Hr) as [R1 R2]. specialize (R2 dop). subst D. destruct (Ah c Hcc) as [B1 B2]. split; auto. intros rho i j Hi Hj. rewrite B2 by auto. unfold master_super.
    rewrite (@Sg_0 F (length const)). 2: { intros k Hk. rewrite Hw. unfold cofk, cmul, c0. cbn [fst snd]. apply (f_equal2 pair); ring. } cring.
Qed.

Lemma used_derives d (s0 s : @st F) (gen : nat -> op -> Prop) (dir : nat -> nat -> op -> Prop) ds : used rexp la eps d s0 s ->
  c_approx (s_conf s) = GNone -> returns rexp la eps s SDer (VDer ds) ->
  (forall g dirs t c G row D, pgens (bare (s_udiss s0) s) = Ok g -> pdirs (bare (s_udiss s0) s) = Ok dirs -> t < length (s_time s) -> c < length (c_ctrl (s_conf s)) ->
     idx g t = Ok G -> idx dirs t = Ok row -> idx row c = Ok D -> gen t G /\ dir t c D) ->
  derives la eps s gen dir ds.
Proof.
  intros HU Ha Hp K. pose proof (@used_value F rexp la eps d s0 s SDer _ HU eq_refl Hp) as V. cbn [rval] in V. unfold der_val in V. cbn [s_conf bare] in V. rewrite Ha in V.
  destruct V as (g & dirs & rows & A1 & A2 & A3 & ->).
  unfold derives. unfold columns at 1. rewrite map_length, seq_length. split; [reflexivity|]. intros c t Hcc Ht.
  unfold prows in A3. destruct (mapM_seq _ _ _ [] A3) as [L1 R1]. cbn [Nat.add] in R1. change (numt (bare (s_udiss s0) s)) with (length (s_time s)) in *. change (numc (bare (s_udiss s0) s)) with (length (c_ctrl (s_conf s))) in *.
  specialize (R1 t Ht). destruct (mapM_seq _ _ _ (dop, dop) R1) as [L2 R2]. specialize (R2 c Hcc). cbn [Nat.add] in R2. unfold dexp_at in R2.
  destruct (idx g t) as [G|] eqn:E1; [|discriminate]. cbn [bind] in R2. destruct (idx dirs t) as [dr|] eqn:E2; [|discriminate]. cbn [bind] in R2.
  destruct (idx dr c) as [D|] eqn:E3; [|discriminate]. cbn [bind] in R2. change (s_time (bare (s_udiss s0) s)) with (s_time s) in R2. destruct (idx (s_time s) t) as [tau|] eqn:E4; [|discriminate]. cbn [bind] in R2.
  eexists _, (fst (nth c (nth t rows []) (dop, dop))), (snd (nth c (nth t rows []) (dop, dop))), G, D, tau.
  split. { apply (@nth_columns _ _ _ _ c t); auto. rewrite map_length. lia. }
  split. { now rewrite !map_length. }
  split. { rewrite nth_error_map, nth_error_map, (nth_error_nth' rows []) by lia. cbn [option_map]. f_equal.
    rewrite (@nth_indep _ (map Some (nth t rows [])) c None (Some (dop, dop))) by (rewrite map_length; lia). rewrite map_nth. reflexivity. }
  split. { unfold idx in E4. destruct (nth_error (s_time s) t); congruence. }
  destruct (K g dirs t c G dr D A1 A2 Ht Hcc E1 E2 E3) as [K1 K2]. split; [exact K1|]. split; [exact K2|].
  etransitivity; [exact R2|]. f_equal. now destruct (nth c (nth t rows []) (dop, dop)).
Qed.

Lemma used_derives_super d (s0 s : @st F) n l Ds u w w' ds : used rexp la eps d s0 s -> c_class (s_conf s) = CLindblad l -> li_func l = None -> li_func_d l = None -> li_ops l = None -> s_udiss s0 = Some Ds ->
  Forall (is_matrix (S:=S) (n * n) (n * n) : op -> Prop) Ds ->
  Forall (is_hermitian (S:=S) n : op -> Prop) (s_drift s) -> Forall (is_hermitian (S:=S) n : op -> Prop) (c_ctrl (s_conf s)) -> amplitudes s u ->
  rates l u (s_tpars s) (length Ds) w -> slopes l u (s_tpars s) (length Ds) w' ->
  c_approx (s_conf s) = GNone -> returns rexp la eps s SDer (VDer ds) ->
  derives la eps s (fun t G => acts_as n G (master_super n (hamiltonian (nth t (s_drift s) dop) (c_ctrl (s_conf s)) (fun c => get2 k0 u t c)) Ds (w t)))
    (fun t c D => acts_as n D (master_super n (entries (nth c (c_ctrl (s_conf s)) dop)) Ds (w' t c))) ds.
Proof.
  intros HU Hcl Hf Hfd Ho HD WD Hd Hh [Hu Du] Hw Hw' Ha Hp. apply wfs_matrix in WD.
  assert (CD : const_diss l (s_udiss (bare (s_udiss s0) s)) = Ok (Some Ds)) by (unfold const_diss; rewrite Ho; cbn [s_udiss bare]; now rewrite HD).
  apply (@used_derives d s0 s _ _ ds HU Ha Hp). intros g dirs t c G row D A1 A2 Ht Hc E1 E2 E3. split.
  - destruct (@pgens_pdiss F l (bare (s_udiss s0) s) g Hcl A1) as [dd Q]. destruct (idx_inv _ _ E1) as [G1 G2]. specialize (G2 dop). rewrite <- G2.
    apply (@pgens_lind F n l (bare (s_udiss s0) s) u Ds dd g w); auto.
  - apply (@pdirs_lind n l (bare (s_udiss s0) s) u Ds dirs w') with (row := row); auto.
    eapply Forall_impl; [|exact Hh]. intros A [HA _]. now apply is_matrix_wfm.
Qed.
Lemma used_derives_ops d (s0 s : @st F) n l Ls u w w' ds : used rexp la eps d s0 s -> c_class (s_conf s) = CLindblad l -> li_func l = None -> li_func_d l = None -> li_ops l = Some Ls ->
  Forall (is_matrix (S:=S) n n : op -> Prop) Ls ->
  Forall (is_hermitian (S:=S) n : op -> Prop) (s_drift s) -> Forall (is_hermitian (S:=S) n : op -> Prop) (c_ctrl (s_conf s)) -> amplitudes s u ->
  rates l u (s_tpars s) (length Ls) w -> slopes l u (s_tpars s) (length Ls) w' ->
  c_approx (s_conf s) = GNone -> returns rexp la eps s SDer (VDer ds) ->
  derives la eps s (fun t G => acts_as n G (master n (hamiltonian (nth t (s_drift s) dop) (c_ctrl (s_conf s)) (fun c => get2 k0 u t c)) Ls (w t)))
    (fun t c D => acts_as n D (master n (entries (nth c (c_ctrl (s_conf s)) dop)) Ls (w' t c))) ds.
Proof.
  intros HU Hcl Hf Hfd Ho WL Hd Hh [Hu Du] Hw Hw' Ha Hp. apply wfs_matrix in WL.
  apply (@used_derives d s0 s _ _ ds HU Ha Hp). intros g dirs t c G row D A1 A2 Ht Hc E1 E2 E3.
  destruct (@pgens_pdiss F l (bare (s_udiss s0) s) g Hcl A1) as [dd Q].
  assert (R : exists const, const_diss l (s_udiss s0) = Ok (Some const)).
  { unfold pdiss, calc_diss in Q. rewrite Hf in Q. cbn [s_udiss bare] in Q. destruct (const_diss l (s_udiss s0)) as [[const|]|]; [eauto|discriminate|discriminate]. }
  destruct R as [const R]. destruct (@const_ops F n l (s_udiss s0) Ls const Ho WL R) as (Lc & Wc & Ac).
  assert (MM : forall h v rho i j, i < n -> j < n -> master_super n h const v rho i j = master n h Ls v rho i j).
  { intros h v rho i j Hi Hj. unfold master_super, master. f_equal. etransitivity; [apply (f_equal (fun m => Sg m _)); exact Lc|]. apply Sg_ext. intros k Hk. now rewrite Ac. }
  split.
  - destruct (idx_inv _ _ E1) as [G1 G2]. specialize (G2 dop). rewrite <- G2. eapply acts_as_ext; [apply MM|].
    apply (@pgens_lind F n l (bare (s_udiss s0) s) u const dd g w); auto; cbn [s_tpars bare]; now rewrite Lc.
  - eapply acts_as_ext; [apply MM|]. apply (@pdirs_lind n l (bare (s_udiss s0) s) u const dirs w') with (row := row); auto; cbn [s_tpars bare]; try now rewrite Lc.
    eapply Forall_impl; [|exact Hh]. intros A [HA _]. now apply is_matrix_wfm.
Qed.

(** ---- the dissipation given by a function of the amplitudes ---- *)
Lemma pgens_fun n (l : @liconf F) (b : @st F) u f Ds g : c_class (s_conf b) = CLindblad l -> li_func l = Some f -> s_amps b = Some u -> f u (s_tpars b) = Ok Ds ->
  wfs (n * n) Ds ->
  Forall (is_hermitian (S:=S) n : op -> Prop) (s_drift b) -> Forall (is_hermitian (S:=S) n : op -> Prop) (c_ctrl (s_conf b)) -> dim0 u = length (s_time b) -> pgens b = Ok g ->
  forall t, t < length (s_time b) -> t < length g ->
   acts_as n (nth t g dop) (fun rho i j => cadd (commutation n (hamiltonian (nth t (s_drift b) dop) (c_ctrl (s_conf b)) (fun c => get2 k0 u t c)) rho i j) (apply_super n (nth t Ds dop) rho i j)).
Proof.
  intros Hcl Hf Hu Hds W Hd Hh Du H t Ht Hg. unfold pgens in H. destruct (schr_dyn b) as [g' [e|]] eqn:Es; [discriminate|]. rewrite Hcl in H. unfold pdiss, calc_diss in H. rewrite Hf, Hu, Hds in H. cbn [bind snd] in H.
  assert (Wd : wfs n (s_drift b)) by (eapply Forall_impl; [|exact Hd]; intros A [HA _]; now apply is_matrix_wfm).
  assert (Wc : wfs n (c_ctrl (s_conf b))) by (eapply Forall_impl; [|exact Hh]; intros A [HA _]; now apply is_matrix_wfm).
  destruct (@schr_dyn_gen F n b u g' Wd Wc Hu Es) as (L & Wg & E). destruct g' as [|g0 g']; [discriminate|]. cbn [idx nth_error bind] in H.
  assert (W0 : wfm (S:=S) n n g0) by now inversion Wg. unfold op_identity_like in H. rewrite (wfm_nr W0), (wfm_nc W0), Nat.eqb_refl in H. cbn [bind] in H.
  set (gs := g0 :: g') in *. destruct (Nat.eqb_spec (length gs) (length Ds)) as [L2|]; cbn [bind] in H; [|discriminate].
  assert (L3 : length g = length gs) by (apply mapM_length in H; rewrite combine_length in H; lia).
  assert (Q : lind_gen (mid (S:=S) n) (nth t gs dop) (nth t Ds dop) = Ok (nth t g dop)).
  { pose proof (@mapM_nth _ _ _ _ _ (dop, dop) dop H t ltac:(rewrite combine_length; lia)) as K. rewrite combine_nth in K by auto. exact K. }
  assert (Ad : acts_as n (nth t Ds dop) (apply_super n (nth t Ds dop))). { split; [|auto]. apply is_matrix_wfm. apply wfs_nth; auto. lia. }
  assert (Gt : is_generator n (nth t (s_drift b) dop) (c_ctrl (s_conf b)) (fun c => get2 k0 u t c) (nth t gs dop)) by (apply E; lia). destruct Gt as [G1 G2]. apply is_matrix_wfm in G1.
  destruct (@lind_gen_acts F n (nth t gs dop) (nth t Ds dop) (hamiltonian (nth t (s_drift b) dop) (c_ctrl (s_conf b)) (fun c => get2 k0 u t c)) _ G1 Ad) as (G & EG & AG).
  - intros i j Hi Hj. apply G2; auto.
  - apply hamiltonian_herm; auto. rewrite Forall_forall in Hd. apply Hd, nth_In. lia.
  - assert (G = nth t g dop) by congruence. subst G. exact AG.
Qed.
Lemma used_lindblad_fun d (s0 s : @st F) n l f Ds u ps : used rexp la eps d s0 s -> c_class (s_conf s) = CLindblad l -> li_func l = Some f -> 
  Forall (is_hermitian (S:=S) n : op -> Prop) (s_drift s) -> Forall (is_hermitian (S:=S) n : op -> Prop) (c_ctrl (s_conf s)) -> amplitudes s u ->
  f u (s_tpars s) = Ok Ds -> Forall (is_matrix (S:=S) (n * n) (n * n) : op -> Prop) Ds ->
  returns rexp la eps s SPropag (VProp ps) ->
  propagates la s (fun t G => acts_as n G (fun rho i j => cadd (commutation n (hamiltonian (nth t (s_drift s) dop) (c_ctrl (s_conf s)) (fun c => get2 k0 u t c)) rho i j)
    (apply_super n (nth t Ds dop) rho i j))) ps.
Proof.
  intros HU Hcl Hf Hd Hh [Hu Du] HD WD Hp. destruct (@used_value F rexp la eps d s0 s SPropag _ HU eq_refl Hp) as (g & es & A1 & A2 & ->).
  apply wfs_matrix in WD. apply (@pexps_propagates F la (bare (s_udiss s0) s) g es _ A2). intros t Ht Hg.
  apply (@pgens_fun n l (bare (s_udiss s0) s) u f Ds g); auto.
Qed.
Lemma pdirs_fun n (l : @liconf F) (b : @st F) u f Ds dirs : c_class (s_conf b) = CLindblad l -> li_func_d l = Some f ->
  l_ddiss (s_l b) = None -> wfs n (c_ctrl (s_conf b)) -> s_amps b = Some u -> f u (s_tpars b) = Ok Ds ->
  Forall (fun row => wfs (n * n) row) Ds -> pdirs b = Ok dirs ->
  forall t row c D, idx dirs t = Ok row -> idx row c = Ok D -> c < length (c_ctrl (s_conf b)) ->
   acts_as n D (fun rho i j => cadd (commutation n (entries (nth c (c_ctrl (s_conf b)) dop)) rho i j) (apply_super n (nth c (nth t Ds []) dop) rho i j)).
Proof.
  intros Hcl Hf Hl Wc Hu HD WD H t row c D Ht Hr Hcc. unfold pdirs, directions in H. rewrite Hcl, Hl in H.
  destruct (@lind_dirs n (c_ctrl (s_conf b)) ltac:(intros X; rewrite X in Hcc; cbn in Hcc; lia) Wc) as (hs & Eh & Lh & Ah).
  rewrite Eh in H. unfold calc_diss_deriv in H. rewrite Hu, Hf, HD in H. cbn [bind snd] in H.
  destruct (idx_inv _ _ Ht) as [T1 T2]. destruct (idx_inv _ _ Hr) as [R1 R2]. assert (L1 : length dirs = length Ds) by now apply mapM_length in H.
  pose proof (@mapM_nth _ _ _ _ _ [] [] H t ltac:(lia)) as Q. rewrite T2 in Q.
  assert (L4 : c < length (nth t Ds [])). { apply mapM_length in Q. rewrite combine_length in Q. lia. }
  pose proof (@mapM_nth _ _ _ _ _ (dop, dop) dop Q c ltac:(rewrite combine_length; lia)) as Q3.
  rewrite nth_combine in Q3 by lia. cbn [fst snd] in Q3. rewrite R2 in Q3.
  assert (A1 : wfm (S:=S) (n * n) (n * n) (nth c (nth t Ds []) dop)). { apply wfs_nth; auto. rewrite Forall_forall in WD. apply WD, nth_In. lia. }
  destruct (Ah c Hcc) as [B1 B2]. apply is_matrix_wfm in B1.
  assert (Q5 : op_add (nth c (nth t Ds []) dop) (ODense (nth c hs dop)) = Ok (madd (S:=S) (nth c (nth t Ds []) dop) (nth c hs dop))).
  { apply (@iadd_same F (n * n) (n * n)); auto. }
  rewrite Q5 in Q3. inversion Q3; subst D. split; [apply is_matrix_wfm; now apply wfm_madd|]. intros rho i j Hi Hj. rewrite app_madd by auto. rewrite B2 by auto. cring.
Qed.
Lemma used_derives_fun d (s0 s : @st F) n l f f' Ds Ds' u ds : used rexp la eps d s0 s -> c_class (s_conf s) = CLindblad l -> li_func l = Some f -> li_func_d l = Some f' ->
  Forall (is_hermitian (S:=S) n : op -> Prop) (s_drift s) -> Forall (is_hermitian (S:=S) n : op -> Prop) (c_ctrl (s_conf s)) -> amplitudes s u ->
  f u (s_tpars s) = Ok Ds -> Forall (is_matrix (S:=S) (n * n) (n * n) : op -> Prop) Ds ->
  f' u (s_tpars s) = Ok Ds' -> Forall (Forall (is_matrix (S:=S) (n * n) (n * n) : op -> Prop)) Ds' ->
  c_approx (s_conf s) = GNone -> returns rexp la eps s SDer (VDer ds) ->
  derives la eps s (fun t G => acts_as n G (fun rho i j => cadd (commutation n (hamiltonian (nth t (s_drift s) dop) (c_ctrl (s_conf s)) (fun c => get2 k0 u t c)) rho i j)
      (apply_super n (nth t Ds dop) rho i j)))
    (fun t c D => acts_as n D (fun rho i j => cadd (commutation n (entries (nth c (c_ctrl (s_conf s)) dop)) rho i j) (apply_super n (nth c (nth t Ds' []) dop) rho i j))) ds.
Proof.
  intros HU Hcl Hf Hfd Hd Hh [Hu Du] HD WD HD' WD' Ha Hp. apply wfs_matrix in WD.
  apply (@used_derives d s0 s _ _ ds HU Ha Hp). intros g dirs t c G row D A1 A2 Ht Hc E1 E2 E3. split.
  - destruct (idx_inv _ _ E1) as [G1 G2]. specialize (G2 dop). rewrite <- G2. apply (@pgens_fun n l (bare (s_udiss s0) s) u f Ds g); auto.
  - apply (@pdirs_fun n l (bare (s_udiss s0) s) u f' Ds' dirs) with (row := row); auto.
    + eapply Forall_impl; [|exact Hh]. intros A [HA _]. now apply is_matrix_wfm.
    + eapply Forall_impl; [|exact WD']. intros r Hr. now apply wfs_matrix.
Qed.
End Dir.

(** ---- the directions are the derivatives of the generators ---- *)
Section Real.
Notation S := (CStar RField).
Notation op := (op RField).
Notation Sg := (sumn (S:=CStar RField)).
Notation dop := (Arr [] [] : op).
Add Field Cfield_plr : (c_field RField).

Lemma super_entry n (M : op) k m : k < n * n -> m < n * n ->
  M.[k, m] = apply_super n M (fun a b => if (Nat.eqb a (m mod n) && Nat.eqb b (m / n))%bool then c1 else c0) (k mod n) (k / n).
Proof.
  intros Hk Hm. assert (Hn : n <> 0) by lia. unfold apply_super.
  assert (Em : m / n < n /\ m mod n < n) by (split; [apply Nat.div_lt_upper_bound; lia|now apply Nat.mod_upper_bound]).
  symmetry. etransitivity; [apply (@sumn_single S n (m / n))|].
  - apply Em.
  - intros b Hb Nb. apply (@sumn_0 S). intros a Ha. destruct (Nat.eqb_spec b (m / n)); [congruence|]. rewrite andb_false_r. tocplx. cring.
  - etransitivity; [apply (@sumn_single S n (m mod n))|].
    + apply Em.
    + intros a Ha Na. destruct (Nat.eqb_spec a (m mod n)); [congruence|]. cbn [andb]. tocplx. cring.
    + rewrite !Nat.eqb_refl. cbn [andb]. tocplx. replace (k / n * n + k mod n) with k by (rewrite Nat.mul_comm; now apply Nat.div_mod). replace (m / n * n + m mod n) with m by (rewrite Nat.mul_comm; now apply Nat.div_mod). cring.
Qed.

Lemma cderiv_real (f : R -> R) l : derivable_pt_lim f 0 l -> cderiv (fun e => cofk (f e : RField)) 0 (cofk (l : RField)).
Proof. intros H. split; cbn; [exact H|apply derivable_pt_lim_const]. Qed.
Lemma commutation_deriv n (H : R -> nat -> nat -> RC) (H' : nat -> nat -> RC) rho i j : (forall a b, a < n -> b < n -> cderiv (fun e => H e a b) 0 (H' a b)) -> i < n -> j < n ->
  cderiv (fun e => commutation n (H e) rho i j) 0 (commutation n H' rho i j).
Proof.
  intros D Hi Hj. unfold commutation. apply cderiv_scale. apply cderiv_sub.
  - apply (@cderiv_sumn n (fun a e => cmul (H e i a) (rho a j))). intros a Ha. apply cderiv_scale_r. auto.
  - apply (@cderiv_sumn n (fun b e => cmul (rho i b) (H e b j))). intros a Ha. apply cderiv_scale. auto.
Qed.
Lemma hamiltonian_deriv (h : op) (hs : list op) u c a b : c < length hs ->
  cderiv (fun e => hamiltonian h hs (@shifted_amps RField u c e) a b) 0 (entries (nth c hs dop) a b).
Proof.
  intros Hc. unfold hamiltonian, entries.
  apply (@cderiv_eq _ 0 (cadd c0 (Sg (length hs) (fun k => if Nat.eqb k c then (nth k hs dop).[a, b] else c0)))).
  - transitivity (cadd c0 ((nth c hs dop).[a, b])); [|cring]. f_equal. etransitivity; [apply (@sumn_single S (length hs) c)|].
    + exact Hc.
    + intros k Hk Nk. destruct (Nat.eqb_spec k c); [congruence|reflexivity].
    + now rewrite Nat.eqb_refl.
  - apply cderiv_add; [apply cderiv_const|]. apply (@cderiv_sumn (length hs) (fun k e => cmul (cofk (@shifted_amps RField u c e k)) ((nth k hs dop).[a, b]))). intros k Hk.
    unfold shifted_amps. destruct (Nat.eqb k c).
    + apply (@cderiv_eq _ 0 (cmul (cofk (k1 (o:=RField))) ((nth k hs dop).[a, b]))); [apply (@cofk1_mul RField)|].
      apply cderiv_scale_r. apply cderiv_real. change (derivable_pt_lim (fun e => u k + e)%R 0 1%R). replace 1%R with (0 + 1)%R by ring.
      apply (derivable_pt_lim_plus (fun _ => u k) (fun e => e)); [apply derivable_pt_lim_const|apply derivable_pt_lim_id].
    + apply cderiv_const.
Qed.
Lemma generator_derivative n (h : op) (hs Ls : list op) (u : nat -> R) c (w : R -> nat -> R) (w' : nat -> R) (G : R -> op) (D : op) : c < length hs ->
  (forall k, k < length Ls -> derivable_pt_lim (fun e => w e k) 0 (w' k)) ->
  (forall e, acts_as n (G e) (master n (hamiltonian h hs (@shifted_amps RField u c e)) Ls (w e))) -> acts_as n D (master n (entries (nth c hs dop)) Ls w') ->
  forall i j, i < n * n -> j < n * n -> cderiv (fun e => (G e).[i, j]) 0 D.[i, j].
Proof.
  intros Hc Hw HG [_ HD] i j Hi Hj. assert (Hn : n <> 0) by lia.
  assert (Ei : i / n < n /\ i mod n < n) by (split; [apply Nat.div_lt_upper_bound; lia|now apply Nat.mod_upper_bound]). destruct Ei as [E1 E2].
  eapply cderiv_ext; [intros e; symmetry; exact (@super_entry n (G e) i j Hi Hj)|]. eapply cderiv_eq; [symmetry; etransitivity; [exact (@super_entry n D i j Hi Hj)|apply HD; auto]|].
  set (rho := fun a b : nat => if (Nat.eqb a (j mod n) && Nat.eqb b (j / n))%bool then c1 else c0).
  eapply cderiv_ext; [intros e; symmetry; exact (proj2 (HG e) rho _ _ E2 E1)|]. unfold master. apply cderiv_add.
  - apply commutation_deriv; auto. intros a b Ha Hb. now apply hamiltonian_deriv.
  - apply (@cderiv_sumn (length Ls) (fun k e => cmul (cofk (w e k : RField)) (dissipation n (nth k Ls dop) rho (i mod n) (i / n)))). intros k Hk. apply cderiv_scale_r. apply cderiv_real. auto.
Qed.
End Real.

(** The cost functions of super operators between 0 and 1 for channels. *)
Require Import List Arith Lia Ring Field Bool Reals Lra.
From Verif Require Import LibBase LibRing LibArr LibCplx LibMat LibNorm LibSum LibDeriv M_Matrix S_Linear S_Exp P_Linear P_Frechet
  M_Solver S_Solver M_Cost S_Cost P_Matrix P_Cost P_Cost2 P_CostGrad S_Lindblad S_Channel P_Lindblad P_Channel P_Channel2.
Import ListNotations.
Set Implicit Arguments.

Section Fid.
Add Field Cfield_cf : (c_field RField).
Notation S := RS.
Notation op := (mat RS).
Notation app := (apply_super (F:=RField)).

(** ---- v^+ M v <= |v|^2 tr M for positive M ---- *)
Definition q1 N (M : nat -> nat -> RC) (v : nat -> RC) : RC := Sg N (fun p => Sg N (fun r => cmul (cmul (cconj (v p)) (M p r)) (v r))).
Lemma q1_two N M a b p r : p < N -> r < N -> q1 N M (fun s => csub (cmul a (kd (S:=S) p s)) (cmul b (kd (S:=S) r s))) =
  csub (cmul (cconj a) (csub (cmul a (M p p)) (cmul b (M p r)))) (cmul (cconj b) (csub (cmul a (M r p)) (cmul b (M r r)))).
Proof.
  intros Hp Hr. unfold q1.
  pose (f := fun t => csub (cmul a (M t p)) (cmul b (M t r))).
  transitivity (Sg N (fun t => csub (cmul (kd (S:=S) p t) (cmul (cconj a) (f t))) (cmul (kd (S:=S) r t) (cmul (cconj b) (f t))))).
  - apply Sg_ext. intros t Ht.
    transitivity (cmul (csub (cmul (cconj a) (kd (S:=S) p t)) (cmul (cconj b) (kd (S:=S) r t))) (f t)); [|cring].
    transitivity (cmul (cconj (csub (cmul a (kd (S:=S) p t)) (cmul b (kd (S:=S) r t)))) (Sg N (fun s => csub (cmul (kd (S:=S) p s) (cmul a (M t s))) (cmul (kd (S:=S) r s) (cmul b (M t s)))))).
    + rewrite csumn_mul_l. apply Sg_ext. intros s Hs. cring.
    + f_equal.
      * assert (E : forall x y : RC, cconj (csub x y) = csub (cconj x) (cconj y)) by (intros [x1 x2] [y1 y2]; unfold csub, cconj, cre, cim; cbn; apply (f_equal2 pair); rring).
        rewrite E, !cconj_mul. assert (Ek : forall i j, cconj (kd (S:=S) i j) = kd (S:=S) i j) by (intros; apply (@kd_conj S)). now rewrite !Ek.
      * rewrite <- csumn_sub. rewrite (@Sg_kd_l RField N p (fun s => cmul a (M t s)) Hp), (@Sg_kd_l RField N r (fun s => cmul b (M t s)) Hr). reflexivity.
  - rewrite <- csumn_sub. rewrite (@Sg_kd_l RField N p (fun t => cmul (cconj a) (f t)) Hp), (@Sg_kd_l RField N r (fun t => cmul (cconj b) (f t)) Hr). reflexivity.
Qed.
Definition n2 N (v : nat -> RC) : RC := Sg N (fun p => cmul (v p) (cconj (v p))).
Definition tr1 N (M : nat -> nat -> RC) : RC := Sg N (fun p => M p p).
Lemma gap_sum N M v : Sg N (fun p => Sg N (fun r => q1 N M (fun s => csub (cmul (cconj (v r)) (kd (S:=S) p s)) (cmul (cconj (v p)) (kd (S:=S) r s))))) =
  csub (cadd (cmul (n2 N v) (tr1 N M)) (cmul (n2 N v) (tr1 N M))) (cadd (q1 N M v) (q1 N M v)).
Proof.
  transitivity (Sg N (fun p => Sg N (fun r => csub (cadd (cmul (cmul (v r) (cconj (v r))) (M p p)) (cmul (cmul (v p) (cconj (v p))) (M r r)))
      (cadd (cmul (cmul (cconj (v p)) (M p r)) (v r)) (cmul (cmul (cconj (v r)) (M r p)) (v p)))))).
  - apply Sg_ext. intros p Hp. apply Sg_ext. intros r Hr. rewrite q1_two by auto. rewrite !cconj_cconj. cring.
  - assert (E1 : Sg N (fun p => Sg N (fun r => cmul (cmul (v r) (cconj (v r))) (M p p))) = cmul (n2 N v) (tr1 N M)).
    { unfold tr1. rewrite csumn_mul_l. apply Sg_ext. intros p Hp. unfold n2. now rewrite csumn_mul_r. }
    assert (E2 : Sg N (fun p => Sg N (fun r => cmul (cmul (v p) (cconj (v p))) (M r r))) = cmul (n2 N v) (tr1 N M)).
    { unfold n2. rewrite csumn_mul_r. apply Sg_ext. intros p Hp. unfold tr1. now rewrite csumn_mul_l. }
    assert (E3 : Sg N (fun p => Sg N (fun r => cmul (cmul (cconj (v r)) (M r p)) (v p))) = q1 N M v) by (unfold q1; apply (@Sg_swap RField)).
    rewrite <- E1 at 1. rewrite <- E2. rewrite <- E3 at 2. unfold q1. rewrite !csumn_add, csumn_sub. apply Sg_ext. intros p Hp. rewrite !csumn_add, csumn_sub. reflexivity.
Qed.
Lemma sum_re_pos N (f : nat -> RC) : (forall i, i < N -> (0 <= cre (f i))%R) -> (0 <= cre (Sg N f))%R.
Proof. induction N; intros H; cbn [sumn]; [apply Rle_refl|]. assert (0 <= cre (Sg N f))%R by auto. specialize (H N ltac:(lia)). apply Rplus_le_le_0_compat; auto. Qed.
Lemma n2_real N v : cim (n2 N v) = 0%R.
Proof. unfold n2. induction N; cbn [sumn]; [reflexivity|]. change (cim (Sg N (fun p => cmul (v p) (cconj (v p)))) + cim (cmul (v N) (cconj (v N))) = 0)%R. rewrite IHN. destruct (v N) as [x y]. unfold cim, cmul, cconj. cbn. rring. Qed.
Lemma psd_bound N M v : (forall u, 0 <= cre (q1 N M u))%R -> (cre (q1 N M v) <= cre (n2 N v) * cre (tr1 N M))%R.
Proof.
  intros H. assert (G : (0 <= cre (Sg N (fun p => Sg N (fun r => q1 N M (fun s => csub (cmul (cconj (v r)) (kd (S:=S) p s)) (cmul (cconj (v p)) (kd (S:=S) r s)))))))%R).
  { apply sum_re_pos. intros p Hp. apply sum_re_pos. intros r Hr. apply H. }
  rewrite gap_sum in G. pose proof (n2_real N v) as R0. destruct (n2 N v) as [x y]. destruct (tr1 N M) as [a b]. destruct (q1 N M v) as [c d].
  unfold cre, cim, csub, cadd, cmul in *. cbn in *. subst y. change (kcar RField) with R in *. nra.
Qed.
(** the same for two systems *)
Lemma quad_flat n k v rho : 0 < k -> quad n k v rho = q1 (n * k) (fun p r => rho (p / k) (p mod k) (r / k) (r mod k)) (fun p => v (p / k) (p mod k)).
Proof.
  intros Hk. unfold quad, q1. rewrite (@sumn_mul_split S n k). apply Sg_ext. intros a Ha. apply Sg_ext. intros x Hx. rewrite (@sumn_mul_split S n k).
  apply Sg_ext. intros b Hb. apply Sg_ext. intros y Hy. rewrite !Nat.div_add_l, !(Nat.add_comm (_ * k)), !Nat.mod_add by lia. rewrite !Nat.div_small, !Nat.mod_small, !Nat.add_0_r by lia. reflexivity.
Qed.
Definition nrm2 n k (v : nat -> nat -> RC) : RC := Sg n (fun a => Sg k (fun x => cmul (v a x) (cconj (v a x)))).
Definition tr2 n k (rho : nat -> nat -> nat -> nat -> RC) : RC := Sg n (fun a => Sg k (fun x => rho a x a x)).
Lemma quad_bound n k v rho : 0 < k -> positive n k rho -> (0 <= cre (quad n k v rho) <= cre (nrm2 n k v) * cre (tr2 n k rho))%R.
Proof.
  intros Hk P. split; [apply P|]. rewrite quad_flat by auto.
  assert (E1 : nrm2 n k v = n2 (n * k) (fun p => v (p / k) (p mod k))).
  { unfold nrm2, n2. rewrite (@sumn_mul_split S n k). apply Sg_ext. intros a Ha. apply Sg_ext. intros x Hx.
    rewrite !Nat.div_add_l, !(Nat.add_comm (_ * k)), !Nat.mod_add by lia. rewrite !Nat.div_small, !Nat.mod_small, !Nat.add_0_r by lia. reflexivity. }
  assert (E2 : tr2 n k rho = tr1 (n * k) (fun p r => rho (p / k) (p mod k) (r / k) (r mod k))).
  { unfold tr2, tr1. rewrite (@sumn_mul_split S n k). apply Sg_ext. intros a Ha. apply Sg_ext. intros x Hx.
    rewrite !Nat.div_add_l, !(Nat.add_comm (_ * k)), !Nat.mod_add by lia. rewrite !Nat.div_small, !Nat.mod_small, !Nat.add_0_r by lia. reflexivity. }
  rewrite E1, E2. apply psd_bound. intros u.
  assert (E : q1 (n * k) (fun p r => rho (p / k) (p mod k) (r / k) (r mod k)) u = quad n k (fun a x => u (a * k + x)) rho).
  { rewrite quad_flat by auto. unfold q1. assert (Q : forall p, p / k * k + p mod k = p) by (intros p; pose proof (Nat.div_mod p k); lia).
    apply Sg_ext. intros p Hp. apply Sg_ext. intros r Hr. now rewrite !Q. }
  rewrite E. apply P.
Qed.

(** ---- the entangled state of the levels with c = 1 ---- *)
Definition omega (c : nat -> RC) (a x b y : nat) : RC := cmul (cmul (c x) (c y)) (cmul (kd (S:=S) x a) (kd (S:=S) y b)).
Definition sel (c : nat -> RC) : Prop := forall x, cconj (c x) = c x /\ cmul (c x) (c x) = c x.
Lemma omega_positive n c : sel c -> positive n n (omega c).
Proof.
  intros Hc v. pose (z := Sg n (fun b => cmul (c b) (v b b))).
  assert (E : quad n n v (omega c) = cmul (cconj z) z).
  { unfold quad, omega. transitivity (Sg n (fun a => cmul (cmul (c a) (cconj (v a a))) z)).
    - apply Sg_ext. intros a Ha.
      transitivity (Sg n (fun x => cmul (kd (S:=S) a x) (cmul (cmul (c x) (cconj (v a x))) z))); [|apply (@Sg_kd_l RField n a (fun x => cmul (cmul (c x) (cconj (v a x))) z) Ha)].
      apply Sg_ext. intros x Hx. unfold z. rewrite !csumn_mul_l. apply Sg_ext. intros b Hb.
      transitivity (Sg n (fun y => cmul (kd (S:=S) b y) (cmul (cmul (cmul (kd (S:=S) a x) (cmul (c x) (cconj (v a x)))) (c y)) (v b y)))).
      + apply Sg_ext. intros y Hy. rewrite (@kd_sym S x a), (@kd_sym S y b). cring.
      + rewrite (@Sg_kd_l RField n b _ Hb). cring.
    - rewrite <- csumn_mul_r. f_equal. unfold z. rewrite csumn_conj. apply Sg_ext. intros a Ha. rewrite cconj_mul. now rewrite (proj1 (Hc a)). }
  rewrite E. destruct z as [x y]. unfold cmul, cconj, cre, cim. cbn. change (kcar RField) with R in *. split; [ring|]. nra.
Qed.
Lemma app_omega n (E : op) c x y i j : x < n -> y < n -> app n E (fun a b => omega c a x b y) i j = cmul (cmul (c x) (c y)) (mg E (j * n + i) (y * n + x)).
Proof.
  intros Hx Hy. unfold apply_super, omega.
  transitivity (Sg n (fun b => cmul (kd (S:=S) y b) (cmul (cmul (c x) (c y)) (mg E (j * n + i) (b * n + x))))).
  - apply Sg_ext. intros b Hb. transitivity (Sg n (fun a => cmul (kd (S:=S) x a) (cmul (kd (S:=S) y b) (cmul (cmul (c x) (c y)) (mg E (j * n + i) (b * n + a)))))).
    + apply Sg_ext. intros a Ha. cring.
    + apply (@Sg_kd_l RField n x (fun a => cmul (kd (S:=S) y b) (cmul (cmul (c x) (c y)) (mg E (j * n + i) (b * n + a)))) Hx).
  - apply (@Sg_kd_l RField n y (fun b => cmul (cmul (c x) (c y)) (mg E (j * n + i) (b * n + x))) Hy).
Qed.
Definition fidq n (E : op) (v : nat -> nat -> RC) : RC := Sg n (fun a => Sg n (fun x => Sg n (fun b => Sg n (fun y => cmul (cmul (cconj (v a x)) (mg E (b * n + a) (y * n + x))) (v b y))))).
Lemma fidq_quad n E c v : sel c -> (forall a x, a < n -> x < n -> cmul (c x) (v a x) = v a x) -> fidq n E v = quad n n v (extend n E (omega c)).
Proof.
  intros Hc Hv. unfold fidq, quad. apply Sg_ext. intros a Ha. apply Sg_ext. intros x Hx. apply Sg_ext. intros b Hb. apply Sg_ext. intros y Hy.
  unfold extend. rewrite (@app_omega n E c x y a b Hx Hy). rewrite <- (Hv a x) at 1 by auto. rewrite <- (Hv b y) at 1 by auto. rewrite cconj_mul, (proj1 (Hc x)). cring.
Qed.
Lemma tp_diag n (E : op) x : trace_preserving n E -> x < n -> Sg n (fun a => mg E (a * n + a) (x * n + x)) = c1.
Proof.
  intros T Hx. pose proof (T (fun a b => omega (fun _ => c1) a x b x)) as Q.
  transitivity (Sg n (fun i => app n E (fun a b => omega (fun _ => c1) a x b x) i i)).
  - apply Sg_ext. intros a Ha. rewrite (@app_omega n E (fun _ => c1) x x a a Hx Hx). cring.
  - rewrite Q. unfold omega. transitivity (Sg n (fun i => cmul (kd (S:=S) x i) (kd (S:=S) x i))); [apply Sg_ext; intros; cring|].
    rewrite (@Sg_kd_l RField n x (fun i => kd (S:=S) x i) Hx). apply (@kd_eq S).
Qed.
Lemma ext_trace n (E : op) c : sel c -> trace_preserving n E -> tr2 n n (extend n E (omega c)) = Sg n c.
Proof.
  intros Hc T. unfold tr2. rewrite (@Sg_swap RField). apply Sg_ext. intros x Hx.
  transitivity (cmul (c x) (Sg n (fun a => mg E (a * n + a) (x * n + x)))).
  - rewrite csumn_mul_l. apply Sg_ext. intros a Ha. unfold extend. rewrite (@app_omega n E c x x a a Hx Hx). now rewrite (proj2 (Hc x)).
  - rewrite (tp_diag T Hx). cring.
Qed.
Lemma fidq_bound n (E : op) c v : 0 < n -> sel c -> (forall a x, a < n -> x < n -> cmul (c x) (v a x) = v a x) -> channel n E ->
  (0 <= cre (fidq n E v) <= cre (nrm2 n n v) * cre (Sg n c))%R.
Proof.
  intros Hn Hc Hv (_ & CP & TP). rewrite (@fidq_quad n E c v Hc Hv), <- (ext_trace Hc TP). apply quad_bound; auto. apply CP. now apply omega_positive.
Qed.
(** ---- the trace of the fidelity ---- *)
Lemma super_overlap n (W E : op) : wfm (S:=RS) n n W -> Sg (n * n) (fun p => Sg (n * n) (fun r => cmul (mg (op_to_super (F:=RField) W) p r) (mg E r p))) = fidq n E (fun a x => cconj (mg W x a)).
Proof.
  intros HW. destruct (@super_is RField n W (proj2 (is_matrix_wfm n n W) HW)) as [_ HS].
  transitivity (Sg n (fun y => Sg n (fun x => Sg n (fun b => Sg n (fun a => cmul (cmul (mg W x a) (mg E (b * n + a) (y * n + x))) (cconj (mg W y b))))))).
  - rewrite (@sumn_mul_split S n n). apply Sg_ext. intros y Hy. apply Sg_ext. intros x Hx. rewrite (@sumn_mul_split S n n). apply Sg_ext. intros b Hb. apply Sg_ext. intros a Ha.
    rewrite HS by auto. cring.
  - unfold fidq.
    transitivity (Sg n (fun x => Sg n (fun y => Sg n (fun b => Sg n (fun a => cmul (cmul (mg W x a) (mg E (b * n + a) (y * n + x))) (cconj (mg W y b))))))); [apply (@Sg_swap RField)|].
    transitivity (Sg n (fun x => Sg n (fun a => Sg n (fun b => Sg n (fun y => cmul (cmul (cconj (cconj (mg W x a))) (mg E (b * n + a) (y * n + x))) (cconj (mg W y b))))))); [|apply (@Sg_swap RField)].
    apply Sg_ext. intros x Hx.
    transitivity (Sg n (fun y => Sg n (fun a => Sg n (fun b => cmul (cmul (mg W x a) (mg E (b * n + a) (y * n + x))) (cconj (mg W y b)))))); [apply Sg_ext; intros; apply (@Sg_swap RField)|].
    rewrite (@Sg_swap RField). apply Sg_ext. intros a Ha. rewrite (@Sg_swap RField). apply Sg_ext. intros b Hb. apply Sg_ext. intros y Hy. now rewrite cconj_cconj.
Qed.

Lemma sum_ones d : Sg d (fun _ => (c1 : RC)) = cofk (kofnat (F:=RField) d).
Proof. induction d; [reflexivity|]. cbn [sumn]. rewrite IHd. unfold cofk, c1, sadd. cbn. unfold cadd. cbn. apply (f_equal2 pair); rring. Qed.
Lemma unitary_norm d (V : op) : is_unitary (S:=RS) d V -> Sg d (fun i => Sg d (fun k => cmul (mg V i k) (cconj (mg V i k)))) = cofk (kofnat (F:=RField) d).
Proof.
  intros (_ & _ & H). rewrite <- sum_ones. apply Sg_ext. intros i Hi. specialize (H i i Hi Hi). unfold delta in H. rewrite Nat.eqb_refl in H. exact H.
Qed.
Lemma kofnat_INR d : kofnat (F:=RField) d = INR d.
Proof. induction d; [reflexivity|]. rewrite S_INR. cbn. cbn in IHd. now rewrite IHd. Qed.
Lemma frac_range d (z : R) : 0 < d -> (0 <= z <= kofnat (F:=RField) d * kofnat (F:=RField) d)%R -> (0 <= @kdiv RField (@kdiv RField z (kofnat d)) (kofnat d) <= 1)%R.
Proof.
  intros Hd. rewrite kofnat_INR, !kdiv_R. assert (P : (0 < INR d)%R) by now apply lt_0_INR. intros [A B]. assert (I : (0 < / INR d)%R) by now apply Rinv_0_lt_compat. split.
  - apply Rmult_le_pos; [apply Rmult_le_pos|]; lra.
  - replace 1%R with (INR d * INR d * / INR d * / INR d)%R by (field; lra). apply Rmult_le_compat_r; [lra|]. apply Rmult_le_compat_r; lra.
Qed.
Lemma sel1 : sel (fun _ => c1).
Proof. intros x. split; [unfold cconj, c1; cbn; apply (f_equal2 pair); rring|cring]. Qed.
Lemma super_range n V (E : op) : 0 < n -> is_unitary (S:=RS) n V -> channel n E ->
  exists f : R, entanglement_fidelity_super (F:=RField) V E None = Ok f /\ (0 <= f <= 1)%R.
Proof.
  intros Hn HV CE. pose proof (proj1 (is_matrix_wfm _ _ _) (proj1 CE)) as WE. pose proof (proj1 (is_matrix_wfm _ _ _) (proj1 HV)) as WV.
  eexists. split; [exact (@sup_val n E V (proj1 HV) WE)|]. unfold sup_fid. apply frac_range; auto. rewrite (op_dag_mdag WV).
  rewrite (@super_overlap n (mdag (S:=RS) V) E (wfm_mdag WV)).
  assert (B := @fidq_bound n E (fun _ => c1) (fun a x => cconj (mg (mdag (S:=RS) V) x a)) Hn sel1 (fun a x _ _ => ltac:(cring)) CE).
  assert (E1 : nrm2 n n (fun a x => cconj (mg (mdag (S:=RS) V) x a)) = cofk (kofnat (F:=RField) n)).
  { rewrite <- (unitary_norm HV). unfold nrm2. apply Sg_ext. intros a Ha. apply Sg_ext. intros x Hx. rewrite (@mg_mdag S n n) by auto. change (sconj (mg V a x)) with (cconj (mg V a x)). now rewrite cconj_cconj. }
  rewrite E1, sum_ones in B. exact B.
Qed.
Definition csel (cs : list nat) (x : nat) : RC := if inb x cs then c1 else c0.
Lemma sel_cs cs : sel (csel cs).
Proof. intros x. unfold csel. destruct (inb x cs); [apply (sel1 0)|]. split; [unfold cconj, c0; cbn; apply (f_equal2 pair); rring|cring]. Qed.
Lemma super_range_sub n V (E : op) cs : cs <> [] -> levels n cs -> is_unitary (S:=RS) (length cs) V -> channel n E ->
  exists f : R, entanglement_fidelity_super (F:=RField) V E (Some cs) = Ok f /\ (0 <= f <= 1)%R.
Proof.
  intros Hne Hcs HV CE. pose proof (proj1 (is_matrix_wfm _ _ _) (proj1 CE)) as WE. pose proof (proj1 (is_matrix_wfm _ _ _) (proj1 HV)) as WV. set (d := length cs) in *.
  assert (Hd : 0 < d) by (unfold d; destruct cs; cbn; [congruence|lia]).
  assert (Hn : 0 < n) by (destruct cs as [|c l]; [congruence|]; assert (c < n) by (apply Hcs; now left); lia).
  destruct (@embed_ok RField n (mdag (S:=RS) V) cs) as (B & EB & HB & B1 & B2); auto. { now apply wfm_mdag. }
  set (Pr := mk2 n n (fun i j => if Nat.eqb i j && inb i cs then c1 else c0) : op). assert (HP : wfm (S:=RS) n n Pr) by (apply wfm_mk2).
  set (W := mmul (S:=RS) Pr B). assert (HW : wfm (S:=RS) n n W) by (now apply (@wfm_mmul S n n n)).
  assert (EW : forall x a, x < n -> a < n -> mg W x a = if inb x cs then mg B x a else c0).
  { intros x a Hx Ha. unfold W. rewrite (@mg_mmul S n n n) by auto.
    transitivity (Sg n (fun k => cmul (kd (S:=S) x k) (if inb x cs then mg B k a else c0))); [|apply (@Sg_kd_l RField n x (fun k => if inb x cs then mg B k a else c0) Hx)].
    apply Sg_ext. intros k Hk. unfold Pr. rewrite mg_mk2 by auto. unfold kd. destruct (Nat.eqb x k); destruct (inb x cs); cbn [andb]; tocplx; cring. }
  assert (EV : entanglement_fidelity_super (F:=RField) V E (Some cs) = Ok (sup_fid d (n * n) (op_to_super (F:=RField) W) E)).
  { unfold entanglement_fidelity_super. rewrite (op_dag_mdag WV), (wfm_nr WE), isqrt_sq, EB. cbn [bind].
    rewrite (@projector_ok RField n cs Hcs). cbn [bind]. fold Pr. pose proof (super_wf HP) as W1. pose proof (super_wf HB) as W2. rewrite (mm_ok W1 W2). cbn [bind].
    rewrite (@super_mul RField n) by auto. fold W. pose proof (super_wf HW) as W3.
    rewrite (mm_ok W3 WE). cbn [bind]. rewrite (wfm_nr WV). unfold sup_fid, op_tr. rewrite (@mtrace_mmul RS (n*n) (n*n)) by auto. reflexivity. }
  eexists. split; [exact EV|]. unfold sup_fid. apply frac_range; auto. rewrite (@super_overlap n W E HW).
  assert (Q := @fidq_bound n E (csel cs) (fun a x => cconj (mg W x a)) Hn (sel_cs cs)).
  match type of Q with ?A -> _ => assert (A0 : A) end.
  { intros a x Ha Hx. rewrite EW by auto. unfold csel. destruct (inb x cs); [cring|]. unfold cconj, c0. cbn. unfold cmul. cbn. apply (f_equal2 pair); rring. }
  specialize (Q A0 CE).
  assert (E1 : nrm2 n n (fun a x => cconj (mg W x a)) = cofk (kofnat (F:=RField) d)).
  { rewrite <- (unitary_norm HV). unfold nrm2.
    transitivity (Sg n (fun a => if inb a cs then Sg n (fun x => if inb x cs then cmul (mg W x a) (cconj (mg W x a)) else c0) else c0)).
    - apply Sg_ext. intros a Ha. destruct (inb a cs) eqn:Ia.
      + apply Sg_ext. intros x Hx. rewrite EW by auto. destruct (inb x cs); [rewrite cconj_cconj; cring|]. unfold cconj, c0. cbn. unfold cmul. cbn. apply (f_equal2 pair); rring.
      + apply (@Sg_0 RField). intros x Hx. rewrite EW by auto. assert (Z : mg B x a = c0). { apply B2; auto. intros I. apply inb_In in I. congruence. }
        rewrite Z. destruct (inb x cs); unfold cconj, c0; cbn; unfold cmul; cbn; apply (f_equal2 pair); rring.
    - etransitivity; [exact (@sum_levels S n cs (fun a => Sg n (fun x => if inb x cs then cmul (mg W x a) (cconj (mg W x a)) else c0)) Hcs)|]. fold d. apply Sg_ext. intros i Hi.
      etransitivity; [exact (@sum_levels S n cs (fun x => cmul (mg W x (nth i cs 0)) (cconj (mg W x (nth i cs 0)))) Hcs)|]. fold d. apply Sg_ext. intros k Hk.
      assert (Li : nth i cs 0 < n) by (apply Hcs, nth_In; auto). assert (Lk : nth k cs 0 < n) by (apply Hcs, nth_In; auto).
      rewrite EW by auto. assert (Ik : inb (nth k cs 0) cs = true) by (apply inb_In, nth_In; auto). rewrite Ik. rewrite B1 by auto. rewrite (@mg_mdag S d d) by auto.
      change (sconj (mg V i k)) with (cconj (mg V i k)). rewrite cconj_cconj. cring. }
  assert (E2 : Sg n (csel cs) = cofk (kofnat (F:=RField) d)).
  { rewrite <- sum_ones. exact (@sum_levels S n cs (fun _ => c1) Hcs). }
  rewrite E1, E2 in Q. exact Q.
Qed.
(** ---- leakage ---- *)
Lemma diag_nonneg n (E : op) i x : channel n E -> i < n -> x < n -> (0 <= cre (mg E (i * n + i) (x * n + x)))%R.
Proof.
  intros CE Hi Hx. assert (Q := @fidq_bound n E (fun _ => c1) (fun a y => cmul (kd (S:=S) i a) (kd (S:=S) x y)) ltac:(lia) sel1 (fun a y _ _ => ltac:(cring)) CE).
  assert (EQ : fidq n E (fun a y => cmul (kd (S:=S) i a) (kd (S:=S) x y)) = mg E (i * n + i) (x * n + x)).
  { unfold fidq. assert (Ek : forall i j, cconj (kd (S:=S) i j) = kd (S:=S) i j) by (intros; apply (@kd_conj S)).
    transitivity (Sg n (fun a => cmul (kd (S:=S) i a) (Sg n (fun y => cmul (kd (S:=S) x y) (Sg n (fun b => cmul (kd (S:=S) i b) (Sg n (fun z => cmul (kd (S:=S) x z) (mg E (b * n + a) (z * n + y)))))))))).
    - apply Sg_ext. intros a Ha. rewrite csumn_mul_l. apply Sg_ext. intros y Hy. rewrite !csumn_mul_l. apply Sg_ext. intros b Hb. rewrite !csumn_mul_l. apply Sg_ext. intros z Hz. rewrite cconj_mul, !Ek. cring.
    - rewrite (@Sg_kd_l RField n i _ Hi), (@Sg_kd_l RField n x _ Hx), (@Sg_kd_l RField n i _ Hi), (@Sg_kd_l RField n x _ Hx). reflexivity. }
  rewrite EQ in Q. apply Q.
Qed.
Lemma liou_range n (E : op) cs : cs <> [] -> levels n cs -> channel n E -> (0 <= liou (F:=RField) n cs E <= 1)%R.
Proof.
  intros Hne Hcs CE. unfold liou. assert (Hd : 0 < length cs) by (destruct cs; cbn; [congruence|lia]). assert (P : (0 < INR (length cs))%R) by now apply lt_0_INR.
  set (f := fun b => Sg n (fun i => if inb i cs then c0 else mg E (i * n + i) (nth b cs 0 * n + nth b cs 0))).
  assert (R1 : forall b, b < length cs -> (0 <= cre (f b) <= 1)%R).
  { intros b Hb. assert (Lb : nth b cs 0 < n) by (apply Hcs, nth_In; auto). set (x := nth b cs 0) in *.
    assert (Eq : Sg n (fun a => mg E (a * n + a) (x * n + x)) = cadd (f b) (Sg n (fun i => if inb i cs then mg E (i * n + i) (x * n + x) else c0))).
    { unfold f. fold x. rewrite csumn_add. apply Sg_ext. intros i Hi. destruct (inb i cs); cring. }
    rewrite (tp_diag (proj2 (proj2 CE)) Lb) in Eq.
    assert (P1 : (0 <= cre (f b))%R) by (apply sum_re_pos; intros i Hi; destruct (inb i cs); [apply Rle_refl|now apply diag_nonneg]).
    assert (P2 : (0 <= cre (Sg n (fun i => if inb i cs then mg E (i * n + i) (x * n + x) else c0)))%R) by (apply sum_re_pos; intros i Hi; destruct (inb i cs); [now apply diag_nonneg|apply Rle_refl]).
    apply (f_equal cre) in Eq. change (1 = cre (f b) + cre (Sg n (fun i => if inb i cs then mg E (i * n + i) (x * n + x) else c0)))%R in Eq. lra. }
  assert (R2 : forall m, m <= length cs -> (0 <= cre (Sg m f) <= INR m)%R).
  { induction m; intros Hm; [cbn; lra|]. rewrite S_INR. change (0 <= cre (Sg m f) + cre (f m) <= INR m + 1)%R. destruct IHm as [A1 A2]; [lia|]. destruct (R1 m Hm). lra. }
  specialize (R2 (length cs) (le_n _)). change (0 <= @kdiv RField (cre (Sg (length cs) f)) (kofnat (length cs)) <= 1)%R. rewrite kofnat_INR, kdiv_R.
  assert (I : (0 < / INR (length cs))%R) by now apply Rinv_0_lt_compat. split; [apply Rmult_le_pos; lra|].
  replace 1%R with (INR (length cs) * / INR (length cs))%R by (field; lra). apply Rmult_le_compat_r; lra.
Qed.
(** ---- the cost functions ---- *)
Lemma infidelity_range n r V (E : op) : 0 < n -> is_last (r_fwd r) E -> channel n E -> is_unitary (S:=RS) n V -> forall la b,
  exists x : R, operation_infidelity (F:=RField) la r V true None b = Ok x /\ (0 <= x <= 1)%R.
Proof.
  intros Hn HL CE HV la b. unfold operation_infidelity. rewrite (idx_last_ok HL). cbn [bind]. destruct (super_range Hn HV CE) as (f & -> & R). eexists. split; [reflexivity|].
  change (0 <= 1 - f <= 1)%R. lra.
Qed.
Lemma infidelity_range_sub n r V (E : op) cs : cs <> [] -> levels n cs -> is_last (r_fwd r) E -> channel n E -> is_unitary (S:=RS) (length cs) V -> forall la b,
  exists x : R, operation_infidelity (F:=RField) la r V true (Some cs) b = Ok x /\ (0 <= x <= 1)%R.
Proof.
  intros Hne Hcs HL CE HV la b. unfold operation_infidelity. rewrite (idx_last_ok HL). cbn [bind]. destruct (super_range_sub Hne Hcs HV CE) as (f & -> & R). eexists. split; [reflexivity|].
  change (0 <= 1 - f <= 1)%R. lra.
Qed.
Lemma leakage_range n r (E : op) cs : cs <> [] -> levels n cs -> is_last (r_fwd r) E -> channel n E ->
  exists x : R, leakage_liouville (F:=RField) r n cs false false = Ok x /\ (0 <= x <= 1)%R.
Proof.
  intros Hne Hcs HL CE. exists (liou (F:=RField) n cs E). split; [|now apply liou_range]. apply liouville_val; auto; [apply is_matrix_wfm, CE|exact (idx_last_ok HL)].
Qed.
End Fid.

(** Proofs for C86: evolutions known in closed form. *)
Require Import List Arith Lia Bool Reals Lra.
From Verif Require Import LibBase LibRing LibArr LibCplx LibMat LibNorm LibDeriv LibSeries M_Matrix S_Linear S_Deriv S_Exp P_Linear P_Matrix P_Frechet P_Mexp P_Mexp2 M_OpHeap M_Transfer S_Transfer M_Amplitude S_Amplitude P_Amplitude M_Solver S_Solver P_Solver7 S_Lindblad S_Channel P_Lindblad P_Channel P_Channel2 S_Invariance P_Invariance P_Invariance2 P_Invariance3 S_OpenSym P_OpenSym P_OpenSym2 S_Closed.
Import ListNotations.
Local Open Scope res_scope.
Set Implicit Arguments.

Section Closed.
Add Field Cfield_cl : (c_field RField).
Notation op := (mat RS).
Notation st := (@st RField).
Notation mm := (mmul (S:=RS)).
Notation ma := (madd (S:=RS)).
Notation ms := (mscale (S:=RS)).
Notation Sg := (sumn (S:=RS)).
Notation app := (apply_super (F:=RField)).
Notation dop := (Arr [] [] : mat RS).
Hint Resolve wfm_mexp wfm_mpw : wfm.
Variable rexp : R -> R.
Variable la : LinAlg RField.
Variable eps : cplx RField.
Notation evolution := (evolution rexp la eps).
Notation evo := (open_evolution rexp la eps).

Local Ltac asR := repeat match goal with v : kcar RField |- _ => change (kcar RField) with R in v end; match goal with |- @eq _ ?a ?b => change (@eq R a b) end.
(** the exponential on an eigenvector *)
Lemma mexp_eigen N (X v : op) (W : wfm (S:=RS) N N X) (z : RC) tau : wfm (S:=RS) N 1 v -> mm X v = ms z v -> mm (mexp W tau) v = ms (cexpR (cmul (cofk (tau : RField)) z)) v.
Proof.
  intros Wv EV. set (Y := ma X (ms (copp z) (mid (S:=RS) N)) : op). assert (WY : wfm (S:=RS) N N Y) by (unfold Y; wf_solve).
  assert (E : X = ma Y (ms z (mid (S:=RS) N))).
  { unfold Y. apply (@mat_ext RS N N); [auto|wf_solve|]. intros i j Hi Hj. rewrite !(@mg_madd RS N N), !(@mg_mscale RS N N) by (auto; wf_solve). tocplx. cring. }
  rewrite (@mexp_shift N Y X WY W z tau E). assert (Z : mm Y v = mzero (S:=RS) N 1).
  { unfold Y. apply (@mat_ext RS N 1); [wf_solve|wf_solve|]. intros i j Hi Hj. rewrite (@mg_mzero RS) by auto.
    rewrite (@mg_mmul RS N N 1) by (auto; wf_solve).
    transitivity (cadd (mg (mm X v) i j) (cmul (copp z) (mg (mm (mid (S:=RS) N) v) i j))).
    - rewrite !(@mg_mmul RS N N 1) by (auto; wf_solve). rewrite csumn_mul_l, csumn_add. apply sumn_ext. intros l Hl. rewrite (@mg_madd RS N N), (@mg_mscale RS N N) by (auto; wf_solve). tocplx. cring.
    - rewrite (@mmul_1_l RS N 1) by auto. rewrite EV, (@mg_mscale RS N 1) by auto. tocplx. cring. }
  assert (W1 := wfm_mexp WY tau). transitivity (ms (cexpR (cmul (cofk (tau : RField)) z)) (mm (mexp WY tau) v)).
  - apply (@mat_ext RS N 1); [wf_solve|wf_solve|]. intros i j Hi Hj. rewrite (@mg_mscale RS N 1) by (auto; wf_solve). rewrite !(@mg_mmul RS N N 1) by (auto; wf_solve). tocplx. rewrite csumn_mul_l. apply sumn_ext. intros l Hl.
    rewrite (@mg_mscale RS N N) by auto. tocplx. cring.
  - now rewrite (@mexp_zero N 1 Y v WY tau Wv Z).
Qed.
Lemma mexp_eigen_fun N (X : op) (W : wfm (S:=RS) N N X) (v : nat -> RC) (z : RC) tau i : (forall i, i < N -> Sg N (fun j => cmul (mg X i j) (v j)) = cmul z (v i)) -> i < N ->
  Sg N (fun j => cmul (mg (mexp W tau) i j) (v j)) = cmul (cexpR (cmul (cofk (tau : RField)) z)) (v i).
Proof.
  intros H Hi. set (V := mk2 N 1 (fun i _ => v i) : op). assert (WV : wfm (S:=RS) N 1 V) by apply wfm_mk2. assert (W1 := wfm_mexp W tau).
  assert (E : mm X V = ms z V).
  { apply (@mat_ext RS N 1); [wf_solve|wf_solve|]. intros a b Ha Hb. rewrite (@mg_mmul RS N N 1), (@mg_mscale RS N 1) by auto. unfold V. rewrite mg_mk2 by auto. transitivity (cmul z (v a)); [|reflexivity]. rewrite <- (H a Ha). apply sumn_ext. intros l Hl. rewrite mg_mk2 by auto. reflexivity. }
  pose proof (@mexp_eigen N X V W z tau WV E) as EE. apply (f_equal (fun M : op => mg M i 0)) in EE. cbv beta in EE. rewrite (@mg_mmul RS N N 1), (@mg_mscale RS N 1) in EE by auto.
  unfold V in EE. rewrite mg_mk2 in EE by auto. transitivity ((Sg N (fun l => smul (s:=RS) (mg (mexp W tau) i l) (mg V l 0)))); [|exact EE]. apply sumn_ext. intros l Hl. unfold V. rewrite mg_mk2 by auto. reflexivity.
Qed.

(** products of exponentials on sums of common eigenvectors: the step matrices of either class of solvers *)
Lemma spectral_steps N k (fs : list op) (tm : list R) (gen : nat -> op -> Prop) m (c : nat -> RC) (v : nat -> nat -> RC) (z : nat -> nat -> RC) (f0 : op) x :
  length fs = Datatypes.S (length tm) -> nth_error fs 0 = Some f0 -> (forall t f, nth_error fs t = Some f -> wfm (S:=RS) N k f) ->
  (forall t, t < length tm -> exists tau G (W : wfm (S:=RS) N N G) f, nth_error tm t = Some tau /\ gen t G /\ nth_error fs t = Some f /\ nth_error fs (Datatypes.S t) = Some (mm (mexp W tau) f)) ->
  x < k -> (forall t G q i, t < length tm -> gen t G -> q < m -> i < N -> Sg N (fun j => cmul (mg G i j) (v q j)) = cmul (z q t) (v q i)) ->
  (forall i, i < N -> mg f0 i x = Sg m (fun q => cmul (c q) (v q i))) ->
  forall t f i, nth_error fs t = Some f -> i < N -> mg f i x = Sg m (fun q => cmul (c q) (cmul (cexpR (ctotal (fun r => cmul (cofk (nth r tm 0%R : RField)) (z q r)) t)) (v q i))).
Proof.
  intros Lf N0 WF ST Hx HE HI t. induction t as [|t IH]; intros f i Hf Hi.
  - rewrite N0 in Hf. injection Hf as <-. rewrite HI by auto. apply sumn_ext. intros q Hq. cbn [ctotal]. rewrite cexpR_0. cring.
  - assert (Ht : t < length tm) by (assert (Datatypes.S t < length fs) by (apply nth_error_Some; congruence); lia).
    destruct (ST t Ht) as (tau & G & W & g & A1 & A2 & A4 & A5). rewrite A5 in Hf. injection Hf as <-.
    assert (Wg := WF _ _ A4). assert (W1 := wfm_mexp W tau). rewrite (@mg_mmul RS N N k) by auto.
    transitivity (Sg N (fun l => Sg m (fun q => cmul (c q) (cmul (cexpR (ctotal (fun r => cmul (cofk (nth r tm 0%R : RField)) (z q r)) t)) (cmul (mg (mexp W tau) i l) (v q l)))))).
    { apply sumn_ext. intros l Hl. rewrite (IH g l A4 Hl). tocplx. rewrite csumn_mul_l. apply sumn_ext. intros q Hq. cring. }
    rewrite (@sumn_swap RS). apply sumn_ext. intros q Hq. rewrite <- csumn_mul_l. f_equal. rewrite <- csumn_mul_l.
    rewrite (@mexp_eigen_fun N G W (v q) (z q t) tau i) by (auto; intros; now apply HE). cbn [ctotal]. rewrite cexpR_add. rewrite (nth_error_nth _ _ 0%R A1). cring.
Qed.

(** ---- closed systems ---- *)
Lemma cexp_phase (s : st) (e : nat -> R) t : cexpR (ctotal (fun r => cmul (cofk (nth r (s_time s) 0%R : RField)) ((0, - e r)%R : RC)) t) = phase (total (fun r => e r * span s r)%R t).
Proof.
  induction t as [|t IH]; cbn [ctotal total]; [now rewrite cexpR_0, phase_0|]. rewrite cexpR_add, phase_add, IH, phase_exp. reflexivity.
Qed.
Lemma spectral (s : st) n k u ps fs m (c : nat -> RC) (v : nat -> nat -> RC) (e : nat -> nat -> R) x : evolution s n k u ps fs -> x < k ->
  (forall r q, r < length (s_time s) -> q < m -> eigenvector n (energy_op s u r) (v q) (e q r)) ->
  (forall i, i < n -> (c_init (s_conf s)).[i,x] = Sg m (fun q => cmul (c q) (v q i))) ->
  forall t f i, nth_error fs t = Some f -> i < n -> f.[i,x] = Sg m (fun q => cmul (c q) (cmul (phase (total (fun r => e q r * span s r)%R t)) (v q i))).
Proof.
  intros E Hx HE HI t f i Hf Hi. destruct (steps E) as (Lp & Lf & N0 & WF & ST).
  rewrite (@spectral_steps n k fs (s_time s) (fun t G => is_generator (F:=RField) n (Dr s t) (c_ctrl (s_conf s)) (fun c => get2 (k0 : RField) u t c) G) m c v (fun q r => ((0, - e q r)%R : RC)) (c_init (s_conf s)) x Lf N0 WF) with (t := t) (f := f); auto.
  - apply sumn_ext. intros q Hq. now rewrite cexp_phase.
  - intros r Hr. destruct (ST r Hr) as (tau & G & W & g & A1 & A2 & A3 & A4 & A5). exists tau, G, W, g. auto.
  - intros r G q a Hr [_ HG] Hq Ha. transitivity (cmul (copp ci) (Sg n (fun j => cmul (energy_op s u r a j) (v q j)))).
    + rewrite csumn_mul_l. apply sumn_ext. intros l Hl. assert (EG : mg G a l = cmul (copp ci) (energy_op s u r a l)) by exact (HG a l Ha Hl). rewrite EG. cring.
    + rewrite (HE r q Hr Hq a Ha). replace ((0, - e q r)%R : RC) with (cmul (copp ci) (cofk (e q r : RField))) by (unfold cmul, copp, ci, cofk; cbn; f_equal; ring). cring.
Qed.
(** half the sum of a vector and its image under an involution, and half the difference, are eigenvectors *)
Lemma rotation (s : st) n k u ps fs (C : nat -> nat -> RC) (a : nat -> R) x : evolution s n k u ps fs -> x < k -> involution n C ->
  (forall r i j, r < length (s_time s) -> i < n -> j < n -> energy_op s u r i j = cmul (cofk (a r : RField)) (C i j)) ->
  forall t f i, nth_error fs t = Some f -> i < n -> let theta := total (fun r => a r * span s r)%R t in
    f.[i,x] = cadd (cmul (cofk (cos theta : RField)) (c_init (s_conf s)).[i,x]) (cmul (cmul (copp ci) (cofk (sin theta : RField))) (Sg n (fun j => cmul (C i j) (c_init (s_conf s)).[j,x]))).
Proof.
  intros E Hx HC HH t f i Hf Hi theta. set (psi := fun i => (c_init (s_conf s)).[i,x]). set (sgn := fun q : nat => if Nat.eqb q 0 then 1%R else (Ropp 1)).
  set (v := fun q i => cadd (psi i) (cmul (cofk (sgn q : RField)) (Sg n (fun j => cmul (C i j) (psi j))))).
  assert (CC : forall i, i < n -> Sg n (fun j => cmul (C i j) (Sg n (fun l => cmul (C j l) (psi l)))) = psi i).
  { intros b Hb. transitivity (Sg n (fun l => cmul (Sg n (fun j => cmul (C b j) (C j l))) (psi l))).
    - transitivity (Sg n (fun j => Sg n (fun l => cmul (cmul (C b j) (C j l)) (psi l)))).
      + apply sumn_ext. intros j Hj. tocplx. rewrite csumn_mul_l. apply sumn_ext. intros l Hl. cring.
      + rewrite (@sumn_swap RS). apply sumn_ext. intros l Hl. tocplx. now rewrite csumn_mul_r.
    - transitivity (Sg n (fun l => cmul (delta (S:=RS) b l) (psi l))); [apply sumn_ext; intros l Hl; now rewrite (HC b l Hb Hl)|]. exact (@rho_delta n b (fun l => psi l) Hb). }
  assert (EV : forall r q, r < length (s_time s) -> q < 2 -> eigenvector n (energy_op s u r) (v q) (a r * sgn q)%R).
  { intros r q Hr Hq b Hb. assert (S2 : (sgn q * sgn q = 1)%R) by (unfold sgn; destruct (Nat.eqb q 0); lra).
    transitivity (cmul (cofk (a r : RField)) (cadd (Sg n (fun j => cmul (C b j) (psi j))) (cmul (cofk (sgn q : RField)) (Sg n (fun j => cmul (C b j) (Sg n (fun l => cmul (C j l) (psi l)))))))).
    - rewrite csumn_mul_l, csumn_add, csumn_mul_l. apply sumn_ext. intros j Hj. rewrite (HH r b j Hr Hb Hj). unfold v. cring.
    - rewrite (CC b Hb). unfold v. set (y := Sg n (fun j => cmul (C b j) (psi j))). generalize (psi b). intros p. destruct y as [y1 y2], p as [p1 p2]. unfold cmul, cadd, cofk. cbn. f_equal.
      + replace (a r * sgn q * (p1 + (sgn q * y1 - 0 * y2)))%R with (a r * (sgn q * p1 + (sgn q * sgn q) * y1))%R by ring. rewrite S2. ring.
      + replace (a r * sgn q * (p2 + (sgn q * y2 + 0 * y1)))%R with (a r * (sgn q * p2 + (sgn q * sgn q) * y2))%R by ring. rewrite S2. ring. }
  rewrite (@spectral s n k u ps fs 2 (fun _ => cofk (/2 : RField)%R) v (fun q r => (a r * sgn q)%R) x E Hx EV) with (t := t) (f := f); auto.
  - cbn [sumn]. assert (T : forall q, total (fun r => a r * sgn q * span s r)%R t = (sgn q * theta)%R).
    { intros q. unfold theta. clear. induction t as [|t IH]; cbn [total]; [ring|]. rewrite IH. ring. }
    rewrite !T. unfold v, sgn. cbn [Nat.eqb]. fold psi. rewrite Rmult_1_l. replace (Ropp 1 * theta)%R with (- theta)%R by ring. unfold phase. rewrite cos_neg, sin_neg.
    change (c_init (s_conf s)).[i,x] with (psi i). set (y := Sg n (fun j => cmul (C i j) (psi j))). change (Sg n (fun j => cmul (C i j) (c_init (s_conf s)).[j,x])) with y. generalize (psi i). intros p.
    tocplx. destruct y as [y1 y2], p as [p1 p2]. unfold cmul, cadd, cofk, copp, ci, c0. cbn. f_equal; asR; field.
  - intros b Hb. cbn [sumn]. unfold v, sgn. cbn [Nat.eqb]. change (c_init (s_conf s)).[b,x] with (psi b). generalize (psi b), (Sg n (fun j => cmul (C b j) (psi j))). intros p y.
    tocplx. destruct y as [y1 y2], p as [p1 p2]. unfold cmul, cadd, cofk, copp, c0. cbn. f_equal; asR; field.
Qed.

(** the flopping of a two level system *)
Lemma rabi (s : st) k u ps fs x (d : R) (g : RC) : evolution s 2 k u ps fs -> x < k -> (0 < d * d + size2 g)%R ->
  (forall r, r < length (s_time s) -> energy_op s u r 0 0 = cofk (d : RField) /\ energy_op s u r 0 1 = g /\ energy_op s u r 1 0 = cconj g /\ energy_op s u r 1 1 = copp (cofk (d : RField))) ->
  (c_init (s_conf s)).[0,x] = c1 -> (c_init (s_conf s)).[1,x] = c0 ->
  forall t f, nth_error fs t = Some f -> let w := sqrt (d * d + size2 g) in
    size2 f.[1,x] = (size2 g / (d * d + size2 g) * (sin (w * total (span s) t) * sin (w * total (span s) t)))%R.
Proof.
  intros E Hx HP HH I0 I1 t f Hf w. assert (Hw : (0 < w)%R) by now apply sqrt_lt_R0. assert (W2 : (w * w = d * d + size2 g)%R) by (apply sqrt_sqrt; lra).
  set (C := fun i j : nat => if Nat.eqb i 0 then (if Nat.eqb j 0 then cofk (d / w : RField)%R else cmul (cofk (/ w : RField)%R) g) else (if Nat.eqb j 0 then cmul (cofk (/ w : RField)%R) (cconj g) else copp (cofk (d / w : RField)%R))).
  assert (IC : involution 2 C).
  { assert (Q : (d / w * (d / w) + / w * / w * size2 g = 1)%R) by (replace (d / w * (d / w) + / w * / w * size2 g)%R with ((d * d + size2 g) / (w * w))%R by (field; lra); rewrite W2; field; lra).
    unfold size2 in Q. intros i j Hi Hj. destruct i as [|[|?]]; [| |lia]; (destruct j as [|[|?]]; [| |lia]); cbn [sumn]; unfold C, delta; cbn [Nat.eqb]; tocplx; destruct g as [g1 g2]; unfold cmul, cadd, copp, cconj, cofk, c0, c1; cbn in *; f_equal; asR; try (rewrite <- Q; ring); ring. }
  assert (HC : forall r i j, r < length (s_time s) -> i < 2 -> j < 2 -> energy_op s u r i j = cmul (cofk (w : RField)) (C i j)).
  { intros r i j Hr Hi Hj. destruct (HH r Hr) as (H1 & H2 & H3 & H4). destruct i as [|[|?]]; [| |lia]; (destruct j as [|[|?]]; [| |lia]); [rewrite H1|rewrite H2|rewrite H3|rewrite H4]; unfold C; cbn [Nat.eqb]; destruct g as [g1 g2]; unfold cmul, cadd, copp, cconj, cofk, c0, c1; cbn; f_equal; asR; field; lra. }
  pose proof (@rotation s 2 k u ps fs C (fun _ => w) x E Hx IC HC t f 1 Hf ltac:(lia)) as HR. cbv zeta in HR. rewrite I1 in HR. cbn [sumn] in HR. rewrite I0, I1 in HR. rewrite HR.
  assert (T : total (fun r => w * span s r)%R t = (w * total (span s) t)%R) by (clear; induction t as [|t IH]; cbn [total]; [ring|rewrite IH; ring]). rewrite T. set (q := sin (w * total (span s) t)). set (q' := cos (w * total (span s) t)).
  rewrite <- W2. unfold C, size2. cbn [Nat.eqb]. tocplx. destruct g as [g1 g2]. unfold cmul, cadd, copp, cconj, cofk, ci, c0, c1. cbn. asR. field. lra.
Qed.

(** ---- open systems ---- *)
Lemma open_spectral (s : st) n k Ls u w ps fs m (c : nat -> RC) (M : nat -> nat -> nat -> RC) (z : nat -> nat -> RC) x : evo s n k Ls u w ps fs -> x < k ->
  (forall r q i j, r < length (s_time s) -> q < m -> i < n -> j < n -> motion n s Ls u w r (M q) i j = cmul (z q r) (M q i j)) ->
  (forall i j, i < n -> j < n -> column n (c_init (s_conf s)) x i j = Sg m (fun q => cmul (c q) (M q i j))) ->
  forall t f i j, nth_error fs t = Some f -> i < n -> j < n ->
    column n f x i j = Sg m (fun q => cmul (c q) (cmul (cexpR (ctotal (fun r => cmul (cofk (span s r : RField)) (z q r)) t)) (M q i j))).
Proof.
  intros E Hx HE HI t f i j Hf Hi Hj. destruct (osteps E) as (Lp & Lf & N0 & WF & ST). set (v := fun q p => M q (p mod n) (p / n)).
  assert (V : forall q a b, a < n -> v q (b * n + a) = M q a b).
  { intros q a b Ha. unfold v. f_equal; [rewrite Nat.add_comm, Nat.mod_add by lia; now apply Nat.mod_small|rewrite Nat.div_add_l by lia; rewrite Nat.div_small by lia; lia]. }
  cbv beta. rewrite (@spectral_steps (n * n) k fs (s_time s) (fun t G => acts_as (F:=RField) n G (motion n s Ls u w t)) m c v z (c_init (s_conf s)) x Lf N0 WF) with (t := t) (f := f); auto; [|idtac..|now apply join_lt].
  - apply sumn_ext. intros q Hq. now rewrite V.
  - intros r Hr. destruct (ST r Hr) as (tau & G & W & g & A1 & A2 & A3 & A4 & A5). exists tau, G, W, g. auto.
  - intros r G q p Hr [_ HG] Hq Hp. destruct (@split_index n p Hp) as (b & a & Hb & Ha & ->). rewrite V by auto. rewrite <- (HE r q a b Hr Hq Ha Hb). rewrite <- HG by auto. rewrite (@sumn_mul_split RS n n).
    unfold apply_super. apply sumn_ext. intros b' Hb'. apply sumn_ext. intros a' Ha'. now rewrite V.
  - intros p Hp. destruct (@split_index n p Hp) as (b & a & Hb & Ha & ->). rewrite (HI a b Ha Hb). apply sumn_ext. intros q Hq. now rewrite V.
Qed.
(** diagonal operators *)
Lemma sum_one n i (f : nat -> RC) : i < n -> (forall a, a < n -> a <> i -> f a = c0) -> Sg n f = f i.
Proof.
  intros Hi H. transitivity (Sg n (fun a => cmul (delta (S:=RS) i a) (f a))); [|now apply rho_delta]. apply sumn_ext. intros a Ha. unfold delta. destruct (Nat.eqb i a) eqn:Q; tocplx; [cring|]. apply Nat.eqb_neq in Q. rewrite H by auto. cring.
Qed.
Lemma diagonal_dissipation n (L : op) rho i j : i < n -> j < n -> is_diagonal n L ->
  dissipation (F:=RField) n L rho i j = cmul (csub (cmul L.[i,i] (cconj L.[j,j])) (cmul (cofk (kdiv k1 (kofnat 2) : RField)) (cadd (cmul (cconj L.[i,i]) L.[i,i]) (cmul (cconj L.[j,j]) L.[j,j])))) (rho i j).
Proof.
  intros Hi Hj HL. assert (NO : forall a b, a < n -> b < n -> number_op (F:=RField) n L a b = if Nat.eqb a b then cmul (cconj L.[a,a]) L.[a,a] else c0).
  { intros a b Ha Hb. unfold number_op. rewrite (@sum_one n b).
    - destruct (Nat.eqb a b) eqn:Q; [apply Nat.eqb_eq in Q; now subst|]. apply Nat.eqb_neq in Q. rewrite (HL b a) by auto. unfold cconj, cmul, c0. destruct L.[b,b]. cbn. f_equal; asR; ring.
    - auto.
    - intros l Hl N. rewrite (HL l b) by auto. cring. }
  unfold dissipation. rewrite (@sum_one n j); auto.
  - rewrite (@sum_one n i); auto.
    + rewrite (@sum_one n i); auto.
      * rewrite (@sum_one n j); auto.
        -- rewrite !NO by auto. rewrite !Nat.eqb_refl. cring.
        -- intros b Hb N. rewrite NO by auto. destruct (Nat.eqb b j) eqn:Q; [apply Nat.eqb_eq in Q; lia|cring].
      * intros a Ha N. rewrite NO by auto. destruct (Nat.eqb i a) eqn:Q; [apply Nat.eqb_eq in Q; lia|cring].
    + intros a Ha N. rewrite (HL i a) by auto. cring.
  - intros b Hb N. rewrite (@sum_one n i); auto.
    + rewrite (HL j b) by auto. replace (cconj c0) with (c0 : RC) by (unfold cconj, c0; cbn; f_equal; asR; ring). cring.
    + intros a Ha N'. rewrite (HL i a) by auto. cring.
Qed.
Lemma diagonal_motion n (h : nat -> nat -> RC) Ls (w : nat -> R) rho i j : i < n -> j < n -> (forall a b, a < n -> b < n -> a <> b -> h a b = c0) -> (forall q, q < length Ls -> is_diagonal n (Lk Ls q)) ->
  master (F:=RField) n h Ls w rho i j = cmul (dephasing h Ls w i j) (rho i j).
Proof.
  intros Hi Hj HH HL. unfold master, dephasing.
  assert (E1 : commutation (F:=RField) n h rho i j = cmul (cmul (copp ci) (csub (h i i) (h j j))) (rho i j)).
  { unfold commutation. rewrite (@sum_one n i) by (auto; intros a Ha N; rewrite HH by auto; cring). rewrite (@sum_one n j) by (auto; intros a Ha N; rewrite HH by auto; cring). cring. }
  rewrite E1. match goal with |- _ = cmul (cadd ?a ?b) ?r => transitivity (cadd (cmul a r) (cmul b r)); [|cring] end. f_equal. rewrite csumn_mul_r. apply sumn_ext. intros q Hq.
  cbv beta zeta. eapply eq_trans; [apply f_equal; exact (@diagonal_dissipation n _ rho i j Hi Hj (HL q Hq))|]. assert (A : forall a b c : RC, cmul a (cmul b c) = cmul (cmul a b) c) by (intros; cring). apply A.
Qed.
Lemma diagonal_open (s : st) n k Ls u w ps fs x : evo s n k Ls u w ps fs -> x < k ->
  (forall r i j, r < length (s_time s) -> i < n -> j < n -> i <> j -> energy_op s u r i j = c0) -> (forall q, q < length Ls -> is_diagonal n (Lk Ls q)) ->
  forall t f i j, nth_error fs t = Some f -> i < n -> j < n ->
    column n f x i j = cmul (cexpR (ctotal (fun r => cmul (cofk (span s r : RField)) (dephasing (energy_op s u r) Ls (w r) i j)) t)) (column n (c_init (s_conf s)) x i j).
Proof.
  intros E Hx HH HL t f i j Hf Hi Hj.
  eapply eq_trans; [refine (@open_spectral s n k Ls u w ps fs (n * n) (fun q => mg (c_init (s_conf s)) q x) (fun q a b => kd (S:=RS) q (b * n + a)) (fun q r => dephasing (energy_op s u r) Ls (w r) (q mod n) (q / n)) x E Hx _ _ t f i j Hf Hi Hj)|].
  - intros r q a b Hr Hq Ha Hb. unfold motion. rewrite diagonal_motion; auto; [|intros a' b' Ha' Hb' N; exact (HH r a' b' Hr Ha' Hb' N)].
    fold (energy_op s u r). destruct (Nat.eq_dec q (b * n + a)) as [->|N].
    + rewrite Nat.add_comm, Nat.mod_add, Nat.mod_small, Nat.div_add, Nat.div_small by lia. reflexivity.
    + rewrite kd_neq by auto. tocplx. cring.
  - intros a b Ha Hb. cbv beta. symmetry. exact (@sumn_kd_r RS (n * n) (b * n + a) (fun q => mg (c_init (s_conf s)) q x) (join_lt Hb Ha)).
  - rewrite (@sum_one (n * n) (j * n + i)).
    + assert (M1 : (j * n + i) mod n = i) by (rewrite Nat.add_comm, Nat.mod_add by lia; now apply Nat.mod_small). assert (M2 : (j * n + i) / n = j) by (rewrite Nat.div_add_l by lia; rewrite Nat.div_small by lia; lia).
      rewrite M1, M2, kd_eq. tocplx. cring.
    + now apply join_lt.
    + intros a Ha N. rewrite kd_neq by auto. tocplx. cring.
Qed.
End Closed.

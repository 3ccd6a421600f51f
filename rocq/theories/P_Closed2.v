(** Proofs for C86, part 2: how fast coherences decay, and the relaxation of a two level system. *)
Require Import List Arith Lia Bool Reals Lra.
From Verif Require Import LibBase LibRing LibArr LibCplx LibMat LibNorm LibDeriv LibSeries M_Matrix S_Linear S_Deriv S_Exp P_Linear P_Matrix P_Frechet P_Mexp P_Mexp2 M_OpHeap M_Transfer S_Transfer M_Amplitude S_Amplitude P_Amplitude M_Solver S_Solver P_Solver7 S_Lindblad S_Channel P_Lindblad P_Channel P_Channel2 S_Invariance P_Invariance P_Invariance2 P_Invariance3 S_OpenSym P_OpenSym P_OpenSym2 S_Closed P_Closed.
Import ListNotations.
Local Open Scope res_scope.
Set Implicit Arguments.

Section Closed.
Add Field Cfield_cl2 : (c_field RField).
Notation op := (mat RS).
Notation st := (@st RField).
Notation Sg := (sumn (S:=RS)).
Variable rexp : R -> R.
Variable la : LinAlg RField.
Variable eps : cplx RField.
Notation evo := (open_evolution rexp la eps).
Local Ltac asR := repeat match goal with v : kcar RField |- _ => change (kcar RField) with R in v end; match goal with |- @eq _ ?a ?b => change (@eq R a b) end.

Lemma size2_mul (y z : RC) : size2 (cmul y z) = (size2 y * size2 z)%R.
Proof. destruct y, z. unfold size2, cmul. cbn. asR. ring. Qed.
Lemma size2_exp (z : RC) : size2 (cexpR z) = exp (2 * cre z)%R.
Proof.
  destruct z as [a b]. unfold size2, cexpR. cbn. replace (2 * a)%R with (a + a)%R by ring. rewrite exp_plus. pose proof (sin2_cos2 b) as H. unfold Rsqr in H.
  transitivity (exp a * exp a * (sin b * sin b + cos b * cos b))%R; [asR; ring|]. rewrite H. asR. ring.
Qed.
Lemma cre_Sg n (f : nat -> RC) : cre (Sg n f) = total (fun q => cre (f q)) n.
Proof. induction n as [|n IH]; [reflexivity|]. cbn [sumn total]. rewrite <- IH. reflexivity. Qed.
Lemma cre_ctotal (f : nat -> RC) t : cre (ctotal f t) = total (fun q => cre (f q)) t.
Proof. induction t as [|n IH]; [reflexivity|]. cbn [ctotal total]. rewrite <- IH. reflexivity. Qed.
Lemma total_ext f g t : (forall r, r < t -> f r = g r) -> total f t = total g t.
Proof. induction t as [|t IH]; intros H; [reflexivity|]. cbn [total]. rewrite IH by (intros; apply H; lia). now rewrite (H t) by lia. Qed.
Lemma total_mul (a : R) f t : total (fun r => a * f r)%R t = (a * total f t)%R.
Proof. induction t as [|t IH]; cbn [total]; [ring|]. rewrite IH. ring. Qed.
Lemma half_R : (kdiv k1 (kofnat 2) : RField) = (/ 2)%R.
Proof. cbn. asR. field. Qed.
Lemma dephasing_re (h : nat -> nat -> RC) Ls (w : nat -> R) i j : cim (h i i) = 0%R -> cim (h j j) = 0%R ->
  cre (dephasing h Ls w i j) = (- / 2 * total (fun q => w q * size2 (csub (Lk Ls q).[i,i] (Lk Ls q).[j,j])) (length Ls))%R.
Proof.
  intros H1 H2. unfold dephasing. transitivity (cre (cmul (copp ci) (csub (h i i) (h j j))) + total (fun q => - / 2 * (w q * size2 (csub (Lk Ls q).[i,i] (Lk Ls q).[j,j])))%R (length Ls))%R.
  - cbn [cadd cre fst]. change (kadd (o:=RField)) with Rplus. f_equal. etransitivity; [apply cre_Sg|]. apply total_ext. intros q Hq. cbv zeta. rewrite half_R.
    generalize (Lk Ls q).[i,i] (Lk Ls q).[j,j]. intros y z. destruct y, z. unfold size2, cmul, csub, cadd, copp, cconj, cofk. cbn. asR. field.
  - rewrite total_mul. destruct (h i i) as [a b], (h j j) as [c d]. cbn in H1, H2. subst. cbn. ring.
Qed.
Lemma coherence (s : st) n k Ls u w ps fs x : evo s n k Ls u w ps fs -> x < k ->
  (forall r i j, r < length (s_time s) -> i < n -> j < n -> i <> j -> energy_op s u r i j = c0) -> (forall q, q < length Ls -> is_diagonal n (Lk Ls q)) -> (forall r i, r < length (s_time s) -> i < n -> cim (energy_op s u r i i) = 0%R) ->
  forall t f i j, nth_error fs t = Some f -> i < n -> j < n ->
    size2 (column n f x i j) = (exp (- total (fun r => span s r * total (fun q => w r q * size2 (csub (Lk Ls q).[i,i] (Lk Ls q).[j,j])) (length Ls)) t) * size2 (column n (c_init (s_conf s)) x i j))%R.
Proof.
  intros E Hx HH HL HR t f i j Hf Hi Hj. assert (Lf : length fs = Datatypes.S (length (s_time s))) by exact (proj1 (proj2 (osteps E))).
  assert (Ht : t <= length (s_time s)) by (assert (t < length fs) by (apply nth_error_Some; congruence); lia).
  eapply eq_trans; [apply f_equal; exact (diagonal_open E Hx HH HL t Hf Hi Hj)|]. rewrite size2_mul, size2_exp, cre_ctotal. do 2 f_equal. rewrite <- total_mul. replace (- total (fun r => span s r * total (fun q => w r q * size2 (csub (Lk Ls q).[i,i] (Lk Ls q).[j,j])) (length Ls)) t)%R with (- 1 * total (fun r => span s r * total (fun q => w r q * size2 (csub (Lk Ls q).[i,i] (Lk Ls q).[j,j])) (length Ls)) t)%R by ring.
  rewrite <- total_mul. apply total_ext. intros r Hr. assert (Hr' : r < length (s_time s)) by lia.
  transitivity (2 * (span s r * cre (dephasing (energy_op s u r) Ls (w r) i j)))%R.
  - generalize (dephasing (energy_op s u r) Ls (w r) i j). intros [a b]. unfold cmul, cofk. cbn. asR. ring.
  - rewrite dephasing_re by (apply HR; auto). field.
Qed.

(** ---- relaxation ---- *)
Lemma lower_motion (h : nat -> nat -> RC) (L : op) (w : nat -> R) (rho : nat -> nat -> RC) : h 0 1 = c0 -> h 1 0 = c0 -> lowers L ->
  master (F:=RField) 2 h [L] w rho 0 0 = cmul (cofk (w 0 : RField)) (rho 1 1) /\
  master (F:=RField) 2 h [L] w rho 1 1 = cmul (cofk (- w 0%nat : RField)%R) (rho 1 1) /\
  master (F:=RField) 2 h [L] w rho 0 1 = cmul (csub (cmul (copp ci) (csub (h 0 0) (h 1 1))) (cofk (w 0%nat / 2 : RField)%R)) (rho 0 1) /\
  master (F:=RField) 2 h [L] w rho 1 0 = cmul (csub (cmul (copp ci) (csub (h 1 1) (h 0 0))) (cofk (w 0%nat / 2 : RField)%R)) (rho 1 0).
Proof.
  intros H1 H2 (L1 & L2 & L3 & L4). unfold master, commutation, dissipation, number_op. cbn [length sumn nth]. rewrite H1, H2, L1, L2, L3, L4. rewrite half_R.
  assert (W1 : cofk (- w 0%nat : RField)%R = copp (cofk (w 0%nat : RField))) by (unfold cofk, copp; cbn; f_equal; asR; ring).
  assert (W2 : cofk (w 0%nat / 2 : RField)%R = cmul (cofk (w 0%nat : RField)) (cofk (/ 2 : RField)%R)) by (unfold cofk, cmul; cbn; f_equal; asR; field).
  assert (W3 : cadd (cofk (/ 2 : RField)%R) (cofk (/ 2 : RField)%R) = c1) by (unfold cofk, cadd, c1; cbn; f_equal; asR; field).
  assert (J0 : cconj c0 = (c0 : RC)) by (unfold cconj, c0; cbn; f_equal; asR; ring). assert (J1 : cconj c1 = (c1 : RC)) by (unfold cconj, c1; cbn; f_equal; asR; ring).
  rewrite W1, W2, J0, J1. clear W1 W2 J0 J1 L1 L2 L3 L4 H1 H2. revert W3. generalize (cofk (/ 2 : RField)%R) (cofk (w 0%nat : RField)) (rho 0 0) (rho 0 1) (rho 1 0) (rho 1 1) (h 0 0) (h 1 1). intros hf ww a b c d p q W3.
  tocplx. split; [cring|]. split; [|split; cring]. transitivity (cmul (copp (cmul ww (cadd hf hf))) d); [cring|]. rewrite W3. cring.
Qed.
Lemma cexp_real (f : nat -> R) (s : st) t : cexpR (ctotal (fun r => cmul (cofk (span s r : RField)) (cofk (f r : RField))) t) = cofk (exp (total (fun r => f r * span s r)%R t) : RField).
Proof.
  induction t as [|t IH]; cbn [ctotal total]; [rewrite cexpR_0, exp_0; reflexivity|]. rewrite cexpR_add, IH, exp_plus. unfold cexpR, cmul, cofk. cbn.
  replace (span s t * 0 + 0 * f t)%R with 0%R by ring. rewrite cos_0, sin_0. replace (span s t * f t - 0 * 0)%R with (f t * span s t)%R by ring. f_equal; asR; ring.
Qed.
Lemma cexp_zero (s : st) t : cexpR (ctotal (fun r => cmul (cofk (span s r : RField)) c0) t) = c1.
Proof. rewrite <- cexpR_0. f_equal. induction t as [|t IH]; cbn [ctotal]; [reflexivity|]. rewrite IH. cring. Qed.
Lemma cexp_mixed (s : st) (d g : nat -> R) t :
  cexpR (ctotal (fun r => cmul (cofk (span s r : RField)) (csub (cmul (copp ci) (cofk (d r : RField))) (cofk (g r / 2 : RField)%R))) t) =
  cmul (cofk (exp (- / 2 * total (fun r => g r * span s r) t) : RField)%R) (phase (total (fun r => d r * span s r)%R t)).
Proof.
  induction t as [|t IH]; cbn [ctotal total]; [rewrite cexpR_0, phase_0, Rmult_0_r, exp_0; unfold cmul, cofk, c1; cbn; f_equal; asR; ring|]. rewrite cexpR_add, IH, phase_add, Rmult_plus_distr_l, exp_plus.
  assert (Q : cexpR (cmul (cofk (span s t : RField)) (csub (cmul (copp ci) (cofk (d t : RField))) (cofk (g t / 2 : RField)%R))) = cmul (cofk (exp (- / 2 * (g t * span s t)) : RField)%R) (phase (d t * span s t))).
  { rewrite <- phase_exp. unfold cexpR, cmul, csub, cadd, copp, ci, cofk. cbn.
    replace (span s t * 0 - 0 * - d t)%R with 0%R by ring. rewrite exp_0. match goal with |- (exp ?a * cos ?b, _)%R = (exp ?c * (1 * cos ?e) - _, _)%R => replace a with c by field; replace b with e by field end. f_equal; asR; ring. }
  rewrite Q. generalize (exp (- / 2 * total (fun r => g r * span s r) t)%R) (exp (- / 2 * (g t * span s t))%R) (phase (total (fun r => d r * span s r)%R t)) (phase (d t * span s t)%R). intros a b [c1' c2'] [d1 d2]. unfold cmul, cofk. cbn. f_equal; asR; ring.
Qed.
(** the four modes: the ground state, excited minus ground, and the two coherences *)
Definition mode (q a b : nat) : RC :=
  match q with
  | 0 => if Nat.eqb a 0 && Nat.eqb b 0 then c1 else c0
  | 1 => if Nat.eqb a 1 && Nat.eqb b 1 then c1 else if Nat.eqb a 0 && Nat.eqb b 0 then copp c1 else c0
  | 2 => if Nat.eqb a 0 && Nat.eqb b 1 then c1 else c0
  | _ => if Nat.eqb a 1 && Nat.eqb b 0 then c1 else c0
  end.
Lemma relaxation (s : st) k L u w ps fs x (e0 e1 : nat -> R) : evo s 2 k [L] u w ps fs -> x < k -> lowers L ->
  (forall r, r < length (s_time s) -> energy_op s u r 0 0 = cofk (e0 r : RField) /\ energy_op s u r 1 1 = cofk (e1 r : RField) /\ energy_op s u r 0 1 = c0 /\ energy_op s u r 1 0 = c0) ->
  forall t f, nth_error fs t = Some f ->
    let rho := column 2 (c_init (s_conf s)) x in let g := total (fun r => w r 0%nat * span s r)%R t in let p := total (fun r => (e0 r - e1 r) * span s r)%R t in
    column 2 f x 1 1 = cmul (cofk (exp (- g) : RField)) (rho 1 1) /\ column 2 f x 0 0 = cadd (rho 0 0) (cmul (cofk (1 - exp (- g) : RField)%R) (rho 1 1)) /\
    column 2 f x 0 1 = cmul (cmul (cofk (exp (- / 2 * g) : RField)%R) (phase p)) (rho 0 1) /\ column 2 f x 1 0 = cmul (cmul (cofk (exp (- / 2 * g) : RField)%R) (phase (- p))) (rho 1 0).
Proof.
  intros E Hx HL HH t f Hf rho g p.
  set (cf := fun q : nat => match q with 0 => cadd (rho 0 0) (rho 1 1) | 1 => rho 1 1 | 2 => rho 0 1 | _ => rho 1 0 end).
  set (z := fun (q r : nat) => match q with 0 => (c0 : RC) | 1 => cofk (- w r 0%nat : RField)%R | 2 => csub (cmul (copp ci) (cofk (e0 r - e1 r : RField)%R)) (cofk (w r 0%nat / 2 : RField)%R) | _ => csub (cmul (copp ci) (cofk (e1 r - e0 r : RField)%R)) (cofk (w r 0%nat / 2 : RField)%R) end).
  assert (EV : forall r q i j, r < length (s_time s) -> q < 4 -> i < 2 -> j < 2 -> motion 2 s [L] u w r (mode q) i j = cmul (z q r) (mode q i j)).
  { intros r q i j Hr Hq Hi Hj. destruct (HH r Hr) as (H1 & H2 & H3 & H4). unfold motion. fold (energy_op s u r). destruct (@lower_motion (energy_op s u r) L (w r) (mode q) H3 H4 HL) as (M1 & M2 & M3 & M4). rewrite H1, H2 in M3, M4.
    destruct i as [|[|?]]; [| |lia]; (destruct j as [|[|?]]; [| |lia]); [rewrite M1|rewrite M3|rewrite M4|rewrite M2]; (destruct q as [|[|[|[|?]]]]; [| | | |lia]); unfold mode, z; cbn [Nat.eqb andb]; unfold cmul, cadd, csub, copp, cofk, ci, c0, c1; cbn; f_equal; asR; field. }
  assert (EI : forall i j, i < 2 -> j < 2 -> column 2 (c_init (s_conf s)) x i j = Sg 4 (fun q => cmul (cf q) (mode q i j))).
  { intros i j Hi Hj. transitivity (rho i j); [reflexivity|]. cbn [sumn]. unfold cf. generalize rho. intros rr. destruct i as [|[|?]]; [| |lia]; (destruct j as [|[|?]]; [| |lia]); unfold mode; cbn [Nat.eqb andb]; tocplx; cring. }
  assert (R : forall i j, i < 2 -> j < 2 -> column 2 f x i j = Sg 4 (fun q => cmul (cf q) (cmul (cexpR (ctotal (fun r => cmul (cofk (span s r : RField)) (z q r)) t)) (mode q i j)))).
  { intros i j Hi Hj. exact (@open_spectral rexp la eps s 2 k [L] u w ps fs 4 cf mode z x E Hx EV EI t f i j Hf Hi Hj). }
  assert (Z0 : cexpR (ctotal (fun r => cmul (cofk (span s r : RField)) (z 0 r)) t) = c1) by exact (cexp_zero s t).
  assert (Z1 : cexpR (ctotal (fun r => cmul (cofk (span s r : RField)) (z 1 r)) t) = cofk (exp (- g) : RField)).
  { unfold z. rewrite cexp_real. do 2 f_equal. unfold g. clear. induction t as [|t IH]; cbn [total]; [ring|rewrite IH; ring]. }
  assert (Z2 : cexpR (ctotal (fun r => cmul (cofk (span s r : RField)) (z 2 r)) t) = cmul (cofk (exp (- / 2 * g) : RField)%R) (phase p)) by exact (cexp_mixed s (fun r => e0 r - e1 r)%R (fun r => w r 0) t).
  assert (Z3 : cexpR (ctotal (fun r => cmul (cofk (span s r : RField)) (z 3 r)) t) = cmul (cofk (exp (- / 2 * g) : RField)%R) (phase (- p))).
  { etransitivity; [exact (cexp_mixed s (fun r => e1 r - e0 r)%R (fun r => w r 0) t)|]. do 2 f_equal. unfold p. clear. induction t as [|t IH]; cbn [total]; [ring|rewrite IH; ring]. }
  assert (R' : forall i j, i < 2 -> j < 2 -> column 2 f x i j = cadd (cadd (cadd (cmul (cf 0) (mode 0 i j)) (cmul (cf 1) (cmul (cofk (exp (- g) : RField)) (mode 1 i j)))) (cmul (cf 2) (cmul (cmul (cofk (exp (- / 2 * g) : RField)%R) (phase p)) (mode 2 i j)))) (cmul (cf 3) (cmul (cmul (cofk (exp (- / 2 * g) : RField)%R) (phase (- p))) (mode 3 i j)))).
  { intros i j Hi Hj. eapply eq_trans; [exact (R i j Hi Hj)|]. cbn [sumn]. rewrite Z0, Z1, Z2, Z3. tocplx. cring. }
  assert (X : cofk (1 - exp (- g) : RField)%R = csub c1 (cofk (exp (- g) : RField))) by (unfold cofk, csub, cadd, copp, c1; cbn; f_equal; asR; ring). rewrite X.
  split; [|split; [|split]]; (eapply eq_trans; [apply R'; lia|]); clear; unfold cf; generalize rho; intros rr; unfold mode; cbn [Nat.eqb andb]; cring.
Qed.
End Closed.

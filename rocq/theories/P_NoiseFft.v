(** Proofs about the spectrum of coloured noise (C63 to C65). *)
Require Import List Arith Bool Lia Field.
From Verif Require Import LibBase LibRing LibArr LibCplx LibNorm LibSum M_Noise S_Noise P_Noise P_NoiseStd.
Import ListNotations.
Open Scope k_scope.
Set Implicit Arguments.

Section Proofs.
Variable F : OField.
Variable sqrt : F -> F.
Variable root : nat -> cplx F.
Add Field Kfield_nf : (k_field F).
Add Field Cfield_nf : (c_field F).
Local Notation Sum n f := (sumn (S:=KStar F) n f).
Local Notation CSum n f := (sumn (S:=CStar F) n f).
Local Notation C := (cplx F).

Lemma cpow_power (z : C) n : cpow z n = power z n.
Proof. induction n; simpl; congruence. Qed.
Lemma power_add (z : C) m n : power z (m + n) = cmul (power z m) (power z n).
Proof. induction m; simpl; [ring|]. rewrite IHm. ring. Qed.
Lemma power_mul (z : C) m n : power z (m * n) = power (power z m) n.
Proof. induction n; simpl; [now rewrite Nat.mul_0_r|]. rewrite Nat.mul_succ_r, power_add, IHn. ring. Qed.
Lemma power_1 n : power (c1 : C) n = c1.
Proof. induction n; simpl; auto. rewrite IHn. ring. Qed.
Lemma power_cmul (y z : C) n : power (cmul y z) n = cmul (power y n) (power z n).
Proof. induction n; simpl; [ring|]. rewrite IHn. ring. Qed.
Lemma power_conj (z : C) n : cconj (power z n) = power (cconj z) n.
Proof. induction n; simpl. - unfold c1, cconj; simpl; f_equal; ring. - now rewrite cconj_mul, IHn. Qed.
Lemma cmul_integral (a b : C) : cmul a b = c0 -> a = c0 \/ b = c0.
Proof. intros H. destruct (ceq_dec a c0) as [E|E]; auto. right. transitivity (cdiv (cmul a b) a); [field; auto|]. rewrite H. field. auto. Qed.
Lemma geometric (z : C) n : cmul (csub z c1) (CSum n (fun k => power z k)) = csub (power z n) c1.
Proof. induction n; cbn [sumn]; simpl; [ring|]. simpl in IHn. replace (cmul (csub z c1) (cadd (CSum n (fun k => power z k)) (power z n))) with (cadd (cmul (csub z c1) (CSum n (fun k => power z k))) (cmul (csub z c1) (power z n))) by ring. rewrite IHn. ring. Qed.
Lemma geometric_0 (z : C) n : power z n = c1 -> z <> c1 -> CSum n (fun k => power z k) = c0.
Proof.
  intros E N. pose proof (geometric z n) as G. rewrite E in G. replace (csub c1 c1) with (c0 : C) in G by ring. apply cmul_integral in G. destruct G as [G|G]; auto. exfalso. apply N. now apply csub_eq0.
Qed.
Lemma csum_1 n : CSum n (fun _ => (c1 : C)) = cofk (kofnat n).
Proof. induction n; cbn [sumn kofnat]; auto. rewrite IHn. simpl. rewrite cofk_add. reflexivity. Qed.
Lemma kofnat_c_neq0 n : n <> 0%nat -> cofk (kofnat n) <> (c0 : C).
Proof. intros H E. apply (@kofnat_neq0 F n H). now inversion E. Qed.

Lemma cdiv_mul (a b p : C) : b <> c0 -> cmul (cdiv a b) p = cdiv (cmul a p) b.
Proof. intros H. field. auto. Qed.

Section Root.
Variable n : nat.
Variable w : C.
Hypothesis Hw : primitive n w.
Lemma w_norm : cmul w (cconj w) = c1.
Proof. destruct Hw as (E & _). rewrite cmul_conj_norm2, E. reflexivity. Qed.
Lemma w_n : power w n = c1.
Proof. apply Hw. Qed.
Lemma w_inv j : cmul (power w j) (power (cconj w) j) = c1.
Proof. rewrite <- power_cmul, w_norm. apply power_1. Qed.
Lemma w_inj_lt i j : (j < i < n)%nat -> power w i <> power w j.
Proof.
  intros H E. destruct Hw as (_ & _ & P). apply (P (i - j)%nat); [lia|]. replace i with (i - j + j)%nat in E by lia. rewrite power_add in E.
  transitivity (cmul (cmul (power w (i - j)) (power w j)) (power (cconj w) j)).
  - replace (cmul (cmul (power w (i - j)) (power w j)) (power (cconj w) j)) with (cmul (power w (i - j)) (cmul (power w j) (power (cconj w) j))) by ring. rewrite w_inv. ring.
  - rewrite E. apply w_inv.
Qed.
Lemma w_inj i j : (i < n)%nat -> (j < n)%nat -> power w i = power w j -> i = j.
Proof. intros Hi Hj E. destruct (Nat.lt_trichotomy i j) as [L|[L|L]]; auto; exfalso; [apply (@w_inj_lt j i)|apply (@w_inj_lt i j)]; auto. Qed.
Lemma orthogonal i j : (i < n)%nat -> (j < n)%nat -> CSum n (fun k => cmul (power w (i * k)) (power (cconj w) (j * k))) = if Nat.eqb i j then cofk (kofnat n) else c0.
Proof.
  intros Hi Hj. rewrite (sumn_ext (S:=CStar F) (n:=n) _ (fun k => power (cmul (power w i) (power (cconj w) j)) k)). 2:{ intros k Hk. now rewrite !power_mul, power_cmul. }
  destruct (Nat.eqb_spec i j) as [E|E].
  - subst j. rewrite w_inv. rewrite (sumn_ext (S:=CStar F) (n:=n) _ (fun _ => c1)) by (intros; apply power_1). apply csum_1.
  - apply geometric_0.
    + rewrite power_cmul. rewrite <- !power_mul, (Nat.mul_comm i), (Nat.mul_comm j), !power_mul, w_n, power_1. replace (power (cconj w) n) with (c1 : C); [rewrite power_1; ring|]. rewrite <- power_conj, w_n. unfold c1, cconj; simpl; f_equal; ring.
    + intros X. apply E. apply w_inj; auto. transitivity (cmul (cmul (power w i) (power (cconj w) j)) (power w j)); [|rewrite X; ring].
      replace (cmul (cmul (power w i) (power (cconj w) j)) (power w j)) with (cmul (power w i) (cmul (power w j) (power (cconj w) j))) by ring. rewrite w_inv. ring.
Qed.
(** the powers wrap around *)
Lemma w_neg j k : (j <= n)%nat -> power w ((n - j) * k) = power (cconj w) (j * k).
Proof.
  intros H. rewrite !power_mul. f_equal. assert (E : cmul (power w (n - j)) (power w j) = c1) by (rewrite <- power_add; replace (n - j + j)%nat with n by lia; apply w_n).
  transitivity (cmul (power w (n - j)) (cmul (power w j) (power (cconj w) j))); [rewrite w_inv; ring|].
  replace (cmul (power w (n - j)) (cmul (power w j) (power (cconj w) j))) with (cmul (cmul (power w (n - j)) (power w j)) (power (cconj w) j)) by ring. rewrite E. ring.
Qed.

(** a half spectrum extended to a full one *)
Definition full (y : nat -> C) (j : nat) : C := if Nat.leb j (n / 2) then y j else cconj (y (n - j)%nat).
Lemma cre_conj (z : C) : cre (cconj z) = cre z.
Proof. reflexivity. Qed.
Lemma fold_half (g : nat -> F) : n <> 0%nat -> (forall j, (0 < j < n)%nat -> g (n - j)%nat = g j) ->
  Sum n g = g 0%nat + Sum ((n - 1) / 2) (fun j => (1 + 1) * g (S j)) + (if Nat.even n then g (n / 2)%nat else 0).
Proof.
  intros Hn SY. set (h := ((n - 1) / 2)%nat). assert (E1 : n = (1 + h + (n - 1 - h))%nat). { unfold h. pose proof (Nat.div_le_upper_bound (n - 1) 2 (n - 1) ltac:(lia) ltac:(lia)). lia. }
  destruct (Nat.even n) eqn:EV.
  - assert (N2 : n = (2 * (n / 2))%nat). { apply Nat.even_spec in EV. destruct EV as [m Em]. rewrite Em at 2. rewrite (Nat.mul_comm 2 m), Nat.div_mul by lia. lia. }
    assert (Hh : h = (n / 2 - 1)%nat). { unfold h. rewrite N2 at 1. replace (2 * (n / 2) - 1)%nat with (1 + (n / 2 - 1) * 2)%nat by lia. rewrite Nat.div_add by lia. reflexivity. }
    assert (E : n = (1 + h + (1 + h))%nat) by lia. rewrite E at 1. rewrite !sumn_app. cbn [sumn].
    assert (R : Sum h (fun i => g (1 + h + (1 + i))%nat) = Sum h (fun i => g (S i))).
    { rewrite (sumn_rev (S:=KStar F) h (fun i => g (S i))). apply sumn_ext. intros i Hi. rewrite <- SY by lia. f_equal. lia. }
    rewrite R. replace (1 + h + 0)%nat with (n / 2)%nat by lia. rewrite <- (ksumn_mul_l F h (1 + 1) (fun j => g (Datatypes.S j))). simpl. ring.
  - assert (OD : Nat.odd n = true) by (now rewrite <- Nat.negb_even, EV). apply Nat.odd_spec in OD. destruct OD as [m Em].
    assert (Hh : h = m). { unfold h. rewrite Em. replace (2 * m + 1 - 1)%nat with (m * 2)%nat by lia. now rewrite Nat.div_mul by lia. }
    assert (E : n = (1 + h + h)%nat) by lia. rewrite E at 1. rewrite !sumn_app. cbn [sumn].
    assert (R : Sum h (fun i => g (1 + h + i)%nat) = Sum h (fun i => g (S i))).
    { rewrite (sumn_rev (S:=KStar F) h (fun i => g (S i))). apply sumn_ext. intros i Hi. rewrite <- SY by lia. f_equal. lia. }
    rewrite R. rewrite <- (ksumn_mul_l F h (1 + 1) (fun j => g (Datatypes.S j))). simpl. ring.
Qed.
Definition real_ends (y : nat -> C) : Prop := cim (y 0%nat) = 0 /\ (Nat.even n = true -> cim (y (n / 2)%nat) = 0).
Lemma full_sym y j : real_ends y -> (0 < j < n)%nat -> full y (n - j) = cconj (full y j).
Proof.
  intros [_ R] H. unfold full. assert (D := Nat.div_mod n 2 ltac:(lia)). assert (M := Nat.mod_upper_bound n 2 ltac:(lia)).
  destruct (Nat.leb_spec (n - j) (n / 2)) as [A|A], (Nat.leb_spec j (n / 2)) as [B|B].
  - assert (J : j = (n / 2)%nat) by lia. assert (EV : Nat.even n = true). { apply Nat.even_spec. exists (n / 2)%nat. lia. } specialize (R EV). replace (n - j)%nat with (n / 2)%nat by lia. subst j.
    destruct (y (n / 2)%nat) as [a b]. unfold cim in R. simpl in R. subst b. unfold cconj. simpl. f_equal. ring.
  - now rewrite cconj_cconj.
  - replace (n - (n - j))%nat with j by lia. reflexivity.
  - exfalso. lia.
Qed.
Lemma half_minus1 : Nat.even n = true -> n <> 0%nat -> power w (n / 2) = copp c1.
Proof.
  intros EV Hn. apply Nat.even_spec in EV. destruct EV as [m Em]. assert (E : (n / 2 = m)%nat) by (rewrite Em, Nat.mul_comm, Nat.div_mul; lia). rewrite E.
  assert (SQ : cmul (csub (power w m) c1) (cadd (power w m) c1) = c0). { replace (cmul (csub (power w m) c1) (cadd (power w m) c1)) with (csub (cmul (power w m) (power w m)) c1) by ring. rewrite <- power_add. replace (m + m)%nat with n by lia. rewrite w_n. ring. }
  apply cmul_integral in SQ. destruct SQ as [SQ|SQ].
  - exfalso. destruct Hw as (_ & _ & P). apply (P m); [lia|]. now apply csub_eq0.
  - transitivity (csub (cadd (power w m) c1) c1); [ring|]. rewrite SQ. ring.
Qed.
Lemma minus1_power k : cim (power (copp c1 : C) k) = 0.
Proof.
  assert (H : power (copp c1 : C) k = c1 \/ power (copp c1 : C) k = copp c1). { induction k; simpl; auto. destruct IHk as [E|E]; rewrite E; [right|left]; ring. }
  destruct H as [E|E]; rewrite E; unfold c1, copp, cim; simpl; ring.
Qed.
Hypothesis Hroot : root n = w.
Lemma irfft_full y k : n <> 0%nat -> real_ends y -> cofk (irfft root n y k) = cdiv (CSum n (fun j => cmul (full y j) (power w (j * k)))) (cofk (kofnat n)).
Proof.
  intros Hn R. set (g := fun j => cre (cmul (full y j) (power w (j * k)))).
  assert (SY : forall j, (0 < j < n)%nat -> cmul (full y (n - j)) (power w ((n - j) * k)) = cconj (cmul (full y j) (power w (j * k)))).
  { intros j Hj. rewrite full_sym by auto. rewrite w_neg by lia. rewrite cconj_mul, power_conj. reflexivity. }
  assert (D := Nat.div_mod n 2 ltac:(lia)). assert (M := Nat.mod_upper_bound n 2 ltac:(lia)).
  (* the sum is real *)
  assert (RE : CSum n (fun j => cmul (full y j) (power w (j * k))) = cofk (Sum n g)).
  { assert (X : forall z : C, cim z = 0 -> z = cofk (cre z)) by (intros [a b]; unfold cim, cofk, cre; simpl; intros; now subst). rewrite (X (CSum n (fun j => cmul (full y j) (power w (j * k))))).
    - apply (f_equal (@cofk F)). exact (@cre_sumn F n _).
    - rewrite (@cim_sumn F). set (q := fun j => cim (cmul (full y j) (power w (j * k)))).
      assert (Q0 : q 0%nat = 0). { unfold q. cbn [Nat.mul power]. unfold full. cbn [Nat.leb]. replace (cmul (y 0%nat) c1) with (y 0%nat) by ring. apply R. }
      assert (QS : forall j, (0 < j < n)%nat -> q (n - j)%nat = - q j). { intros j Hj. unfold q. now rewrite SY. }
      destruct n as [|n'] eqn:En; [lia|]. rewrite sumn_S_l. change (kadd (q 0%nat) (Sum n' (fun i => q (Datatypes.S i))) = 0). rewrite Q0. set (T := Sum n' (fun i => q (Datatypes.S i))).
      assert (TT : T = - T). { unfold T at 1. rewrite sumn_rev. transitivity (Sum n' (fun i => - q (Datatypes.S i))).
        - apply sumn_ext. intros i Hi. rewrite <- QS by lia. f_equal. lia.
        - unfold T. generalize n'. intros p. induction p; cbn [sumn]; simpl; [ring|]. rewrite IHp. simpl. ring. }
      assert (T2 : (1 + 1) * T = 0) by (replace ((1 + 1) * T) with (T + T) by ring; rewrite TT at 1; ring). apply kmul_eq0 in T2. destruct T2 as [T2|T2]; [exfalso; now apply (two_neq0 F)|]. rewrite T2. ring. }
  rewrite RE. rewrite <- cofk_div by (now apply kofnat_neq0). f_equal. unfold irfft. f_equal. rewrite (fold_half g Hn).
  - assert (G0 : g 0%nat = cre (y 0%nat)). { unfold g. cbn [Nat.mul power]. unfold full. cbn [Nat.leb]. f_equal. ring. }
    rewrite G0. f_equal.
    + f_equal. apply sumn_ext. intros j Hj. unfold g. f_equal. rewrite Hroot, cpow_power. unfold full.
      assert (LE : (S j <= n / 2)%nat). { assert (D1 := Nat.div_mod (n - 1) 2 ltac:(lia)). assert (M1 := Nat.mod_upper_bound (n - 1) 2 ltac:(lia)). lia. }
      destruct (Nat.leb_spec (Datatypes.S j) (n / 2)); [reflexivity|lia].
    + destruct (Nat.even n) eqn:EV; auto. unfold g. rewrite Hroot, cpow_power, power_mul, half_minus1 by auto. unfold full. rewrite Nat.leb_refl. pose proof (minus1_power k) as Z. destruct (power (copp c1) k) as [a b]. unfold cim in Z. simpl in Z. subst b. unfold cre, cmul. simpl. ring.
  - intros j Hj. unfold g. rewrite SY by auto. apply cre_conj.
Qed.
(** the transform of the inverse transform *)
Theorem rfft_irfft y j : real_ends y -> (j <= n / 2)%nat -> n <> 0%nat -> transform n w (irfft root n y) j = y j.
Proof.
  intros R Hj Hn. assert (Hj' : (j < n)%nat). { assert (D := Nat.div_mod n 2 ltac:(lia)). assert (n / 2 < n)%nat by (apply Nat.div_lt; lia). lia. }
  unfold transform. transitivity (CSum n (fun k => cdiv (CSum n (fun i => cmul (full y i) (cmul (power w (i * k)) (power (cconj w) (j * k))))) (cofk (kofnat n)))).
  - apply sumn_ext. intros k Hk. rewrite irfft_full by auto. set (p := power (cconj w) (j * k)). etransitivity; [apply cdiv_mul; now apply kofnat_c_neq0|].
    f_equal. rewrite csumn_mul_r. apply sumn_ext. intros i Hi. simpl. ring.
  - transitivity (cdiv (CSum n (fun k => CSum n (fun i => cmul (full y i) (cmul (power w (i * k)) (power (cconj w) (j * k)))))) (cofk (kofnat n))).
    + unfold cdiv. rewrite csumn_mul_r. reflexivity.
    + rewrite sumn_swap. rewrite (sumn_ext (S:=CStar F) (n:=n) _ (fun i => cmul (full y i) (if Nat.eqb i j then cofk (kofnat n) else c0))).
      2:{ intros i Hi. rewrite <- csumn_mul_l, orthogonal by auto. reflexivity. }
      rewrite (sumn_single (S:=CStar F) (n:=n) (k:=j)); auto.
      * rewrite Nat.eqb_refl. unfold full. destruct (Nat.leb_spec j (n / 2)); [|lia]. field. now apply kofnat_c_neq0.
      * intros i Hi Ni. destruct (Nat.eqb_spec i j); [congruence|]. simpl. ring.
Qed.
Lemma rfft_transform x j : rfft root n x j = transform n w x j.
Proof. unfold rfft, transform. rewrite Hroot. apply sumn_ext. intros k Hk. now rewrite cpow_power. Qed.
Lemma transform_ends x (c : nat -> F) : n <> 0%nat -> real_ends (fun j => cmul (transform n w x j) (cofk (c j))).
Proof.
  assert (Z : forall (z : C) a, cim z = 0 -> cim (cmul z (cofk a)) = 0) by (intros [u v] a; unfold cim, cmul, cofk; simpl; intros E; subst; ring).
  intros Hn. split.
  - apply Z. unfold transform. rewrite cim_sumn. apply sumn_0. intros k Hk. cbn [Nat.mul power]. unfold cim, cmul, cofk, c1. simpl. ring.
  - intros EV. apply Z. unfold transform. rewrite cim_sumn. apply sumn_0. intros k Hk. rewrite power_mul. rewrite <- power_conj, half_minus1 by auto.
    replace (cconj (copp c1 : C)) with (copp c1 : C) by (unfold cconj, copp, c1; simpl; f_equal; ring). pose proof (minus1_power k) as M. destruct (power (copp c1) k) as [a b]. unfold cim in M. simpl in M. subst b. unfold cim, cmul, cofk. simpl. ring.
Qed.
Lemma rfft_ext y y' k : n <> 0%nat -> (forall j, (j <= n / 2)%nat -> y j = y' j) -> irfft root n y k = irfft root n y' k.
Proof.
  intros Hn H. unfold irfft. f_equal. f_equal; [f_equal|].
  - now rewrite H by lia.
  - apply sumn_ext. intros j Hj. rewrite H; auto. assert (D := Nat.div_mod n 2 ltac:(lia)). assert (M := Nat.mod_upper_bound n 2 ltac:(lia)). assert (D1 := Nat.div_mod (n - 1) 2 ltac:(lia)). assert (M1 := Nat.mod_upper_bound (n - 1) 2 ltac:(lia)). lia.
  - now rewrite H by lia.
Qed.

(** the transform of a coloured trace *)
Theorem colour_transform sd dt x j : n <> 0%nat -> (j <= n / 2)%nat ->
  transform n w (colour sqrt root sd dt n x) j = cmul (transform n w x j) (cofk (sqrt (density sd dt n j / (1 / (1 / dt / (1 + 1)))))).
Proof.
  intros Hn Hj. unfold colour. set (y := fun j => cmul (rfft root n x j) (cofk (sqrt (density sd dt n j / (1 / (1 / dt / (1 + 1))))))).
  rewrite rfft_irfft; auto.
  - unfold y. now rewrite rfft_transform.
  - assert (E := transform_ends x (fun j => sqrt (density sd dt n j / (1 / (1 / dt / (1 + 1))))) Hn). unfold y, real_ends in *. now rewrite !rfft_transform.
Qed.
End Root.

Lemma sqrt_0 : is_sqrt sqrt -> sqrt 0 = 0.
Proof. intros Q. destruct (Q 0 (kle_refl F 0)) as [_ E]. now apply ksqr_eq0 in E. Qed.
Lemma sqrt_1 : is_sqrt sqrt -> sqrt 1 = 1.
Proof. intros Q. destruct (Q 1 (k01 F)) as [P E]. apply kle_antisym; apply ksqr_le; auto; try apply k01; rewrite E; replace (1 * 1) with (1 : F) by ring; apply kle_refl. Qed.

Lemma white_level (dt : F) : dt <> 0 -> 1 / (1 / dt / (1 + 1)) = (1 + 1) * dt.
Proof. intros H. field. repeat split; auto; try apply two_neq0; apply k1_neq_0. Qed.
Lemma level_neq0 (dt : F) : dt <> 0 -> (1 + 1) * dt <> 0.
Proof. intros H E. apply kmul_eq0 in E. destruct E as [E|E]; [now apply (two_neq0 F)|auto]. Qed.
Lemma kdiv_0 (a : F) : a <> 0 -> 0 / a = 0.
Proof. intros H. field. auto. Qed.
Lemma kdiv_self (a : F) : a <> 0 -> a / a = 1.
Proof. intros H. field. auto. Qed.
(** the sum of a trace vanishes *)
Theorem colour_mean sd dt n x : is_sqrt sqrt -> dt <> 0 -> n <> 0%nat -> primitive n (root n) -> is_mean n (colour sqrt root sd dt n x) 0.
Proof.
  intros Q Hd Hn Hw. assert (T := @colour_transform n (root n) Hw eq_refl sd dt x 0 Hn ltac:(lia)). cbn [density Nat.eqb] in T.
  rewrite white_level, kdiv_0 in T by (auto using level_neq0).
  rewrite sqrt_0 in T by auto. replace (cmul (transform n (root n) x 0) (cofk 0)) with (c0 : C) in T by (unfold cofk, c0, cmul; simpl; f_equal; ring).
  unfold is_mean. transitivity (cre (transform n (root n) (colour sqrt root sd dt n x) 0)); [rewrite T; unfold cre, c0; simpl; ring|].
  unfold transform. rewrite cre_sumn. apply sumn_ext. intros k Hk. cbn [Nat.mul power]. unfold cre, cmul, cofk, c1. simpl. ring.
Qed.
(** the power at the frequencies the code uses *)
Lemma colour_power sd dt n x j : is_sqrt sqrt -> 0 < dt -> (forall f, 0 <= sd f) -> primitive n (root n) -> (0 < j <= n / 2)%nat ->
  (1 + 1) * dt * cnorm2 (transform n (root n) (colour sqrt root sd dt n x) j) = sd (frequency dt n j) * cnorm2 (transform n (root n) x j).
Proof.
  intros Q Hd SD Hw Hj. assert (D0 : dt <> 0) by (intros E; now apply (klt_neq Hd)). assert (Hn : n <> 0%nat) by (intros E; subst; simpl in Hj; lia).
  rewrite (@colour_transform n (root n) Hw eq_refl sd dt x j Hn ltac:(lia)), cnorm2_mul. unfold density. destruct (Nat.eqb_spec j 0); [lia|]. set (f := frequency dt n j).
  rewrite white_level by auto.
  assert (P : 0 < (1 + 1) * dt) by (apply kpos_mul; auto; apply kpos_add; apply klt_01). assert (P0 : (1 + 1) * dt <> 0) by (intros E; now apply (klt_neq P)).
  destruct (Q (sd f / ((1 + 1) * dt))) as [_ E]; [apply kdiv_nonneg; auto; now apply klt_le|]. unfold cnorm2 at 2. unfold cofk. cbn [fst snd]. rewrite E. field. split; auto. apply two_neq0.
Qed.
Lemma frequency_even (dt : F) n j : dt <> 0 -> n <> 0%nat -> Nat.even n = true -> frequency dt n j = kofnat j / (kofnat n * dt).
Proof.
  intros Hd Hn EV. apply Nat.even_spec in EV. destruct EV as [m Em]. assert (E : (n / 2 = m)%nat) by (rewrite Em, Nat.mul_comm, Nat.div_mul; lia).
  unfold frequency, linspace0. rewrite E. destruct (Nat.leb_spec (m + 1) 1); [lia|]. replace (m + 1 - 1)%nat with m by lia. rewrite Em, kofnat_mul, kofnat_2. field. repeat split; auto; try apply two_neq0. apply kofnat_neq0. lia.
Qed.
Lemma frequency_odd (dt : F) n j : dt <> 0 -> (3 <= n)%nat -> Nat.even n = false -> frequency dt n j = kofnat j / (kofnat (n - 1) * dt).
Proof.
  intros Hd Hn EV. assert (OD : Nat.odd n = true) by (now rewrite <- Nat.negb_even, EV). apply Nat.odd_spec in OD. destruct OD as [m Em]. assert (E : (n / 2 = m)%nat) by (rewrite Em, Nat.mul_comm, Nat.div_add_l; simpl; lia).
  unfold frequency, linspace0. rewrite E. destruct (Nat.leb_spec (m + 1) 1); [lia|]. replace (m + 1 - 1)%nat with m by lia. replace (n - 1)%nat with (2 * m)%nat by lia. rewrite kofnat_mul, kofnat_2. field. repeat split; auto; try apply two_neq0. apply kofnat_neq0. lia.
Qed.
Theorem power_even sd dt n x j : is_sqrt sqrt -> 0 < dt -> (forall f, 0 <= sd f) -> primitive n (root n) -> Nat.even n = true -> (0 < j <= n / 2)%nat ->
  (1 + 1) * dt * cnorm2 (transform n (root n) (colour sqrt root sd dt n x) j) = sd (kofnat j / (kofnat n * dt)) * cnorm2 (transform n (root n) x j).
Proof.
  intros Q Hd SD Hw EV Hj. rewrite colour_power, frequency_even; auto. { intros E; now apply (klt_neq Hd). } intros E; subst; simpl in Hj; lia.
Qed.
Theorem power_odd sd dt n x j : is_sqrt sqrt -> 0 < dt -> (forall f, 0 <= sd f) -> primitive n (root n) -> Nat.even n = false -> (0 < j <= n / 2)%nat ->
  (1 + 1) * dt * cnorm2 (transform n (root n) (colour sqrt root sd dt n x) j) = sd (kofnat j / (kofnat (n - 1) * dt)) * cnorm2 (transform n (root n) x j).
Proof.
  intros Q Hd SD Hw EV Hj. rewrite colour_power, frequency_odd; auto. { intros E; now apply (klt_neq Hd). } destruct n as [|[|[|n]]]; simpl in *; try lia; discriminate.
Qed.
(** white noise: constant spectral density 2 dt *)
Theorem colour_white dt n x k : is_sqrt sqrt -> dt <> 0 -> primitive n (root n) -> (k < n)%nat ->
  colour sqrt root (fun _ => (1 + 1) * dt) dt n x k = x k - Sum n x / kofnat n.
Proof.
  intros Q Hd Hw Hk. assert (Hn : n <> 0%nat) by lia. set (w := root n). assert (K0 := @kofnat_c_neq0 n Hn).
  unfold colour. rewrite (@rfft_ext n _ (fun j => cmul (transform n w x j) (cofk (if Nat.eqb j 0 then 0 else 1))) k Hn).
  2:{ intros j Hj. rewrite (@rfft_transform n w eq_refl). f_equal. f_equal. unfold density. destruct (Nat.eqb j 0).
      - rewrite white_level, kdiv_0 by (auto using level_neq0). now apply sqrt_0.
      - rewrite white_level, kdiv_self by (auto using level_neq0). now apply sqrt_1. }
  apply cofk_inj. rewrite (@irfft_full n w Hw eq_refl) by (auto; now apply transform_ends).
  set (y := fun j => cmul (transform n w x j) (cofk (if Nat.eqb j 0 then 0 else 1))).
  (* the full spectrum is that of x without its first entry *)
  assert (FU : forall j, (j < n)%nat -> full n y j = if Nat.eqb j 0 then c0 else transform n w x j).
  { intros j Hj. unfold full, y. destruct (Nat.leb_spec j (n / 2)) as [L|L].
    - destruct (Nat.eqb j 0); unfold cofk, cmul, c0; [simpl; f_equal; ring|]. destruct (transform n w x j) as [a b]. simpl. f_equal; ring.
    - destruct (Nat.eqb_spec (n - j) 0); [lia|]. destruct (Nat.eqb_spec j 0); [lia|]. replace (cmul (transform n w x (n - j)) (cofk 1)) with (transform n w x (n - j)) by (destruct (transform n w x (n - j)) as [a b]; unfold cmul, cofk; simpl; f_equal; ring).
      unfold transform. rewrite csumn_conj. apply sumn_ext. intros i Hi. rewrite cconj_mul, cofk_conj. f_equal. rewrite power_conj, cconj_cconj. rewrite (@w_neg n w Hw) by lia. reflexivity. }
  transitivity (csub (cdiv (CSum n (fun j => cmul (transform n w x j) (power w (j * k)))) (cofk (kofnat n))) (cdiv (transform n w x 0) (cofk (kofnat n)))).
  - transitivity (cdiv (csub (CSum n (fun j => cmul (transform n w x j) (power w (j * k)))) (transform n w x 0)) (cofk (kofnat n))); [|field; auto]. f_equal.
    destruct n as [|n'] eqn:En; [lia|]. rewrite !sumn_S_l. rewrite FU by lia. rewrite (sumn_ext (S:=CStar F) (n:=n') _ (fun i => cmul (transform (S n') w x (S i)) (power w (S i * k)))). 2:{ intros i Hi. now rewrite FU by lia. }
    cbn [Nat.eqb Nat.mul power]. simpl. ring.
  - (* inversion *)
    assert (IV : CSum n (fun j => cmul (transform n w x j) (power w (j * k))) = cmul (cofk (kofnat n)) (cofk (x k))).
    { unfold transform. transitivity (CSum n (fun j => CSum n (fun i => cmul (cofk (x i)) (cmul (power w (k * j)) (power (cconj w) (i * j)))))).
      - apply sumn_ext. intros j Hj. rewrite csumn_mul_r. apply sumn_ext. intros i Hi. rewrite (Nat.mul_comm j i), (Nat.mul_comm j k). simpl. ring.
      - rewrite sumn_swap. rewrite (sumn_single (S:=CStar F) (n:=n) (k:=k)); auto.
        + rewrite <- csumn_mul_l, (@orthogonal n w Hw) by auto. rewrite Nat.eqb_refl. simpl. ring.
        + intros i Hi Ni. rewrite <- csumn_mul_l, (@orthogonal n w Hw) by auto. destruct (Nat.eqb_spec k i); [congruence|]. simpl. ring. }
    rewrite IV. assert (T0 : transform n w x 0 = cofk (Sum n x)). { unfold transform. rewrite cofk_sumn. apply sumn_ext. intros i Hi. cbn [Nat.mul power]. simpl. ring. }
    rewrite T0. rewrite <- cofk_div by (now apply kofnat_neq0). replace (cdiv (cmul (cofk (kofnat n)) (cofk (x k))) (cofk (kofnat n))) with (cofk (x k)) by (field; auto).
    unfold csub, cofk. simpl. f_equal; ring.
Qed.

(** ---- the arrays fast_colored_noise returns ---- *)
Variable rnd : nat -> F.
Local Notation fast_colored_noise := (fast_colored_noise sqrt rnd root).
(** row i, j of the array; the numbers drawn for it *)
Local Notation row a i j := (fun k => get3 0 a i j k).
Local Notation drawn_numbers p i j m2 n := (fun k => rnd (p + (i * m2 + j) * n + k)).
Lemma returned sd dt n m1 m2 r p q a : fast_colored_noise sd dt n m1 m2 r p = (q, Ok a) ->
  exists m, m <> 0%nat /\ dt <> 0 /\ (r = false -> m = n) /\ wfa [m1; m2; m] a /\
   forall i j k, (i < m1)%nat -> (j < m2)%nat -> (k < m)%nat -> get3 0 a i j k = colour sqrt root sd dt m (drawn_numbers p i j m2 m) k.
Proof.
  unfold M_Noise.fast_colored_noise. destruct (keqb dt 0) eqn:Z; [discriminate|]. destruct (Nat.eqb_spec (if r then pow2_up n else n) 0) as [Y|Y]; [discriminate|]. intros E. inversion E; subst. clear E.
  exists (if r then pow2_up n else n). split; auto. split. { intros X. subst. apply (f_equal negb) in Z. rewrite (proj2 (@keqb_eq F 0 0) eq_refl) in Z. discriminate. }
  split; [intros R; now rewrite R|]. split; [apply wfa_mk3|]. intros i j k Hi Hj Hk. now rewrite get3_mk3.
Qed.
Lemma transform_ext n w x y j : (forall k, (k < n)%nat -> x k = y k) -> transform n w x j = transform n w y j :> C.
Proof. intros H. unfold transform. apply sumn_ext. intros k Hk. now rewrite H. Qed.
Theorem noise_mean sd dt n m1 m2 r p q a : is_sqrt sqrt -> (forall m, m <> 0%nat -> primitive m (root m)) -> fast_colored_noise sd dt n m1 m2 r p = (q, Ok a) ->
  forall i j, (i < m1)%nat -> (j < m2)%nat -> is_mean (dim2 a) (row a i j) 0.
Proof.
  intros Q Hr E i j Hi Hj. destruct (returned _ _ _ _ _ _ _ E) as (m & M & D & _ & W & V). assert (L : dim2 a = m) by (destruct W as [W _]; unfold dim2; now rewrite W). rewrite L.
  unfold is_mean. rewrite (sumn_ext (S:=KStar F) (n:=m) _ (colour sqrt root sd dt m (drawn_numbers p i j m2 m))). 2:{ intros k Hk. now apply V. }
  apply colour_mean; auto.
Qed.
Theorem noise_power sd dt n m1 m2 r p q a : is_sqrt sqrt -> (forall m, m <> 0%nat -> primitive m (root m)) -> 0 < dt -> (forall f, 0 <= sd f) ->
  fast_colored_noise sd dt n m1 m2 r p = (q, Ok a) -> Nat.even (dim2 a) = true ->
  forall i j f, (i < m1)%nat -> (j < m2)%nat -> (0 < f <= dim2 a / 2)%nat ->
  (1 + 1) * dt * cnorm2 (transform (dim2 a) (root (dim2 a)) (row a i j) f) = sd (kofnat f / (kofnat (dim2 a) * dt)) * cnorm2 (transform (dim2 a) (root (dim2 a)) (drawn_numbers p i j m2 (dim2 a)) f).
Proof.
  intros Q Hr Hd SD E. destruct (returned _ _ _ _ _ _ _ E) as (m & M & D & _ & W & V). assert (L : dim2 a = m) by (destruct W as [W _]; unfold dim2; now rewrite W). rewrite L.
  intros EV i j f Hi Hj Hf. rewrite (@transform_ext m (root m) (row a i j) (colour sqrt root sd dt m (drawn_numbers p i j m2 m))). 2:{ intros k Hk. now apply V. }
  apply power_even; auto.
Qed.
Theorem noise_power_odd sd dt n m1 m2 r p q a : is_sqrt sqrt -> (forall m, m <> 0%nat -> primitive m (root m)) -> 0 < dt -> (forall f, 0 <= sd f) ->
  fast_colored_noise sd dt n m1 m2 r p = (q, Ok a) -> Nat.even (dim2 a) = false ->
  forall i j f, (i < m1)%nat -> (j < m2)%nat -> (0 < f <= dim2 a / 2)%nat ->
  (1 + 1) * dt * cnorm2 (transform (dim2 a) (root (dim2 a)) (row a i j) f) = sd (kofnat f / (kofnat (dim2 a - 1) * dt)) * cnorm2 (transform (dim2 a) (root (dim2 a)) (drawn_numbers p i j m2 (dim2 a)) f).
Proof.
  intros Q Hr Hd SD E. destruct (returned _ _ _ _ _ _ _ E) as (m & M & D & _ & W & V). assert (L : dim2 a = m) by (destruct W as [W _]; unfold dim2; now rewrite W). rewrite L.
  intros EV i j f Hi Hj Hf. rewrite (@transform_ext m (root m) (row a i j) (colour sqrt root sd dt m (drawn_numbers p i j m2 m))). 2:{ intros k Hk. now apply V. }
  apply power_odd; auto.
Qed.
Theorem noise_white dt n m1 m2 r p q a : is_sqrt sqrt -> (forall m, m <> 0%nat -> primitive m (root m)) ->
  fast_colored_noise (fun _ => (1 + 1) * dt) dt n m1 m2 r p = (q, Ok a) ->
  forall i j k m, (i < m1)%nat -> (j < m2)%nat -> (k < dim2 a)%nat -> is_mean (dim2 a) (drawn_numbers p i j m2 (dim2 a)) m ->
  get3 0 a i j k = rnd (p + (i * m2 + j) * dim2 a + k) - m.
Proof.
  intros Q Hr E. destruct (returned _ _ _ _ _ _ _ E) as (m & M & D & _ & W & V). assert (L : dim2 a = m) by (destruct W as [W _]; unfold dim2; now rewrite W). rewrite L.
  intros i j k mu Hi Hj Hk Mu. rewrite V, colour_white by auto. f_equal. unfold is_mean in Mu. rewrite <- Mu. field. now apply kofnat_neq0.
Qed.
End Proofs.

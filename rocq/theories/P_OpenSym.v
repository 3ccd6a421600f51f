(** Proofs for C83, part 1: the algebra of the master equation. *)
Require Import List Arith Lia Bool Reals Lra.
From Verif Require Import LibBase LibRing LibArr LibCplx LibMat LibNorm LibDeriv LibSeries M_Matrix S_Linear S_Deriv S_Exp P_Linear P_Matrix P_Frechet P_Mexp P_Mexp2 M_OpHeap M_Transfer S_Transfer M_Amplitude S_Amplitude P_Amplitude M_Solver S_Solver P_Solver7 S_Lindblad S_Channel P_Lindblad P_Channel P_Channel2 S_Invariance P_Invariance S_OpenSym.
Import ListNotations.
Local Open Scope res_scope.
Set Implicit Arguments.

Section Alg.
Add Field Cfield_os : (c_field RField).
Notation op := (mat RS).
Notation S := RS.
Notation mm := (mmul (S:=RS)).
Notation app := (apply_super (F:=RField)).
Notation comm := (commutation (F:=RField)).
Notation diss := (dissipation (F:=RField)).
Notation num := (number_op (F:=RField)).
Hint Resolve wfm_mexp wfm_mpw : wfm.

(** super operators are determined by what they do *)
Definition unit_at (a b : nat) (i j : nat) : RC := cmul (kd (S:=S) b j) (kd (S:=S) a i).
Lemma app_unit n (G : op) a b i j : a < n -> b < n -> app n G (unit_at a b) i j = mg G (j * n + i) (b * n + a).
Proof.
  intros Ha Hb. unfold apply_super, unit_at.
  rewrite (@Sg_ext RField n _ (fun b' => cmul (kd (S:=S) b b') (mg G (j * n + i) (b' * n + a)))).
  - now rewrite (@Sg_kd_l RField n b (fun b' => mg G (j * n + i) (b' * n + a))).
  - intros b' Hb'. rewrite (@Sg_ext RField n _ (fun a' => cmul (kd (S:=S) a a') (cmul (kd (S:=S) b b') (mg G (j * n + i) (b' * n + a'))))).
    + now rewrite (@Sg_kd_l RField n a (fun a' => cmul (kd (S:=S) b b') (mg G (j * n + i) (b' * n + a')))).
    + intros a' Ha'. cring.
Qed.
Lemma split_index n p : p < n * n -> exists j i, j < n /\ i < n /\ p = j * n + i.
Proof.
  intros Hp. assert (N : n <> 0) by (intros ->; lia). exists (p / n), (p mod n). split; [apply Nat.div_lt_upper_bound; lia|]. split; [now apply Nat.mod_upper_bound|]. rewrite Nat.mul_comm. now apply Nat.div_mod.
Qed.
Lemma super_ext n (G G' : op) : wfm (S:=S) (n * n) (n * n) G -> wfm (S:=S) (n * n) (n * n) G' -> (forall rho i j, i < n -> j < n -> app n G rho i j = app n G' rho i j) -> G = G'.
Proof.
  intros W W' H. apply (@mat_ext S (n * n) (n * n)); auto. intros p q Hp Hq. destruct (@split_index n p Hp) as (j & i & Hj & Hi & ->). destruct (@split_index n q Hq) as (b & a & Hb & Ha & ->).
  rewrite <- !app_unit by auto. now apply H.
Qed.
Lemma acts_unique n (G G' : op) f f' : acts_as (F:=RField) n G f -> acts_as (F:=RField) n G' f' -> (forall rho i j, i < n -> j < n -> f rho i j = f' rho i j) -> G = G'.
Proof.
  intros [W H] [W' H'] E. apply is_matrix_wfm in W, W'. apply (super_ext W W'). intros rho i j Hi Hj. rewrite H, H' by auto. now apply E.
Qed.
Lemma rho_delta n i (f : nat -> RC) : i < n -> Sg n (fun a => cmul (delta (S:=S) i a) (f a)) = f i.
Proof. exact (@Sg_kd_l RField n i f). Qed.
Lemma rho_delta_r n i (f : nat -> RC) : i < n -> Sg n (fun a => cmul (f a) (delta (S:=S) a i)) = f i.
Proof. intros Hi. rewrite (@Sg_ext RField n _ (fun a => cmul (delta (S:=S) i a) (f a))); [now apply rho_delta|]. intros a _. unfold delta. rewrite Nat.eqb_sym. cring. Qed.

(** energy offsets *)
Lemma comm_ext n h h' rho i j : i < n -> j < n -> (forall a b, a < n -> b < n -> h a b = h' a b) -> comm n h rho i j = comm n h' rho i j.
Proof. intros Hi Hj H. unfold commutation. do 2 f_equal; apply (@Sg_ext RField); intros a Ha; now rewrite H. Qed.
Lemma comm_shift n h e rho i j : i < n -> j < n -> comm n (fun a b => cadd (h a b) (cmul e (delta (S:=S) a b))) rho i j = comm n h rho i j.
Proof.
  intros Hi Hj. unfold commutation. f_equal.
  rewrite (@Sg_ext RField n (fun a => cmul (cadd (h i a) (cmul e (delta (S:=S) i a))) (rho a j)) (fun a => cadd (cmul (h i a) (rho a j)) (cmul (delta (S:=S) i a) (cmul e (rho a j))))) by (intros; cring).
  rewrite (@Sg_ext RField n (fun b => cmul (rho i b) (cadd (h b j) (cmul e (delta (S:=S) b j)))) (fun b => cadd (cmul (rho i b) (h b j)) (cmul (cmul e (rho i b)) (delta (S:=S) b j)))) by (intros; cring).
  rewrite <- !csumn_add. rewrite (rho_delta (fun a => cmul e (rho a j)) Hi), (rho_delta_r (fun b => cmul e (rho i b)) Hj). cring.
Qed.
Lemma comm_add n h g rho i j : comm n (fun a b => cadd (h a b) (g a b)) rho i j = cadd (comm n h rho i j) (comm n g rho i j).
Proof.
  unfold commutation.
  rewrite (@Sg_ext RField n (fun a => cmul (cadd (h i a) (g i a)) (rho a j)) (fun a => cadd (cmul (h i a) (rho a j)) (cmul (g i a) (rho a j)))) by (intros; cring).
  rewrite (@Sg_ext RField n (fun b => cmul (rho i b) (cadd (h b j) (g b j))) (fun b => cadd (cmul (rho i b) (h b j)) (cmul (rho i b) (g b j)))) by (intros; cring).
  rewrite <- !csumn_add. cring.
Qed.
Lemma comm_mul n h z rho i j : comm n (fun a b => cmul z (h a b)) rho i j = cmul z (comm n h rho i j).
Proof.
  unfold commutation.
  rewrite (@Sg_ext RField n (fun a => cmul (cmul z (h i a)) (rho a j)) (fun a => cmul z (cmul (h i a) (rho a j)))) by (intros; cring).
  rewrite (@Sg_ext RField n (fun b => cmul (rho i b) (cmul z (h b j))) (fun b => cmul z (cmul (rho i b) (h b j)))) by (intros; cring).
  rewrite <- !csumn_mul_l. cring.
Qed.
Lemma comm_sum n m (g : nat -> nat -> nat -> RC) rho i j : comm n (fun a b => Sg m (fun k => g k a b)) rho i j = Sg m (fun k => comm n (g k) rho i j).
Proof.
  induction m as [|m IH].
  - cbn [sumn]. unfold commutation. rewrite !(@Sg_0 RField) by (intros; tocplx; cring). tocplx. cring.
  - cbn [sumn]. rewrite <- IH. exact (comm_add n (fun a b => Sg m (fun k => g k a b)) (g m) rho i j).
Qed.
(** factors of the dissipation operators *)
Lemma diss_factor n z (L L' : op) rho i j : i < n -> j < n -> is_factor n z L L' -> diss n L' rho i j = cmul (cofk (cnorm2 z : RField)) (diss n L rho i j).
Proof.
  intros Hi Hj E. rewrite <- cmul_conj_norm2. unfold dissipation.
  assert (N : forall a b, a < n -> b < n -> num n L' a b = cmul (cmul z (cconj z)) (num n L a b)).
  { intros a b Ha Hb. unfold number_op. rewrite csumn_mul_l. apply (@Sg_ext RField). intros l Hl. rewrite !E by auto. rewrite cconj_mul. cring. }
  rewrite (@Sg_ext RField n (fun a => cmul (num n L' i a) (rho a j)) (fun a => cmul (cmul z (cconj z)) (cmul (num n L i a) (rho a j)))) by (intros; rewrite N by auto; cring).
  rewrite (@Sg_ext RField n (fun b => cmul (rho i b) (num n L' b j)) (fun b => cmul (cmul z (cconj z)) (cmul (rho i b) (num n L b j)))) by (intros; rewrite N by auto; cring).
  rewrite (@Sg_ext RField n (fun b => Sg n (fun a => cmul (cmul (mg L' i a) (rho a b)) (cconj (mg L' j b)))) (fun b => cmul (cmul z (cconj z)) (Sg n (fun a => cmul (cmul (mg L i a) (rho a b)) (cconj (mg L j b)))))).
  2:{ intros b Hb. rewrite csumn_mul_l. apply (@Sg_ext RField). intros a Ha. rewrite !E by auto. rewrite cconj_mul. cring. }
  rewrite <- !csumn_mul_l. cring.
Qed.
(** displaced dissipation operators *)
Notation tilt := compensation.
Lemma delta_sym i j : delta (S:=S) i j = delta (S:=S) j i. Proof. unfold delta. now rewrite Nat.eqb_sym. Qed.
Lemma conj_delta i j : cconj (delta (S:=S) i j) = delta (S:=S) i j :> RC.
Proof. unfold delta. destruct (Nat.eqb i j); cbn; unfold cconj, c1, c0; cbn; f_equal; ring. Qed.
Lemma diss_displaced n a (L L' : op) rho i j : i < n -> j < n -> displaced n a L L' ->
  diss n L' rho i j = csub (diss n L rho i j) (comm n (tilt L a) rho i j).
Proof.
  intros Hi Hj E.
  set (X := Sg n (fun b => cmul (rho i b) (cconj (mg L j b)))). set (Y := Sg n (fun x => cmul (mg L i x) (rho x j))).
  set (X' := Sg n (fun x => cmul (cconj (mg L x i)) (rho x j))). set (Y' := Sg n (fun b => cmul (rho i b) (mg L b j))).
  assert (E1 : Sg n (fun b => Sg n (fun x => cmul (cmul (mg L' i x) (rho x b)) (cconj (mg L' j b)))) =
    cadd (cadd (Sg n (fun b => Sg n (fun x => cmul (cmul (mg L i x) (rho x b)) (cconj (mg L j b))))) (cmul a X)) (cadd (cmul (cconj a) Y) (cmul (cmul a (cconj a)) (rho i j)))).
  { rewrite (@Sg_ext RField n _ (fun b => cadd (cadd (Sg n (fun x => cmul (cmul (mg L i x) (rho x b)) (cconj (mg L j b)))) (cmul a (cmul (rho i b) (cconj (mg L j b)))))
      (cmul (cadd (cmul (cconj a) (Sg n (fun x => cmul (mg L i x) (rho x b)))) (cmul (cmul a (cconj a)) (rho i b))) (delta (S:=S) b j)))).
    - rewrite <- !csumn_add. rewrite (rho_delta_r (fun b => cadd (cmul (cconj a) (Sg n (fun x => cmul (mg L i x) (rho x b)))) (cmul (cmul a (cconj a)) (rho i b))) Hj).
      rewrite <- csumn_mul_l. unfold X, Y. cring.
    - intros b Hb. rewrite E by auto. rewrite cconj_add, cconj_mul, conj_delta, (delta_sym j b).
      rewrite (@Sg_ext RField n _ (fun x => cadd (cmul (cmul (mg L i x) (rho x b)) (cadd (cconj (mg L j b)) (cmul (cconj a) (delta (S:=S) b j)))) (cmul (delta (S:=S) i x) (cmul a (cmul (rho x b) (cadd (cconj (mg L j b)) (cmul (cconj a) (delta (S:=S) b j)))))))).
      2:{ intros x Hx. rewrite E by auto. cring. }
      rewrite <- csumn_add. rewrite (rho_delta (fun x => cmul a (cmul (rho x b) (cadd (cconj (mg L j b)) (cmul (cconj a) (delta (S:=S) b j))))) Hi).
      rewrite <- csumn_mul_r.
      assert (Z : Sg n (fun x => cmul (cmul (mg L i x) (rho x b)) (cconj (mg L j b))) = cmul (Sg n (fun x => cmul (mg L i x) (rho x b))) (cconj (mg L j b))) by (rewrite csumn_mul_r; reflexivity).
      rewrite Z. cring. }
  assert (N : forall p q, p < n -> q < n -> num n L' p q = cadd (cadd (num n L p q) (cmul a (cconj (mg L q p)))) (cadd (cmul (cconj a) (mg L p q)) (cmul (cmul a (cconj a)) (delta (S:=S) p q)))).
  { intros p q Hp Hq. unfold number_op.
    rewrite (@Sg_ext RField n _ (fun l => cadd (cadd (cmul (cconj (mg L l p)) (mg L l q)) (cmul (cmul a (cconj (mg L l p))) (delta (S:=S) l q))) (cmul (delta (S:=S) p l) (cmul (cconj a) (cadd (mg L l q) (cmul a (delta (S:=S) l q))))))).
    2:{ intros l Hl. rewrite !E by auto. rewrite cconj_add, cconj_mul, conj_delta, (delta_sym l p). cring. }
    rewrite <- !csumn_add. rewrite (rho_delta_r (fun l => cmul a (cconj (mg L l p))) Hq). rewrite (rho_delta (fun l => cmul (cconj a) (cadd (mg L l q) (cmul a (delta (S:=S) l q)))) Hp). cring. }
  assert (E2 : Sg n (fun x => cmul (num n L' i x) (rho x j)) = cadd (cadd (Sg n (fun x => cmul (num n L i x) (rho x j))) (cmul a X')) (cadd (cmul (cconj a) Y) (cmul (cmul a (cconj a)) (rho i j)))).
  { rewrite (@Sg_ext RField n _ (fun x => cadd (cadd (cmul (num n L i x) (rho x j)) (cmul a (cmul (cconj (mg L x i)) (rho x j)))) (cadd (cmul (cconj a) (cmul (mg L i x) (rho x j))) (cmul (delta (S:=S) i x) (cmul (cmul a (cconj a)) (rho x j)))))).
    2:{ intros x Hx. rewrite N by auto. cring. }
    rewrite <- !csumn_add. rewrite (rho_delta (fun x => cmul (cmul a (cconj a)) (rho x j)) Hi). rewrite <- !csumn_mul_l. reflexivity. }
  assert (E3 : Sg n (fun b => cmul (rho i b) (num n L' b j)) = cadd (cadd (Sg n (fun b => cmul (rho i b) (num n L b j))) (cmul a X)) (cadd (cmul (cconj a) Y') (cmul (cmul a (cconj a)) (rho i j)))).
  { rewrite (@Sg_ext RField n _ (fun b => cadd (cadd (cmul (rho i b) (num n L b j)) (cmul a (cmul (rho i b) (cconj (mg L j b))))) (cadd (cmul (cconj a) (cmul (rho i b) (mg L b j))) (cmul (cmul (cmul a (cconj a)) (rho i b)) (delta (S:=S) b j))))).
    2:{ intros x Hx. rewrite N by auto. cring. }
    rewrite <- !csumn_add. rewrite (rho_delta_r (fun x => cmul (cmul a (cconj a)) (rho i x)) Hj). rewrite <- !csumn_mul_l. reflexivity. }
  assert (E4 : comm n (tilt L a) rho i j = copp (cmul (cofk (kdiv k1 (kofnat 2) : RField)) (csub (csub (cmul (cconj a) Y) (cmul a X')) (csub (cmul (cconj a) Y') (cmul a X))))).
  { unfold commutation, compensation. set (h := cofk (kdiv k1 (kofnat 2) : RField)).
    rewrite (@Sg_ext RField n (fun x => cmul (cmul h (cmul (copp ci) (csub (cmul (cconj a) (mg L i x)) (cmul a (cconj (mg L x i)))))) (rho x j)) (fun x => cmul (cmul h (copp ci)) (csub (cmul (cconj a) (cmul (mg L i x) (rho x j))) (cmul a (cmul (cconj (mg L x i)) (rho x j)))))) by (intros; cring).
    rewrite (@Sg_ext RField n (fun x => cmul (rho i x) (cmul h (cmul (copp ci) (csub (cmul (cconj a) (mg L x j)) (cmul a (cconj (mg L j x))))))) (fun x => cmul (cmul h (copp ci)) (csub (cmul (cconj a) (cmul (rho i x) (mg L x j))) (cmul a (cmul (rho i x) (cconj (mg L j x))))))) by (intros; cring).
    rewrite <- !csumn_mul_l. rewrite <- !csumn_sub. rewrite <- !csumn_mul_l. fold X Y X' Y'.
    assert (I : cmul (copp ci) (copp ci) = copp c1 :> RC) by (unfold cmul, copp, ci, c1; cbn; f_equal; ring).
    transitivity (cmul (cmul (cmul (copp ci) (copp ci)) h) (csub (csub (cmul (cconj a) Y) (cmul a X')) (csub (cmul (cconj a) Y') (cmul a X)))); [cring|]. rewrite I. cring. }
  unfold dissipation at 1. rewrite E1, E2, E3, E4. unfold dissipation. set (h := cofk (kdiv k1 (kofnat 2) : RField)).
  pose proof (two_halves (F:=RField) (cmul a (cconj a))) as T1. pose proof (two_halves (F:=RField) (cmul (cconj a) Y)) as T2. pose proof (two_halves (F:=RField) (cmul a X)) as T3. fold h in T1, T2, T3.
  set (T := Sg n (fun b => Sg n (fun x => cmul (cmul (mg L i x) (rho x b)) (cconj (mg L j b))))). set (P := Sg n (fun x => cmul (num n L i x) (rho x j))). set (Q := Sg n (fun b => cmul (rho i b) (num n L b j))).
  transitivity (cadd (csub (cadd T (cadd (cadd (cmul h (cadd (cmul a X) (cmul a X))) (cmul h (cadd (cmul (cconj a) Y) (cmul (cconj a) Y)))) (cmul (cmul h (cadd (cmul a (cconj a)) (cmul a (cconj a)))) (rho i j)))) (cmul h (cadd P Q))) (copp (cmul h (cadd (cadd (cmul a X') (cmul (cconj a) Y)) (cadd (cadd (cmul a X) (cmul (cconj a) Y')) (cmul (cadd (cmul a (cconj a)) (cmul a (cconj a))) (rho i j))))))).
  - rewrite T1, T2, T3. cring.
  - cring.
Qed.
End Alg.

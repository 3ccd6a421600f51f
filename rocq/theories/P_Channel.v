(** The exponentials of the generators of master equations are channels. *)
Require Import List Arith Lia Ring Field Bool Reals Lra.
From Verif Require Import LibBase LibRing LibArr LibCplx LibMat LibNorm LibSum LibDeriv LibSeries M_Matrix S_Linear S_Exp P_Linear P_RealExp P_Frechet P_Dexp P_Mexp P_Mexp2 P_Trotter
  M_Solver S_Solver S_Lindblad S_Channel P_Lindblad.
Import ListNotations.
Set Implicit Arguments.

Section Channel.
Add Field Cfield_ch : (c_field RField).
Notation S := RS.
Notation op := (mat RS).
Notation mm := (mmul (S:=RS)).
Notation ma := (madd (S:=RS)).
Notation mb := (msub (S:=RS)).
Notation ms := (mscale (S:=RS)).
Notation app := (apply_super (F:=RField)).
Notation dop := (Arr [] [] : mat RS).

(** ---- composition ---- *)
Lemma app_ext n (M : op) rho rho' i j : (forall a b, a < n -> b < n -> rho a b = rho' a b) -> app n M rho i j = app n M rho' i j.
Proof. intros H. unfold apply_super. apply Sg_ext. intros b Hb. apply Sg_ext. intros a Ha. now rewrite H. Qed.
Lemma app_mmul n (A B : op) rho i j : wfm (S:=RS) (n * n) (n * n) A -> wfm (S:=RS) (n * n) (n * n) B -> i < n -> j < n ->
  app n (mm A B) rho i j = app n A (app n B rho) i j.
Proof.
  intros WA WB Hi Hj. unfold apply_super.
  transitivity (Sg n (fun b => Sg n (fun a => Sg n (fun d => Sg n (fun c => cmul (cmul (mg A (j * n + i) (d * n + c)) (mg B (d * n + c) (b * n + a))) (rho a b)))))).
  - apply Sg_ext. intros b Hb. apply Sg_ext. intros a Ha. rewrite (@mg_mmul S (n * n) (n * n) (n * n)) by (auto; now apply join_lt).
    rewrite (@sumn_mul_split S n n). rewrite csumn_mul_r. apply Sg_ext. intros d Hd. rewrite csumn_mul_r. reflexivity.
  - transitivity (Sg n (fun d => Sg n (fun c => Sg n (fun b => Sg n (fun a => cmul (cmul (mg A (j * n + i) (d * n + c)) (mg B (d * n + c) (b * n + a))) (rho a b)))))).
    + rewrite (@Sg_ext RField n _ (fun b => Sg n (fun d => Sg n (fun a => Sg n (fun c => cmul (cmul (mg A (j * n + i) (d * n + c)) (mg B (d * n + c) (b * n + a))) (rho a b))))))
        by (intros b Hb; apply (@Sg_swap RField)).
      rewrite (@Sg_swap RField). apply Sg_ext. intros d Hd.
      rewrite (@Sg_ext RField n _ (fun b => Sg n (fun c => Sg n (fun a => cmul (cmul (mg A (j * n + i) (d * n + c)) (mg B (d * n + c) (b * n + a))) (rho a b)))))
        by (intros b Hb; apply (@Sg_swap RField)).
      apply (@Sg_swap RField).
    + apply Sg_ext. intros d Hd. apply Sg_ext. intros c Hc. rewrite csumn_mul_l. apply Sg_ext. intros b Hb. rewrite csumn_mul_l. apply Sg_ext. intros a Ha. cring.
Qed.
Lemma kd_join n j i b a : i < n -> a < n -> kd (S:=S) (j * n + i) (b * n + a) = cmul (kd (S:=S) j b) (kd (S:=S) i a).
Proof.
  intros Hi Ha. unfold kd. destruct (Nat.eqb_spec j b) as [->|N].
  - destruct (Nat.eqb_spec i a) as [->|N].
    + rewrite Nat.eqb_refl. cbn [s1 S]. tocplx. cring.
    + destruct (Nat.eqb_spec (b * n + i) (b * n + a)); [lia|]. tocplx. cring.
  - destruct (Nat.eqb_spec (j * n + i) (b * n + a)) as [E|E]; [|tocplx; cring]. destruct (@join_inj j i b a n Hi Ha E). contradiction.
Qed.
Lemma app_mid n rho i j : i < n -> j < n -> app n (mid (S:=RS) (n * n)) rho i j = rho i j.
Proof.
  intros Hi Hj. unfold apply_super.
  rewrite (@Sg_ext RField n _ (fun b => cmul (kd (S:=S) j b) (rho i b))).
  - now rewrite (@Sg_kd_l RField n j (fun b => rho i b)).
  - intros b Hb. rewrite (@Sg_ext RField n _ (fun a => cmul (kd (S:=S) i a) (cmul (kd (S:=S) j b) (rho a b)))).
    + now rewrite (@Sg_kd_l RField n i (fun a => cmul (kd (S:=S) j b) (rho a b))).
    + intros a Ha. rewrite (@mg_mid S) by (now apply join_lt).
      assert (E : kd (S:=S) (j * n + i) (b * n + a) = cmul (kd (S:=S) j b) (kd (S:=S) i a)) by now apply kd_join.
      rewrite E. cring.
Qed.

(** ---- positivity ---- *)
Definition bil (n k : nat) (v v' : nat -> nat -> RC) (rho : nat -> nat -> nat -> nat -> RC) : RC :=
  Sg n (fun a => Sg k (fun x => Sg n (fun b => Sg k (fun y => cmul (cmul (cconj (v a x)) (rho a x b y)) (v' b y))))).
Lemma quad_ext n k v rho rho' : (forall a x b y, a < n -> x < k -> b < n -> y < k -> rho a x b y = rho' a x b y) -> quad n k v rho = quad n k v rho'.
Proof.
  intros H. unfold quad. apply Sg_ext. intros a Ha. apply Sg_ext. intros x Hx. apply Sg_ext. intros b Hb. apply Sg_ext. intros y Hy. now rewrite H.
Qed.
Lemma positive_ext n k rho rho' : (forall a x b y, a < n -> x < k -> b < n -> y < k -> rho a x b y = rho' a x b y) -> positive n k rho -> positive n k rho'.
Proof. intros H P v. specialize (P v). now rewrite (@quad_ext n k v rho rho' H) in P. Qed.
(** (A rho)_{ib} = sum_a A_ia rho_ab *)
Lemma bil_left n k v v' (A : nat -> nat -> RC) rho :
  bil n k v v' (fun i x b y => Sg n (fun a => cmul (A i a) (rho a x b y))) = bil n k (fun a x => Sg n (fun i => cmul (cconj (A i a)) (v i x))) v' rho.
Proof.
  pose (r := fun a x => Sg n (fun b => Sg k (fun y => cmul (rho a x b y) (v' b y)))).
  transitivity (Sg n (fun i => Sg k (fun x => Sg n (fun a => cmul (cmul (cconj (v i x)) (A i a)) (r a x))))).
  - unfold bil, r. apply Sg_ext. intros i Hi. apply Sg_ext. intros x Hx.
    transitivity (Sg n (fun b => Sg k (fun y => Sg n (fun a => cmul (cmul (cconj (v i x)) (A i a)) (cmul (rho a x b y) (v' b y)))))).
    + apply Sg_ext. intros b Hb. apply Sg_ext. intros y Hy. rewrite csumn_mul_l, csumn_mul_r. apply Sg_ext. intros a Ha. cring.
    + rewrite (@Sg_ext RField n _ (fun b => Sg n (fun a => Sg k (fun y => cmul (cmul (cconj (v i x)) (A i a)) (cmul (rho a x b y) (v' b y)))))) by (intros b Hb; apply (@Sg_swap RField)).
      rewrite (@Sg_swap RField). apply Sg_ext. intros a Ha. rewrite csumn_mul_l. apply Sg_ext. intros b Hb. now rewrite csumn_mul_l.
  - transitivity (Sg n (fun a => Sg k (fun x => Sg n (fun i => cmul (cmul (cconj (v i x)) (A i a)) (r a x))))).
    + rewrite (@Sg_ext RField n _ (fun i => Sg n (fun a => Sg k (fun x => cmul (cmul (cconj (v i x)) (A i a)) (r a x))))) by (intros i Hi; apply (@Sg_swap RField)).
      rewrite (@Sg_swap RField). apply Sg_ext. intros a Ha. apply (@Sg_swap RField).
    + unfold bil. apply Sg_ext. intros a Ha. apply Sg_ext. intros x Hx. rewrite <- csumn_mul_r.
      transitivity (cmul (cconj (Sg n (fun i => cmul (cconj (A i a)) (v i x)))) (r a x)).
      * f_equal. rewrite csumn_conj. apply Sg_ext. intros i Hi. rewrite cconj_mul, cconj_cconj. cring.
      * unfold r. rewrite csumn_mul_l. apply Sg_ext. intros b Hb. rewrite csumn_mul_l. apply Sg_ext. intros y Hy. cring.
Qed.
(** (rho A^+)_{aj} = sum_b rho_ab conj(A_jb) *)
Lemma bil_right n k v v' (A : nat -> nat -> RC) rho :
  bil n k v v' (fun a x j y => Sg n (fun b => cmul (rho a x b y) (cconj (A j b)))) = bil n k v (fun b y => Sg n (fun j => cmul (cconj (A j b)) (v' j y))) rho.
Proof.
  unfold bil. apply Sg_ext. intros a Ha. apply Sg_ext. intros x Hx.
  transitivity (Sg n (fun j => Sg k (fun y => Sg n (fun b => cmul (cmul (cconj (v a x)) (rho a x b y)) (cmul (cconj (A j b)) (v' j y)))))).
  - apply Sg_ext. intros j Hj. apply Sg_ext. intros y Hy. rewrite csumn_mul_l, csumn_mul_r. apply Sg_ext. intros b Hb. cring.
  - rewrite (@Sg_ext RField n _ (fun j => Sg n (fun b => Sg k (fun y => cmul (cmul (cconj (v a x)) (rho a x b y)) (cmul (cconj (A j b)) (v' j y)))))) by (intros j Hj; apply (@Sg_swap RField)).
    rewrite (@Sg_swap RField). apply Sg_ext. intros b Hb. rewrite (@Sg_swap RField). apply Sg_ext. intros y Hy. rewrite csumn_mul_l. reflexivity.
Qed.
(** A rho A^+ *)
Definition sandwich n (A : nat -> nat -> RC) (rho : nat -> nat -> RC) (i j : nat) : RC := Sg n (fun b => cmul (Sg n (fun a => cmul (A i a) (rho a b))) (cconj (A j b))).
Definition onfirst (f : (nat -> nat -> RC) -> nat -> nat -> RC) (rho : nat -> nat -> nat -> nat -> RC) (i x j y : nat) : RC := f (fun a b => rho a x b y) i j.
Lemma positive_sandwich n k A rho : positive n k rho -> positive n k (onfirst (sandwich n A) rho).
Proof.
  intros P v. specialize (P (fun a x => Sg n (fun i => cmul (cconj (A i a)) (v i x)))).
  assert (E : quad n k v (onfirst (sandwich n A) rho) = quad n k (fun a x => Sg n (fun i => cmul (cconj (A i a)) (v i x))) rho).
  { transitivity (bil n k v (fun b y => Sg n (fun j => cmul (cconj (A j b)) (v j y))) (fun i x b y => Sg n (fun a => cmul (A i a) (rho a x b y)))).
    - exact (@bil_right n k v v A (fun i x b y => Sg n (fun a => cmul (A i a) (rho a x b y)))).
    - apply bil_left. }
  now rewrite E.
Qed.
Lemma quad_add n k v rho rho' : quad n k v (fun a x b y => cadd (rho a x b y) (rho' a x b y)) = cadd (quad n k v rho) (quad n k v rho').
Proof.
  unfold quad. rewrite csumn_add. apply Sg_ext. intros a Ha. rewrite csumn_add. apply Sg_ext. intros x Hx. rewrite csumn_add. apply Sg_ext. intros b Hb. rewrite csumn_add. apply Sg_ext. intros y Hy. cring.
Qed.
Lemma quad_scale n k v c rho : quad n k v (fun a x b y => cmul c (rho a x b y)) = cmul c (quad n k v rho).
Proof.
  unfold quad. rewrite csumn_mul_l. apply Sg_ext. intros a Ha. rewrite csumn_mul_l. apply Sg_ext. intros x Hx. rewrite csumn_mul_l. apply Sg_ext. intros b Hb. rewrite csumn_mul_l. apply Sg_ext. intros y Hy. cring.
Qed.
Lemma positive_add n k rho rho' : positive n k rho -> positive n k rho' -> positive n k (fun a x b y => cadd (rho a x b y) (rho' a x b y)).
Proof.
  intros P P' v. rewrite quad_add. destruct (P v) as [H1 H2]. destruct (P' v) as [H3 H4]. set (z := quad n k v rho) in *. set (z' := quad n k v rho') in *. clearbody z z'.
  unfold cadd, cre, cim in *. cbn [fst snd]. change (@kadd RField) with Rplus. change (kcar RField) with R in *. split; lra.
Qed.
Lemma positive_scale n k (c : R) rho : (0 <= c)%R -> positive n k rho -> positive n k (fun a x b y => cmul (cofk (c : RField)) (rho a x b y)).
Proof.
  intros Hc P v. rewrite quad_scale. destruct (P v) as [H1 H2]. set (z := quad n k v rho) in *. clearbody z. unfold cmul, cofk, cre, cim in *. cbn [fst snd].
  change (@kadd RField) with Rplus. change (@kmul RField) with Rmult. change (@ksub RField) with Rminus. change (@k0 RField) with 0%R. change (kcar RField) with R in *. rewrite H1. split; [rring|].
  change (0 <= c * fst z - 0 * 0)%R. pose proof (Rmult_le_pos _ _ Hc H2) as Q. eapply Rle_trans; [exact Q|]. right. rring.
Qed.
Lemma positive_0 n k : positive n k (fun _ _ _ _ => c0).
Proof.
  intros v. assert (E : quad n k v (fun _ _ _ _ => c0) = c0).
  { unfold quad. apply (@Sg_0 RField). intros a _. apply (@Sg_0 RField). intros x _. apply (@Sg_0 RField). intros b _. apply (@Sg_0 RField). intros y _. cring. }
  rewrite E. cbn. split; [reflexivity|]. apply Rle_refl.
Qed.
Lemma positive_sum n k m (f : nat -> nat -> nat -> nat -> nat -> RC) : (forall l, l < m -> positive n k (f l)) -> positive n k (fun a x b y => Sg m (fun l => f l a x b y)).
Proof.
  induction m; intros H; [apply positive_0|]. cbn [sumn]. apply (@positive_add n k (fun a x b y => Sg m (fun l => f l a x b y)) (f m)); auto.
Qed.

(** ---- the master equation: K rho + rho K^+ + sum_k w_k L_k rho L_k^+ ---- *)
Definition half : RC := cofk (kdiv k1 (kofnat 2) : RField).
Lemma conj_real (x : R) : cconj (cofk (x : RField)) = cofk (x : RField).
Proof. apply cofk_conj. Qed.
Definition Kop n (H : nat -> nat -> RC) (Ls : list op) (w : nat -> R) (i j : nat) : RC :=
  csub (cmul (copp ci) (H i j)) (cmul half (Sg (length Ls) (fun k => cmul (cofk (w k : RField)) (number_op (F:=RField) n (nth k Ls dop) i j)))).
Lemma Kop_conj n H Ls w i j : hermitian_fun (F:=RField) n H -> i < n -> j < n ->
  cconj (Kop n H Ls w j i) = csub (cmul ci (H i j)) (cmul half (Sg (length Ls) (fun k => cmul (cofk (w k : RField)) (number_op (F:=RField) n (nth k Ls dop) i j)))).
Proof.
  intros HH Hi Hj. unfold Kop.
  assert (E : forall x y : RC, cconj (csub x y) = csub (cconj x) (cconj y)) by (intros [x1 x2] [y1 y2]; unfold csub, cconj, cre, cim; cbn; apply (f_equal2 pair); rring).
  rewrite E, !cconj_mul. rewrite csumn_conj. unfold half at 1. rewrite cofk_conj. fold half. f_equal.
  - rewrite <- (HH j i) by auto. f_equal. unfold ci, copp, cconj, cre, cim. cbn. apply (f_equal2 pair); rring.
  - f_equal. apply Sg_ext. intros k Hk. rewrite cconj_mul, cofk_conj. now rewrite number_conj.
Qed.
Lemma master_split n H (Ls : list op) (w : nat -> R) rho i j : hermitian_fun (F:=RField) n H -> i < n -> j < n ->
  master (F:=RField) n H Ls w rho i j =
  cadd (cadd (Sg n (fun a => cmul (Kop n H Ls w i a) (rho a j))) (Sg n (fun b => cmul (rho i b) (cconj (Kop n H Ls w j b)))))
    (Sg (length Ls) (fun k => cmul (cofk (w k : RField)) (sandwich n (mg (nth k Ls dop)) rho i j))).
Proof.
  intros HH Hi Hj. unfold master, commutation, dissipation. fold half.
  set (N := fun k => number_op (F:=RField) n (nth k Ls dop)).
  assert (E1 : Sg n (fun a => cmul (Kop n H Ls w i a) (rho a j)) = csub (cmul (copp ci) (Sg n (fun a => cmul (H i a) (rho a j))))
     (Sg (length Ls) (fun k => cmul (cofk (w k : RField)) (cmul half (Sg n (fun a => cmul (N k i a) (rho a j))))))).
  { rewrite (csumn_mul_l n). 
    assert (E : Sg (length Ls) (fun k => cmul (cofk (w k : RField)) (cmul half (Sg n (fun a => cmul (N k i a) (rho a j))))) =
       Sg n (fun a => Sg (length Ls) (fun k => cmul (cmul half (cmul (cofk (w k : RField)) (N k i a))) (rho a j)))).
    { rewrite (@Sg_swap RField). apply Sg_ext. intros k Hk. rewrite csumn_mul_l, csumn_mul_l. apply Sg_ext. intros a Ha. cring. }
    rewrite E. rewrite csumn_sub. apply Sg_ext. intros a Ha. unfold Kop. rewrite <- (csumn_mul_r (length Ls)), <- (csumn_mul_l (length Ls)). set (D := Sg (length Ls) (fun i0 : nat => cmul (cofk (w i0 : RField)) (N i0 i a))).
    change (Sg (length Ls) (fun k : nat => cmul (cofk (w k:RField)) (number_op n (nth k Ls dop) i a))) with D. cring. }
  assert (E2 : Sg n (fun b => cmul (rho i b) (cconj (Kop n H Ls w j b))) = csub (cmul ci (Sg n (fun b => cmul (rho i b) (H b j))))
     (Sg (length Ls) (fun k => cmul (cofk (w k : RField)) (cmul half (Sg n (fun b => cmul (rho i b) (N k b j))))))).
  { rewrite (csumn_mul_l n). 
    assert (E : Sg (length Ls) (fun k => cmul (cofk (w k : RField)) (cmul half (Sg n (fun b => cmul (rho i b) (N k b j))))) =
       Sg n (fun b => Sg (length Ls) (fun k => cmul (cmul half (cmul (cofk (w k : RField)) (N k b j))) (rho i b)))).
    { rewrite (@Sg_swap RField). apply Sg_ext. intros k Hk. rewrite csumn_mul_l, csumn_mul_l. apply Sg_ext. intros a Ha. cring. }
    rewrite E. rewrite csumn_sub. apply Sg_ext. intros b Hb. rewrite Kop_conj by auto. rewrite <- (csumn_mul_r (length Ls)), <- (csumn_mul_l (length Ls)). set (D := Sg (length Ls) (fun i0 : nat => cmul (cofk (w i0 : RField)) (N i0 b j))).
    change (Sg (length Ls) (fun k : nat => cmul (cofk (w k:RField)) (number_op n (nth k Ls dop) b j))) with D. cring. }
  rewrite E1, E2.
  assert (E3 : Sg (length Ls) (fun k => cmul (cofk (w k : RField)) (csub (Sg n (fun b => Sg n (fun a => cmul (cmul (mg (nth k Ls dop) i a) (rho a b)) (cconj (mg (nth k Ls dop) j b)))))
      (cmul half (cadd (Sg n (fun a => cmul (N k i a) (rho a j))) (Sg n (fun b => cmul (rho i b) (N k b j))))))) =
    csub (csub (Sg (length Ls) (fun k => cmul (cofk (w k : RField)) (sandwich n (mg (nth k Ls dop)) rho i j)))
       (Sg (length Ls) (fun k => cmul (cofk (w k : RField)) (cmul half (Sg n (fun a => cmul (N k i a) (rho a j)))))))
       (Sg (length Ls) (fun k => cmul (cofk (w k : RField)) (cmul half (Sg n (fun b => cmul (rho i b) (N k b j))))))).
  { rewrite csumn_sub, csumn_sub. apply Sg_ext. intros k Hk.
    assert (E4 : sandwich n (mg (nth k Ls dop)) rho i j = Sg n (fun b => Sg n (fun a => cmul (cmul (mg (nth k Ls dop) i a) (rho a b)) (cconj (mg (nth k Ls dop) j b))))).
    { unfold sandwich. apply Sg_ext. intros b Hb. apply csumn_mul_r. }
    rewrite E4. cring. }
  etransitivity; [apply f_equal; exact E3|]. cring.
Qed.
(** one step of length h *)
Lemma step_split n H (Ls : list op) (w : nat -> R) (h : R) rho i j : hermitian_fun (F:=RField) n H -> i < n -> j < n ->
  cadd (rho i j) (cadd (cmul (cofk (h : RField)) (master (F:=RField) n H Ls w rho i j)) (cmul (cmul (cofk (h : RField)) (cofk (h : RField))) (sandwich n (Kop n H Ls w) rho i j))) =
  cadd (sandwich n (fun i a => cadd (kd (S:=S) i a) (cmul (cofk (h : RField)) (Kop n H Ls w i a))) rho i j)
       (Sg (length Ls) (fun k => cmul (cofk (h : RField)) (cmul (cofk (w k : RField)) (sandwich n (mg (nth k Ls dop)) rho i j)))).
Proof.
  intros HH Hi Hj. rewrite (@master_split n H Ls w rho i j HH Hi Hj). rewrite <- (csumn_mul_l (length Ls)). set (K := Kop n H Ls w). set (c := cofk (h : RField)).
  assert (Ec : cconj c = c) by apply cofk_conj.
  assert (E : sandwich n (fun i a => cadd (kd (S:=S) i a) (cmul c (K i a))) rho i j =
    cadd (cadd (rho i j) (cmul c (Sg n (fun a => cmul (K i a) (rho a j))))) (cadd (cmul c (Sg n (fun b => cmul (rho i b) (cconj (K j b))))) (cmul (cmul c c) (sandwich n K rho i j)))).
  { unfold sandwich.
    transitivity (Sg n (fun b => cadd (cmul (kd (S:=S) j b) (cadd (rho i b) (cmul c (Sg n (fun a => cmul (K i a) (rho a b))))))
       (cadd (cmul c (cmul (rho i b) (cconj (K j b)))) (cmul (cmul c c) (cmul (Sg n (fun a => cmul (K i a) (rho a b))) (cconj (K j b))))))).
    - apply Sg_ext. intros b Hb.
      assert (E1 : Sg n (fun a => cmul (cadd (kd (S:=S) i a) (cmul c (K i a))) (rho a b)) = cadd (rho i b) (cmul c (Sg n (fun a => cmul (K i a) (rho a b))))).
      { rewrite <- (@Sg_kd_l RField n i (fun a => rho a b) Hi) at 1. rewrite csumn_mul_l, csumn_add. apply Sg_ext. intros a Ha. cring. }
      rewrite E1. rewrite cconj_add, cconj_mul, Ec. assert (Ek : cconj (kd (S:=S) j b) = kd (S:=S) j b) by apply (@kd_conj S). rewrite Ek. cring.
    - rewrite <- csumn_add. rewrite (@Sg_kd_l RField n j (fun b => cadd (rho i b) (cmul c (Sg n (fun a => cmul (K i a) (rho a b)))))) by auto.
      rewrite <- csumn_add, <- csumn_mul_l, <- csumn_mul_l. reflexivity. }
  rewrite E. cring.
Qed.
End Channel.

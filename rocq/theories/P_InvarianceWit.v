(** Concrete evolutions for C79: spins with a drift and one control, two time steps, exact expm. *)
Require Import List Arith Lia Bool Reals Lra.
From Verif Require Import LibBase LibRing LibArr LibCplx LibMat LibNorm LibDeriv M_Matrix S_Linear S_Deriv S_Exp P_Linear P_Matrix P_Frechet P_Mexp P_Mexp2 P_Total M_OpHeap M_Transfer S_Transfer M_Amplitude S_Amplitude P_Transfer P_Amplitude M_Solver S_Solver M_Cost S_Cost S_CostGrad M_Simulator M_CostProg S_Simulator S_Gradient P_Loops P_Cost P_Grad P_GradTotal P_GradTotal2 P_GradSim P_GradWit S_Invariance P_Invariance P_Invariance2.
Import ListNotations.
Local Open Scope res_scope.
Set Implicit Arguments.

Section Wit.
Notation op := (op RField).
Notation st := (@st RField).
Variable rexp : R -> R.

Definition ibuild (drift ctrl : list op) (tau : list R) (init : op) : res st :=
  build_solver (F:=RField) CSchroedinger drift ctrl tau (Some init) None Frechet false false GNone (mk_identity (F:=RField) 1) AIdentity None.
Definition isolver drift ctrl tau init : st :=
  match ibuild drift ctrl tau init with
  | Ok s => s
  | Err _ => mkst (mkconf CSchroedinger [] (Arr [] []) Frechet false false GNone AIdentity) [] (mk_identity (F:=RField) 0) [] None None None false false (k_none (F:=RField)) (n_none (F:=RField)) (mkl None None) None
  end.
(** the solver after set_optimization_parameters(y) *)
Definition iset (s0 : st) (y : RA) : st := fst (sstep (F:=RField) rexp wla c0 s0 (SSet (F:=RField) y)).

(** one control, amplitudes l *)
Definition ipulse (l : list R) : RA := mk2 (length l) 1 (fun t _ => nth t l 0%R).
Notation arr2 n h := (mk2 n n (h : nat -> nat -> RC) : op).
(** the solver after one pulse *)
Notation ievo n hs c tau i l := (iset (isolver (map (fun h : nat -> nat -> RC => arr2 n h) hs) [arr2 n c] tau (mk2 n 2 i : op)) (ipulse l)).

Lemma isolver_built drift ctrl tau init s : ibuild drift ctrl tau init = Ok s -> isolver drift ctrl tau init = s /\ constructed (F:=RField) (DId 1) s.
Proof.
  intros H. unfold isolver. rewrite H. split; [reflexivity|]. split; [exact I|].
  exists CSchroedinger, drift, ctrl, tau, (Some init), None, Frechet, false, false, GNone, (mk_identity (F:=RField) 1), AIdentity, None. split; [reflexivity|exact H].
Qed.
Lemma frechet_good (c : @sconf RField) : c_meth c = Frechet -> c_calc c = false -> c_approx c = GNone -> c_class c = CSchroedinger -> c_ctrl c <> [] -> good wla c0 c.
Proof.
  destruct c as [cl ct ii me sk ca ap am]. cbn. intros -> -> -> -> N. constructor.
  - exact I.
  - intros A D E X t. cbn [c_meth]. unfold op_dexp, op_exp. destruct (Nat.eqb (nr A) (nc A)); cbn [andb negb]; [|discriminate].
    destruct (Nat.eqb (nr D) (nr A) && Nat.eqb (nc D) (nc A)); cbn [negb]; [|discriminate]. intros H. apply (f_equal (fun r => match r with Ok p => Ok (fst p) | Err e => Err e end)) in H. exact H.
  - exact N.
  - discriminate.
Qed.
Lemma make_evolution (hs : list (nat -> nat -> RC)) (c : nat -> nat -> RC) drift ctrl tau init (y : RA) s n k u ps x : ibuild drift ctrl tau init = Ok s -> init = mk2 n k (fun i j => mg init i j) ->
  s_conf s = mkconf CSchroedinger [arr2 n c] init Frechet false false GNone AIdentity -> s_drift s = map (fun h : nat -> nat -> RC => arr2 n h) hs -> length (s_drift s) = length (s_time s) -> s_time s <> [] ->
  snd (call (F:=RField) rexp (s_tf s) y) = Ok x -> snd (sstep (F:=RField) rexp wla c0 s (SSet (F:=RField) y)) = Ok VUnit ->
  s_conf (iset s y) = s_conf s -> s_drift (iset s y) = s_drift s -> s_time (iset s y) = s_time s -> amplitudes (F:=RField) (iset s y) u ->
  returns (F:=RField) rexp wla c0 (iset s y) SPropag (VProp ps) ->
  exists ps fs, evolution rexp wla c0 (iset (isolver drift ctrl tau init) y) n k u ps fs.
Proof.
  intros H EI EC ED LD NT HX Y F1 F2 F3 HA HP.
  assert (WI : is_matrix (S:=RS) n k init) by (rewrite EI; apply is_matrix_wfm, wfm_mk2).
  assert (HH : square_hamiltonians (F:=RField) n s).
  { split; [rewrite ED|rewrite EC; constructor; [apply is_matrix_wfm, wfm_mk2|constructor]]. apply Forall_forall. intros z Hz. apply in_map_iff in Hz. destruct Hz as (h & <- & _). apply is_matrix_wfm, wfm_mk2. }
  assert (G : good wla c0 (s_conf s)) by (rewrite EC; apply frechet_good; (reflexivity || discriminate)).
  assert (HM : c_meth (s_conf s) = Frechet) by now rewrite EC.
  destruct (@frechet_exact wla c0 n s (wla_exact n) HM HH) as [EX AN].
  destruct (isolver_built _ _ _ _ H) as [-> HC].
  assert (OP : optimised wla c0 (DId 1) tau s n k).
  { constructor; auto; try exact I; try (rewrite EC; (reflexivity || exact I || exact WI)).
    all: match goal with |- 0 < _ => cbn; lia | _ => idtac end.
    split; [exact I|]. exists CSchroedinger, drift, ctrl, (Some init), None, Frechet, false, false, GNone, (mk_identity (F:=RField) 1), AIdentity, None. split; [reflexivity|exact H]. }
  assert (WP : with_pulse (F:=RField) rexp wla c0 s y (iset s y)).
  { unfold with_pulse, iset. destruct (sstep (F:=RField) rexp wla c0 s (SSet (F:=RField) y)). cbn [fst snd] in *. now rewrite Y. }
  destruct (@reads_total rexp wla c0 (DId 1) tau s n k (iset s y) y OP ltac:(now rewrite EC) AN LD NT WP) as ((fs & HF) & _).
  exists ps, fs. constructor; auto.
  - exists (DId 1), s. split; [exact HC|]. split; [exact G|]. exists [SSet (F:=RField) y]. split; [constructor; [right; now exists y|constructor]|]. split; [|reflexivity].
    split; [now exists VUnit|exact I].
  - rewrite F1, EC. exact I.
  - destruct HH. split; [now rewrite F2|now rewrite F1].
  - rewrite F1, EC. exact WI.
  - intros t tau' v GG E Ht HG HE. rewrite F3 in Ht. rewrite F1, F2 in HG. rewrite F1 in HE. exact (proj1 (EX t tau' v GG Ht HG) E HE).
Qed.
Lemma mk2_self n k (h : nat -> nat -> RC) : (mk2 n k h : op) = mk2 n k (fun i j => mg (mk2 n k h : op) i j).
Proof. apply (@mat_ext RS n k); try apply wfm_mk2. intros i j Hi Hj. now rewrite !mg_mk2 by auto. Qed.
Ltac evo hs c := eapply (@make_evolution hs c);
  [reflexivity|apply mk2_self|reflexivity|reflexivity|reflexivity|discriminate|reflexivity|reflexivity|reflexivity|reflexivity|reflexivity|split; reflexivity|reflexivity].

(** two levels, two time steps with drifts h0 and h1 *)
Lemma evo2 h0 h1 c i (t0 t1 a b : R) : exists ps fs, evolution rexp wla c0 (ievo 2 [h0; h1] c [t0; t1] i [a; b]) 2 2 (ipulse [a; b]) ps fs.
Proof. evo [h0; h1] c. Qed.
Lemma evo3 h0 h1 c i (t0 t1 a b : R) : exists ps fs, evolution rexp wla c0 (ievo 3 [h0; h1] c [t0; t1] i [a; b]) 3 2 (ipulse [a; b]) ps fs.
Proof. evo [h0; h1] c. Qed.
Lemma evo2_three h0 h1 h2 c i (t0 t1 t2 a b d : R) : exists ps fs, evolution rexp wla c0 (ievo 2 [h0; h1; h2] c [t0; t1; t2] i [a; b; d]) 2 2 (ipulse [a; b; d]) ps fs.
Proof. evo [h0; h1; h2] c. Qed.
Lemma evo2_four h0 h1 h2 h3 c i (t0 t1 t2 t3 a b d e : R) : exists ps fs, evolution rexp wla c0 (ievo 2 [h0; h1; h2; h3] c [t0; t1; t2; t3] i [a; b; d; e]) 2 2 (ipulse [a; b; d; e]) ps fs.
Proof. evo [h0; h1; h2; h3] c. Qed.

(** what these solvers contain *)
Lemma kdivn_1 (x : R) : kdivn (F:=RField) x 1 = x.
Proof. unfold kdivn. cbn. field. Qed.
Ltac ptime := match goal with |- _ = ?l => transitivity (map (fun x : R => kdivn (F:=RField) x 1) l : list R); [reflexivity|cbn [map]; rewrite !kdivn_1; reflexivity] end.
Lemma parts2 h0 h1 c i (t0 t1 a b : R) : let s := ievo 2 [h0; h1] c [t0; t1] i [a; b] in s_drift s = [arr2 2 h0; arr2 2 h1] /\ c_ctrl (s_conf s) = [arr2 2 c] /\ s_time s = [t0; t1] /\ c_init (s_conf s) = mk2 2 2 i.
Proof. cbv zeta. split; [reflexivity|]. split; [reflexivity|]. split; [|reflexivity]. ptime. Qed.
Lemma parts3 h0 h1 c i (t0 t1 a b : R) : let s := ievo 3 [h0; h1] c [t0; t1] i [a; b] in s_drift s = [arr2 3 h0; arr2 3 h1] /\ c_ctrl (s_conf s) = [arr2 3 c] /\ s_time s = [t0; t1] /\ c_init (s_conf s) = mk2 3 2 i.
Proof. cbv zeta. split; [reflexivity|]. split; [reflexivity|]. split; [|reflexivity]. ptime. Qed.
Lemma parts2_three h0 h1 h2 c i (t0 t1 t2 a b d : R) : let s := ievo 2 [h0; h1; h2] c [t0; t1; t2] i [a; b; d] in
  s_drift s = [arr2 2 h0; arr2 2 h1; arr2 2 h2] /\ c_ctrl (s_conf s) = [arr2 2 c] /\ s_time s = [t0; t1; t2] /\ c_init (s_conf s) = mk2 2 2 i.
Proof. cbv zeta. split; [reflexivity|]. split; [reflexivity|]. split; [|reflexivity]. ptime. Qed.
Lemma parts2_four h0 h1 h2 h3 c i (t0 t1 t2 t3 a b d e : R) : let s := ievo 2 [h0; h1; h2; h3] c [t0; t1; t2; t3] i [a; b; d; e] in
  s_drift s = [arr2 2 h0; arr2 2 h1; arr2 2 h2; arr2 2 h3] /\ c_ctrl (s_conf s) = [arr2 2 c] /\ s_time s = [t0; t1; t2; t3] /\ c_init (s_conf s) = mk2 2 2 i.
Proof. cbv zeta. split; [reflexivity|]. split; [reflexivity|]. split; [|reflexivity]. ptime. Qed.

(** ---- pairs of evolutions ---- *)
Add Field Cfield_invw : (c_field RField).
Definition hz (i j : nat) : RC := if Nat.eqb i j then (if Nat.eqb i 0 then c1 else copp c1) else c0.
Definition hx (i j : nat) : RC := if Nat.eqb i j then c0 else c1.
Definition hone (i j : nat) : RC := if Nat.eqb i j then c1 else c0.
(** a third level of energy 5 *)
Definition emb (h : nat -> nat -> RC) (i j : nat) : RC := if Nat.ltb i 2 && Nat.ltb j 2 then h i j else if Nat.eqb i j then ((5, 0)%R : RC) else c0.
Definition emb_v : mat RS := mk2 3 2 hone.
(** the third level counts twice *)
Definition weight : mat RS := mk2 3 3 (fun i j => if Nat.eqb i j then (if Nat.eqb i 2 then ((2, 0)%R : RC) else c1) else c0).
Definition scaled (e : R) (h : nat -> nat -> RC) (i j : nat) : RC := cmul (cofk (e : RField)) (h i j).
Definition raised (e : R) (h : nat -> nat -> RC) (i j : nat) : RC := cadd (h i j) (scaled e hone i j).
(** exchange of the two levels *)
Definition swapped (h : nat -> nat -> RC) (i j : nat) : RC := h (1 - i) (1 - j).
Ltac lv2 t := destruct t as [|[|?]]; try (exfalso; cbn in *; lia).
Ltac lv3 t := destruct t as [|[|[|?]]]; try (exfalso; cbn in *; lia).
Ltac entries := cbn [nth sumn]; unfold emb_v, weight; rewrite ?mg_mk2 by (cbn; lia); unfold scaled, raised, swapped, emb, hz, hx, hone, delta; cbn; unfold cadd, cmul, cofk, copp, c0, c1; cbn; try (f_equal; (ring || field)).

(** qubit, time steps of length 1 and 2 with drifts sigma_z and sigma_x, control sigma_x with amplitudes 1 and 3 *)
Definition s_base : st := ievo 2 [hz; hx] hx [1; 2]%R hone [1; 3]%R.
Definition s_emb : st := ievo 3 [emb hz; emb hx] (emb hx) [1; 2]%R hone [1; 3]%R.
Definition s_raised : st := ievo 2 [raised 1 hz; raised 5 hx] hx [1; 2]%R hone [1; 3]%R.
Definition s_units : st := ievo 2 [scaled (/2) hz; scaled (/2) hx] (scaled (/6) hx) [2 * 1; 2 * 2]%R hone [3 * 1; 3 * 3]%R.
Definition s_parts : st := ievo 2 [hz; hx; hx] hx [1; /2; 3/2]%R hone [1; 3; 3]%R.
Definition s_swap : st := ievo 2 [swapped hz; swapped hx] (swapped hx) [1; 2]%R hone [1; 3]%R.
(** another initial state: both levels in superposition, twice *)
Definition ones_ (i j : nat) : RC := c1.
Definition s_sup : st := ievo 2 [hz; hx] hx [1; 2]%R ones_ [1; 3]%R.
Definition upulse := ipulse [1; 3]%R.
(** started from the states in the columns of f *)
Definition s_back (f : op) : st := ievo 2 [scaled (-1) hx; scaled (-1) hz] hx [2; 1]%R (fun i j => mg f i j) [-(3); -(1)]%R.
Definition s_next (f : op) : st := ievo 2 [hx; hz] hx [3; 4]%R (fun i j => mg f i j) [2; 5]%R.
Definition s_long : st := ievo 2 [hz; hx; hx; hz] hx [1; 2; 3; 4]%R hone [1; 3; 2; 5]%R.

Notation with_parts n k s ds cs ts i := (s_drift s = ds /\ c_ctrl (s_conf s) = cs /\ s_time s = (ts : list R) /\ c_init (s_conf s) = (mk2 n k i : op)).
Lemma base_parts : with_parts 2 2 s_base [arr2 2 hz; arr2 2 hx] [arr2 2 hx] [1; 2]%R hone. Proof. apply parts2. Qed.
Lemma emb_parts : with_parts 3 2 s_emb [arr2 3 (emb hz); arr2 3 (emb hx)] [arr2 3 (emb hx)] [1; 2]%R hone. Proof. apply parts3. Qed.
Lemma raised_parts : with_parts 2 2 s_raised [arr2 2 (raised 1 hz); arr2 2 (raised 5 hx)] [arr2 2 hx] [1; 2]%R hone. Proof. apply parts2. Qed.
Lemma units_parts : with_parts 2 2 s_units [arr2 2 (scaled (/2) hz); arr2 2 (scaled (/2) hx)] [arr2 2 (scaled (/6) hx)] [2 * 1; 2 * 2]%R hone. Proof. apply parts2. Qed.
Lemma parts_parts : with_parts 2 2 s_parts [arr2 2 hz; arr2 2 hx; arr2 2 hx] [arr2 2 hx] [1; /2; 3/2]%R hone. Proof. apply parts2_three. Qed.
Lemma swap_parts : with_parts 2 2 s_swap [arr2 2 (swapped hz); arr2 2 (swapped hx)] [arr2 2 (swapped hx)] [1; 2]%R hone. Proof. apply parts2. Qed.
Lemma sup_parts : with_parts 2 2 s_sup [arr2 2 hz; arr2 2 hx] [arr2 2 hx] [1; 2]%R ones_. Proof. apply parts2. Qed.
Lemma back_parts f : with_parts 2 2 (s_back f) [arr2 2 (scaled (-1) hx); arr2 2 (scaled (-1) hz)] [arr2 2 hx] [2; 1]%R (fun i j => mg f i j). Proof. exact (parts2 (scaled (-1) hx) (scaled (-1) hz) hx (fun i j => mg f i j) 2 1 (-(3)) (-(1))). Qed.
Lemma next_parts f : with_parts 2 2 (s_next f) [arr2 2 hx; arr2 2 hz] [arr2 2 hx] [3; 4]%R (fun i j => mg f i j). Proof. exact (parts2 hx hz hx (fun i j => mg f i j) 3 4 2 5). Qed.
Lemma long_parts : with_parts 2 2 s_long [arr2 2 hz; arr2 2 hx; arr2 2 hx; arr2 2 hz] [arr2 2 hx] [1; 2; 3; 4]%R hone. Proof. apply parts2_four. Qed.
Ltac given P := let a := fresh in let b := fresh in let c := fresh in let d := fresh in destruct P as (a & b & c & d); rewrite ?a, ?b, ?c, ?d; clear a b c d.
Notation evolution := (evolution rexp wla c0).

Lemma base_evo : exists ps fs, evolution s_base 2 2 upulse ps fs. Proof. apply evo2. Qed.
Lemma case_intertwined : (exists ps fs, evolution s_base 2 2 upulse ps fs) /\ (exists ps' fs', evolution s_emb 3 2 upulse ps' fs') /\
  is_matrix (S:=RS) 3 2 emb_v /\ s_time s_base = s_time s_emb /\ length (c_ctrl (s_conf s_base)) = length (c_ctrl (s_conf s_emb)) /\
  (forall t, t < length (s_time s_base) -> carries 3 2 emb_v (Dr s_base t) (Dr s_emb t)) /\
  (forall c, c < length (c_ctrl (s_conf s_base)) -> carries 3 2 emb_v (Ct s_base c) (Ct s_emb c)) /\
  is_product (S:=RS) 3 2 2 emb_v (c_init (s_conf s_base)) (c_init (s_conf s_emb)).
Proof.
  split; [apply evo2|]. split; [apply evo3|]. given base_parts. given emb_parts.
  split; [apply is_matrix_wfm, wfm_mk2|]. split; [reflexivity|]. split; [reflexivity|]. split; [|split].
  - intros t Ht i j Hi Hj. lv2 t; lv3 i; lv2 j; entries.
  - intros c Hc i j Hi Hj. destruct c; [|cbn in Hc; lia]. lv3 i; lv2 j; entries.
  - split; [apply is_matrix_wfm, wfm_mk2|]. intros i j Hi Hj. lv3 i; lv2 j; entries.
Qed.
Lemma emb_herm h : is_hermitian (S:=RS) 2 (mk2 2 2 h) -> is_hermitian (S:=RS) 3 (mk2 3 3 (emb h)).
Proof.
  intros [_ H]. split; [apply is_matrix_wfm, wfm_mk2|]. intros i j Hi Hj. rewrite !mg_mk2 by auto. unfold emb. destruct (Nat.ltb_spec i 2), (Nat.ltb_spec j 2); cbn [andb].
  - specialize (H i j ltac:(auto) ltac:(auto)). now rewrite !mg_mk2 in H by auto.
  - lv2 i; lv3 j; cbn; unfold cconj, c0; cbn; f_equal; ring.
  - lv3 i; lv2 j; cbn; unfold cconj, c0; cbn; f_equal; ring.
  - lv3 i; lv3 j; cbn; unfold cconj; cbn; f_equal; ring.
Qed.
Lemma case_conserved : (exists ps fs, evolution s_emb 3 2 upulse ps fs) /\ is_matrix (S:=RS) 3 3 weight /\ length (s_drift s_emb) = length (s_time s_emb) /\
  Forall (is_hermitian (S:=RS) 3 : op -> Prop) (s_drift s_emb) /\ Forall (is_hermitian (S:=RS) 3 : op -> Prop) (c_ctrl (s_conf s_emb)) /\
  (forall t, t < length (s_time s_emb) -> carries 3 3 weight (Dr s_emb t) (Dr s_emb t)) /\
  (forall c, c < length (c_ctrl (s_conf s_emb)) -> carries 3 3 weight (Ct s_emb c) (Ct s_emb c)).
Proof.
  split; [apply evo3|]. given emb_parts. split; [apply is_matrix_wfm, wfm_mk2|]. split; [reflexivity|].
  assert (Z : is_hermitian (S:=RS) 3 (mk2 3 3 (emb hz))) by apply emb_herm, wsz_herm. assert (X : is_hermitian (S:=RS) 3 (mk2 3 3 (emb hx))) by apply emb_herm, wsx_herm.
  split; [exact (Forall_cons _ Z (Forall_cons _ X (Forall_nil _)))|]. split; [exact (Forall_cons _ X (Forall_nil _))|]. split.
  - intros t Ht i j Hi Hj. lv2 t; lv3 i; lv3 j; entries.
  - intros c Hc i j Hi Hj. destruct c; [|cbn in Hc; lia]. lv3 i; lv3 j; entries.
Qed.
Definition lift (t : nat) : R := nth t [1; 5]%R 0%R.
Lemma case_offset : (exists ps fs, evolution s_base 2 2 upulse ps fs) /\ (exists ps' fs', evolution s_raised 2 2 upulse ps' fs') /\
  s_time s_base = s_time s_raised /\ c_ctrl (s_conf s_base) = c_ctrl (s_conf s_raised) /\
  (forall t, t < length (s_time s_base) -> shifted 2 (lift t) (Dr s_base t) (Dr s_raised t)) /\ c_init (s_conf s_base) = c_init (s_conf s_raised).
Proof.
  split; [apply evo2|]. split; [apply evo2|]. given base_parts. given raised_parts. split; [reflexivity|]. split; [reflexivity|]. split; [|reflexivity].
  intros t Ht i j Hi Hj. unfold lift. lv2 t; lv2 i; lv2 j; entries.
Qed.
Lemma case_units : (exists ps fs, evolution s_base 2 2 upulse ps fs) /\ (exists ps' fs', evolution s_units 2 2 (ipulse [3 * 1; 3 * 3]%R) ps' fs') /\
  s_time s_units = map (fun x => 2 * x)%R (s_time s_base) /\ length (c_ctrl (s_conf s_base)) = length (c_ctrl (s_conf s_units)) /\
  (forall t c, t < length (s_time s_base) -> c < length (c_ctrl (s_conf s_base)) -> get2 0%R (ipulse [3 * 1; 3 * 3]%R) t c = (3 * get2 0 upulse t c)%R) /\
  (forall t, t < length (s_time s_base) -> rescaled 2 2 (Dr s_units t) (Dr s_base t)) /\
  (forall c, c < length (c_ctrl (s_conf s_base)) -> rescaled 2 (2 * 3) (Ct s_units c) (Ct s_base c)) /\ c_init (s_conf s_base) = c_init (s_conf s_units).
Proof.
  split; [apply evo2|]. split; [apply evo2|]. given base_parts. given units_parts. split; [reflexivity|]. split; [reflexivity|]. split; [|split; [|split; [|reflexivity]]].
  - intros t c Ht Hc. destruct c; [|cbn in Hc; lia]. lv2 t; reflexivity.
  - intros t Ht i j Hi Hj. lv2 t; lv2 i; lv2 j; entries.
  - intros c Hc i j Hi Hj. destruct c; [|cbn in Hc; lia]. lv2 i; lv2 j; entries.
Qed.
Definition place (t : nat) : nat := nth t [0; 1; 3] 0.
Lemma case_divided : (exists ps fs, evolution s_base 2 2 upulse ps fs) /\ (exists ps' fs', evolution s_parts 2 2 (ipulse [1; 3; 3]%R) ps' fs') /\
  c_ctrl (s_conf s_base) = c_ctrl (s_conf s_parts) /\ c_init (s_conf s_base) = c_init (s_conf s_parts) /\ place 0 = 0 /\ place (length (s_time s_base)) <= length (s_time s_parts) /\
  (forall t, t < length (s_time s_base) -> place t <= place (S t) /\ total (fun j => nth (place t + j) (s_time s_parts) 0%R) (place (S t) - place t) = nth t (s_time s_base) 0%R) /\
  (forall t j, t < length (s_time s_base) -> place t <= j < place (S t) -> same_row (length (c_ctrl (s_conf s_base))) upulse t (ipulse [1; 3; 3]%R) j /\ Dr s_base t = Dr s_parts j).
Proof.
  split; [apply evo2|]. split; [apply evo2_three|]. given base_parts. given parts_parts. split; [reflexivity|]. split; [reflexivity|]. split; [reflexivity|]. split; [cbn; lia|]. split.
  - intros t Ht. lv2 t; (split; [cbn; lia|cbn; lra]).
  - intros t j Ht Hj. lv2 t; cbn in Hj; (destruct j as [|[|[|j]]]; try lia); (split; [intros c Hc; destruct c; [reflexivity|cbn in Hc; lia]|reflexivity]).
Qed.
Lemma case_undone : exists ps fs f, evolution s_base 2 2 upulse ps fs /\ nth_error fs (length (s_time s_base)) = Some f /\
  (exists ps' fs', evolution (s_back f) 2 2 (ipulse [-(3); -(1)]%R) ps' fs') /\ s_time (s_back f) = rev (s_time s_base) /\ c_ctrl (s_conf s_base) = c_ctrl (s_conf (s_back f)) /\
  (forall t c, t < length (s_time s_base) -> c < length (c_ctrl (s_conf s_base)) -> get2 0%R (ipulse [-(3); -(1)]%R) t c = (- get2 0 upulse (length (s_time s_base) - 1 - t) c)%R) /\
  (forall t, t < length (s_time s_base) -> rescaled 2 (-1) (Dr s_base (length (s_time s_base) - 1 - t)) (Dr (s_back f) t)) /\
  nth_error fs (length (s_time s_base)) = Some (c_init (s_conf (s_back f))).
Proof.
  destruct base_evo as (ps & fs & E). destruct (steps E) as (_ & Lf & _ & WF & _).
  destruct (nth_error fs (length (s_time s_base))) as [f|] eqn:Ef; [|apply nth_error_None in Ef; lia]. pose proof (WF _ _ Ef) as Wf. exists ps, fs, f.
  split; [exact E|]. split; [exact Ef|]. split; [exact (evo2 (scaled (-1) hx) (scaled (-1) hz) hx (fun i j => mg f i j) 2 1 (-(3)) (-(1)))|].
  assert (EF : f = c_init (s_conf (s_back f))). { given (back_parts f). apply (@mat_ext RS 2 2); [exact Wf|apply wfm_mk2|]. intros i j Hi Hj. now rewrite mg_mk2 by auto. }
  split; [given base_parts; given (back_parts f); reflexivity|]. split; [given base_parts; given (back_parts f); reflexivity|]. split; [|split; [|now rewrite <- EF]].
  - given base_parts. intros t c Ht Hc. destruct c; [|cbn in Hc; lia]. lv2 t; reflexivity.
  - given base_parts. given (back_parts f). intros t Ht i j Hi Hj. lv2 t; lv2 i; lv2 j; entries.
Qed.
Lemma case_successive : exists ps1 fs1 f, evolution s_base 2 2 upulse ps1 fs1 /\ nth_error fs1 (length (s_time s_base)) = Some f /\
  (exists ps2 fs2, evolution (s_next f) 2 2 (ipulse [2; 5]%R) ps2 fs2) /\ (exists ps fs, evolution s_long 2 2 (ipulse [1; 3; 2; 5]%R) ps fs) /\
  s_time s_long = s_time s_base ++ s_time (s_next f) /\ c_ctrl (s_conf s_base) = c_ctrl (s_conf s_long) /\ c_ctrl (s_conf (s_next f)) = c_ctrl (s_conf s_long) /\
  (forall t, t < length (s_time s_base) -> same_row (length (c_ctrl (s_conf s_long))) upulse t (ipulse [1; 3; 2; 5]%R) t /\ Dr s_base t = Dr s_long t) /\
  (forall t, t < length (s_time (s_next f)) -> same_row (length (c_ctrl (s_conf s_long))) (ipulse [2; 5]%R) t (ipulse [1; 3; 2; 5]%R) (length (s_time s_base) + t) /\ Dr (s_next f) t = Dr s_long (length (s_time s_base) + t)) /\
  c_init (s_conf s_base) = c_init (s_conf s_long) /\ nth_error fs1 (length (s_time s_base)) = Some (c_init (s_conf (s_next f))).
Proof.
  destruct base_evo as (ps & fs & E). destruct (steps E) as (_ & Lf & _ & WF & _).
  destruct (nth_error fs (length (s_time s_base))) as [f|] eqn:Ef; [|apply nth_error_None in Ef; lia]. pose proof (WF _ _ Ef) as Wf. exists ps, fs, f.
  split; [exact E|]. split; [exact Ef|]. split; [exact (evo2 hx hz hx (fun i j => mg f i j) 3 4 2 5)|]. split; [apply evo2_four|].
  assert (EF : f = c_init (s_conf (s_next f))). { given (next_parts f). apply (@mat_ext RS 2 2); [exact Wf|apply wfm_mk2|]. intros i j Hi Hj. now rewrite mg_mk2 by auto. }
  rewrite Ef. rewrite <- EF. clear E Ef Lf WF Wf EF. given base_parts. given (next_parts f). given long_parts.
  split; [reflexivity|]. split; [reflexivity|]. split; [reflexivity|]. split; [|split; [|split; reflexivity]].
  - intros t Ht. lv2 t; (split; [intros c Hc; destruct c; [reflexivity|cbn in Hc; lia]|reflexivity]).
  - intros t Ht. lv2 t; (split; [intros c Hc; destruct c; [reflexivity|cbn in Hc; lia]|reflexivity]).
Qed.
Lemma case_initial : (exists ps fs, evolution s_base 2 2 upulse ps fs) /\ (exists ps' fs', evolution s_sup 2 2 upulse ps' fs') /\
  s_time s_base = s_time s_sup /\ c_ctrl (s_conf s_base) = c_ctrl (s_conf s_sup) /\ (forall t, t < length (s_time s_base) -> Dr s_base t = Dr s_sup t) /\
  is_product (S:=RS) 2 2 2 (c_init (s_conf s_base)) (mk2 2 2 ones_ : op) (c_init (s_conf s_sup)).
Proof.
  split; [apply evo2|]. split; [apply evo2|]. given base_parts. given sup_parts. split; [reflexivity|]. split; [reflexivity|]. split; [reflexivity|].
  split; [apply is_matrix_wfm, wfm_mk2|]. intros i j Hi Hj. unfold ones_. lv2 i; lv2 j; entries.
Qed.
Lemma case_basis : (exists ps fs, evolution s_base 2 2 upulse ps fs) /\ (exists ps' fs', evolution s_swap 2 2 upulse ps' fs') /\ is_unitary (S:=RS) 2 (mk2 2 2 hx : op) /\
  s_time s_base = s_time s_swap /\ length (c_ctrl (s_conf s_base)) = length (c_ctrl (s_conf s_swap)) /\
  (forall t, t < length (s_time s_base) -> carries 2 2 (mk2 2 2 hx : op) (Dr s_base t) (Dr s_swap t)) /\
  (forall c, c < length (c_ctrl (s_conf s_base)) -> carries 2 2 (mk2 2 2 hx : op) (Ct s_base c) (Ct s_swap c)) /\
  carries 2 2 (mk2 2 2 hx : op) (c_init (s_conf s_base)) (c_init (s_conf s_swap)) /\ carries 2 2 (mk2 2 2 hx : op) (mk2 2 2 hz : op) (mk2 2 2 (swapped hz) : op).
Proof.
  split; [apply evo2|]. split; [apply evo2|]. given base_parts. given swap_parts. split; [|split; [reflexivity|split; [reflexivity|split; [|split; [|split]]]]].
  - split; [apply is_matrix_wfm, wfm_mk2|]. split; intros i j Hi Hj; lv2 i; lv2 j; entries.
  - intros t Ht i j Hi Hj. lv2 t; lv2 i; lv2 j; entries.
  - intros c Hc i j Hi Hj. destruct c; [|cbn in Hc; lia]. lv2 i; lv2 j; entries.
  - intros i j Hi Hj. lv2 i; lv2 j; entries.
  - intros i j Hi Hj. lv2 i; lv2 j; entries.
Qed.
(** one initial state *)
Definition s_ket (h0 h1 : nat -> nat -> RC) : st := iset (isolver (map (fun h : nat -> nat -> RC => arr2 2 h) [h0; h1]) [arr2 2 hx] [1; 2]%R (mk2 2 1 ones_ : op)) (ipulse [1; 3]%R).
Lemma ket_evo h0 h1 : exists ps fs, evolution (s_ket h0 h1) 2 1 upulse ps fs.
Proof. unfold s_ket, upulse. evo [h0; h1] hx. Qed.
Lemma ket_parts h0 h1 : with_parts 2 1 (s_ket h0 h1) [arr2 2 h0; arr2 2 h1] [arr2 2 hx] [1; 2]%R ones_.
Proof. split; [reflexivity|]. split; [reflexivity|]. split; [|reflexivity]. ptime. Qed.
Lemma case_offset_ket : (exists ps fs, evolution (s_ket hz hx) 2 1 upulse ps fs) /\ (exists ps' fs', evolution (s_ket (raised 1 hz) (raised 5 hx)) 2 1 upulse ps' fs') /\
  s_time (s_ket hz hx) = s_time (s_ket (raised 1 hz) (raised 5 hx)) /\ c_ctrl (s_conf (s_ket hz hx)) = c_ctrl (s_conf (s_ket (raised 1 hz) (raised 5 hx))) /\
  (forall t, t < length (s_time (s_ket hz hx)) -> shifted 2 (lift t) (Dr (s_ket hz hx) t) (Dr (s_ket (raised 1 hz) (raised 5 hx)) t)) /\
  c_init (s_conf (s_ket hz hx)) = c_init (s_conf (s_ket (raised 1 hz) (raised 5 hx))).
Proof.
  split; [apply ket_evo|]. split; [apply ket_evo|]. given (ket_parts hz hx). given (ket_parts (raised 1 hz) (raised 5 hx)). split; [reflexivity|]. split; [reflexivity|]. split; [|reflexivity].
  intros t Ht i j Hi Hj. unfold lift. lv2 t; lv2 i; lv2 j; entries.
Qed.
End Wit.

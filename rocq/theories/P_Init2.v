(** Proofs for C89, part 2: the constructors run the same way on values and on symbols; the classes of qopt. *)
Require Import List Arith Lia Bool String.
From Verif Require Import LibBase M_Init S_Init P_Init.
Import ListNotations.
Local Open Scope res_scope.
Local Open Scope string_scope.
Set Implicit Arguments.

(** ---- maps between values ---- *)
Section Natural.
Variables A B : Type.
Variables (oa : vops A) (ob : vops B) (f : A -> B).
Hypothesis F0 : f (v_none oa) = v_none ob.
Hypothesis FT : forall t, f (v_text oa t) = v_text ob t.
Hypothesis FO : forall v t, f (v_or oa v t) = v_or ob (f v) t.
Definition fm (l : list (string * A)) : list (string * B) := map (fun q => (fst q, f (snd q))) l.
Definition rm {X Y} (g : X -> Y) (r : res X) : res Y := match r with Ok x => Ok (g x) | Err e => Err e end.

Lemma assoc_fm p l : assoc p (fm l) = option_map f (assoc p l).
Proof. induction l as [|[k v] l IH]; cbn; [reflexivity|]. destruct (k =? p); [reflexivity|exact IH]. Qed.
Lemma has_fm p l : has p (fm l) = has p l.
Proof. unfold has. rewrite assoc_fm. now destruct (assoc p l). Qed.
Lemma eval_fm fr e : eval ob (fm fr) e = rm f (eval oa fr e).
Proof. destruct e; cbn; rewrite ?assoc_fm; try (destruct (assoc p fr); cbn; [now rewrite ?FO|reflexivity]); now rewrite ?F0, ?FT. Qed.
Lemma mapM_fm {X} (g : X -> res (string * A)) (h : X -> res (string * B)) (l : list X) :
  (forall x, h x = rm (fun q => (fst q, f (snd q))) (g x)) -> mapM h l = rm fm (mapM g l).
Proof. intros H. induction l as [|x l IH]; cbn; [reflexivity|]. rewrite H, IH. destruct (g x); cbn; [|reflexivity]. now destruct (mapM g l). Qed.
Lemma bind_fm sig args kws : bind_args ob sig (map f args) (fm kws) = rm fm (bind_args oa sig args kws).
Proof.
  unfold bind_args. rewrite map_length. destruct (List.length args <=? List.length sig)%nat; [|reflexivity].
  set (sa := fun (g : list (string * A)) (kv : string * A) => check existsb (fun q => fst q =? fst kv) sig else TypeError ;; check negb (has (fst kv) g) else TypeError ;; Ok (g ++ [kv])%list).
  assert (S : forall kws g, foldM (fun g kv => check existsb (fun q => fst q =? fst kv) sig else TypeError ;; check negb (has (fst kv) g) else TypeError ;; Ok (g ++ [kv])%list) (fm kws) (fm g) = rm fm (foldM sa kws g)).
  { induction kws0 as [|[k v] kws0 IH]; intros g; cbn [fm map foldM]; [reflexivity|]. assert (SA : sa g (k, v) = check existsb (fun q => fst q =? k) sig else TypeError ;; check negb (has k g) else TypeError ;; Ok (g ++ [(k, v)])%list) by reflexivity. rewrite SA. clear SA. cbn [fst]. destruct (existsb (fun q => fst q =? k) sig); [|reflexivity]. change (map (fun q => (fst q, f (snd q))) g) with (fm g). rewrite has_fm.
    destruct (has k g); cbn [negb]; [reflexivity|]. rewrite <- IH. unfold fm. rewrite map_app. reflexivity. }
  assert (C : combine (map fst sig) (map f args) = fm (combine (map fst sig) args)). { generalize (map fst sig) args. clear. induction l as [|x l IH]; intros [|a args]; cbn; try reflexivity. now rewrite IH. }
  rewrite C, S. destruct (foldM sa kws (combine (map fst sig) args)) as [g|e]; cbn; [|reflexivity]. apply mapM_fm. intros [p d]. cbn [fst snd]. rewrite assoc_fm. destruct (assoc p g); cbn; [reflexivity|].
  destruct d as [e|]; [|reflexivity]. pose proof (eval_fm [] e) as E. change (fm []) with (@nil (string * B)) in E. rewrite E. now destruct (eval oa [] e).
Qed.
(** the body of the first __init__ *)
Definition body_run {X} (o : vops X) (rest : list cls) (frame : list (string * X)) (body : list stmt) (self : list (string * X)) : res (list (string * X)) :=
  foldM (fun self s => match s with
        | SSet a e => v <- eval o frame e ;; Ok (set_attr a v self)
        | SSuper ks => vs <- mapM (fun k => v <- eval o frame (snd k) ;; Ok (fst k, v)) ks ;; run_init o rest [] vs self
        end) body self.
Lemma body_fm rest : (forall args kws self, run_init ob rest (map f args) (fm kws) (fm self) = rm fm (run_init oa rest args kws self)) ->
  forall fr body self, body_run ob rest (fm fr) body (fm self) = rm fm (body_run oa rest fr body self).
Proof.
  intros H fr body. induction body as [|s body IH]; intros self; [reflexivity|]. unfold body_run in *. cbn [foldM]. destruct s as [a e|ks].
  - rewrite eval_fm. destruct (eval oa fr e); cbn; [|reflexivity]. exact (IH ((a, a0) :: self)).
  - rewrite (@mapM_fm _ (fun k => v <- eval oa fr (snd k) ;; Ok (fst k, v))) by (intros k; rewrite eval_fm; now destruct (eval oa fr (snd k))).
    destruct (mapM (fun k => v <- eval oa fr (snd k) ;; Ok (fst k, v)) ks) as [vs|e]; cbn; [|reflexivity].
    change (@nil B) with (map f []). rewrite H. destruct (run_init oa rest [] vs self); cbn; [apply IH|reflexivity].
Qed.
Lemma run_fm l : forall args kws self, run_init ob l (map f args) (fm kws) (fm self) = rm fm (run_init oa l args kws self).
Proof.
  induction l as [|c l IH]; intros args kws self; cbn [run_init].
  - destruct args, kws; reflexivity.
  - destruct (c_init c) as [[sig body]|]; [|apply IH]. rewrite bind_fm. destruct (bind_args oa sig args kws) as [fr|e]; cbn; [|reflexivity]. exact (body_fm l IH fr body self).
Qed.
End Natural.

(** ---- symbols: expressions in the parameters of the class ---- *)
Definition expr_ops : vops expr := {| v_none := ENone; v_text := ETxt; v_or := fun v t => match v with EPar q => EDef q t | ENone => ETxt t | _ => v end |}.
(** the values of the symbols *)
Definition value V (fr : list (string * val V)) (e : expr) : val V :=
  let look p := match assoc p fr with Some v => v | None => VNone end in
  match e with EPar p => look p | EDef p t => v_or (val_ops V) (look p) t | ENone => VNone | ETxt t => VText t end.
Lemma value_or V fr v t : value (V:=V) fr (v_or expr_ops v t) = v_or (val_ops V) (value fr v) t.
Proof. destruct v; cbn; try reflexivity. destruct (assoc p fr) as [[| |]|]; reflexivity. Qed.
Definition symbols (sig : signature) : list (string * expr) := map (fun q => (fst q, EPar (fst q))) sig.
Lemma symbols_value V (fr : list (string * val V)) sig : NoDup (map fst sig) -> map fst fr = map fst sig -> fm (value fr) (symbols sig) = fr.
Proof.
  intros N E. unfold fm, symbols. rewrite map_map. cbn [fst snd value]. transitivity (map (fun p => (p, match assoc p fr with Some v => v | None => VNone end)) (map fst fr)).
  - rewrite E, map_map. reflexivity.
  - rewrite <- E in N. clear E sig. assert (G : forall l, incl l fr -> map (fun p => (p, match assoc p fr with Some v => v | None => VNone end)) (map fst l) = l).
    { induction l as [|[p v] l IH]; intros I; [reflexivity|]. cbn. rewrite (assoc_unique _ _ _ N (I (p, v) (or_introl eq_refl))). f_equal. apply IH. intros x H. apply I. now right. }
    apply G, incl_refl.
Qed.

(** ---- the static check of a class ---- *)
Fixpoint find_init (l : list cls) : signature * list stmt * list cls :=
  match l with [] => ([], [], []) | c :: r => match c_init c with Some (s, b) => (s, b, r) | None => find_init r end end.
Lemma run_find X (o : vops X) l args kws self : run_init o l args kws self = (fr <- bind_args o (fst (fst (find_init l))) args kws ;; body_run o (snd (find_init l)) fr (snd (fst (find_init l))) self).
Proof.
  induction l as [|c l IH]; cbn [run_init find_init].
  - cbn [fst snd]. unfold bind_args. destruct args; [|reflexivity]. destruct kws; reflexivity.
  - destruct (c_init c) as [[sig body]|]; [reflexivity|exact IH].
Qed.
Fixpoint nodupb (l : list string) : bool := match l with [] => true | x :: r => negb (existsb (fun y => y =? x) r) && nodupb r end.
Lemma nodupb_ok l : nodupb l = true -> NoDup l.
Proof.
  induction l as [|x l IH]; cbn; intros H; constructor; apply andb_prop in H as [H1 H2]; auto. intros I. apply negb_true_iff in H1.
  assert (E : existsb (fun y => y =? x) l = true) by (apply existsb_exists; exists x; split; [exact I|apply String.eqb_refl]). congruence.
Qed.
Definition const_defaults (sig : signature) : bool := forallb (fun q => match snd q with Some (EPar _) | Some (EDef _ _) => false | _ => true end) sig.
Lemma const_ok sig : const_defaults sig = true -> forall p e, In (p, Some e) sig -> match e with ENone | ETxt _ => True | _ => False end.
Proof. intros H p e I. unfold const_defaults in H. rewrite forallb_forall in H. specialize (H _ I). cbn in H. destruct e; auto; discriminate. Qed.
Definition mro_of (name : string) := mro (List.length classes) classes name.
Definition sig_of (name : string) := fst (fst (find_init (mro_of name))).
Definition symbolic (name : string) : res (list (string * expr)) := body_run expr_ops (snd (find_init (mro_of name))) (symbols (sig_of name)) (snd (fst (find_init (mro_of name)))) [].
Definition class_ok (name : string) : bool :=
  nodupb (map fst (sig_of name)) && const_defaults (sig_of name) && match left_abstract (mro_of name) with [] => true | _ => false end && match symbolic name with Ok _ => true | Err _ => false end.
Lemma concrete_ok : forallb class_ok concrete = true.
Proof. vm_compute. reflexivity. Qed.
Lemma construct_of V name args kws : class_ok name = true ->
  (~ fits (sig_of name) args kws -> construct (val_ops V) classes name args kws = Err TypeError) /\
  (fits (sig_of name) args kws -> exists fr o, symbolic name = Ok o /\ construct (val_ops V) classes name args kws = Ok (fm (value fr) o) /\ map fst fr = map fst (sig_of name) /\ NoDup (map fst fr) /\
     forall p v, In (p, v) fr -> receives (sig_of name) args kws p v).
Proof.
  intros H. unfold class_ok in H. apply andb_prop in H as [H HS]. apply andb_prop in H as [H HA]. apply andb_prop in H as [HN HC]. apply nodupb_ok in HN. pose proof (const_ok _ HC) as CD.
  unfold construct. change (mro (List.length classes) classes name) with (mro_of name). destruct (left_abstract (mro_of name)); [|discriminate]. rewrite run_find. change (fst (fst (find_init (mro_of name)))) with (sig_of name). split.
  - intros NF. now rewrite (bind_misfits HN CD NF).
  - intros Fi. destruct (bind_fits HN CD Fi) as (fr & E & M & R). rewrite E. cbn [bind]. destruct (symbolic name) as [o|] eqn:ES; [|discriminate]. exists fr, o. split; [reflexivity|]. split; [|split; [exact M|split; [now rewrite M|exact R]]].
    rewrite <- (symbols_value fr _ HN M) at 1. change (@nil (string * val V)) with (fm (value fr) []).
    rewrite (@body_fm expr (val V) expr_ops (val_ops V) (value fr) eq_refl (fun _ => eq_refl) (value_or fr)).
    + fold (sig_of name). unfold symbolic in ES. rewrite ES. reflexivity.
    + apply run_fm; [reflexivity|reflexivity|apply value_or].
Qed.
Lemma failing_of V name args kws e : nodupb (map fst (sig_of name)) = true -> const_defaults (sig_of name) = true -> left_abstract (mro_of name) = [] -> symbolic name = Err e ->
  fits (sig_of name) args kws -> construct (val_ops V) classes name args kws = Err e.
Proof.
  intros HN HC HA ES Fi. apply nodupb_ok in HN. pose proof (const_ok _ HC) as CD. unfold construct. change (mro (List.length classes) classes name) with (mro_of name). rewrite HA, run_find. change (fst (fst (find_init (mro_of name)))) with (sig_of name).
  destruct (bind_fits HN CD Fi) as (fr & E & M & R). rewrite E. cbn [bind]. rewrite <- (symbols_value fr _ HN M) at 1. change (@nil (string * val V)) with (fm (value fr) []).
  rewrite (@body_fm expr (val V) expr_ops (val_ops V) (value fr) eq_refl (fun _ => eq_refl) (value_or fr)).
  - unfold symbolic in ES. rewrite ES. reflexivity.
  - apply run_fm; [reflexivity|reflexivity|apply value_or].
Qed.
(** ---- signatures ---- *)
Lemma sig_table : Forall (fun c => match c_init c with Some (s, _) => sig_of (c_name c) = s | None => match c_parent c with Some p => sig_of (c_name c) = sig_of p | None => sig_of (c_name c) = [] end end) classes.
Proof. unfold classes. repeat (apply Forall_cons; [vm_compute; reflexivity|]). apply Forall_nil. Qed.
Lemma signature_unique name sig : signature_of classes name sig -> sig = sig_of name.
Proof.
  pose proof (proj1 (Forall_forall _ _) sig_table) as T. induction 1 as [c sig body I E|c p sig I E1 E2 _ IH|c I E1 E2]; specialize (T c I); cbn beta in T.
  - rewrite E in T. now symmetry.
  - rewrite E1, E2 in T. now rewrite T.
  - rewrite E1, E2 in T. now symmetry.
Qed.
Lemma concrete_has : forallb (fun n => match find (fun c => c_name c =? n) classes with Some c => match c_init c with Some _ => true | None => false end | None => false end) concrete = true.
Proof. vm_compute. reflexivity. Qed.
Lemma signature_exists c : In c concrete -> exists sig, signature_of classes c sig.
Proof.
  intros I. pose proof (proj1 (forallb_forall _ _) concrete_has c I) as H. cbn beta in H. destruct (find (fun c0 => c_name c0 =? c) classes) as [k|] eqn:E; [|discriminate].
  apply find_some in E as [E1 E2]. apply String.eqb_eq in E2 as <-. destruct (c_init k) as [[s b]|] eqn:EI; [|discriminate]. exists s. now apply sig_own with b.
Qed.
(** ---- the theorems ---- *)
Lemma constructible V c sig (args : list (val V)) kws : In c concrete -> signature_of classes c sig ->
  (fits sig args kws -> exists obj, construct (val_ops V) classes c args kws = Ok obj) /\ (~ fits sig args kws -> construct (val_ops V) classes c args kws = Err TypeError).
Proof.
  intros I S. apply signature_unique in S as ->. destruct (construct_of c args kws (proj1 (forallb_forall _ _) concrete_ok c I)) as [H1 H2]. split; [|exact H1]. intros Fi. destruct (H2 Fi) as (fr & o & _ & E & _). eauto.
Qed.
Lemma fits_dec V sig (args : list (val V)) kws : ~ ~ fits sig args kws -> fits sig args kws.
Proof.
  intros H. assert (D : forall P : Prop, (~ ~ fits sig args kws -> ~ ~ P) -> {P} + {~ P} -> P) by (intros P HP [p|np]; [exact p|exfalso; exact (HP H np)]).
  assert (D2 : forall l : list string, {NoDup l} + {~ NoDup l}). { induction l as [|x l [IH|IH]]; [left; constructor|destruct (in_dec string_dec x l); [right; intros F; inversion_clear F; auto|left; now constructor]|right; intros F; inversion_clear F; auto]. }
  repeat split.
  - apply D; [unfold fits; tauto|apply le_dec].
  - apply D; [unfold fits; tauto|apply D2].
  - intros k Hk. apply D; [|apply in_dec, string_dec]. intros H1 H2. apply H1. intros (_ & _ & H3 & _). auto.
  - intros p Hp. destruct (in_dec string_dec p (firstn (List.length args) (map fst sig))); [now left|]. right. apply D; [|apply in_dec, string_dec]. intros H1 H2. apply H1. intros (_ & _ & _ & H3). destruct (H3 p Hp); auto.
Qed.
Lemma nth_name (l : list string) i j p : NoDup l -> nth_error l i = Some p -> nth_error l j = Some p -> i = j.
Proof. intros N Hi Hj. apply (proj1 (NoDup_nth_error l) N); [apply nth_error_Some; congruence|congruence]. Qed.
Lemma nth_first (l : list string) n i p : nth_error l i = Some p -> i < n -> In p (firstn n l).
Proof. revert n i. induction l as [|x l IH]; intros n i H Hi; [destruct i; discriminate|]. destruct n; [lia|]. destruct i; cbn in *; [left; congruence|right; apply IH with i; auto; lia]. Qed.
Lemma first_skip (l : list string) n p : NoDup l -> In p (firstn n l) -> In p (skipn n l) -> False.
Proof. intros N. rewrite <- (firstn_skipn n l) in N. revert N. generalize (firstn n l) (skipn n l). intros a b. induction a; cbn; [tauto|]. intros N [->|I] J; inversion_clear N; [apply H, in_or_app; now right|auto]. Qed.
Lemma receives_unique V sig (args : list (val V)) kws p v w : NoDup (map fst sig) -> fits sig args kws -> (forall q e, In (q, Some e) sig -> In q (map fst sig)) -> receives sig args kws p v -> receives sig args kws p w -> v = w.
Proof.
  intros N (L & NK & SK & _) _.
  assert (POS : forall i (u : val V), nth_error (map fst sig) i = Some p -> nth_error args i = Some u -> In p (firstn (List.length args) (map fst sig))).
  { intros i u H1 H2. apply nth_first with i; auto. apply nth_error_Some. congruence. }
  assert (KEY : forall u : val V, In (p, u) kws -> In p (map fst kws)) by (intros u H; change p with (fst (p, u)); now apply in_map).
  intros [(i & A1 & A2)|[A|(A1 & A2 & e & A3 & A4)]] [(j & B1 & B2)|[B|(B1 & B2 & e' & B3 & B4)]].
  - rewrite (@nth_name _ _ _ _ N A1 B1) in A2. congruence.
  - exfalso. eapply first_skip; [exact N|eapply POS; eauto|apply SK; eauto].
  - exfalso. eauto.
  - exfalso. eapply first_skip; [exact N|eapply POS; eauto|apply SK; eauto].
  - pose proof (assoc_unique _ _ _ NK A) as E1. pose proof (assoc_unique _ _ _ NK B) as E2. congruence.
  - exfalso. eauto.
  - exfalso. eauto.
  - exfalso. eauto.
  - pose proof (assoc_unique _ _ _ N A3) as E1. pose proof (assoc_unique _ _ _ N B3) as E2. assert (e = e') by congruence. subst e'. destruct e; cbn in A4, B4; try contradiction; congruence.
Qed.
Definition pair_in (q : string * string) (l : list (string * string)) : bool := existsb (fun r => (fst r =? fst q) && (snd r =? snd q)) l.
Lemma pair_in_ok q l : pair_in q l = true <-> In q l.
Proof.
  unfold pair_in. rewrite existsb_exists. split.
  - intros ((a & b) & I & H). destruct q as [c d]. cbn in H. apply andb_prop in H as [H1 H2]. apply String.eqb_eq in H1, H2. now subst.
  - intros I. exists q. split; [exact I|]. now rewrite !String.eqb_refl.
Qed.
Definition kept_in (o : list (string * expr)) (p : string) : bool :=
  existsb (fun a => match assoc a o with Some (EPar q) | Some (EDef q _) => q =? p | _ => false end) (p :: ("_" ++ p) :: map snd (filter (fun r => fst r =? p) aliases)).
Definition stored_ok (c : string) : bool := match symbolic c with Ok o => forallb (fun p => pair_in (c, p) converted || kept_in o p) (map fst (sig_of c)) | Err _ => false end.
Lemma concrete_stored : forallb stored_ok concrete = true.
Proof. vm_compute. reflexivity. Qed.
Lemma assoc_attribute V (obj : list (string * val V)) a v : assoc a obj = Some v -> attribute obj a v.
Proof.
  induction obj as [|[k w] obj IH]; cbn; [discriminate|]. destruct (String.eqb_spec k a) as [->|N]; intros H.
  - injection H as ->. now exists [], obj.
  - destruct (IH H) as (l1 & l2 & -> & I). exists ((k, w) :: l1), l2. split; [reflexivity|]. cbn. intros [F|F]; auto.
Qed.
Lemma stored V c sig (args : list (val V)) kws obj p v : In c concrete -> signature_of classes c sig -> construct (val_ops V) classes c args kws = Ok obj ->
  receives sig args kws p v -> v <> VNone -> ~ In (c, p) converted -> exists a, keeps p a /\ attribute obj a v.
Proof.
  intros I S E Rv NV NC. apply signature_unique in S as ->. pose proof (proj1 (forallb_forall _ _) concrete_ok c I) as OK. destruct (construct_of c args kws OK) as [H1 H2].
  assert (Fi : fits (sig_of c) args kws) by (apply fits_dec; intros NF; rewrite (H1 NF) in E; discriminate). destruct (H2 Fi) as (fr & o & ES & E' & M & ND & R). rewrite E' in E. injection E as <-.
  assert (HN : NoDup (map fst (sig_of c))) by now rewrite <- M. assert (IP : In p (map fst (sig_of c))).
  { destruct Rv as [(i & A1 & A2)|[A|(A1 & A2 & e & A3 & A4)]]; [now apply nth_error_In in A1| |change p with (fst (p, Some e)); now apply in_map].
    destruct Fi as (_ & _ & SK & _). assert (K : In p (skipn (List.length args) (map fst (sig_of c)))) by (apply SK; change p with (fst (p, v)); now apply in_map).
    rewrite <- (firstn_skipn (List.length args) (map fst (sig_of c))). apply in_or_app. now right. }
  assert (AP : assoc p fr = Some v).
  { rewrite <- M in IP. apply in_map_iff in IP as ((q & w) & Q & IQ). cbn in Q. subst q. rewrite (assoc_unique _ _ _ ND IQ). f_equal. apply (@receives_unique V (sig_of c) args kws p w v HN Fi); [|exact (R p w IQ)|exact Rv].
    intros q e H. change q with (fst (q, Some e)). now apply in_map. }
  pose proof (proj1 (forallb_forall _ _) concrete_stored c I) as ST. unfold stored_ok in ST. rewrite ES in ST. pose proof (proj1 (forallb_forall _ _) ST p IP) as K. cbn beta in K. apply orb_prop in K as [K|K]; [apply pair_in_ok in K; contradiction|].
  unfold kept_in in K. apply existsb_exists in K as (a & IA & K). exists a. split.
  - destruct IA as [<-|[<-|IA]]; [now left|right; now left|right; right]. apply in_map_iff in IA as ((r1 & r2) & <- & IA). apply filter_In in IA as [IA Q]. cbn in Q. apply String.eqb_eq in Q. cbn. now subst.
  - apply assoc_attribute. rewrite assoc_fm. destruct (assoc a o) as [[q|q t| |]|]; try discriminate; apply String.eqb_eq in K as ->; cbn [option_map value]; rewrite AP; [reflexivity|]. f_equal. destruct v; [contradiction|reflexivity|reflexivity].
Qed.
Lemma abstract_table : Forall (fun c => left_abstract (mro_of c) <> []) abstract.
Proof. unfold abstract. repeat (apply Forall_cons; [vm_compute; discriminate|]). apply Forall_nil. Qed.
Lemma abstract_raise V c (args : list (val V)) kws : In c abstract -> construct (val_ops V) classes c args kws = Err TypeError.
Proof.
  intros I. pose proof (proj1 (Forall_forall _ _) abstract_table c I) as H. cbn beta in H. unfold construct. change (mro (List.length classes) classes c) with (mro_of c). destruct (left_abstract (mro_of c)); [contradiction|reflexivity].
Qed.
Lemma norm_raises V (args : list (val V)) kws : construct (val_ops V) classes "OperatorMatrixNorm" args kws = Err TypeError.
Proof.
  assert (HN : nodupb (map fst (sig_of "OperatorMatrixNorm")) = true) by (vm_compute; reflexivity). assert (HC : const_defaults (sig_of "OperatorMatrixNorm") = true) by (vm_compute; reflexivity).
  assert (HA : left_abstract (mro_of "OperatorMatrixNorm") = []) by (vm_compute; reflexivity). assert (ES : symbolic "OperatorMatrixNorm" = Err TypeError) by (vm_compute; reflexivity).
  destruct (bind_args (val_ops V) (sig_of "OperatorMatrixNorm") args kws) eqn:E.
  - apply (@failing_of V "OperatorMatrixNorm" args kws TypeError HN HC HA ES). apply fits_dec. intros NF. rewrite (bind_misfits (nodupb_ok _ HN) (const_ok _ HC) NF) in E. discriminate.
  - assert (e = TypeError) as ->. { assert (NF : ~ fits (sig_of "OperatorMatrixNorm") args kws) by (intros F; destruct (bind_fits (nodupb_ok _ HN) (const_ok _ HC) F) as (fr & E' & _); congruence). rewrite (bind_misfits (nodupb_ok _ HN) (const_ok _ HC) NF) in E. congruence. }
    unfold construct. change (mro (List.length classes) classes "OperatorMatrixNorm") with (mro_of "OperatorMatrixNorm"). rewrite HA, run_find. change (fst (fst (find_init (mro_of "OperatorMatrixNorm")))) with (sig_of "OperatorMatrixNorm"). now rewrite E.
Qed.
Lemma signature_exists_unique c : In c concrete -> exists sig, signature_of classes c sig /\ forall sig', signature_of classes c sig' -> sig' = sig.
Proof. intros I. destruct (signature_exists I) as (s & H). exists s. split; [exact H|]. intros s' H'. rewrite (signature_unique H). now apply signature_unique. Qed.

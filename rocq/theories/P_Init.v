(** Proofs for C89: binding of arguments and construction of objects. *)
Require Import List Arith Lia Bool String.
From Verif Require Import LibBase M_Init S_Init.
Import ListNotations.
Local Open Scope res_scope.
Local Open Scope string_scope.
Set Implicit Arguments.

(** ---- lists with keys ---- *)
Lemma assoc_in A p (l : list (string * A)) v : assoc p l = Some v -> In (p, v) l.
Proof. induction l as [|[k w] l IH]; cbn; [discriminate|]. destruct (String.eqb_spec k p) as [->|N]; intros H; [injection H as ->; now left|right; auto]. Qed.
Lemma assoc_none A p (l : list (string * A)) : assoc p l = None <-> ~ In p (map fst l).
Proof.
  induction l as [|[k w] l IH]; cbn; [tauto|]. destruct (String.eqb_spec k p) as [->|N]; [split; [discriminate|tauto]|]. rewrite IH. tauto.
Qed.
Lemma assoc_unique A p (l : list (string * A)) v : NoDup (map fst l) -> In (p, v) l -> assoc p l = Some v.
Proof.
  induction l as [|[k w] l IH]; cbn; [tauto|]. intros N [H|H].
  - injection H as -> ->. now rewrite String.eqb_refl.
  - inversion_clear N. destruct (String.eqb_spec k p) as [->|K]; [exfalso; apply H0; change p with (fst (p, v)); now apply in_map|auto].
Qed.
Lemma has_in A p (l : list (string * A)) : has p l = true <-> In p (map fst l).
Proof.
  unfold has. destruct (assoc p l) eqn:E.
  - split; auto. intros _. apply in_map with (f := fst) in E || apply assoc_in in E. change p with (fst (p, a)). now apply in_map.
  - apply assoc_none in E. split; [discriminate|tauto].
Qed.
Lemma names_in (sig : signature) k : existsb (fun q => fst q =? k) sig = true <-> In k (map fst sig).
Proof.
  rewrite existsb_exists. split.
  - intros (q & H & E). apply String.eqb_eq in E as <-. now apply in_map.
  - intros H. apply in_map_iff in H as (q & <- & H). exists q. split; auto. apply String.eqb_refl.
Qed.

(** ---- the binding ---- *)
Section Bind.
Variable V : Type.
Notation val := (val V).
Notation vo := (val_ops V).
Variable sig : signature.
Notation names := (map fst sig).
Hypothesis ND : NoDup names.
Hypothesis CD : forall p e, In (p, Some e) sig -> match e with ENone | ETxt _ => True | _ => False end.

Notation step := (fun g kv => check existsb (fun q => fst q =? fst kv) sig else TypeError ;; check negb (has (fst kv) g) else TypeError ;; Ok (g ++ [kv])%list).
Lemma fold_ok (kws g : list (string * val)) : (forall k, In k (map fst kws) -> In k names) -> NoDup (map fst (g ++ kws)) -> foldM step kws g = Ok (g ++ kws)%list.
Proof.
  revert g. induction kws as [|kv kws IH]; intros g H N; cbn [foldM]; [now rewrite app_nil_r|].
  assert (E1 : existsb (fun q => fst q =? fst kv) sig = true) by (apply names_in, H; now left). rewrite E1.
  assert (E2 : has (fst kv) g = false).
  { destruct (has (fst kv) g) eqn:E; [|reflexivity]. apply has_in in E. rewrite map_app in N. cbn in N. apply NoDup_remove_2 in N. exfalso. apply N. apply in_or_app. now left. }
  rewrite E2. cbn [negb]. rewrite IH.
  - now rewrite <- app_assoc.
  - intros k Hk. apply H. now right.
  - now rewrite <- app_assoc.
Qed.
Lemma fold_err (kws g : list (string * val)) : NoDup (map fst g) -> ~ ((forall k, In k (map fst kws) -> In k names) /\ NoDup (map fst (g ++ kws))) -> foldM step kws g = Err TypeError.
Proof.
  revert g. induction kws as [|kv kws IH]; intros g NG H; cbn [foldM].
  { exfalso. apply H. split; [intros k []|]. now rewrite app_nil_r. }
  destruct (existsb (fun q => fst q =? fst kv) sig) eqn:E1; [|reflexivity]. destruct (has (fst kv) g) eqn:E2; cbn [negb]; [reflexivity|].
  apply names_in in E1. assert (N2 : ~ In (fst kv) (map fst g)) by (intros F; apply has_in in F; congruence). apply IH.
  - rewrite map_app. cbn. apply NoDup_rev in NG. rewrite <- (rev_involutive (map fst g ++ [fst kv])%list). apply NoDup_rev. rewrite rev_app_distr. cbn. constructor; [|exact NG]. now rewrite <- in_rev.
  - intros (H1 & H2). apply H. split; [intros k [<-|Hk]; auto|]. now rewrite <- app_assoc in H2.
Qed.
Lemma combine_names (args : list val) : List.length args <= List.length sig -> map fst (combine names args) = firstn (List.length args) names.
Proof.
  intros L. assert (L' : List.length args <= List.length names) by now rewrite map_length. clear L. revert args L'. generalize names. intros l. induction l as [|x l IH]; intros [|a args] L; cbn in *; try reflexivity.
  f_equal. apply IH. lia.
Qed.
Lemma in_combine (l : list string) (args : list val) p v : In (p, v) (combine l args) <-> exists i, nth_error l i = Some p /\ nth_error args i = Some v.
Proof.
  revert args. induction l as [|x l IH]; intros args.
  - cbn. split; [tauto|]. intros ([|i] & H & _); discriminate.
  - destruct args as [|a args]; cbn.
    + split; [tauto|]. intros ([|i] & _ & H); discriminate.
    + rewrite IH. split.
      * intros [H|(i & H)]; [injection H as -> ->; now exists 0|now exists (S i)].
      * intros ([|i] & H1 & H2); [left; cbn in *; congruence|right; now exists i].
Qed.
Lemma nodup_split (l : list string) n (ks : list string) : NoDup l -> NoDup ks -> (NoDup (firstn n l ++ ks) /\ (forall k, In k ks -> In k l)) <-> (forall k, In k ks -> In k (skipn n l)).
Proof.
  intros N K. rewrite <- (firstn_skipn n l) in N. split.
  - intros (H & S) k Hk. pose proof (S k Hk) as I. rewrite <- (firstn_skipn n l) in I. apply in_app_or in I as [I|I]; [|exact I]. exfalso. revert H I Hk. clear. generalize (firstn n l). induction l0; cbn; [tauto|].
    intros H [->|I] Hk; inversion_clear H; [apply H0; apply in_or_app; now right|auto].
  - intros H. split; [|intros k Hk; rewrite <- (firstn_skipn n l); apply in_or_app; right; auto].
    revert N H. generalize (firstn n l) (skipn n l). clear - K. intros a b. induction a as [|x a IH]; cbn; intros N H; [exact K|]. inversion_clear N. constructor; auto.
    intros F. apply in_app_or in F as [F|F]; apply H0; apply in_or_app; auto.
Qed.
Lemma nodup_app_r (a b : list string) : NoDup (a ++ b) -> NoDup b.
Proof. induction a; cbn; auto. intros H. inversion_clear H. auto. Qed.
Notation fill given := (fun q : string * option expr => match assoc (fst q) given with
                 | Some v => Ok (fst q, v)
                 | None => match snd q with Some e => v <- eval vo [] e ;; Ok (fst q, v) | None => Err TypeError end
                 end).
Lemma bind_fits args kws : fits sig args kws -> exists frame, bind_args vo sig args kws = Ok frame /\ map fst frame = names /\ forall p v, In (p, v) frame -> receives sig args kws p v.
Proof.
  intros (L & NK & SK & RQ). unfold bind_args. rewrite (proj2 (Nat.leb_le _ _) L). destruct (proj2 (nodup_split (List.length args) ND NK) SK) as (N2 & IN).
  rewrite fold_ok; [|exact IN|rewrite map_app, combine_names by auto; exact N2]. cbn [bind]. set (g := (combine names args ++ kws)%list).
  assert (G : forall l, (forall p e, In (p, Some e) l -> In (p, Some e) sig) -> (forall p, In (p, None) l -> In (p, None) sig) -> exists frame, mapM (fill g) l = Ok frame /\ map fst frame = map fst l /\ forall p v, In (p, v) frame -> receives sig args kws p v).
  { induction l as [|[p d] l IH]; intros HS HN; [exists []; repeat split; intros ? ? []|]. destruct IH as (fr & E & M & R); [intros; apply HS; now right|intros; apply HN; now right|].
    assert (X : exists v, fill g (p, d) = Ok (p, v) /\ receives sig args kws p v).
    { cbn [fst snd]. destruct (assoc p g) as [v|] eqn:A.
      - exists v. split; [reflexivity|]. apply assoc_in in A. apply in_app_or in A as [A|A]; [left; now apply in_combine|right; now left].
      - apply assoc_none in A. unfold g in A. rewrite map_app, combine_names in A by auto.
        assert (A1 : ~ In p (firstn (List.length args) names)) by (intros F; apply A, in_or_app; now left). assert (A2 : ~ In p (map fst kws)) by (intros F; apply A, in_or_app; now right).
        destruct d as [e|].
        + pose proof (HS p e (or_introl eq_refl)) as I. pose proof (CD _ _ I) as C. destruct e; try contradiction; eexists; (split; [reflexivity|]); right; right; (split; [exact A1|split; [exact A2|]]); eexists; (split; [exact I|reflexivity]).
        + exfalso. destruct (RQ p (HN p (or_introl eq_refl))); contradiction. }
    destruct X as (v & F & Rv). exists ((p, v) :: fr). split; [cbn [mapM]; rewrite F, E; reflexivity|]. split; [cbn; now rewrite M|]. intros p' v' [H|H]; [injection H as <- <-; exact Rv|auto]. }
  apply (G sig); auto.
Qed.
Lemma bind_misfits args kws : ~ fits sig args kws -> bind_args vo sig args kws = Err TypeError.
Proof.
  intros H. unfold bind_args. destruct (Nat.leb_spec (List.length args) (List.length sig)) as [L|L]; [|reflexivity].
  assert (NC : NoDup (map fst (combine names args))). { rewrite combine_names by auto. rewrite <- (firstn_skipn (List.length args) names) in ND. revert ND. generalize (firstn (List.length args) names) (skipn (List.length args) names). clear. intros a b. induction a; cbn; intros H; [constructor|]. inversion_clear H. constructor; auto. intros F. apply H0, in_or_app. now left. }
  assert (D : {(forall k, In k (map fst kws) -> In k names) /\ NoDup (map fst (combine names args ++ kws))} + {~ ((forall k, In k (map fst kws) -> In k names) /\ NoDup (map fst (combine names args ++ kws)))}).
  { assert (D1 : {forall k, In k (map fst kws) -> In k names} + {~ forall k, In k (map fst kws) -> In k names}).
    { destruct (Forall_dec (fun k => In k names) (fun k => in_dec string_dec k names) (map fst kws)) as [F|F]; [left; now apply Forall_forall|right; intros F'; apply F; now apply Forall_forall]. }
    assert (D2 : forall l : list string, {NoDup l} + {~ NoDup l}). { induction l as [|x l [IH|IH]]; [left; constructor|destruct (in_dec string_dec x l); [right; intros F; inversion_clear F; auto|left; now constructor]|right; intros F; inversion_clear F; auto]. }
    destruct D1; [|right; tauto]. destruct (D2 (map fst (combine names args ++ kws))); [now left|right; tauto]. }
  destruct D as [(D1 & D2)|D]; [|now rewrite fold_err]. rewrite fold_ok by auto. cbn [bind]. set (g := (combine names args ++ kws)%list) in *.
  unfold g in D2. rewrite map_app, combine_names in D2 by auto. assert (NK := nodup_app_r _ _ D2).
  assert (SK := proj1 (nodup_split (List.length args) ND NK) (conj D2 D1)).
  assert (Q : exists p, In (p, None) sig /\ ~ In p (map fst g)).
  { destruct (List.existsb (fun q => match snd q with None => negb (has (fst q) g) | Some _ => false end) sig) eqn:E.
    - apply existsb_exists in E as ((p & d) & I & E). cbn in E. destruct d; [discriminate|]. exists p. split; [exact I|]. intros F. apply has_in in F. rewrite F in E. discriminate.
    - exfalso. apply H. repeat split; auto. intros p I. assert (P : has p g = true).
      { destruct (has p g) eqn:E2; [reflexivity|]. exfalso. assert (X : existsb (fun q => match snd q with None => negb (has (fst q) g) | Some _ => false end) sig = true) by (apply existsb_exists; exists (p, None); split; [exact I|cbn; now rewrite E2]). congruence. }
      apply has_in in P. unfold g in P. rewrite map_app, combine_names in P by auto. now apply in_app_or in P. }
  destruct Q as (p & I & NI). assert (G : forall l, (forall p e, In (p, Some e) l -> In (p, Some e) sig) -> In (p, None) l -> mapM (fill g) l = Err TypeError).
  { induction l as [|[q d] l IH]; intros HS HI; [destruct HI|]. cbn [mapM fst snd]. destruct (string_dec q p) as [->|N].
    - rewrite (proj2 (assoc_none p g) NI). destruct d as [e|]; [|reflexivity]. pose proof (HS p e (or_introl eq_refl)) as I2. exfalso. revert ND I I2. clear. induction sig as [|[k d] s IH]; cbn; [tauto|]. intros N [A|A] [B|B].
      + congruence.
      + injection A as -> ->. inversion_clear N. apply H. change p with (fst (p, Some e)). now apply in_map.
      + injection B as -> ->. inversion_clear N. apply H. change p with (fst (p, @None expr)). now apply in_map.
      + inversion_clear N. auto.
    - assert (HI' : In (p, None) l) by (destruct HI as [HI|HI]; [congruence|exact HI]). rewrite IH; [|intros; apply HS; now right|exact HI'].
      destruct (assoc q g); [reflexivity|]. destruct d as [e|]; [|reflexivity]. pose proof (CD _ _ (HS q e (or_introl eq_refl))) as C. destruct e; try contradiction; reflexivity. }
  apply (G sig); auto.
Qed.
End Bind.

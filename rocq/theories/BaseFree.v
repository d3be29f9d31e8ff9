(** Expansion only uses the URL of the document to process the contexts embedded in it. *)
From Verif Require Import Prelude Json Str Keyword Enums LangTag LangString Container Stack ContextSyntax Ctx Process
  Object ObjectEq ObjectJson Expand ExpandFuel.

(** No object of the document, at any depth, has an embedded context. *)
Inductive contextless : json -> Prop :=
| ClNull : contextless JNull
| ClBool b : contextless (JBool b)
| ClNum x : contextless (JNum x)
| ClStr s : contextless (JStr s)
| ClArr l : Forall contextless l -> contextless (JArr l)
| ClObj m : ~ In "@context" (map fst m) -> Forall (fun e => contextless (snd e)) m -> contextless (JObj m).

Section BaseFree.
Variables (io : iops) (ld : loader) (fin rnd : list word -> N) (pf : nat) (o : xopts) (base base' : option string).
Variable Q : json -> Prop.
Hypothesis Qi : forall l, Q (JArr l) -> Forall Q l.
Hypothesis Qe : forall m, Q (JObj m) -> Forall (fun e => Q (snd e)) m.

Lemma q_force x v : Q v -> In x (force_array v) -> Q x.
Proof using Qi. destruct v; cbn [force_array]; try (intros H [<-|[]]; exact H). intros H I. exact (Forall_in _ _ _ (Qi _ H) I). Qed.
Lemma q_entry m e : Q (JObj m) -> In e m -> Q (snd e).
Proof using Qe. intros H I. exact (Forall_in _ _ _ (Qe _ H) I). Qed.

Section Two.
Variables r r' : actx -> option string -> json -> bool -> result expanded xerr.
Hypothesis AG : forall c ap j fm, Q j -> r c ap j fm = r' c ap j fm.
Lemma reverse_q c n e : Q (snd e) -> reverse_entry io o r c n e = reverse_entry io o r' c n e.
Proof using AG. destruct e as [k v]. intros L. unfold reverse_entry. rewrite (AG c (Some k) v false L). reflexivity. Qed.
Lemma property_q c key v : Q v -> expand_property io ld fin rnd pf o r c key v = expand_property io ld fin rnd pf o r' c key v.
Proof using AG Qe.
  intros L. unfold expand_property. destruct (match prop_def c (Some key) with Some _ => _ | None => false end); [reflexivity|].
  destruct v; try apply AG, L. destruct (has_container _ CKLanguage); [reflexivity|]. destruct (_ || _ || _); [|apply AG, L].
  unfold expand_index_map. erewrite flat_r_ext; [reflexivity|]. intros [i v] I. apply entries_in' in I. apply (q_entry _ _ L) in I. cbn [snd] in I.
  destruct (if has_container _ CKType then _ else _) as [mc|]; [|reflexivity]. cbn [bind]. destruct (xkey io o c i); [|reflexivity]. cbn [bind].
  rewrite (AG mc (Some key) v true I). reflexivity.
Qed.
Lemma entries_q m : forall ap tsc c es st, Forall (fun e => Q (snd e)) es ->
  node_entries io ld fin rnd pf o r m ap tsc c es st = node_entries io ld fin rnd pf o r' m ap tsc c es st.
Proof using AG Qi Qe.
  induction m as [|m IH]; intros ap tsc c es st F; [reflexivity|]. cbn [node_entries]. apply fold_r_ext. intros a [[key t] v] I.
  rewrite Forall_forall in F. pose proof (F _ I) as L1. cbn [snd] in L1. unfold node_entry. destruct t as [|p|k]; [reflexivity| |].
  - unfold property_entry. rewrite (property_q c key v L1). reflexivity.
  - destruct k; try reflexivity; unfold keyword_entry; cbn [ap_is].
    + rewrite (AG c (Some "@graph") v false L1). reflexivity.
    + rewrite (AG c (Some "@included") v false L1). reflexivity.
    + assert (E : fold_r (nest_entry io ld pf o (node_entries io ld fin rnd pf o r m ap tsc) c key) a (force_array v) =
                  fold_r (nest_entry io ld pf o (node_entries io ld fin rnd pf o r' m ap tsc) c key) a (force_array v)).
      { apply fold_r_ext. intros b x J. apply (q_force _ _ L1) in J. unfold nest_entry. destruct (match prop_def c (Some key) with Some _ => _ | None => _ end) as [c'|]; [|reflexivity].
        cbn [bind]. destruct x as [| | | | |mm]; try reflexivity. destruct (flat_r _ (entries_sorted o mm)) as [es'|] eqn:ES; [|reflexivity]. cbn [bind].
        apply IH. eapply flat_r_all; [|exact ES]. intros e y Ie Y. apply entries_in' in Ie. apply (q_entry _ _ J) in Ie.
        cbn beta in Y; destruct (xkey io o c' (fst e)) as [[t|]|]; [|cbn [bind] in Y; injection Y as <-; constructor|discriminate]. cbn [bind] in Y. injection Y as <-.
        repeat constructor; exact Ie. }
      rewrite E. reflexivity.
    + destruct v as [| | | | |mm]; try reflexivity.
      assert (E : fold_r (reverse_entry io o r c) (snd (fst a)) (entries_sorted o mm) = fold_r (reverse_entry io o r' c) (snd (fst a)) (entries_sorted o mm)).
      { apply fold_r_ext. intros b e J. apply entries_in' in J. apply reverse_q. exact (q_entry _ _ L1 J). }
      rewrite E. reflexivity.
Qed.
Lemma map_q f c ap m fm : Q (JObj m) -> element_context io ld pf o base c ap m fm = element_context io ld pf o base' c ap m fm ->
  expand_map io ld fin rnd pf o base r f c ap m fm = expand_map io ld fin rnd pf o base' r' f c ap m fm.
Proof using AG Qi Qe.
  intros L EC. unfold expand_map. rewrite EC. destruct (element_context io ld pf o base' c ap m fm) as [tsc|]; [|reflexivity]. cbn [bind].
  destruct (type_entries io o tsc m) as [ts|]; [|reflexivity]. cbn [bind]. destruct (type_scoped io ld pf o tsc ts) as [c'|]; [|reflexivity]. cbn [bind].
  destruct (input_type io o c' ts) as [it|]; [|reflexivity]. cbn [bind]. destruct (expand_entries io o c' m) as [es|] eqn:ES; [|reflexivity]. cbn [bind].
  assert (F : Forall (fun e => Q (snd e)) es).
  { eapply flat_r_all; [|exact ES]. intros e y I Y. apply (q_entry _ _ L) in I. cbn beta in Y; destruct (xkey io o c' (fst e)) as [[t|]|]; [|cbn [bind] in Y; injection Y as <-; constructor|discriminate].
    cbn [bind] in Y. injection Y as <-. constructor; [exact I|constructor]. }
  assert (LE : forall k v, last_entry k es = Some v -> Q v).
  { intros k v. unfold last_entry. clear ES. induction es as [|e es IH] using rev_ind; [discriminate|]. rewrite fold_left_app. cbn [fold_left].
    apply Forall_app in F. destruct F as [F1 F2]. inversion F2; subst. destruct (snd (fst e)); try (apply IH; assumption). destruct (keyword_eqb k0 k); [|apply IH; assumption].
    intros X. injection X as <-. assumption. }
  destruct (if is_some ap && negb (ap_is ap KGraph) then last_entry KList es else None) as [l|] eqn:LL.
  - assert (SL : Q l) by (destruct (_ && _); [exact (LE _ _ LL)|discriminate]).
    destruct (list_index es) as [i|]; [|reflexivity]. cbn [bind]. erewrite flat_r_ext; [reflexivity|]. intros x I. cbn beta. apply (q_force _ _ SL) in I. rewrite (AG c' ap x false I). reflexivity.
  - destruct (last_entry KSet es) as [l|] eqn:SL; [rewrite (AG c' ap l false (LE _ _ SL)); reflexivity|].
    destruct (last_entry KValue es); [reflexivity|]. unfold expand_node. rewrite (entries_q f ap tsc c' es) by exact F. reflexivity.
Qed.
End Two.

Hypothesis EC : forall c ap m fm, Q (JObj m) -> element_context io ld pf o base c ap m fm = element_context io ld pf o base' c ap m fm.
Theorem expand_q n : forall c ap j fm, Q j ->
  expand_element io ld fin rnd pf o base n c ap j fm = expand_element io ld fin rnd pf o base' n c ap j fm.
Proof using Qi Qe EC.
  induction n as [|n IH]; intros c ap j fm L; [reflexivity|]. cbn [expand_element]. destruct j; try reflexivity; cbn [element_body].
  - erewrite flat_r_ext; [reflexivity|]. intros x I. cbn beta. rewrite (IH c ap x fm (Forall_in _ _ _ (Qi _ L) I)). reflexivity.
  - apply map_q; [exact IH|exact L|apply EC, L].
Qed.
End BaseFree.

Lemma get_none k (m : jobject) : ~ In k (map fst m) -> get_unique k m = Ok None.
Proof. intros N. unfold get_unique. rewrite (proj2 (get_all_nil k m) N). reflexivity. Qed.
Theorem base_free io ld fin rnd pf o base base' n c j : contextless j ->
  expand io ld fin rnd pf o base n c j = expand io ld fin rnd pf o base' n c j.
Proof.
  intros C. unfold expand. rewrite (expand_q io ld fin rnd pf o base base' contextless) with (n := n); [reflexivity| | | |exact C].
  - intros l H. inversion H; assumption.
  - intros m H. inversion H; assumption.
  - intros c' ap m fm H. inversion H as [| | | | |? N _]; subst. unfold element_context. rewrite (get_none _ _ N). reflexivity.
Qed.

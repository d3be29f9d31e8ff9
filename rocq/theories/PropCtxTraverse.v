(** C92: the views of a context. *)
From Coq Require Import Permutation Lia.
From Verif Require Import Prelude Json Enums LangTag LangString Str Keyword Container ContextSyntax Ctx Process Object ObjectEq ObjectJson Print PrintProofs CtxTraverse.

(** ** Specification *)
(** The JSON value of an entry. *)
Definition dvalue_json (v : dvalue) : json :=
  match v with
  | DvBase v | DvLanguage v | DvVocab v => nullable_shown JStr v
  | DvImport v => JStr v
  | DvDirection v => nullable_shown (fun x => JStr (dir_str x)) v
  | DvPropagate v | DvProtected v => JBool v
  | DvType t => dtype_shown t
  | DvVersion _ => JNum "1.1"
  | DvDefinition v => nullable_shown tdef_shown v
  end.
Definition tentry_json (e : tentry) : json :=
  match e with
  | TeId v => nullable_shown (fun i => JStr (tid_str i)) v
  | TeType v => nullable_shown (fun i => JStr (ttype_str i)) v
  | TeContext c => context_shown c
  | TeReverse v | TeIndex v => JStr v
  | TeLanguage v => nullable_shown JStr v
  | TeDirection v => nullable_shown (fun x => JStr (dir_str x)) v
  | TeContainer v => nullable_shown container_shown v
  | TeNest v => JStr (tnest_str v)
  | TePrefix v | TePropagate v | TeProtected v => JBool v
  end.
(** An iterator gives the items of the list in order, then ends; at each step its size hint is the
    number of items left. *)
Inductive drains {St A} (next : St -> option (A * St)) (hint : St -> nat) : St -> list A -> Prop :=
| DrEnd s : next s = None -> hint s = 0 -> drains next hint s []
| DrItem s x s' l : next s = Some (x, s') -> hint s = S (List.length l) -> drains next hint s' l -> drains next hint s (x :: l).
(** The entries of a definition and of a term definition. *)
Definition item {A B} (f : A -> B) (o : option A) : list B := match o with Some a => [f a] | None => [] end.
Definition entries_of (d : cdef tdef) : list dentry :=
  item DeBase (cd_base d) ++ item DeImport (cd_import d) ++ item DeLanguage (cd_language d) ++ item DeDirection (cd_direction d) ++
  item DePropagate (cd_propagate d) ++ item DeProtected (cd_protected d) ++ item DeType (cd_type d) ++ item DeVersion (cd_version d) ++
  item DeVocab (cd_vocab d) ++ map (fun b => DeDefinition (fst b) (snd b)) (cd_bindings d).
Definition term_entries_of (e : texp lcontext) : list tentry :=
  item TeId (te_id e) ++ item TeType (te_type e) ++ item TeContext (te_context e) ++ item TeReverse (te_reverse e) ++ item TeIndex (te_index e) ++
  item TeLanguage (te_language e) ++ item TeDirection (te_direction e) ++ item TeContainer (te_container e) ++ item TeNest (te_nest e) ++
  item TePrefix (te_prefix e) ++ item TePropagate (te_propagate e) ++ item TeProtected (te_protected e).
(** The fragments visited: the array, its contexts, their entries, the key and the value of each,
    and the entries of the expanded term definitions; nothing inside of these. *)
Definition parts_of_entry (e : dentry) : list frag :=
  FrDef (DfEntry e) :: FrDef (DfKey (dentry_key e)) :: FrDef (DfValue (dentry_value e)) ::
  match e with
  | DeDefinition _ (NSome (TExpanded t)) => map (fun x => FrDef (DfTerm (TfEntry x))) (term_entries_of t)
  | _ => []
  end.
Definition parts_of_context (e : centry) : list frag :=
  FrContext e :: match e with CEDef d => flat_map parts_of_entry (entries_of d) | _ => [] end.
Definition parts (c : lcontext) : list frag :=
  match c with
  | LOne e => parts_of_context e
  | LMany l => FrArray l :: flat_map parts_of_context l
  end.
(** The number of arrays and objects in a JSON value. *)
Fixpoint compounds (j : json) : nat :=
  match j with
  | JArr l => S (list_sum (map compounds l))
  | JObj l => S (list_sum (map (fun e => compounds (snd e)) l))
  | _ => 0
  end.
(** No scoped context, no array of containers. *)
Definition flat_term (t : tdef) : Prop :=
  match t with TSimple _ => True | TExpanded e => te_context e = None /\ forall l, te_container e <> Some (NSome (SMany l)) end.
Definition flat_context (c : lcontext) : Prop :=
  forall e d k t, In e (match c with LOne e => [e] | LMany l => l end) -> e = CEDef d -> In (k, NSome t) (cd_bindings d) -> flat_term t.

(** ** Entries *)
Lemma drains_collect {St A} (next : St -> option (A * St)) hint s l : drains next hint s l -> forall fuel, List.length l < fuel -> collect next fuel s = Some l.
Proof.
  induction 1 as [s E _|s x s' l E _ D IH]; intros [|fuel] L; cbn in L; try lia; cbn; rewrite E; [reflexivity|]. rewrite IH by lia. reflexivity.
Qed.
Lemma drains_hint {St A} (next : St -> option (A * St)) hint s l : drains next hint s l -> hint s = List.length l.
Proof. intros [s' E H|s' x s2 l' E H D]; exact H. Qed.
Lemma drains_steps {St A} (next : St -> option (A * St)) hint (items : St -> list A) :
  (forall s, match next s with None => items s = [] /\ hint s = 0 | Some (x, s') => items s = x :: items s' /\ hint s = S (hint s') end) ->
  forall s, drains next hint s (items s).
Proof.
  intros H.
  assert (L : forall n s, hint s = n -> List.length (items s) = n).
  { induction n as [|n IH]; intros s E; specialize (H s); destruct (next s) as [[x s']|]; destruct H as [H1 H2]; rewrite H1; cbn; try lia. rewrite (IH s'); lia. }
  assert (D : forall n s, hint s = n -> drains next hint s (items s)).
  { induction n as [|n IH]; intros s E; pose proof (H s) as Hs; destruct (next s) as [[x s']|] eqn:En; destruct Hs as [H1 H2]; rewrite H1; try lia.
    - constructor; assumption.
    - econstructor; [exact En|rewrite (L (hint s') s' eq_refl); exact H2|apply IH; lia]. }
  intros s. exact (D _ s eq_refl).
Qed.
Lemma d_drains d : drains d_next d_hint d (entries_of d).
Proof.
  apply drains_steps. clear d. intros [ba im la di pg pt ty vs vo b]. unfold d_hint.
  do 9 (match goal with |- match d_next (MkDef ?a ?c ?e ?f ?g ?h ?i ?j ?k _) with _ => _ end =>
     let o := match a with None => match c with None => match e with None => match f with None => match g with None => match h with None => match i with None => match j with None => k | _ => j end | _ => i end | _ => h end | _ => g end | _ => f end | _ => e end | _ => c end | _ => a end in
     destruct o; [cbn; split; [reflexivity|lia]|] end).
  destruct b as [|[k v] b]; cbn; split; (reflexivity || lia).
Qed.
Lemma t_drains e : drains t_next t_hint e (term_entries_of e).
Proof.
  apply drains_steps. clear e. intros [i t c r x l d ct n pf pp pt]. unfold t_hint.
  destruct i; [cbn; split; [reflexivity|lia]|]. destruct t; [cbn; split; [reflexivity|lia]|]. destruct c; [cbn; split; [reflexivity|lia]|].
  destruct r; [cbn; split; [reflexivity|lia]|]. destruct x; [cbn; split; [reflexivity|lia]|]. destruct l; [cbn; split; [reflexivity|lia]|].
  destruct d; [cbn; split; [reflexivity|lia]|]. destruct ct; [cbn; split; [reflexivity|lia]|]. destruct n; [cbn; split; [reflexivity|lia]|].
  destruct pf; [cbn; split; [reflexivity|lia]|]. destruct pp; [cbn; split; [reflexivity|lia]|]. destruct pt; cbn; split; reflexivity.
Qed.
Lemma d_entries_are d : d_entries d = entries_of d.
Proof. unfold d_entries. rewrite (drains_collect _ _ _ _ (d_drains d)); [reflexivity|]. rewrite (drains_hint _ _ _ _ (d_drains d)). lia. Qed.
Lemma t_entries_are e : t_entries e = term_entries_of e.
Proof. unfold t_entries. rewrite (drains_collect _ _ _ _ (t_drains e)); [reflexivity|]. rewrite (drains_hint _ _ _ _ (t_drains e)). lia. Qed.

Lemma d_json d : centry_shown (CEDef d) = JObj (map (fun e => (dkey_str (dentry_key e), dvalue_json (dentry_value e))) (entries_of d)).
Proof.
  cbn [centry_shown]. f_equal. destruct d as [ba im la di pg pt ty vs vo b]. unfold cdef_shown, entries_of. cbn [cdef_map cd_base cd_import cd_language cd_direction cd_propagate cd_protected cd_type cd_version cd_vocab cd_bindings].
  rewrite !map_app, !map_map. repeat (f_equal; [match goal with |- entry_of _ ?o _ = _ => destruct o; reflexivity end|]).
  unfold map_bindings. rewrite ?map_map. apply map_ext. intros [k [|t]]; reflexivity.
Qed.
Lemma t_json e : tdef_shown (TExpanded e) = JObj (map (fun e => (tentry_key e, tentry_json e)) (term_entries_of e)).
Proof.
  cbn [tdef_shown]. f_equal. destruct e as [i t c r x l d ct n pf pp pt]. unfold texp_shown, term_entries_of. cbn [texp_map te_id te_type te_context te_reverse te_index te_language te_direction te_container te_nest te_prefix te_propagate te_protected].
  rewrite !map_app. repeat (f_equal; [match goal with |- entry_of _ (option_map _ ?o) _ = _ => destruct o; reflexivity | |- entry_of _ ?o _ = _ => destruct o; reflexivity end|]). destruct pt; reflexivity.
Qed.

(** The iterators end, announce the number of entries left at every step, and give the entries of
    the JSON value, in its order. *)
Theorem C92_entries :
  (forall d, exists l, drains d_next d_hint d l /\ centry_shown (CEDef d) = JObj (map (fun e => (dkey_str (dentry_key e), dvalue_json (dentry_value e))) l)) /\
  (forall e, exists l, drains t_next t_hint e l /\ tdef_shown (TExpanded e) = JObj (map (fun e => (tentry_key e, tentry_json e)) l)).
Proof.
  split; [intros d; exists (entries_of d); split; [apply d_drains|apply d_json]|intros e; exists (term_entries_of e); split; [apply t_drains|apply t_json]].
Qed.
Print Assumptions C92_entries.

(** ** Access by key *)
(** The key under which an entry is found. *)
Definition under (k : keyword + string) (e : dentry) : Prop :=
  match k with inl w => kw_str w = dkey_str (dentry_key e) /\ forall x v, e <> DeDefinition x v | inr x => exists v, e = DeDefinition x v end.
Theorem C92_get : forall d k v, NoDup (map fst (cd_bindings d)) ->
  (d_get d k = Some v <-> exists l e, drains d_next d_hint d l /\ In e l /\ under k e /\ dentry_value e = v).
Proof.
  assert (Det : forall d l, drains d_next d_hint d l -> l = entries_of d).
  { intros d l D. pose proof (drains_collect _ _ _ _ D (S (List.length l)) ltac:(lia)) as X. pose proof (drains_collect _ _ _ _ (d_drains d) (S (List.length l))) as Y.
    rewrite <- (drains_hint _ _ _ _ (d_drains d)), (drains_hint _ _ _ _ D) in Y. rewrite Y in X by lia. congruence. }
  intros d k v N. split.
  - intros G. assert (exists e, In e (entries_of d) /\ under k e /\ dentry_value e = v) as (e & I & U & V); [|exists (entries_of d), e; split; [apply d_drains|auto]].
    unfold entries_of. destruct d as [ba im la di pg pt ty vs vo b]. cbn [cd_base cd_import cd_language cd_direction cd_propagate cd_protected cd_type cd_version cd_vocab cd_bindings] in *.
    destruct k as [w|x].
    + destruct w; cbn in G; try discriminate;
        match type of G with option_map ?f ?o = _ => destruct o as [a|]; [|discriminate]; injection G as <- end;
        match goal with |- exists e, _ /\ _ /\ dentry_value e = ?y ?a =>
          let c := match y with DvBase => constr:(DeBase) | DvImport => constr:(DeImport) | DvLanguage => constr:(DeLanguage) | DvDirection => constr:(DeDirection) | DvPropagate => constr:(DePropagate) | DvProtected => constr:(DeProtected) | DvType => constr:(DeType) | DvVersion => constr:(DeVersion) | DvVocab => constr:(DeVocab) end in
          exists (c a); split; [rewrite !in_app_iff; cbn; tauto|split; [split; [reflexivity|discriminate]|reflexivity]] end.
    + cbn in G. destruct (assoc x b) as [t|] eqn:A; [|discriminate]. injection G as <-. exists (DeDefinition x t). split; [|split; [exists t; reflexivity|reflexivity]].
      rewrite !in_app_iff. do 9 right. apply in_map_iff. exists (x, t). split; [reflexivity|]. apply assoc_Some_In. exact A.
  - intros (l & e & D & I & U & <-). rewrite (Det _ _ D) in I. clear D l Det.
    unfold entries_of in I. destruct d as [ba im la di pg pt ty vs vo b]. cbn [cd_base cd_import cd_language cd_direction cd_propagate cd_protected cd_type cd_version cd_vocab cd_bindings] in *.
    rewrite !in_app_iff in I.
    destruct I as [I|[I|[I|[I|[I|[I|[I|[I|[I|I]]]]]]]]].
    10: { apply in_map_iff in I. destruct I as ([x t] & <- & I). destruct k as [w|y]; [destruct U as [_ U]; exfalso; eapply U; reflexivity|]. destruct U as (v & [= -> ->]). cbn in *. rewrite (assoc_In_nodup _ _ _ N I). reflexivity. }
    all: match type of I with In _ (item _ ?o) => destruct o as [a|]; [|destruct I]; destruct I as [<-|[]] end;
      (destruct k as [w|x]; [destruct U as [U _]; destruct w; try discriminate U; reflexivity|destruct U as (v & U); discriminate]).
Qed.
Print Assumptions C92_get.

(** ** Traversal *)
Lemma collect_more {St A} (next : St -> option (A * St)) : forall n s l, collect next n s = Some l -> forall m, n <= m -> collect next m s = Some l.
Proof.
  induction n as [|n IH]; intros s l E m L; [discriminate|]. destruct m as [|m]; [lia|]. cbn in *. destruct (next s) as [[x s']|]; [|exact E].
  destruct (collect next n s') as [l'|] eqn:E'; [|discriminate]. rewrite (IH _ _ E' m) by lia. exact E.
Qed.
(** What a fragment and its sub-fragments give. *)
Definition yields (st : list frag) (l : list frag) : Prop := exists n, collect trav_next n st = Some l.
Lemma yields_nil : yields [] []. Proof. exists 1. reflexivity. Qed.
Lemma yields_cons f st l : yields (rev (frag_subs f) ++ st) l -> yields (f :: st) (f :: l).
Proof. intros [n E]. exists (S n). cbn. rewrite E. reflexivity. Qed.
(** [f] visits [p], whatever comes next. *)
Definition visits (f : frag) (p : list frag) : Prop := forall st l, yields st l -> exists l', yields (f :: st) l' /\ Permutation l' (p ++ l).
Lemma visits_list (F : frag -> list frag) fs : Forall (fun f => visits f (F f)) fs -> forall st l, yields st l -> exists l', yields (rev fs ++ st) l' /\ Permutation l' (flat_map F fs ++ l).
Proof.
  induction 1 as [|f fs Hf Hs IH]; intros st l Y; [exists l; auto|]. cbn [rev flat_map]. rewrite <- !app_assoc. cbn [app].
  destruct (Hf st l Y) as (l1 & Y1 & P1). destruct (IH _ _ Y1) as (l2 & Y2 & P2). exists l2. split; [exact Y2|]. rewrite P2, P1. rewrite !app_assoc. apply Permutation_app_tail, Permutation_app_comm.
Qed.
Lemma visits_step (F : frag -> list frag) f : Forall (fun g => visits g (F g)) (frag_subs f) -> visits f (f :: flat_map F (frag_subs f)).
Proof.
  intros H st l Y. destruct (visits_list F _ H st l Y) as (l' & Y' & P). exists (f :: l'). split; [apply yields_cons, Y'|]. cbn. constructor. exact P.
Qed.
Lemma visits_leaf f : frag_subs f = [] -> visits f [f].
Proof. intros E. pose proof (visits_step (fun _ => []) f) as V. rewrite E in V. apply V. constructor. Qed.
Lemma visits_value e : visits (FrDef (DfValue (dentry_value e)))
  (FrDef (DfValue (dentry_value e)) :: match e with DeDefinition _ (NSome (TExpanded t)) => map (fun x => FrDef (DfTerm (TfEntry x))) (term_entries_of t) | _ => [] end).
Proof.
  destruct e as [| | | | | | | | |k [|[s|t]]]; try (apply visits_leaf; reflexivity).
  pose proof (visits_step (fun f => [f]) (FrDef (DfValue (DvDefinition (NSome (TExpanded t)))))) as V. cbn [frag_subs dfrag_subs] in V. rewrite t_entries_are, map_map in V.
  cbn [dentry_value]. rewrite flat_map_concat_map, map_map in V. rewrite <- (flat_map_concat_map (fun x => [FrDef (DfTerm (TfEntry x))])) in V.
  assert (Fm : forall l, flat_map (fun x => [FrDef (DfTerm (TfEntry x))]) l = map (fun x => FrDef (DfTerm (TfEntry x))) l) by (induction l; cbn; congruence). rewrite Fm in V. apply V.
  apply Forall_forall. intros f I. apply in_map_iff in I. destruct I as (x & <- & _). apply visits_leaf. reflexivity.
Qed.
Lemma visits_ext f p q : p = q -> visits f p -> visits f q. Proof. intros ->. auto. Qed.
Lemma visits_entry e : visits (FrDef (DfEntry e)) (parts_of_entry e).
Proof.
  intros st l Y. destruct (visits_leaf (FrDef (DfKey (dentry_key e))) eq_refl st l Y) as (l1 & Y1 & P1). destruct (visits_value e _ _ Y1) as (l2 & Y2 & P2).
  exists (FrDef (DfEntry e) :: l2). split; [apply yields_cons; exact Y2|]. unfold parts_of_entry. cbn [app]. constructor. rewrite P2, P1.
  cbn [app]. etransitivity; [|apply perm_swap]. constructor. symmetry. apply Permutation_middle.
Qed.
Lemma visits_context e : visits (FrContext e) (parts_of_context e).
Proof.
  destruct e as [|s|d]; try (apply visits_leaf; reflexivity). unfold parts_of_context.
  pose proof (visits_step (fun f => match f with FrDef (DfEntry e) => parts_of_entry e | _ => [] end) (FrContext (CEDef d))) as V. cbn [frag_subs] in V. rewrite d_entries_are in V.
  rewrite (flat_map_concat_map _ (map _ _)), map_map, <- flat_map_concat_map in V. apply V. apply Forall_forall. intros f I. apply in_map_iff in I. destruct I as (x & <- & _). apply visits_entry.
Qed.
Lemma traverses c : exists l, yields (traverse c) l /\ Permutation l (parts c).
Proof.
  destruct c as [e|l]; cbn [traverse parts].
  - destruct (visits_context e [] [] yields_nil) as (l' & Y & P). exists l'. rewrite app_nil_r in P. auto.
  - pose proof (visits_step (fun f => match f with FrContext e => parts_of_context e | _ => [] end) (FrArray l)) as V. cbn [frag_subs] in V.
    rewrite (flat_map_concat_map _ (map _ _)), map_map, <- flat_map_concat_map in V.
    destruct (V ltac:(apply Forall_forall; intros f I; apply in_map_iff in I; destruct I as (x & <- & _); apply visits_context) [] [] yields_nil) as (l' & Y & P).
    exists l'. rewrite app_nil_r in P. auto.
Qed.

Lemma yields_unique st l l' : yields st l -> yields st l' -> l = l'.
Proof. intros [n E] [m E']. pose proof (collect_more _ _ _ _ E (n + m) ltac:(lia)) as X. pose proof (collect_more _ _ _ _ E' (n + m) ltac:(lia)) as Y. congruence. Qed.
(** The traversal ends; it visits each of these parts, as many times as the context has it, and
    nothing else. *)
Theorem C92_traverse : forall c, exists l, (exists n, collect trav_next n (traverse c) = Some l) /\ Permutation l (parts c).
Proof. exact traverses. Qed.
Print Assumptions C92_traverse.

(** ** Arrays and objects *)
(** The JSON value of a fragment; entries and keys have none. *)
Definition frag_json (f : frag) : option json :=
  match f with
  | FrArray l => Some (context_shown (LMany l))
  | FrContext e => Some (centry_shown e)
  | FrDef (DfValue v) => Some (dvalue_json v)
  | FrDef (DfTerm (TfValue e)) => Some (tentry_json e)
  | FrDef (DfTerm (TfContainer k)) => Some (JStr (ckind_str k))
  | _ => None
  end.
Definition json_object (j : json) : bool := match j with JObj _ => true | _ => false end.
Definition json_array (j : json) : bool := match j with JArr _ => true | _ => false end.
Definition on_json (p : json -> bool) (f : frag) : bool := match frag_json f with Some j => p j | None => false end.
Definition scoped_array (f : frag) : Prop := exists l, f = FrDef (DfTerm (TfValue (TeContext (LMany l)))).
(** What a fragment says it is, its JSON value is — all of them but scoped contexts made of an
    array; the traversal visits none of these. *)
Theorem C92_kinds :
  (forall f, is_object f = on_json json_object f) /\
  (forall f, ~ scoped_array f -> is_array f = on_json json_array f) /\
  (forall c l n f, collect trav_next n (traverse c) = Some l -> In f l -> ~ scoped_array f).
Proof.
  repeat split.
  - intros [l|[|s|d]|[e|k|v|[e|k|e|k]]]; try reflexivity.
    + destruct v as [[|v]|v|[|v]|[|v]|v|v|v|v|[|v]|[|[v|v]]]; reflexivity.
    + destruct e as [[|v]|[|v]|[[|s|d]|l]|v|v|[|v]|[|v]|[|[v|v]]|v|v|v|v]; reflexivity.
  - intros [l|[|s|d]|[e|k|v|[e|k|e|k]]] N; try reflexivity.
    + destruct v as [[|v]|v|[|v]|[|v]|v|v|v|v|[|v]|[|[v|v]]]; reflexivity.
    + destruct e as [[|v]|[|v]|[[|s|d]|l]|v|v|[|v]|[|v]|[|[v|v]]|v|v|v|v]; try reflexivity. exfalso. apply N. exists l. reflexivity.
  - intros c l n f E I (m & ->). destruct (traverses c) as (l' & Y & P). rewrite <- (yields_unique _ _ _ (ex_intro _ n E) Y) in P.
    apply (Permutation_in _ P) in I. clear - I.
    assert (NE : forall e, ~ In (FrDef (DfTerm (TfValue (TeContext (LMany m))))) (parts_of_entry e)).
    { intros e J. unfold parts_of_entry in J. destruct J as [J|[J|[J|J]]]; try discriminate.
      destruct e as [| | | | | | | | |k [|[s|t]]]; try destruct J. apply in_map_iff in J. destruct J as (x & J & _). discriminate. }
    assert (NC : forall e, ~ In (FrDef (DfTerm (TfValue (TeContext (LMany m))))) (parts_of_context e)).
    { intros e [J|J]; [discriminate|]. destruct e as [| |d]; try destruct J. apply in_flat_map in J. destruct J as (x & _ & J). exact (NE x J). }
    destruct c as [e|l0]; [exact (NC e I)|]. destruct I as [J|J]; [discriminate|]. apply in_flat_map in J. destruct J as (x & _ & J). exact (NC x J).
Qed.
Print Assumptions C92_kinds.
Theorem C92_kinds_refuted : exists f, is_array f = false /\ on_json json_array f = true.
Proof. exists (FrDef (DfTerm (TfValue (TeContext (LMany []))))). split; reflexivity. Qed.
Print Assumptions C92_kinds_refuted.

(** The entry that a fragment is. *)
Definition frag_entry (f : frag) : option (string * json) :=
  match f with
  | FrDef (DfEntry e) => Some (dkey_str (dentry_key e), dvalue_json (dentry_value e))
  | FrDef (DfTerm (TfEntry e)) => Some (tentry_key e, tentry_json e)
  | _ => None
  end.
(** A scoped context, and the value of [@type], are not looked into. *)
Definition closed (f : frag) : Prop := (exists c, f = FrDef (DfTerm (TfValue (TeContext c)))) \/ (exists t, f = FrDef (DfValue (DvType t))).
(** The fragments right below another are the items of its JSON array and the entries of its JSON
    object, in order. *)
Theorem C92_subs : forall f, ~ closed f ->
  (forall l, frag_json f = Some (JArr l) -> map frag_json (frag_subs f) = map Some l) /\
  (forall l, frag_json f = Some (JObj l) -> map frag_entry (frag_subs f) = map Some l).
Proof.
  intros f N. split; intros l E.
  - destruct f as [m|[|s|d]|[e|k|v|[e|k|e|k]]]; try discriminate E.
    + injection E as <-. cbn [frag_subs]. rewrite !map_map. reflexivity.
    + destruct v as [[|v]|v|[|v]|[|v]|v|v|v|v|[|v]|[|[v|v]]]; discriminate E.
    + destruct e as [[|v]|[|v]|c|v|v|[|v]|[|v]|[|[v|v]]|v|v|v|v]; try discriminate E.
      * exfalso. apply N. left. exists c. reflexivity.
      * injection E as <-. cbn [frag_subs dfrag_subs tfrag_subs]. rewrite !map_map. reflexivity.
  - destruct f as [m|[|s|d]|[e|k|v|[e|k|e|k]]]; try discriminate E.
    + cbn [frag_json] in E. rewrite d_json in E. injection E as <-. cbn [frag_subs]. rewrite d_entries_are, !map_map. reflexivity.
    + destruct v as [[|v]|v|[|v]|[|v]|v|v|v|v|[|v]|[|[v|v]]]; try discriminate E.
      * exfalso. apply N. right. exists v. reflexivity.
      * cbn [frag_json dvalue_json nullable_shown] in E. rewrite t_json in E. injection E as <-. cbn [frag_subs dfrag_subs]. rewrite t_entries_are, !map_map. reflexivity.
    + destruct e as [[|v]|[|v]|c|v|v|[|v]|[|v]|[|[v|v]]|v|v|v|v]; try discriminate E.
      exfalso. apply N. left. exists c. reflexivity.
Qed.
Print Assumptions C92_subs.

(** ** The number of sizes of the printer *)
Definition compound (f : frag) : bool := orb (is_array f) (is_object f).
Definition cnt (l : list frag) : nat := List.length (filter compound l).
Lemma cnt_app l m : cnt (l ++ m) = cnt l + cnt m. Proof. unfold cnt. rewrite filter_app. apply app_length. Qed.
Lemma cnt_cons f l : cnt (f :: l) = (if compound f then 1 else 0) + cnt l. Proof. unfold cnt. cbn. destruct (compound f); reflexivity. Qed.
Lemma cnt_perm l m : Permutation l m -> cnt l = cnt m.
Proof. induction 1; rewrite ?cnt_cons; lia. Qed.
Lemma cnt_terms l : cnt (map (fun x => FrDef (DfTerm (TfEntry x))) l) = 0. Proof. induction l; [reflexivity|]. cbn [map]. rewrite cnt_cons. exact IHl. Qed.
Lemma cnt_flat {A} (f : A -> list frag) (g : A -> nat) l : (forall x, In x l -> cnt (f x) <= g x) -> cnt (flat_map f l) <= list_sum (map g l).
Proof. induction l as [|x l IH]; intros H; [cbn; lia|]. cbn [flat_map map]. rewrite cnt_app. change (list_sum (g x :: map g l)) with (g x + list_sum (map g l)). specialize (IH (fun y I => H y (or_intror I))). specialize (H x (or_introl eq_refl)). lia. Qed.
Lemma cnt_flat_eq {A} (f : A -> list frag) (g : A -> nat) l : (forall x, In x l -> cnt (f x) = g x) -> cnt (flat_map f l) = list_sum (map g l).
Proof. induction l as [|x l IH]; intros H; [reflexivity|]. cbn [flat_map map]. rewrite cnt_app. change (list_sum (g x :: map g l)) with (g x + list_sum (map g l)). rewrite (IH (fun y I => H y (or_intror I))), (H x (or_introl eq_refl)). reflexivity. Qed.
Lemma cnt_entry e : cnt (parts_of_entry e) <= compounds (dvalue_json (dentry_value e)).
Proof.
  unfold parts_of_entry. rewrite !cnt_cons. unfold compound.
  destruct e as [v|v|v|v|v|v|v|v|v|k [|[s|t]]]; cbn -[tdef_shown compounds cnt]; change (cnt []) with 0; try (apply Nat.le_0_l).
  - destruct v as [[b|]]; cbn; lia.
  - rewrite cnt_terms. cbn [nullable_shown]. rewrite t_json. cbn [compounds]. lia.
Qed.
Lemma cnt_entry_eq e : (forall k t, e = DeDefinition k (NSome t) -> flat_term t) -> cnt (parts_of_entry e) = compounds (dvalue_json (dentry_value e)).
Proof.
  intros Fl. unfold parts_of_entry. rewrite !cnt_cons. unfold compound.
  destruct e as [v|v|v|v|v|v|v|v|v|k [|[s|t]]]; cbn -[tdef_shown compounds cnt]; try (destruct v as [|v]; reflexivity); try reflexivity.
  - destruct v as [[b|]]; reflexivity.
  - rewrite cnt_terms. cbn [nullable_shown]. rewrite t_json. cbn [compounds]. destruct (Fl k _ eq_refl) as [Nc Ns].
    rewrite map_map. cbn [snd].
    assert (Z : forall x, In x (term_entries_of t) -> compounds (tentry_json x) = 0).
    { intros x I. destruct t as [ti ty tc tr tx tl td ct tn pf pp pt]. unfold term_entries_of in I. cbn [te_id te_type te_context te_reverse te_index te_language te_direction te_container te_nest te_prefix te_propagate te_protected] in *. subst tc.
      rewrite !in_app_iff in I. destruct I as [I|[I|[I|[I|[I|[I|[I|[I|[I|[I|[I|I]]]]]]]]]]];
        match type of I with In _ (item _ None) => destruct I | In _ (item _ ?o) => destruct o as [a|]; [|destruct I]; destruct I as [<-|[]] end; try reflexivity; try (destruct a as [|a]; reflexivity).
      destruct a as [|[a|a]]; try reflexivity. exfalso. eapply Ns. reflexivity. }
    revert Z. generalize (term_entries_of t). induction l as [|x l IH]; intros Z; [reflexivity|]. cbn [map].
    change (list_sum (?a :: ?r)) with (a + list_sum r). rewrite (Z x (or_introl eq_refl)). cbn [plus]. rewrite <- IH; [reflexivity|]. intros y J. apply Z. right. exact J.
Qed.
Lemma cnt_context e : cnt (parts_of_context e) <= compounds (centry_shown e).
Proof.
  destruct e as [|s|d]; try (cbn; lia). unfold parts_of_context. rewrite cnt_cons, d_json. cbn [compounds compound is_array is_object orb]. rewrite map_map. cbn [snd].
  pose proof (cnt_flat parts_of_entry (fun e => compounds (dvalue_json (dentry_value e))) (entries_of d) (fun e _ => cnt_entry e)). cbn [plus]. lia.
Qed.
Lemma cnt_context_eq e : (forall d k t, e = CEDef d -> In (k, NSome t) (cd_bindings d) -> flat_term t) -> cnt (parts_of_context e) = compounds (centry_shown e).
Proof.
  intros Fl. destruct e as [|s|d]; try reflexivity. unfold parts_of_context. rewrite cnt_cons, d_json. cbn [compounds compound is_array is_object orb]. rewrite map_map. cbn [snd plus]. f_equal.
  apply (cnt_flat_eq parts_of_entry (fun e => compounds (dvalue_json (dentry_value e)))). intros e I. apply cnt_entry_eq. intros k t ->. apply (Fl d k t eq_refl).
  unfold entries_of in I. rewrite !in_app_iff in I. destruct I as [I|[I|[I|[I|[I|[I|[I|[I|[I|I]]]]]]]]].
  10: { apply in_map_iff in I. destruct I as ([k' v] & [= -> ->] & I). exact I. }
  all: match type of I with In _ (item _ ?o) => destruct o as [a|]; [|destruct I]; destruct I as [I|[]]; discriminate end.
Qed.
Lemma context_shown_many l : context_shown (LMany l) = JArr (map centry_shown l). Proof. reflexivity. Qed.
Lemma sizes_pushed {sz} (lo : layout sz) c : List.length (snd (context_pre lo c)) = compounds (context_shown c).
Proof.
  rewrite (proj1 (context_spec lo c)). generalize (context_shown c). clear c.
  induction j as [| | | |l IH|l IH] using json_ind'; try reflexivity; cbn; f_equal.
  - induction IH as [|x l H Hs IH']; [reflexivity|]. cbn. rewrite app_length, H, IH'. reflexivity.
  - induction IH as [|x l H Hs IH']; [reflexivity|]. cbn. rewrite app_length, H, IH'. reflexivity.
Qed.
(** The capacity reserved by the printer (the number of arrays and objects visited) is at most the
    number of sizes pushed, whatever the layout, with equality when no term has a scoped context
    nor an array of containers. *)
Theorem C92_capacity : forall sz (lo : layout sz) c l n, collect trav_next n (traverse c) = Some l ->
  List.length (filter (fun f => orb (is_array f) (is_object f)) l) <= List.length (snd (context_pre lo c)) /\
  (flat_context c -> List.length (filter (fun f => orb (is_array f) (is_object f)) l) = List.length (snd (context_pre lo c))).
Proof.
  intros sz lo c l n E. rewrite sizes_pushed. destruct (traverses c) as (l' & Y & P). rewrite <- (yields_unique _ _ _ (ex_intro _ n E) Y) in P.
  change (cnt l <= compounds (context_shown c) /\ (flat_context c -> cnt l = compounds (context_shown c))). rewrite (cnt_perm _ _ P). clear.
  destruct c as [e|l]; cbn [parts].
  - split; [apply cnt_context|]. intros Fl. apply cnt_context_eq. intros d k t -> I. exact (Fl _ d k t (or_introl eq_refl) eq_refl I).
  - rewrite cnt_cons, context_shown_many. cbn [compounds compound is_array is_object orb plus]. rewrite map_map. split.
    + pose proof (cnt_flat parts_of_context (fun e => compounds (centry_shown e)) l (fun e _ => cnt_context e)). lia.
    + intros Fl. f_equal. apply (cnt_flat_eq parts_of_context (fun e => compounds (centry_shown e))). intros e I. apply cnt_context_eq. intros d k t -> J. exact (Fl _ d k t I eq_refl J).
Qed.
Print Assumptions C92_capacity.

(** ** A scoped context *)
Definition inner : centry := CEDef (MkDef None None None None None None None None (Some (NSome "http://v/")) []).
Definition outer : lcontext :=
  LOne (CEDef (MkDef None None None None None None None None None
    [("a", NSome (TExpanded (MkTExp (Some (NSome (TIdTerm "http://a"))) None (Some (LOne inner)) None None None None None None None None None)))])).
(** The context scoped to a term is not visited, and not counted. *)
Theorem C92_scoped_refuted : forall sz (lo : layout sz), exists c e l n,
  (exists d k t, c = LOne (CEDef d) /\ In (k, NSome (TExpanded t)) (cd_bindings d) /\ te_context t = Some (LOne e)) /\
  collect trav_next n (traverse c) = Some l /\ ~ In (FrContext e) l /\
  List.length (filter (fun f => orb (is_array f) (is_object f)) l) < List.length (snd (context_pre lo c)).
Proof.
  intros sz lo. exists outer, inner, (match collect trav_next 20 (traverse outer) with Some l => l | None => [] end), 20.
  split; [eexists _, "a", _; split; [reflexivity|split; [left; reflexivity|reflexivity]]|]. split; [reflexivity|]. split; [|rewrite sizes_pushed; vm_compute; lia].
  vm_compute. intros H. repeat (destruct H as [H|H]; [discriminate|]). exact H.
Qed.
Print Assumptions C92_scoped_refuted.

(** ** Example *)
Definition ctx_example : lcontext :=
  LMany [CEIri "http://c"; CEDef (MkDef None None (Some (NSome "en")) None None None (Some (MkDType (Some true))) None None
    [("a", NSome (TExpanded (MkTExp (Some (NSome (TIdTerm "http://a"))) None None None None None None None None (Some true) None None))); ("b", NSome (TSimple "http://b")); ("c", NNull)])].
Example C92_example :
  option_map (@List.length frag) (collect trav_next 100 (traverse ctx_example)) = Some 20 /\ flat_context ctx_example /\
  compounds (context_shown ctx_example) = 4 /\
  d_get (MkDef None None (Some (NSome "en")) None None None None None None [("a", NNull)]) (inr "a") = Some (DvDefinition NNull).
Proof.
  split; [reflexivity|]. split; [|split; reflexivity]. intros e d k t [<-|[<-|[]]] E I; [discriminate|]. injection E as <-. cbn in I.
  destruct I as [I|[I|[I|[]]]]; try discriminate; injection I as <- <-; cbn; [split; [reflexivity|discriminate]|exact Logic.I].
Qed.

(** C84: the syntax of an active context is read as that context. *)
From Verif Require Import Prelude Str Keyword Enums LangTag Container Stack ContextSyntax Ctx Process Samples ObjectJson CompactIriRead Sound
  PropExpand Reify ReifyRead ReifyShape.

(** The conversion of a context whose definitions are [convertible] is read, in an empty
    context, as a context that says the same. *)
Theorem C84_reads_back : forall io ld n c b0 url o,
  id_laws io -> po_mode o = JsonLd11 -> po_propagate o = true ->
  NoDup (map fst (ac_defs c)) -> ac_prev c = None ->
  (forall b, ac_base c = Some b -> iri_ok io b = true) -> (ac_base c = None -> b0 = None) ->
  (forall t, ac_vocab c = Some t -> exists i, t = TmId i /\ real_id io i) ->
  (forall k d, get_normal c k = Some d ->
     convertible io (fun l => forall a, exists x, process_context io ld (S n) a l ps_new url (with_override o) = Ok x) url c k d) ->
  exists s c', ctx_into_syntax c = Some s /\ process_full io ld (S (S (S n))) (ctx_new b0) (LOne (CEDef s)) url o = Ok c' /\ same_ctx c c'.
Proof. exact reify_read. Qed.
Print Assumptions C84_reads_back.

(** Every string is then expanded the same way by both contexts. *)
Theorem C84_expands : forall io c c' v docrel vocab, same_ctx c c' ->
  (forall k d, get_normal c k = Some d -> nd_prefix d = true -> exists i, nd_value d = Some (TmId i)) ->
  expand_iri_simple io c' v docrel vocab = expand_iri_simple io c v docrel vocab.
Proof.
  intros io c c' v docrel vocab [SB SV SL SD SP ST SN] HP.
  assert (T : forall s, expand_tail io c' s docrel vocab = expand_tail io c s docrel vocab) by (intros s; unfold expand_tail; rewrite SV, SB; reflexivity).
  destruct v as [|[k|s]]; [reflexivity|reflexivity|]. unfold expand_iri_simple. destruct (is_keyword_like s); [reflexivity|].
  assert (D : expand_defined c' s vocab = expand_defined c s vocab).
  { unfold expand_defined, get_value. rewrite ST. destruct (streq s "@type"); [reflexivity|]. specialize (SN s).
    destruct (get_normal c s) as [x|], (get_normal c' s) as [y|]; try contradiction; [|reflexivity]. cbn [option_map].
    pose proof (st_mapping _ _ SN) as M. unfold mapping in M. destruct (nd_value x) as [[|i|q]|], (nd_value y) as [[|i'|q']|]; subst; try discriminate; try reflexivity; injection M as <-; reflexivity. }
  rewrite D. destruct (expand_defined c s vocab); [reflexivity|]. destruct (colon_inside s); [|apply T].
  destruct (blank_ok io s); [reflexivity|]. destruct (streq s "_:"); [reflexivity|].
  assert (A : expand_absolute io c' s docrel vocab = expand_absolute io c s docrel vocab) by (unfold expand_absolute; rewrite T; reflexivity).
  destruct (compact_iri_of io s) as [[p x]|]; [|exact A].
  assert (P : expand_prefixed io c' p x = expand_prefixed io c p x).
  { unfold expand_prefixed. pose proof (SN p) as N. destruct (get_normal c p) as [d|] eqn:G, (get_normal c' p) as [d'|]; try contradiction; [|reflexivity].
    rewrite (st_prefix _ _ N). destruct (nd_prefix d) eqn:PD; [|reflexivity]. destruct (HP p d G PD) as (i & V). pose proof (st_mapping _ _ N) as M. unfold mapping in M. rewrite V in M |- *.
    destruct (nd_value d') as [t|]; [subst; reflexivity|discriminate]. }
  rewrite P, A. reflexivity.
Qed.
Print Assumptions C84_expands.

(** The conversion of a context obtained by context processing never panics. *)
Theorem C84_no_panic : forall io ld n b lc url o c,
  process_full io ld n (ctx_new b) lc url o = Ok c -> ctx_into_syntax c <> None.
Proof. intros io ld n b lc url o c H. apply shaped_syntax. eapply process_shaped; [exact H|apply shaped_new]. Qed.
Print Assumptions C84_no_panic.
(** The contexts, built by hand, for which it panics: the vocabulary is a keyword, or a reverse
    property is mapped to null. *)
Theorem C84_panics : forall c, ctx_into_syntax c = None <->
  (exists k, ac_vocab c = Some (TmKw k)) \/ exists t d, In (t, d) (ac_defs c) /\ nd_reverse d = true /\ nd_value d = Some TmNull.
Proof.
  intros c. unfold ctx_into_syntax.
  assert (B : bindings_into_syntax (ac_defs c) = None <-> exists t d, In (t, d) (ac_defs c) /\ nd_reverse d = true /\ nd_value d = Some TmNull).
  { induction (ac_defs c) as [|[k d] l IH]; cbn [bindings_into_syntax]; [split; [discriminate|intros (t & d & [] & _)]|].
    assert (E : def_into_syntax d = None <-> nd_reverse d = true /\ nd_value d = Some TmNull).
    { unfold def_into_syntax. destruct (nd_reverse d); [|split; [discriminate|intros [? _]; discriminate]].
      destruct (nd_value d) as [[]|]; cbn; split; try discriminate; try (intros [_ H]; discriminate H); auto. }
    destruct (def_into_syntax d) as [v|].
    - destruct (bindings_into_syntax l) as [r|].
      + split; [discriminate|]. intros (t & d' & [X|X] & Y); [injection X as <- <-; apply E in Y; discriminate|]. exfalso. assert (Z : Some r = None) by (apply IH; eauto). discriminate Z.
      + split; [|reflexivity]. intros _. destruct (proj1 IH eq_refl) as (t & d' & I & Y). exists t, d'. split; [right; exact I|exact Y].
    - split; [|reflexivity]. intros _. exists k, d. split; [left; reflexivity|apply E; reflexivity]. }
  destruct (ac_vocab c) as [[]|]; destruct (bindings_into_syntax (ac_defs c)) as [r|]; split; intros H; try discriminate; try reflexivity;
    try (right; apply B; reflexivity); try (left; eauto; fail);
    (destruct H as [[k' H]|H]; [discriminate H|apply B in H; discriminate H]).
Qed.
Print Assumptions C84_panics.

(** ** The conditions are needed *)
Definition c84_from (l : lcontext) (c : actx) : Prop := process_full sample_iops no_loader 9 (ctx_new None) l None popts_default = Ok c.
Definition c84_back (s : cdef tdef) : result actx cerr := process_full sample_iops no_loader 9 (ctx_new None) (LOne (CEDef s)) None popts_default.
Definition c84_exp (i : option (nullable tid)) t cn ix l pt : nullable tdef :=
  NSome (TExpanded (MkTExp i t None None ix l None cn None None None pt)).
Definition c84_id (s : string) : option (nullable tid) := Some (NSome (TIdTerm s)).

(** Witnesses. *)
Definition c84_got (l : lcontext) : actx := match process_full sample_iops no_loader 9 (ctx_new None) l None popts_default with Ok c => c | Err _ => ctx_new None end.
Definition c84_written (c : actx) : cdef tdef := match ctx_into_syntax c with Some s => s | None => def_of [] end.
Definition c84_term (c : actx) : ndef := match get_normal c "p" with Some d => d | None => ndef_default end.
Ltac c84_wit l := let c := constr:(c84_got l) in let s := constr:(c84_written c) in exists l, c, s, (c84_got (LOne (CEDef s))).

(** A term that is not a prefix becomes one. *)
Theorem C84_prefix_refuted : exists l c s c', c84_from l c /\ ctx_into_syntax c = Some s /\ c84_back s = Ok c' /\
  expand_iri_simple sample_iops c (NSome (XStr "ex:a")) false (Some AKeep) = Ok (Some (TmId (IIri "ex:a"))) /\
  expand_iri_simple sample_iops c' (NSome (XStr "ex:a")) false (Some AKeep) = Ok (Some (TmId (IIri "http://x/a"))).
Proof.
  c84_wit (lc_of [("ex", c84_exp (c84_id "http://x/") None None None None None)]). unfold c84_from, c84_back.
  split; [vm_compute; reflexivity|]. split; [vm_compute; reflexivity|]. split; [vm_compute; reflexivity|]. split; vm_compute; reflexivity.
Qed.
(** A protected null term is given a mapping by the vocabulary. *)
Theorem C84_null_refuted : exists l c s c', c84_from l c /\ ctx_into_syntax c = Some s /\ c84_back s = Ok c' /\
  expand_iri_simple sample_iops c (NSome (XStr "p")) false (Some AKeep) = Ok (Some TmNull) /\
  expand_iri_simple sample_iops c' (NSome (XStr "p")) false (Some AKeep) = Ok (Some (TmId (IIri "http://v/p"))).
Proof.
  c84_wit (LOne (CEDef (MkDef None None None None None None None None (Some (NSome "http://v/"))
    [("p", c84_exp (Some NNull) None None None None (Some true))]))). unfold c84_from, c84_back.
  split; [vm_compute; reflexivity|]. split; [vm_compute; reflexivity|]. split; [vm_compute; reflexivity|]. split; vm_compute; reflexivity.
Qed.
(** A term named like the scheme of an IRI changes that IRI. *)
Theorem C84_scheme_refuted : exists l c s c', c84_from l c /\ ctx_into_syntax c = Some s /\ c84_back s = Ok c' /\
  expand_iri_simple sample_iops c (NSome (XStr "p")) false (Some AKeep) = Ok (Some (TmId (IIri "urn:a"))) /\
  expand_iri_simple sample_iops c' (NSome (XStr "p")) false (Some AKeep) = Ok (Some (TmId (IIri "http://x/a"))).
Proof.
  c84_wit (LMany [CEDef (def_of [("p", NSome (TSimple "urn:a"))]); CEDef (def_of [("urn", NSome (TSimple "http://x/"))])]). unfold c84_from, c84_back.
  split; [vm_compute; reflexivity|]. split; [vm_compute; reflexivity|]. split; [vm_compute; reflexivity|]. split; vm_compute; reflexivity.
Qed.
(** A language is lost when the container implies a type. *)
Definition c84_lang : lcontext := lc_of [("p", c84_exp (c84_id "http://x/p") None (Some (NSome (SOne CKType))) None (Some (NSome "en")) None)].
Theorem C84_language_refuted : exists l c s c' d d', c84_from l c /\ ctx_into_syntax c = Some s /\ c84_back s = Ok c' /\
  get_normal c "p" = Some d /\ get_normal c' "p" = Some d' /\ nd_language d = Some (NSome "en") /\ nd_language d' = None.
Proof.
  c84_wit c84_lang.
  exists (c84_term (c84_got c84_lang)), (c84_term (c84_got (LOne (CEDef (c84_written (c84_got c84_lang)))))). unfold c84_from, c84_back.
  split; [vm_compute; reflexivity|]. split; [vm_compute; reflexivity|]. split; [vm_compute; reflexivity|]. split; [vm_compute; reflexivity|]. split; [vm_compute; reflexivity|]. split; vm_compute; reflexivity.
Qed.
(** A term named by the [@index] of another one must be read before it: since the terms are
    visited in no particular order, the conversion may be rejected. *)
Definition c84_index : lcontext :=
  lc_of [("q", NSome (TSimple "http://x/q")); ("p", c84_exp (c84_id "http://x/p") None (Some (NSome (SOne CKIndex))) (Some "q") None None)].
Theorem C84_order_refuted : exists l c c' s, c84_from l c /\ (forall k, get_normal c' k = get_normal c k) /\ ac_vocab c' = ac_vocab c /\ ac_base c' = ac_base c /\
  ctx_into_syntax c' = Some s /\ c84_back s = Err EInvalidTermDefinition.
Proof.
  exists c84_index, (c84_got c84_index), (c84_got c84_index), (c84_written (c84_got c84_index)). unfold c84_from, c84_back.
  split; [vm_compute; reflexivity|]. split; [intros k; reflexivity|]. split; [reflexivity|]. split; [reflexivity|]. split; vm_compute; reflexivity.
Qed.

(** ** Example *)
Definition c84_scoped : lcontext := LOne (CEDef (MkDef None None (Some (NSome "fr")) None None None None None None [])).
Definition c84_def (t : option term) : ndef := nd_set_value ndef_default t.
Definition c84_ctx : actx := MkCtx (Some "http://d/") (Some "http://d/") (Some (TmId (IIri "http://v/"))) (Some "en") (Some Rtl) None
  [("ex", nd_set_prefix (c84_def (iri_term "http://x/")) true);
   ("name", nd_set_language (c84_def (iri_term "http://x/name")) (Some NNull));
   ("knows", nd_set_protected (nd_set_typ (nd_set_container (c84_def (iri_term "http://x/knows")) CSet) (Some TyId)) true);
   ("by", nd_set_reverse (nd_set_container (c84_def (iri_term "http://x/by")) CIndex) true);
   ("a", c84_def (Some (TmKw KType)));
   ("none", c84_def None);
   ("in", nd_set_context (c84_def (iri_term "urn:in")) c84_scoped (Some "http://d/"))] (Some true).
Definition c84_syntax : cdef tdef := MkDef (Some (NSome "http://d/")) None (Some (NSome "en")) (Some (NSome Rtl)) None None (Some (MkDType (Some true))) None (Some (NSome "http://v/"))
  [("ex", NSome (TExpanded (MkTExp (c84_id "http://x/") None None None None None None None None (Some true) None None)));
   ("name", NSome (TExpanded (MkTExp (c84_id "http://x/name") None None None None (Some NNull) None None None None None None)));
   ("knows", NSome (TExpanded (MkTExp (c84_id "http://x/knows") (Some (NSome (TTyKeyword TKId))) None None None None None (Some (NSome (SOne CKSet))) None None None (Some true))));
   ("by", NSome (TExpanded (MkTExp None None None (Some "http://x/by") None None None (Some (NSome (SOne CKIndex))) None None None None)));
   ("a", NSome (TSimple "@type"));
   ("none", NNull);
   ("in", NSome (TExpanded (MkTExp (c84_id "urn:in") None (Some c84_scoped) None None None None None None None None None)))].
Lemma c84_convertible : forall k d, get_normal c84_ctx k = Some d ->
  convertible sample_iops (fun l => forall a, exists x, process_context sample_iops no_loader 1 a l ps_new (Some "http://d/") (with_override popts_default) = Ok x) (Some "http://d/") c84_ctx k d.
Proof.
  assert (F : forall x, free_text c84_ctx ("http://x/" +++ x)).
  { intros x. split; [reflexivity|]. intros p y E C. left.
    assert (S : split_once ":" ("http://x/" +++ x) = Some (p, y)).
    { rewrite E. change (p +++ ":" +++ y) with (p +++ String ":" y). apply split_once_complete. exact C. }
    cbn in S. injection S as _ <-. eexists. reflexivity. }
  assert (FU : free_text c84_ctx "urn:in").
  { split; [reflexivity|]. intros p y E C. right.
    assert (S : split_once ":" "urn:in" = Some (p, y)).
    { rewrite E. change (p +++ ":" +++ y) with (p +++ String ":" y). apply split_once_complete. exact C. }
    cbn in S. injection S as <- _. reflexivity. }
  intros k d G. unfold get_normal in G. cbn [ac_defs c84_ctx assoc] in G.
  repeat match type of G with (if streq ?a ?b then _ else _) = _ => destruct (streq_spec a b) as [->|_]; [injection G as <-|] end; [| | | | | | |discriminate G].
  all: constructor; cbn; try (intros; discriminate); auto 10; try (intros; congruence).
  all: try (repeat split; discriminate).
  all: try (intros i E; injection E as <-; split; [reflexivity|first [exact FU|apply (F "")|apply (F "name")|apply (F "knows")|apply (F "by")]]).
  all: try (intros (B1 & B2 & B3 & B4 & B5 & B6 & B7 & B8 & B9); discriminate).
  all: try (intros _; eexists; reflexivity).
  all: try (intros X; intuition discriminate).
  - repeat split; try discriminate; auto. eexists; reflexivity.
  - intros l E. injection E as <-. split; [|reflexivity]. intros a. eexists. reflexivity.
Qed.
Example C84_example : ctx_into_syntax c84_ctx = Some c84_syntax /\
  exists c', process_full sample_iops no_loader 3 (ctx_new (Some "http://d/")) (LOne (CEDef c84_syntax)) (Some "http://d/") popts_default = Ok c' /\ same_ctx c84_ctx c'.
Proof.
  split; [vm_compute; reflexivity|].
  destruct (C84_reads_back sample_iops no_loader 0 c84_ctx (Some "http://d/") (Some "http://d/") popts_default sample_id_laws eq_refl eq_refl) as (s & c' & E & P & S).
  - vm_compute. repeat constructor; cbn; intuition discriminate.
  - reflexivity.
  - intros b E. injection E as <-. reflexivity.
  - discriminate.
  - intros t E. injection E as <-. eexists. split; reflexivity.
  - exact c84_convertible.
  - assert (X : s = c84_syntax) by (vm_compute in E; injection E as <-; reflexivity). subst s. exists c'. auto.
Qed.

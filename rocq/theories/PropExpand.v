(** Properties of expansion: C39, C40, C59. *)
From Verif Require Import Prelude Json Str Keyword Enums LangTag LangString Container Stack ContextSyntax Ctx Process
  Object ObjectEq ObjectJson ObjectJsonProofs CompactIri CompactIriRead Sound Expand ExpandValue ExpandOk Samples PropObject PropCompactIri.

(** Expansion of a document, for examples. *)
Definition sample_hash (l : list word) : N := N.of_nat (length l).
Definition sample_expand (c : actx) (doc : json) : result (list iobj) xerr :=
  expand sample_iops no_loader sample_hash sample_hash 20 xopts_default None 20 c doc.
Definition one_value (v : json) : json := JObj [("http://a/p", v)].
Definition one_expanded (o : iobj) : list iobj :=
  [(None, ONode (MkNode None None None None [(IIri "http://a/p", [o])] None))].

(** ** C40 *)

(** A value object gives a value (or nothing) exactly when all its entries are allowed and its
    value, datatype, language and direction go together. *)
Theorem C40_accepted_partial : forall io o it tsc es ve r, expand_value io o it tsc es ve = Ok r <->
  Forall (allowed_entry io o tsc) es /\
  exists ty k t l d i, latest (e_type io o tsc) es ty /\ kind_of it ty k t /\ latest e_lang es l /\ latest e_dir es d /\
    latest e_index es i /\ denotes ve k t l d i r.
Proof. exact value_ok. Qed.
Print Assumptions C40_accepted_partial.

(** The error names a rule that is violated, *)
Theorem C40_error_partial : forall io o it tsc es ve x, expand_value io o it tsc es ve = Err x -> violates io o it tsc es ve x.
Proof. exact value_err. Qed.
Print Assumptions C40_error_partial.
(** and there is an error as soon as a rule is violated. *)
Theorem C40_rules_partial : forall io o it tsc es ve,
  (exists r, expand_value io o it tsc es ve = Ok r) <-> forall x, ~ violates io o it tsc es ve x.
Proof.
  intros io o it tsc es ve. split; [intros [r H] x; exact (ok_respects _ _ _ _ _ _ _ _ H)|].
  intros H. destruct (expand_value io o it tsc es ve) as [r|x] eqn:E; [eauto|]. destruct (H x). exact (value_err _ _ _ _ _ _ _ E).
Qed.
Print Assumptions C40_rules_partial.
(** Nothing is given exactly for null values that are not JSON literals. *)
Theorem C40_null_partial : forall io o it tsc es ve r, expand_value io o it tsc es ve = Ok r ->
  (r = None <-> ve = JNull /\ exists ty t, latest (e_type io o tsc) es ty /\ kind_of it ty false t).
Proof.
  intros io o it tsc es ve r H. apply value_ok in H. destruct H as (_ & ty & k & t & l & d & i & Lt & K & _ & _ & _ & D). split.
  - intros ->. inversion D; subst. eauto.
  - intros [-> (ty' & t' & Lt' & K')]. rewrite (latest_fun _ _ _ _ Lt' Lt) in K'. destruct (kind_fun _ _ _ _ _ _ K' K) as [<- _].
    inversion D as [|? ? ? ? E|? ? ? ? E|? ? ? S]; subst; [reflexivity|discriminate|inversion S].
Qed.
Print Assumptions C40_null_partial.

(** The grammar forbids a type with a language, but not here if the value is null, *)
Theorem C40_null_refuted :
  sample_expand (ctx_new None) (one_value (JObj [("@value", JNull); ("@type", JStr "http://a/t"); ("@language", JStr "en")]))
  = Ok [] /\
  sample_expand (ctx_new None) (one_value (JObj [("@value", JStr "x"); ("@type", JStr "http://a/t"); ("@language", JStr "en")]))
  = Err (XValue VValueObject).
Proof. split; vm_compute; reflexivity. Qed.
Print Assumptions C40_null_refuted.
(** and two entries for the type, through an alias: the last one wins. *)
Theorem C40_alias_refuted :
  let c := ctx_of [("type", nd_set_value ndef_default (Some (TmKw KType)))] in
  sample_expand c (one_value (JObj [("@value", JStr "x"); ("@type", JStr "http://a/t"); ("type", JStr "http://a/u")]))
  = Ok (one_expanded (None, OVal (VLit (LStr "x") (Some "http://a/u")))).
Proof. vm_compute. reflexivity. Qed.
Print Assumptions C40_alias_refuted.
(** A value object may have a context of its own in the grammar, but not here. *)
Theorem C40_context_refuted :
  sample_expand (ctx_new None) (one_value (JObj [("@context", JObj []); ("@value", JStr "x")])) = Err (XValue VValueObject).
Proof. vm_compute. reflexivity. Qed.
Print Assumptions C40_context_refuted.

Example C40_example :
  sample_expand (ctx_new None) (one_value (JObj [("@value", JStr "x"); ("@language", JStr "en"); ("@index", JStr "i")]))
    = Ok (one_expanded (Some "i", OVal (VLang (MkLS "x" (Some "en") None)))) /\
  sample_expand (ctx_new None) (one_value (JObj [("@value", JNum "1"); ("@type", JStr "http://a/t")]))
    = Ok (one_expanded (None, OVal (VLit (LNum "1") (Some "http://a/t")))) /\
  sample_expand (ctx_new None) (one_value (JObj [("@value", JArr [JNull]); ("@type", JStr "@json")]))
    = Ok (one_expanded (None, OVal (VJson (JArr [JNull])))) /\
  sample_expand (ctx_new None) (one_value (JObj [("@value", JBool true); ("@direction", JStr "ltr")])) = Err (XValue VLanguageTaggedValue) /\
  sample_expand (ctx_new None) (one_value (JObj [("@value", JArr [])])) = Err (XValue VValueObjectValue) /\
  sample_expand (ctx_new None) (one_value (JObj [("@value", JStr "x"); ("@type", JStr "_:b")])) = Err (XValue VTypedValue) /\
  sample_expand (ctx_new None) (one_value (JObj [("@value", JStr "x"); ("http://a/q", JStr "y")])) = Err (XValue VValueObject).
Proof. repeat split; vm_compute; reflexivity. Qed.

(** ** C39 *)

(** What expansion gives is made of well-formed objects: no null values, languages and directions
    only in tagged strings, datatypes that are IRIs, identifiers that are what their text reads
    as, no value at the top level, no two equal objects in a set.
    Missing: properties may have no colon if they come from a property-valued index. *)
Theorem C39_partial : forall io ld fin rnd pf o base n c doc l, id_laws io -> sound io c ->
  expand io ld fin rnd pf o base n c doc = Ok l ->
  Forall (fun x => good io (key_ok io ld pf base o doc c) (snd x) /\ wf (snd x) /\ forall v, snd x <> OVal v) l /\ distinct same_i l.
Proof.
  intros io ld fin rnd pf o base n c doc l L S H. destruct (expand_fine _ _ _ _ _ _ _ _ _ L S _ _ H) as [F D]. split; [|exact D].
  pose proof (expand_top _ _ _ _ _ _ _ _ _ _ _ H) as T. apply Forall_forall. intros x I. destruct (Forall_in _ _ _ F I) as [G W]. split; [exact G|]. split; [exact W|].
  intros v V. pose proof (Forall_in _ _ _ T I) as U. unfold top_level in U. rewrite V in U. discriminate U.
Qed.
Print Assumptions C39_partial.

(** The contexts to start from: the empty context, and what processing a context gives. *)
Theorem C39_contexts_partial : forall io, id_laws io -> (forall b, sound io (ctx_new b)) /\
  (forall ld n a lc b o c, process_full io ld n a lc b o = Ok c -> sound io a -> sound io c).
Proof. intros io L. split; [intros b; apply sound_new|]. intros ld n a lc b o c. apply full_sound. exact L. Qed.
Print Assumptions C39_contexts_partial.

(** If no term has a property-valued index then no property is a keyword. *)
Theorem C39_keys_partial : forall io ld fin rnd pf o base n c doc l, id_laws io -> sound io c ->
  (forall c' t d, reached io ld pf base doc c c' -> get_normal c' t = Some d -> nd_index d = None) ->
  expand io ld fin rnd pf o base n c doc = Ok l ->
  Forall (fun x => good io (fun p => contains_char ":" (id_str p) = true /\ forall k, id_str p <> kw_str k) (snd x)) l.
Proof.
  intros io ld fin rnd pf o base n c doc l L S N H. destruct (C39_partial _ _ _ _ _ _ _ _ _ _ _ L S H) as [F _].
  eapply Forall_impl; [|exact F]. intros x [G _]. refine (proj1 (good_weaken _ _ _ _) _ G). intros p [C|(c' & t & d & k & R & Gt & I & _)].
  - split; [exact C|]. intros k E. rewrite E in C. destruct k; discriminate C.
  - rewrite (N _ _ _ R Gt) in I. discriminate I.
Qed.
Print Assumptions C39_keys_partial.

(** With a property-valued index, a property may be "@type". *)
Definition c39_doc (nested : json) : json :=
  JObj [("@context", JObj [("@vocab", JStr "http://v/"); ("p", JObj [("@id", JStr "http://a/p"); ("@container", JStr "@index"); ("@index", JStr "type")])]);
        ("http://a/q", JObj [("@context", nested); ("p", JObj [("v", JObj [("@id", JStr "http://a/x")])])])].
Definition c39_result (p : id) : list iobj :=
  [(None, ONode (MkNode None None None None [(IIri "http://a/q",
    [(None, ONode (MkNode None None None None [(IIri "http://a/p",
      [(None, ONode (MkNode (Some (IIri "http://a/x")) None None None [(p, [(None, OVal (VLit (LStr "v") None))])] None))])] None))])] None))].
Theorem C39_refuted :
  sample_expand (ctx_new None) (c39_doc (JArr [JObj [("@vocab", JNull)]; JObj [("@vocab", JStr "@")]])) = Ok (c39_result (IInvalid "@type")).
Proof. vm_compute. reflexivity. Qed.
Print Assumptions C39_refuted.

Lemma sample_id_laws : id_laws sample_iops.
Proof.
  split; [exact sample_laws| |].
  - intros s H. cbn [blank_ok sample_iops] in H. destruct (strip_prefix "_:" s) as [x|] eqn:E; [|discriminate]. apply strip_prefix_spec in E. exists x. exact E.
  - intros b r. cbn [iri_ok resolve sample_iops]. match goal with |- context [if sample_iri ?u then _ else _] => destruct (sample_iri u) eqn:E; [exact E|reflexivity] end.
Qed.
(** A document with types, a reversed property, a list with a null, a graph with a string. *)
Definition c39_large : json :=
  JObj [("@context", JObj [("@vocab", JStr "http://v/"); ("p", JObj [("@id", JStr "http://a/p"); ("@container", JStr "@index"); ("@index", JStr "idx")])]);
  ("@id", JStr "x"); ("@type", JArr [JStr "A"; JStr "http://a/b"]);
  ("@reverse", JObj [("http://a/r", JObj [("@id", JStr "_:b")])]);
  ("l", JObj [("@list", JArr [JNum "1"; JNull; JObj [("@value", JStr "y"); ("@language", JStr "en")]])]);
  ("@graph", JArr [JObj [("v", JBool true)]; JStr "s"]);
  ("p", JObj [("v", JObj [("@id", JStr "http://a/x")])])].
Definition c39_expanded : list iobj :=
  [(None, ONode (MkNode (Some (IInvalid "x")) (Some [IIri "http://v/A"; IIri "http://a/b"])
    (Some [(None, ONode (MkNode None None None None [(IIri "http://v/v", [(None, OVal (VLit (LBool true) None))])] None))]) None
    [(IIri "http://v/l", [(None, OList [(None, OVal (VLit (LNum "1") None)); (None, OVal (VLang (MkLS "y" (Some "en") None)))])]);
     (IIri "http://a/p", [(None, ONode (MkNode (Some (IIri "http://a/x")) None None None
       [(IIri "http://v/idx", [(None, OVal (VLit (LStr "v") None))])] None))])]
    (Some [(IIri "http://a/r", [(None, node_new (Some (IBlank "_:b")))])])))].
Example C39_example :
  sample_expand (ctx_new None) c39_large = Ok c39_expanded /\
  Forall (fun x => good sample_iops (key_ok sample_iops no_loader 20 None xopts_default c39_large (ctx_new None)) (snd x)) c39_expanded.
Proof.
  assert (E : sample_expand (ctx_new None) c39_large = Ok c39_expanded) by (vm_compute; reflexivity). split; [exact E|].
  destruct (C39_partial _ _ _ _ _ _ _ _ _ _ _ sample_id_laws (sound_new _ None) E) as [F _]. eapply Forall_impl; [|exact F]. intros x [G _]. exact G.
Qed.

(** ** C59 *)

(** The result, written as JSON and read back, is the same, if it has no included nodes and no
    property called like an entry of node objects (as in [C39_refuted]). *)
Theorem C59_reread : forall io ld fin rnd pf o base n c doc l i x, id_laws io -> sound io c ->
  expand io ld fin rnd pf o base n c doc = Ok l -> In (i, x) l -> no_included x ->
  (forall p, key_ok io ld pf base o doc c p -> ~ In (id_str p) reserved) ->
  try_from_json io fin rnd (iobj_json (i, x)) = Ok (i, x).
Proof.
  intros io ld fin rnd pf o base n c doc l i x L S H I N K. destruct (C39_partial _ _ _ _ _ _ _ _ _ _ _ L S H) as [F _].
  destruct (Forall_in _ _ _ F I) as (G & W & _). apply C24_partial; [|exact W]. exact (proj1 (good_printable io _ L K) _ G N).
Qed.
Print Assumptions C59_reread.
Theorem C59_plain : forall io ld fin rnd pf o base n c doc l i x, id_laws io -> sound io c ->
  expand io ld fin rnd pf o base n c doc = Ok l -> In (i, x) l -> no_included x ->
  (forall c' t d, reached io ld pf base doc c c' -> get_normal c' t = Some d -> nd_index d = None) ->
  try_from_json io fin rnd (iobj_json (i, x)) = Ok (i, x).
Proof.
  intros io ld fin rnd pf o base n c doc l i x L S H I N K. refine (C59_reread _ _ _ _ _ _ _ _ _ _ _ _ _ L S H I N _).
  intros p [C|(c' & t & d & k & R & Gt & X & _)]; [apply colon_not_reserved, C|]. rewrite (K _ _ _ R Gt) in X. discriminate X.
Qed.
Print Assumptions C59_plain.
(** Both conditions matter. *)
Theorem C59_keyword_needed :
  map (fun x => try_from_json sample_iops sample_hash sample_hash (iobj_json x)) (c39_result (IInvalid "@type")) <> map Ok (c39_result (IInvalid "@type")).
Proof. vm_compute. discriminate. Qed.
Print Assumptions C59_keyword_needed.
Theorem C59_included_needed :
  let doc := JObj [("@id", JStr "http://a/x"); ("@included", JObj [("@id", JStr "http://a/y"); ("http://a/p", JNum "1")])] in
  exists x, sample_expand (ctx_new None) doc = Ok [x] /\ try_from_json sample_iops sample_hash sample_hash (iobj_json x) <> Ok x.
Proof. eexists. split; [vm_compute; reflexivity|]. vm_compute. discriminate. Qed.
Print Assumptions C59_included_needed.
Example C59_example :
  sample_expand (ctx_new None) c39_large = Ok c39_expanded /\
  map (fun x => try_from_json sample_iops sample_hash sample_hash (iobj_json x)) c39_expanded = map Ok c39_expanded.
Proof. split; vm_compute; reflexivity. Qed.

(** C61. *)
From Verif Require Import Prelude Json Str Keyword Enums LangTag LangString Container Stack ContextSyntax Ctx Inverse Process
  IriSpec Object ObjectEq CompactIri CompactIriRead CompactValue Expand Compact RoundTrip Samples PropExpand PropCompactIri PropCompact.

(** A document of kept nodes, compacted with a simple context [c] then expanded, where the
    compacted document carries the context [j] that gives [c], is the same document. *)
Theorem C61_round_trip : forall io ld fin rnd pf o base rel co n c0 c j doc jv,
  iri_laws io -> xo_vocab o = AKeep -> simple_context c -> reads_context io ld pf o base c c0 j ->
  Forall (fun x => kept io rel (xo_mode o) c x /\ wf (snd x) /\ full_node x) doc -> distinct same_i doc ->
  (forall ix g, doc <> [(ix, ONode (MkNode None None (Some g) None [] None))]) ->
  compact io ld rel pf co n c j doc = Ok jv ->
  exists doc' N, Forall2 same_i doc doc' /\ forall k, N <= k -> expand io ld fin rnd pf o base k c0 jv = Ok doc'.
Proof.
  intros io ld fin rnd pf o base rel co n c0 c j doc jv LW VK SC RC F D NU H.
  destruct (document_trip io ld fin rnd pf o base rel co c LW VK SC n c0 j doc jv RC F D NU H) as (doc' & S & N & E). exists doc', N. auto.
Qed.
Print Assumptions C61_round_trip.

(** What the document becomes. *)
Definition sample_round (c : actx) (doc : list iobj) : result (json * list iobj) unit :=
  match compact sample_iops no_loader sample_rel 20 copts_default 10 c JNull doc with
  | Ok j => match expand sample_iops no_loader sample_hash sample_hash 20 xopts_default None 10 c j with
            | Ok l => Ok (j, l)
            | Err _ => Err tt
            end
  | Err _ => Err tt
  end.
Definition one_node (l : list iobj) : list iobj := [(None, ONode (MkNode None None None None [(IIri "http://a/p", l)] None))].

(** Nested lists: a string in a list of lists is read as a node, since it is compacted for the
    property [@list] and expanded for the term, of type [@id]. *)
Theorem C61_nested_refuted :
  sample_round (with_container CNone (Some TyId)) (one_node [(None, OList [(None, OList [str_obj "http://a/x"])])]) =
  Ok (JObj [("p", JObj [("@list", JArr [JObj [("@list", JArr [JStr "http://a/x"])]])])],
      one_node [(None, OList [(None, OList [node_obj "http://a/x"])])]).
Proof. vm_compute. reflexivity. Qed.
Print Assumptions C61_nested_refuted.
(** The index of a reference to a node is lost with a term of type [@id]. *)
Theorem C61_index_refuted :
  sample_round (with_container CNone (Some TyId)) (one_node [(Some "i", snd (node_obj "http://a/x"))]) =
  Ok (JObj [("p", JStr "http://a/x")], one_node [node_obj "http://a/x"]).
Proof. vm_compute. reflexivity. Qed.
Print Assumptions C61_index_refuted.
(** A node with nothing but an identifier disappears from the document and from graphs, an empty
    list of types from nodes. *)
Theorem C61_empty_refuted :
  sample_round (ctx_of []) [node_obj "http://a/x"] = Ok (JObj [("@id", JStr "http://a/x")], []) /\
  sample_round (ctx_of []) [(None, graph_obj (Some "http://a/g") [node_obj "http://a/x"])] =
  Ok (JObj [("@id", JStr "http://a/g"); ("@graph", JArr [JObj [("@id", JStr "http://a/x")]])], [(None, graph_obj (Some "http://a/g") [])]) /\
  sample_round (ctx_of []) [(None, ONode (MkNode (Some (IIri "http://a/x")) (Some []) None None [(IIri "http://a/p", [])] None))] =
  Ok (JObj [("@id", JStr "http://a/x"); ("http://a/p", JArr [])],
      [(None, ONode (MkNode (Some (IIri "http://a/x")) None None None [(IIri "http://a/p", [])] None))]).
Proof. repeat split; vm_compute; reflexivity. Qed.
Print Assumptions C61_empty_refuted.
(** A document made of a single unnamed graph object is read as the content of the graph. *)
Theorem C61_graph_refuted :
  sample_round (ctx_of []) [(None, graph_obj None (one_node [str_obj "a"]))] =
  Ok (JObj [("@graph", JArr [JObj [("http://a/p", JStr "a")]])], one_node [str_obj "a"]).
Proof. vm_compute. reflexivity. Qed.
Print Assumptions C61_graph_refuted.

(** Maps and lists: only the last list is kept with a list container; a list or a graph object
    added beside an index map is read as an entry of the map; so are the values of a reverse
    property not read as a map. *)
Theorem C61_lists_refuted :
  sample_round (with_container CList None) (one_node [(None, OList [str_obj "x"]); (None, OList [str_obj "y"])]) =
  Ok (JObj [("p", JArr [JStr "y"])], one_node [(None, OList [str_obj "y"])]).
Proof. vm_compute. reflexivity. Qed.
Print Assumptions C61_lists_refuted.
Theorem C61_index_map_refuted :
  sample_round (with_container CIndex None) (one_node [(None, OList [str_obj "x"])]) =
  Ok (JObj [("p", JObj [("@list", JArr [JStr "x"])])], one_node [(Some "@list", snd (str_obj "x"))]) /\
  sample_round (with_container CIndex None) (one_node [(None, graph_obj None (one_node [str_obj "x"]))]) =
  Ok (JObj [("p", JObj [("@graph", JObj [("p", JObj [("@none", JStr "x")])])])],
      one_node [(Some "@graph", ONode (MkNode None None None None [(IIri "http://a/p", [str_obj "x"])] None))]) /\
  sample_round (with_container CIndex None) (one_node [(Some "@foo", snd (str_obj "x"))]) =
  Ok (JObj [("p", JObj [("@foo", JStr "x")])], one_node [str_obj "x"]) /\
  sample_round (with_container CIndex None)
    [(None, ONode (MkNode None None None None [] (Some [(IIri "http://a/p", [(Some "i", MkNode (Some (IIri "http://a/x")) None None None [] None)])])))] =
  Ok (JObj [("@reverse", JObj [("p", JObj [("i", JObj [("@id", JStr "http://a/x")])])])],
      [(None, ONode (MkNode None None None None [] (Some [(IIri "http://a/p", [(None, node_new None)])])))]).
Proof. repeat split; vm_compute; reflexivity. Qed.
Print Assumptions C61_index_map_refuted.
(** A language map loses the direction; it may contain a boolean, that expansion rejects. *)
Theorem C61_language_map_refuted :
  sample_round (with_container CLanguage None) (one_node [(None, OVal (VLang (MkLS "x" (Some "en") (Some Ltr))))]) =
  Ok (JObj [("p", JObj [("en", JStr "x")])], one_node [(None, OVal (VLang (MkLS "x" (Some "en") None)))]) /\
  compact sample_iops no_loader sample_rel 20 copts_default 10 (with_container CLanguage None) JNull (one_node [(None, OVal (VLit (LBool true) None))]) =
  Ok (JObj [("p", JObj [("@none", JBool true)])]) /\
  forall k, exists e, expand sample_iops no_loader sample_hash sample_hash 20 xopts_default None k (with_container CLanguage None) (JObj [("p", JObj [("@none", JBool true)])]) = Err e.
Proof.
  split; [vm_compute; reflexivity|]. split; [vm_compute; reflexivity|]. intros k. destruct k as [|[|k]]; eexists; vm_compute; reflexivity.
Qed.
Print Assumptions C61_language_map_refuted.
(** Graph containers: the index of a node in a graph is lost in an index map of graphs; a graph
    of several nodes becomes a graph of a node that includes them. *)
Theorem C61_graph_map_refuted :
  sample_round (with_container CGraphIndex None) (one_node [(Some "i", graph_obj None [(Some "j", ONode (MkNode None None None None [(IIri "http://a/p", [str_obj "x"])] None))])]) =
  Ok (JObj [("p", JObj [("i", JObj [("http://a/p", JStr "x")])])], one_node [(Some "i", graph_obj None (one_node [str_obj "x"]))]) /\
  sample_round (with_container CGraph None) (one_node [(None, graph_obj None (one_node [str_obj "x"] ++ one_node [str_obj "y"]))]) =
  Ok (JObj [("p", JObj [("@included", JArr [JObj [("http://a/p", JStr "x")]; JObj [("http://a/p", JStr "y")]])])],
      one_node [(None, graph_obj None [(None, ONode (MkNode None None None (Some [
        (None, MkNode None None None None [(IIri "http://a/p", [str_obj "x"])] None); (None, MkNode None None None None [(IIri "http://a/p", [str_obj "y"])] None)]) [] None))])]).
Proof. split; vm_compute; reflexivity. Qed.
Print Assumptions C61_graph_map_refuted.

(** A context with plain, typed and tagged terms, maps, lists and an alias, and a document with a
    bit of everything. *)
Definition trip_json : json :=
  JObj [("name", JStr "http://a/name"); ("knows", JObj [("@id", JStr "http://a/knows"); ("@type", JStr "@id")]);
        ("label", JObj [("@id", JStr "http://a/label"); ("@language", JStr "en"); ("@container", JStr "@set")]); ("id", JStr "@id");
        ("steps", JObj [("@id", JStr "http://a/steps"); ("@container", JStr "@list")]);
        ("title", JObj [("@id", JStr "http://a/title"); ("@container", JStr "@language")]);
        ("post", JObj [("@id", JStr "http://a/post"); ("@container", JArr [JStr "@index"; JStr "@set"])]);
        ("people", JObj [("@id", JStr "http://a/people"); ("@container", JStr "@id")]);
        ("kinds", JObj [("@id", JStr "http://a/kinds"); ("@container", JStr "@type")])].
Definition trip_defs : defs :=
  [("kinds", nd_set_typ (nd_set_container (ndef_of "http://a/kinds" false false) CType) (Some TyId));
   ("people", nd_set_container (ndef_of "http://a/people" false false) CId);
   ("post", nd_set_container (ndef_of "http://a/post" false false) CIndexSet);
   ("title", nd_set_container (ndef_of "http://a/title" false false) CLanguage);
   ("steps", nd_set_container (ndef_of "http://a/steps" false false) CList);
   ("id", nd_set_value ndef_default (Some (TmKw KId)));
   ("label", nd_set_language (nd_set_container (ndef_of "http://a/label" false false) CSet) (Some (NSome "en")));
   ("knows", nd_set_typ (ndef_of "http://a/knows" false false) (Some TyId)); ("name", ndef_of "http://a/name" false false)].
Definition trip_context : actx := ctx_of trip_defs.
Definition named_node (i : string) (ts : option (list id)) : obj := ONode (MkNode (Some (IIri i)) ts None None [(IIri "http://a/name", [str_obj "n"])] None).
Definition trip_doc : list iobj :=
  [(Some "i", ONode (MkNode (Some (IIri "http://b/x")) (Some [IIri "http://a/name"; IBlank "_:t"]) None None
      [(IIri "http://a/name", [str_obj "a"; (None, OList [str_obj "b"; (Some "j", OVal (VLit (LBool true) (Some "http://a/u")))])]);
       (IIri "http://a/knows", [node_obj "http://b/y"; str_obj "http://b/y"]);
       (IIri "http://a/label", [(None, OVal (VLang (MkLS "c" (Some "en") None)))]);
       (IIri "http://a/steps", [(None, OList [str_obj "s"; node_obj "http://b/y"])]);
       (IIri "http://a/title", [(None, OVal (VLang (MkLS "d" (Some "en") None))); (None, OVal (VLang (MkLS "e" (Some "fr") None))); str_obj "f"]);
       (IIri "http://a/post", [(Some "k", snd (str_obj "g")); (Some "k", named_node "http://b/y" None); (None, snd (str_obj "h"))]);
       (IIri "http://a/people", [(Some "l", named_node "http://b/y" None)]);
       (IIri "http://a/kinds", [(None, named_node "http://b/y" (Some [IIri "http://a/name"; IIri "http://b/t"])); (None, named_node "http://b/z" None)])]
      (Some [(IIri "http://a/knows", [(None, node_new (Some (IBlank "_:z")))])])));
   (None, ONode (MkNode None None (Some (one_node [(None, OVal (VJson JNull))])) None [] None))].
Lemma trip_terms k d : assoc k (ac_defs trip_context) = Some d -> In (k, d) trip_defs.
Proof.
  unfold trip_context. cbn [ctx_of ac_defs]. generalize trip_defs as l. induction l as [|[k' d'] l IH]; cbn [assoc In]; [discriminate|]. destruct (streq_spec k k') as [<-|_]; [intros E; left; injection E as ->; reflexivity|auto].
Qed.
Ltac by_terms A := apply trip_terms in A; cbn [trip_defs In] in A; repeat (destruct A as [A|A]; [injection A as <- <-|]); [..|destruct A].
Lemma trip_keywords kw : plain_keyword trip_context kw.
Proof.
  split.
  - intros t d A V. by_terms A; reflexivity.
  - intros m x V. discriminate V.
  - intros p d t x A P. by_terms A; discriminate P.
Qed.
Lemma trip_simple : simple_context trip_context.
Proof.
  split.
  - repeat constructor; cbn; intuition discriminate.
  - reflexivity.
  - intros k d A. by_terms A; split; try reflexivity; discriminate.
  - intros []; reflexivity.
  - apply trip_keywords.
  - intros k d kw A V [->| ->]; by_terms A; discriminate V.
Qed.
(** Strings that are not keywords are keys of maps. *)
Lemma trip_key s : kw_of_str s = None -> is_keyword_like s = false -> map_key sample_iops trip_context s.
Proof.
  intros K L. unfold map_key, xp_of_str. rewrite K. unfold expand_iri_simple. rewrite L.
  assert (T : exists t, expand_tail sample_iops trip_context s false (Some AKeep) = Ok (Some t) /\ t <> TmNull /\ t <> TmKw KNone)
    by (eexists; split; [reflexivity|split; discriminate]).
  assert (AB : exists t, expand_absolute sample_iops trip_context s false (Some AKeep) = Ok (Some t) /\ t <> TmNull /\ t <> TmKw KNone)
    by (unfold expand_absolute; destruct (iri_ok sample_iops s); [eexists; split; [reflexivity|split; discriminate]|exact T]).
  unfold expand_defined. destruct (get_value trip_context s) as [v|] eqn:V.
  - unfold get_value in V. destruct (streq s "@type"); [discriminate V|]. destruct (get_normal trip_context s) as [d|] eqn:D; [|discriminate V].
    unfold get_normal in D. by_terms D; injection V as <-; eexists; (split; [reflexivity|split; discriminate]).
  - destruct (colon_inside s); [|exact T]. destruct (blank_ok sample_iops s); [eexists; split; [reflexivity|split; discriminate]|].
    destruct (streq s "_:"); [eexists; split; [reflexivity|split; discriminate]|]. destruct (compact_iri_of sample_iops s) as [[p x]|]; [|exact AB].
    unfold expand_prefixed. destruct (get_normal trip_context p) as [d|] eqn:D; [|exact AB].
    unfold get_normal in D. by_terms D; cbn; exact AB.
Qed.
Lemma trip_map_id i : map_id sample_iops trip_context i.
Proof.
  intros s H. unfold xp_of_str in H. destruct (kw_of_str s) eqn:K; [discriminate H|]. destruct (is_keyword_like s) eqn:L; [|apply trip_key; assumption].
  unfold expand_iri_simple in H. rewrite L in H. discriminate H.
Qed.
(** Absolute IRIs that are not terms. *)
Lemma trip_iri s : iri_ok sample_iops s = true -> assoc s (ac_defs trip_context) = None -> kept_name sample_iops trip_context (IIri s).
Proof.
  intros I N. split; [exact I|]. split.
  - intros k d A V. by_terms A; reflexivity.
  - congruence.
  - intros m x V. discriminate V.
  - intros p d t x A P. by_terms A; discriminate P.
Qed.
Lemma trip_blank b : blank_ok sample_iops b = true -> has_scheme b -> assoc b (ac_defs trip_context) = None -> plain_blank sample_iops trip_context b.
Proof.
  intros I H N. split; auto.
  - intros k d A. by_terms A; discriminate.
  - intros m x V. discriminate V.
  - intros p d t x A P. by_terms A; discriminate P.
Qed.
Lemma trip_id s : iri_ok sample_iops s = true -> assoc s (ac_defs trip_context) = None -> kept_id sample_iops sample_rel trip_context (IIri s).
Proof.
  intros I N. split; [exact I|]. split; [|intros _; apply trip_iri; assumption]. split.
  - intros p d t x A P. by_terms A; discriminate P.
  - congruence.
  - intros b B. discriminate B.
Qed.
Lemma trip_string s : kept_value sample_iops trip_context (VLit (LStr s) None).
Proof. split; discriminate. Qed.

Lemma trip_node s : iri_ok sample_iops s = true -> assoc s (ac_defs trip_context) = None -> kept sample_iops sample_rel JsonLd11 trip_context (node_obj s).
Proof.
  intros I N. constructor. constructor; cbn; try reflexivity; try discriminate; try constructor; try reflexivity. intros x E. injection E as <-. apply trip_id; assumption.
Qed.
Lemma trip_named ix s ts : iri_ok sample_iops s = true -> assoc s (ac_defs trip_context) = None -> ts <> Some [] -> Forall (kept_name sample_iops trip_context) (opt_list ts) ->
  kept sample_iops sample_rel JsonLd11 trip_context (ix, named_node s ts).
Proof.
  intros I N TN TK. constructor. constructor; try exact TN; try exact TK; try (intros _ E; destruct ts; discriminate E); cbn; try reflexivity; try discriminate; try constructor; try constructor.
  - intros x E. injection E as <-. apply trip_id; assumption.
  - split; [apply trip_iri; reflexivity|reflexivity].
  - split; [|repeat constructor; discriminate]. split; intros k d A V C; by_terms A; discriminate V || discriminate C.
Qed.
Ltac no_maps := let k := fresh in let d := fresh in let A := fresh in let V := fresh in let C := fresh in
  split; intros k d A V C; by_terms A; try discriminate V; try discriminate C.
Ltac a_string := constructor; apply trip_string.
Lemma trip_tag s l : l <> "@none" -> kept_value sample_iops trip_context (VLang (MkLS s (Some l) None)).
Proof. intros N. split; try discriminate. intros x E. injection E as <-. split; [left; discriminate|]. split; [cbn; congruence|]. split; [discriminate|]. intros _. reflexivity. Qed.

Example C61_example : simple_context trip_context /\
  reads_context sample_iops no_loader 9 xopts_default None trip_context (ctx_new None) trip_json /\
  Forall (fun x => kept sample_iops sample_rel (xo_mode xopts_default) trip_context x /\ wf (snd x) /\ full_node x) trip_doc /\ distinct same_i trip_doc /\
  exists jv, compact sample_iops no_loader sample_rel 9 copts_default 10 trip_context trip_json trip_doc = Ok jv /\
    expand sample_iops no_loader sample_hash sample_hash 9 xopts_default None 12 (ctx_new None) jv = Ok trip_doc.
Proof.
  split; [exact trip_simple|]. split; [|split; [|split]].
  - split; [reflexivity|]. eexists. split; [vm_compute; reflexivity|vm_compute; reflexivity].
  - assert (SB : forall s, has_scheme ("_:" +++ s)).
    { intros s. exists "_", s. repeat split; discriminate || reflexivity. }
    constructor; [|constructor; [|constructor]]; (split; [|split]).
    + constructor. constructor.
      * intros x E. injection E as <-. apply trip_id; reflexivity.
      * discriminate.
      * constructor; [apply trip_iri; reflexivity|]. constructor; [apply trip_blank; try reflexivity; apply (SB "t")|constructor].
      * constructor.
      * reflexivity.
      * constructor.
      * repeat (apply Forall_cons || apply Forall_nil); (split; [split; [apply trip_iri; reflexivity|reflexivity]|]); split.
        -- no_maps.
        -- constructor; [a_string|constructor; [|constructor]]. constructor.
           constructor; [split; [a_string|reflexivity]|]. constructor; [|constructor]. split; [constructor|reflexivity].
           split; try discriminate. intros l s E. injection E as <- <-. apply trip_iri; reflexivity.
        -- no_maps.
        -- constructor; [apply trip_node; reflexivity|]. constructor; [a_string|constructor].
        -- no_maps.
        -- constructor; [|constructor]. constructor. apply trip_tag. discriminate.
        -- no_maps. cbn. constructor.
        -- constructor; [|constructor]. constructor. constructor; [split; [a_string|reflexivity]|]. constructor; [|constructor]. split; [apply trip_node; reflexivity|reflexivity].
        -- no_maps. repeat constructor; intros v E; injection E as <-.
           1,2: split; [reflexivity|]; intros l E; injection E as <-; vm_compute; discriminate.
           split; [eexists; reflexivity|reflexivity].
        -- constructor; [constructor; apply trip_tag; discriminate|]. constructor; [constructor; apply trip_tag; discriminate|]. constructor; [a_string|constructor].
        -- no_maps. repeat (apply Forall_cons || apply Forall_nil); (split; [reflexivity|]; split; [intros (j & g & G); discriminate G|]);
             intros i E; try discriminate E; injection E as <-; apply trip_key; reflexivity.
        -- constructor; [a_string|]. constructor; [apply trip_named; try reflexivity; [discriminate|constructor]|]. constructor; [a_string|constructor].
        -- no_maps. constructor; [|constructor]. intros n i _ _. apply trip_map_id.
        -- constructor; [|constructor]. apply trip_named; try reflexivity; [discriminate|constructor].
        -- no_maps.
        -- constructor; [apply trip_named; try reflexivity; [discriminate|]|].
           ++ constructor; [apply trip_iri; reflexivity|]. constructor; [apply trip_iri; reflexivity|constructor].
           ++ constructor; [|constructor]. apply trip_named; try reflexivity; [discriminate|constructor].
      * discriminate.
      * constructor; [|constructor]. split; [split; [apply trip_iri; reflexivity|reflexivity]|].
        split; [intros k d A V; by_terms A; discriminate V || reflexivity|]. constructor; [|constructor].
        constructor; cbn; try reflexivity; try discriminate; try constructor; try reflexivity.
        intros x E. injection E as <-. apply trip_blank; try reflexivity; apply (SB "z").
      * intros _ X. discriminate X.
    + repeat constructor; cbn; intuition discriminate.
    + eexists. split; reflexivity.
    + constructor. constructor; cbn; try reflexivity; try discriminate; try congruence; try constructor; try constructor.
      * constructor. constructor; cbn; try reflexivity; try discriminate; try congruence; try constructor; try constructor.
        -- split; [apply trip_iri; reflexivity|reflexivity].
        -- split; [no_maps|]. constructor; [|constructor]. constructor. split; discriminate.
      * eexists. split; reflexivity.
    + repeat constructor; cbn; intuition discriminate.
    + eexists. split; reflexivity.
  - constructor; [|repeat constructor]. constructor; [|constructor]. intros [X _]. discriminate X.
  - eexists. split; [vm_compute; reflexivity|vm_compute; reflexivity].
Qed.

(** C88: printing expanded documents and contexts. *)
From Verif Require Import Prelude Json Enums LangTag LangString Str Keyword Container ContextSyntax ContextSyntaxProofs Ctx Process Samples Object ObjectEq ObjectJson ObjectJsonProofs PropContext Print PrintProofs PrintRead.

(** A document is printed as the JSON value made of its entries, whatever the layout: there is no
    panic, and the second pass uses the sizes computed by the first one, all of them, in order. *)
Theorem C88_document {sz} (lo : layout sz) doc indent :
  print_document lo doc indent = Some (text_of lo (document_shown "@value" doc) indent) /\
  (forall rest, document_fmt lo doc indent (snd (document_pre lo doc) ++ rest) = Some (text_of lo (document_shown "@value" doc) indent, rest)) /\
  fst (document_pre lo doc) = size_of lo (document_shown "@value" doc).
Proof.
  destruct (document_spec lo doc) as [P F]. split; [|split].
  - apply run_spec; [exact P|]. intros. rewrite F. reflexivity.
  - intros rest. rewrite P, F. apply layout_spec.
  - rewrite P. apply size_spec.
Qed.
Print Assumptions C88_document.

Theorem C88_node {sz} (lo : layout sz) n indent :
  print_node lo n indent = Some (text_of lo (JObj (node_shown "@value" n)) indent).
Proof.
  destruct (proj2 (object_both lo) n) as (P & F & L). apply run_spec; [rewrite P; reflexivity|].
  intros. rewrite F, L. reflexivity.
Qed.
Print Assumptions C88_node.

(** A context is printed as the JSON value made of its entries. *)
Theorem C88_context {sz} (lo : layout sz) c indent :
  print_context lo c indent = Some (text_of lo (context_shown c) indent) /\
  (forall rest, context_fmt lo c indent (snd (context_pre lo c) ++ rest) = Some (text_of lo (context_shown c) indent, rest)).
Proof.
  destruct (context_spec lo c) as [P F]. split.
  - apply run_spec; [exact P|]. intros. rewrite F. reflexivity.
  - intros rest. rewrite P, F. apply layout_spec.
Qed.
Print Assumptions C88_context.
(** If it is well formed, this is the JSON value it is converted to, and it is read as this context. *)
Theorem C88_context_read {sz} (lo : layout sz) ok c indent : wf_ctx ok c ->
  print_context lo c indent = Some (text_of lo (context_to_json c) indent) /\ context_of_json ok (context_to_json c) = Ok c.
Proof.
  intros W. split; [|apply C06_print_parse; exact W]. rewrite (context_shown_spec ok c W). apply C88_context.
Qed.
Print Assumptions C88_context_read.

(** Missing: objects with an index (refuted below), identifiers and properties whose text reads as
    something else ([legible]). Included nodes and empty lists of types are read again, which is
    not the case of what [into_json] gives (C24). *)
Theorem C88_read_partial {sz} (lo : layout sz) io fin rnd doc indent :
  Forall (fun x => fst x = None /\ unindexed (snd x) /\ legible io (snd x) /\ wf (snd x)) doc ->
  exists l, print_document lo doc indent = Some (text_of lo (JArr l) indent) /\ map_r (try_from_json io fin rnd) l = Ok doc.
Proof.
  intros H. exists (map (iobj_shown "@value") doc). split; [apply C88_document|].
  apply map_r_map. eapply Forall_impl; [|exact H]. intros [i o] (E & U & L & W). cbn [fst snd] in *. subst i.
  assert (X : iobj_shown "@value" (None, o) = iobj_shown "@index" (None, o)).
  { unfold iobj_shown. cbn [fst snd entry_of app]. rewrite (proj1 (unindexed_both "@value") o U). reflexivity. }
  rewrite X. apply (proj1 (read_both io fin rnd) o L W). apply le_n.
Qed.
Print Assumptions C88_read_partial.
Theorem C88_read_node_partial {sz} (lo : layout sz) io fin rnd n indent : unindexed_node n -> legible_node io n -> wf_node n ->
  exists j, print_node lo n indent = Some (text_of lo j indent) /\ try_node_from_json io fin rnd j = Ok (None, n).
Proof.
  intros U L W. exists (JObj (node_shown "@value" n)). split; [apply C88_node|].
  rewrite (proj2 (unindexed_both "@value") n U). destruct (proj2 (read_both io fin rnd) n L W) as [NI X].
  unfold try_node_from_json. destruct (json_size (JObj (node_shown "@index" n))) as [|k] eqn:E; [pose proof (json_pos (JObj (node_shown "@index" n))); lia|].
  rewrite parse_n_S. pose proof (index_read (node_of_json io fin rnd (parse_i io fin rnd k) (parse_n io fin rnd k)) None (node_shown "@index" n)) as R.
  cbn [entry_of app] in R. rewrite R by (apply NI; cbn; tauto). rewrite X; [reflexivity|apply le_n].
Qed.
Print Assumptions C88_read_node_partial.

(** The index of an object is printed under the key "@value": what is printed for a value with an
    index has two entries with this key and is not read, *)
Theorem C88_index_refuted : exists x : iobj, wf (snd x) /\ legible sample_iops (snd x) /\
  forall sz (lo : layout sz) fin rnd indent, exists j,
    print_document lo [x] indent = Some (text_of lo (JArr [j]) indent) /\
    j = JObj [("@value", JStr "i"); ("@value", JStr "v")] /\ try_from_json sample_iops fin rnd j = Err (JDuplicateKey "@value").
Proof.
  exists (Some "i", OVal (VLit (LStr "v") None)). split; [constructor|]. split; [constructor; constructor; discriminate|].
  intros sz lo fin rnd indent. eexists. split; [exact (proj1 (C88_document lo _ indent))|]. split; reflexivity.
Qed.
Print Assumptions C88_index_refuted.
(** and what is printed for a node with an index is read as a value. *)
Theorem C88_node_index_refuted : exists x : iobj, wf (snd x) /\ legible sample_iops (snd x) /\
  forall sz (lo : layout sz) fin rnd indent, exists j,
    print_document lo [x] indent = Some (text_of lo (JArr [j]) indent) /\
    j = JObj [("@value", JStr "i"); ("@id", JStr "http://s/")] /\ try_from_json sample_iops fin rnd j = Ok (None, OVal (VLit (LStr "i") None)).
Proof.
  exists (Some "i", ONode (node_new (Some (IIri "http://s/")))). split; [repeat constructor|]. split.
  - constructor. constructor; try constructor. intros x E. injection E as <-. reflexivity.
  - intros sz lo fin rnd indent. eexists. split; [exact (proj1 (C88_document lo _ indent))|]. split; reflexivity.
Qed.
Print Assumptions C88_node_index_refuted.

(** A layout: on one line if this takes at most [limit] characters, on several lines otherwise. *)
Definition newline : string := String (Ascii.ascii_of_nat 10) EmptyString.
Fixpoint tabs (n : nat) : string := match n with O => newline | S n => tabs n +++ "  " end.
Definition quoted (s : string) : string := String (Ascii.ascii_of_nat 34) EmptyString +++ s +++ String (Ascii.ascii_of_nat 34) EmptyString.
Definition sample_layout (limit : nat) : layout nat :=
  let wide n := Nat.ltb limit n in
  let around o c s i l := if wide s then o +++ tabs (S i) +++ String.concat ("," +++ tabs (S i)) l +++ tabs i +++ c
    else o +++ String.concat ", " l +++ c in
  MkLayout nat (fun n => n) (fun s => 2 + String.length s) quoted
    (fun l => 2 + list_sum (map (fun n => n + 2) l)) (fun l => 2 + list_sum (map (fun e => 6 + String.length (fst e) + snd e) l))
    (fun s i => if wide s then S i else i) (fun _ _ => "[]") (fun _ _ => "{}")
    (around "[" "]") (fun s i l => around "{" "}" s i (map (fun e => quoted (fst e) +++ ": " +++ snd e) l)).
Definition ex_printed : list iobj :=
  [(None, ONode (MkNode (Some (IIri "http://s/")) (Some []) None (Some [(Some "n", node_new (Some (IBlank "_:b")))])
     [(IIri "http://p/", [(None, OList [(None, OVal (VLit (LNum "1") None)); (None, OVal (VLang (MkLS "x" (Some "EN") (Some Rtl))))])])] None))].
Definition lines (l : list string) : string :=
  String.concat newline l.
Definition sq (s : string) : string := (* ' for quotes *)
  (fix go (s : string) := match s with EmptyString => EmptyString
   | String c s => String (if Ascii.eqb c (Ascii.ascii_of_nat 39) then Ascii.ascii_of_nat 34 else c) (go s) end) s.
Example C88_example :
  print_document (sample_layout 50) ex_printed 0 = Some (sq (lines
    ["[";
     "  {";
     "    '@id': 'http://s/',";
     "    '@type': [],";
     "    '@included': [{'@index': 'n', '@id': '_:b'}],";
     "    'http://p/': [";
     "      {";
     "        '@list': [";
     "          {'@value': 1},";
     "          {";
     "            '@value': 'x',";
     "            '@language': 'EN',";
     "            '@direction': 'rtl'";
     "          }";
     "        ]";
     "      }";
     "    ]";
     "  }";
     "]"])) /\
  let fin := fun w => N.of_nat (length w) in
  match document_shown "@value" ex_printed with JArr l => map_r (try_from_json sample_iops fin fin) l = Ok ex_printed | _ => False end.
Proof. vm_compute. auto. Qed.
Definition ex_context : lcontext :=
  LMany [CENull; CEIri "http://c/"; CEDef (MkDef (Some (NSome "http://b/")) None (Some NNull) None (Some true) None (Some (MkDType (Some false))) (Some tt) None
    [("t", NSome (TExpanded (MkTExp (Some (NSome (TIdTerm "http://t/"))) None (Some (LOne (CEDef (MkDef None None None None None None None None (Some NNull) [])))) None None None
        (Some (NSome Ltr)) (Some (NSome (SMany [CKGraph; CKSet]))) None (Some true) None None)));
     ("u", NNull); ("v", NSome (TSimple "w"))])].
Example C88_example_context :
  wf_ctx (fun _ => true) ex_context /\
  print_context (sample_layout 60) ex_context 1 = Some (sq (lines
    ["[";
     "    null,";
     "    'http://c/',";
     "    {";
     "      '@base': 'http://b/',";
     "      '@language': null,";
     "      '@propagate': true,";
     "      '@type': {'@container': '@set', '@protected': false},";
     "      '@version': 1.1,";
     "      't': {";
     "        '@id': 'http://t/',";
     "        '@context': {'@vocab': null},";
     "        '@direction': 'ltr',";
     "        '@container': ['@graph', '@set'],";
     "        '@prefix': true";
     "      },";
     "      'u': null,";
     "      'v': 'w'";
     "    }";
     "  ]"])).
Proof.
  split; [|vm_compute; reflexivity].
  constructor. constructor; [constructor|]. constructor; [constructor; reflexivity|]. constructor; [|constructor].
  constructor; cbn; try reflexivity.
  - repeat constructor; cbn; intuition discriminate.
  - repeat constructor; cbn; intuition discriminate.
  - intros k t [E|[E|[E|[]]]]; injection E as <- <- || discriminate E; [|constructor].
    constructor; cbn; try discriminate.
    + intros s E. injection E as <-. destruct k; discriminate.
    + intros c E. injection E as <-. constructor. constructor; cbn; try discriminate; try constructor. intros ? ? [].
Qed.

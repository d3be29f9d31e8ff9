(** Property theorems: C06. *)
From Verif Require Import Prelude Keyword Enums Container Json ContextSyntax ContextSyntaxProofs Grammar.

(** C06: what was parsed as a context is printed as a text that parses to the same context.
    [iri_ref_ok] is the external IRI reference grammar. *)
Theorem C06_parse_print_parse : forall iri_ref_ok j c,
  context_of_json iri_ref_ok j = Ok c ->
  context_of_json iri_ref_ok (context_to_json c) = Ok c.
Proof. exact context_roundtrip. Qed.
Print Assumptions C06_parse_print_parse.

(** Every well-formed context, however it was built, is read back from its text: no entry is
    dropped or altered. *)
Theorem C06_print_parse : forall iri_ref_ok c,
  wf_ctx iri_ref_ok c -> context_of_json iri_ref_ok (context_to_json c) = Ok c.
Proof. exact wf_roundtrip. Qed.
Print Assumptions C06_print_parse.

Example C06_example :
  let inner := LMany [CENull; CEIri "http://ex.org/ctx"] in
  let term := TExpanded (MkTExp (Some (NSome (TIdTerm "http://ex.org/p"))) (Some (NSome (TTyKeyword TKId)))
                (Some inner) None None (Some NNull) (Some (NSome Rtl)) (Some (NSome (SMany [CKSet; CKIndex])))
                (Some TNest) (Some true) None (Some false)) in
  let c := LOne (CEDef (MkDef (Some NNull) None (Some (NSome "en")) None None (Some true)
                (Some (MkDType (Some true))) (Some tt) (Some (NSome "http://ex.org/"))
                [("p", NSome term); ("q", NNull); ("@foo", NSome (TSimple "p"))])) in
  wf_ctx (fun _ => true) c /\ context_of_json (fun _ => true) (context_to_json c) = Ok c.
Proof.
  cbv zeta. split; [|vm_compute; reflexivity].
  assert (K : forall s, is_keyword s = false -> forall k, s <> kw_str k).
  { intros s H k E. assert (T : is_keyword s = true) by (apply is_keyword_iff; exists k; exact E).
    rewrite T in H. discriminate. }
  constructor. constructor; cbn [cd_base cd_import cd_bindings map fst].
  - discriminate.
  - discriminate.
  - repeat constructor; cbn; intuition discriminate.
  - repeat constructor; cbn; intuition discriminate.
  - intros k t [H|[H|[H|[]]]]; try discriminate H; injection H as <- <-; constructor; cbn.
    + intros s E. injection E as <-. apply K. reflexivity.
    + discriminate.
    + discriminate.
    + intros c E. injection E as <-. repeat constructor.
Qed.

(** C49 *)
Theorem C49_context_grammar : forall iri_ref_ok j,
  (exists c, context_of_json iri_ref_ok j = Ok c) <-> context_json iri_ref_ok j.
Proof. exact context_accepted. Qed.
Print Assumptions C49_context_grammar.

Example C49_example :
  let ok := fun _ => true in
  context_json ok (JArr [JNull; JObj [("@version", JNum "1.1"); ("t", JObj [("@context", JNull); ("@container", JArr [JStr "@set"])])]]) /\
  ~ context_json ok (JObj [("t", JNull); ("t", JNull)]) /\ ~ context_json ok (JObj [("@version", JNum "1.0")]).
Proof.
  cbv zeta. split; [|split].
  - apply (C49_context_grammar (fun _ => true)). eexists. vm_compute. reflexivity.
  - intros H. apply (C49_context_grammar (fun _ => true)) in H. destruct H as [c H]. vm_compute in H. discriminate.
  - intros H. apply (C49_context_grammar (fun _ => true)) in H. destruct H as [c H]. vm_compute in H. discriminate.
Qed.

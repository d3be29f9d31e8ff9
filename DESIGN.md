# Formal model of json-ld (Rust) in Rocq/Coq 8.16.1

## Approach

* The code in `/repo` is read as text.  Nothing is built or run.  The Coq model is a
  function-by-function transcription into small, total, computable Gallina functions.
  Every definition cites the file and lines it models, and says where it simplifies.
* `&mut` arguments become returned values.  `Result`/`Option` stay data.  A panic (`unwrap`,
  `expect`) is an explicit error value, so "does not panic" is a statement about the model.
* Unbounded recursion (remote contexts, term dependencies) uses fuel with an explicit
  out-of-fuel value that is excluded in theorem statements (and, where termination is the
  property, shown unreachable for enough fuel).
* External crates (`iref`, `json-syntax`, `mime`, `langtag`, hash functions, the HTTP client)
  are not modelled from source: they appear either as Section variables (universally quantified
  in the closed theorems) or as small documented definitions of their observable contract.
* Specifications (`Spec*.v` or the section "Specification" of a file) are written without using
  the model's helper functions.
* Property theorems are in `Prop*.v` files, one line proofs (`exact lemma`) with
  `Print Assumptions` and an `Example` of non-vacuity.

## Plan per property

| id | model | proof idea |
|----|-------|------------|
| C01 | keyword tables over `string` | case analysis; converse by string equality decision |
| C02 | enumeration tables | same; error code table expected to fail for `DuplicateKey` |
| C03 | byte lists, ASCII lower-casing | eq/cmp characterised through `map lower` and a lexicographic order |
| C04 | JSON inductive type, greedy matching loop with `selected` flags | compare = true iff an inductive "equal up to permutation" relation; greedy completeness through equivalence |
| C05 | 17-value container enumeration and `with` | finite transition table lifted to all lists by induction; expected refutation at GraphSet+@index |
| C06 | context AST, `into_json`, `try_from_json` | nested induction on JSON size |
| C07 | `simplify` + term definition creation | expected refutation, positive part for non-simple definitions |
| C08 | persistent stack as list | induction over operation histories |
| C09 | context processing with loader oracle and fuel | measure: URLs not yet on the chain; `@import` expected refutation |
| C10 | `define`/`expand_iri_with` with the `defined` map | measure: number of terms not yet marked |
| C11–C13 | same model | invariants over the definition loop |
| C14 | `expand_iri_simple` | equational characterisation against a spec relation |
| C15 | `Merged` | entrywise equality |
| C16 | inverse context construction and selection | permutation invariance; sortedness |
| C17 | context record with cache field | invariant over histories |
| C18, C19 | `compact_iri_full` | case analysis of the selection path; C19 expected refutation |
| C20 | `add_value` on JSON objects | induction on the value |
| C21 | value compaction + literal/value expansion | case analysis; expected refutation for default language |
| C22 | `LangString` | invariant over histories |
| C23 | multiset equality and hash | permutation lemmas |
| C24 | expanded objects, `into_json`, `try_from_json` | nested induction; expected refutation for `@included` |
| C25 | `Traverse` | expected refutation for lists |
| C26 | relabelling | injectivity of memoised assignment |
| C27–C29 | node map generation | invariants over the recursion |
| C30–C33 | quads / RDF conversion | induction on lists and documents |
| C34 | quads to expanded document | expected refutations |
| C35, C36 | byte-level state machines | print/parse induction |
| C37 | loader loop against an arbitrary server oracle | induction on the redirection counter |
| C38 | loader combinators | induction on the chain |
| C39, C40 | expansion algorithm | structural invariants |
| C41 | property compaction | expected refutations (list overwrite, panic) |
| C42 | context processing | idempotence |
| C43–C52 | context processing | invariants over definition loop, fuel monotonicity, frame lemmas |
| C53–C56 | objects, relabelling, RDF | consequences of the parsing and quad specifications |
| C57, C58 | `compact_iri_full` | reading back document-relative IRIs; which inputs are refused |
| C60 | `compact_iri_full`, `InverseContext::select` | the term chosen for a property suits the value, and is the preferred one |
| C61 | `compact`, then `expand` with the same context | the document is the same, for simple contexts (with list, set, index, id, type and language containers) |
| C62–C67 | expansion | depth of recursion bounded by the size; parts may be exchanged; maps are short for arrays |
| C68–C74 | expansion | list containers, sets, terms, aliases, embedded contexts, `@nest` and null as shorthands |
| C75–C77 | `compare_full`, `to_rdf_full`, `ToRdf::quads` | C04, C23 and C39 for comparison; C26, C32 and C55 for RDF; canonical forms commute with relabelling |
| C78–C81 | the operations of `JsonLdProcessor` | references; contexts outside of the document; base IRIs; C61 for the processor |
| C82 | `flatten_full` of the processor | C27–C29; flattened documents are well formed and writable, so that C24 and C61 apply |
| C83 | `MappedEq::mapped_eq` | greedy matching decides the kernel of two functions into an equivalence |
| C84 | `Context::into_syntax_definition` | each converted definition is read alone (`define`), by induction on the bindings; shape invariant of processing |
| C85 | expansion after `TryIntoJson` of an expanded document | the JSON of a node is a list of known entries; expansion of each entry, by induction on objects |
| C86 | `doc_data` (`deserialization`), then `serialize` | induction on objects; the visits of a node kind by kind; for data in general, induction on visits |
| C87 | `compact_node` and below | a compacted item is one action on a path, whatever the map it is applied to; adding a part to an object that holds parts clear of it, by induction on the path |
| C88 | both passes of printing, over any sizes and layout | each type is printed as a JSON value made of its entries, by induction; one induction on JSON values for the sizes; reading as in C24 |
| C89 | `map_ids` | sets and maps collected again: distinct representatives that cover; values under a key up to permutation; induction on objects |
| C90 | histories of edits of node properties | edits that matter for a property: since it was last forgotten; which offers are taken is determined pointwise; invariant: keys occur once |
| C91 | the quads of a document and of the flattened document, two traversals | through what documents say (`says`, C28) and what is told of it in RDF (C32, C55): terms depend only on references; lists by `collection` |
| C92 | iterators over entries, lookup by key, traversal with a stack | iterators characterised by `drains` (items and size hints); the traversal up to order (`Permutation`) against an explicit list of parts; numbers of arrays and objects against the sizes pushed by the printer (C88) |
| C93 | policies of expansion: stricter options only refuse; invalid names are not let through | a refinement between two runs (`refines`) along the whole algorithm; an inductive predicate on the names of the result (`named`); index properties and type maps are excluded by a condition, with witnesses that they are not checked |
| C94 | merging the graphs of a node map | a specification of the merged node from the list of its occurrences in all the graphs (`merged`, `gathers`); an invariant of the loop; independence of the order of the hash maps; witnesses that graph entries are lost and that the index depends on the order |
| C95 | the order of the entries of objects does not matter for expansion | a relation of reordered JSON (`shuffled`); the entries of a node are turned into lists of updates that commute (`ShuffleNode.v`), and the algorithm is run on both documents side by side (`Shuffle.v`); conditions on the keys (`clear`) and on JSON literals (`no_json`), each with a witness |
| C96 | the order of the terms of a context definition does not matter for the context it gives | both runs obey the specification of created definitions (`Created.v`), which has one solution along the acyclic dependencies between terms (`ContextOrder.v`); conditions in `plain_terms`; that both orders are accepted is not part of the claim and refuted (`C96_accepted_refuted`) |
| C97 | the order of the stored definitions cannot be observed by processing and expansion | a relation between contexts (`answers_alike`), recursive in the previous context; both runs side by side, with equal errors (`Interchange.v`, `InterchangeCompact.v`); compaction needs the condition `settled` on the contexts it uses, and is refuted without it (`C97_compact_refuted`) |
| C98 | the file system loader reads inside of the directory that is mounted | the names of a path as a separate specification (`names`, `below`); what `iref` returns is a hypothesis (`segments_ok`), and `C98_unchecked_refuted` shows that it is needed; the first mount point wins, not the most specific one (`C98_longest_refuted`) (`Fs.v`) |
| C99 | the main node is the only node at the root, and stays so | positions in the document as a separate specification (`only_node`, `many_nodes`); relabelling and identification through C26 and C54; mapping identifiers and canonical forms keep a main node but may create one (`C99_appears_refuted`) (`MainNode.v`) |
| C100 | a success depends on finitely many loaded documents only | a relation between a result and the same computation as a function of the loader (`owes`), kept by sequencing; one lemma per function of context processing, expansion and compaction (`Store.v`, `StoreExpand.v`), then the processor (`StoreApi.v`); failures do depend on what is missing (`C100_failures_refuted`) |
| C101 | `PartialEq` of contexts | the settings of both at every depth (`same_settings`), by induction; C97 for contexts with the same definitions; expected refutation: definitions are not compared |
| C102 | `map_ids` of contexts | a relation between contexts (`mapped`); selection through the specification of C16, since candidates are the same |
| C103 | iterators over the entries of expanded objects | what is left of an iterator as a list; two-ended histories against lists; the JSON object is made by insertions of fresh keys |
| C104 | warnings about malformed IRIs and keys | the same functions with the warnings they give; erasing the warnings gives the other models; strings without meaning described by themselves (`meaningless`); expected refutation: invalid identifiers made by the vocabulary mapping are silent |
| C105 | a cyclic IRI mapping error has a cause | the terms pending at any moment lead to the one being defined along the spelled uses (`uses`), and nothing else stays pending unless a term is skipped; induction on the fuel |
| C106 | every error of context processing has a cause | for each error code, the entries of the definitions at hand that can give it (`cause`, `blame`), stated on the syntax, the mode and the vocabulary policy only; induction on the fuel. The cause is necessary, not sufficient |
| C107 | errors about protection need protection | "nothing is protected" (`protected_item`) is kept by every step when no definition at hand sets a flag (`unmarked`); the contexts scoped to terms are not concerned, as their errors are reported as invalid scoped contexts |
| C108 | contexts of absolute and compact IRIs are accepted | `flat`, `means` and `described` read the definition of a term off its entry; invariant on the finished and pending terms; the only acceptance result for term definitions, so limited to definitions without keyword entries, terms without colon or slash, prefixes that are absolute, and the entries `@id`, `@type`, `@language`, `@direction` and `@container` |
| C109 | documents over such contexts expand to what they say | `says_scalar`, `says_entry` and `says_value` relate the entries of a document to the objects they stand for, using only the syntax of the context, and `made` says which node the entries make; induction on the nesting depth; no keyword entries but `@context`, `@id` and `@type`, no nested contexts, no arrays in arrays, link strings are absolute or compact IRIs; the relation fixes nested nodes up to the order of their properties (`alike`, C109_determined) |
| C59 | expansion then `into_json`/`try_from_json` | C39 gives the conditions of C24 |

## Trusted base

* The Coq 8.16.1 kernel, including `vm_compute` (used in examples, refutations and finite case
  checks).
* `Print Assumptions` follows every theorem of a `Prop*.v` file.  Every one of them answers
  "Closed under the global context": no axiom of the standard library or of ours is used.
* The transcription from Rust to Gallina, checked by reading only (each definition cites the
  lines it models).
* The JSON, IRI, blank identifier, language tag, MIME and HTTP libraries are not in `/repo`.
  They are represented as follows.

| external piece | representation | assumption |
|----------------|----------------|------------|
| `json-syntax` values | `Json.v`: ordered entries, duplicate keys possible, numbers as text | the operations listed in the header of `Json.v` |
| IRI and blank identifier syntax, resolution | record `iops` of functions, universally quantified | none, except where a theorem asks for `iri_laws` (an IRI has a non-empty scheme without `:`, `_`, `@` and is no blank identifier) or `id_laws` (also: a blank identifier starts with `_:`, resolution gives an IRI) |
| making an IRI relative (`relative_to`) | function parameter `rel` | where needed: what it gives resolves back |
| hash functions (`DefaultHasher`, random state) | function parameters `fin`, `rnd` | none; every theorem holds for every hash function, constant ones included |
| hash map iteration order | the order of an association list | theorems quantify over the list, or over its permutations |
| document loader | function parameter | none (any answer, any redirection) |
| HTTP server | oracle function | none |
| blank node generator | function parameter | freshness, only where stated |
| well-formedness of language tags, numbers, XSD lexical forms | function parameters | only where stated |

`sample_iops` and the other definitions of `Samples.v` are only used by examples and refutations;
`sample_laws` and `sample_id_laws` show that the laws can be satisfied.

## What is modelled

| source | file | not modelled |
|--------|------|--------------|
| syntax: `keyword`, `direction`, `container`, `version`, error codes | `Keyword.v`, `Enums.v` | |
| syntax: `lang`, `utils` | `LangTag.v` | |
| syntax: `compare` | `Compare.v` | |
| syntax: `context/**`, `try_from_json`, `into_json` | `ContextSyntax.v` | source locations (spans) |
| syntax: `compact_iri`, `expandable` | `Process.v`, `Str.v` | |
| core: `container`, `lang_string`, `id`, `term`, `ty` | `Container.v`, `LangString.v`, `Ctx.v` | |
| core: `context/{mod,definition,inverse}` | `Ctx.v`, `Inverse.v`, `Reify.v`, `CtxEq.v` | vocabulary interning (identifiers are their text) |
| core: `object/**`, `indexed`, `document/expanded` | `Object.v`, `ObjectJson.v`, `Traverse.v`, `Relabel.v`, `MappedEq.v`, `MapIds.v`, `NodeEdit.v`, `MainNode.v`, `Entries.v` | mutable access (`iter_mut`, `*_mut`) to the parts of a node; closures given to `map_ids` are functions of their argument alone |
| core: `flattening/**` | `Flatten.v`, `Merge.v` | |
| core: `rdf/**`, `quad` | `Rdf.v` | |
| core: `serialization` | `FromRdf.v` | interpretations where a resource has several terms |
| core: `loader/{chain,fs,map,none,reqwest/**}` | `Headers.v`, `Loader.v`, `Fs.v`, `StoreApi.v` | the body of the response (JSON parsing), the segments that `iref` returns for a mount point (a parameter), paths of Windows |
| context-processing | `Stack.v`, `Process.v`, `Warn.v` | warnings other than `MalformedIri` of `expand_iri_simple` |
| expansion | `Expand.v`, `Warn.v` | warnings other than those of the loop over the keys of an element; asynchrony (the only suspension points are loader calls) |
| compaction | `CompactIri.v`, `Compact.v` | |
| `src/processor/{mod,remote_document}`, core: `loader/mod` (references, `into_ld_context`), `canonicalize` | `Processor.v` | canonical forms of numbers and JSON are parameters; the second and later enumerations of `ToRdf` |
| core: `deserialization`; crate `serialization` | `LinkedData.v` | a value of the `linked_data` traits is the tree of the calls it makes to its visitors; interpretations are trivial; the parsers of numbers, tags and XSD values are parameters (`ldops`) |
| core: `print`; syntax: `context/print`, `print_ld`, iterators over entries | `Print.v` | `json_syntax::print` is a record of functions (sizes, texts), with this interface: the size of a container is pushed before those of its items, and read back at an index; `len() == 0` decides what is written without items |
| syntax: `context/mod` (traverse, fragments), `context/definition/{mod,reference}`, `context/term_definition/mod` (entries, fragments) | `CtxTraverse.v` | iterators are functions from a state to an item and a state; references are values; the only version is a `unit` |
| `linked_data` derives, cli, testing | | not modelled |

`async` functions are modelled as ordinary functions: there is no shared state between futures.
Vocabularies (`IriVocabulary`, …) are modelled as the identity: an interned identifier is its
text.

## Findings

Claims that turned out false, each with a witness checked by Coq (`*_refuted`).

* C02: the text of `ErrorCode::DuplicateKey` is not parsed back.
* C05: `Container::with` takes `GraphSet` + `Index` to `GraphIdSet`.
* C07: `{}` simplifies to null; `{"@id": x}` for a term that may be a prefix simplifies to a
  string that creates a prefix.
* C09, C10: an `@import` inside a scoped context of the imported document loops.
* C11: a protected term may be redefined by a reverse property, or by an `@id` of keyword form.
* C13: `{"@id": "http://x/"}` binds the keyword `@id`.
* C18, C57, C58: compacted IRIs that read as something else; IRIs refused although they could not
  be confused with a compact IRI.
* C19: the choice between compact IRIs depends on the iteration order of a hash map, and is not
  always the shortest.
* C60: a property whose IRI is itself a term is compacted to this IRI even if the definition of the
  term (a list container, a type) does not suit the value.
* C20: `add_value` flattens nested arrays, so JSON literals change.
* C21: null literals, and strings with only a language or only a direction under a default for the
  other, do not survive; nor do tagged strings of a typed property, literals of a `@json`
  property, and the language `@none`.
* C24: included nodes are written under `@include`; an empty list of types is lost.
* C25: items of lists are not traversed; names of reverse properties are not reported.
* C26: blank node identifiers used as properties are not relabelled.
* C28: flattening overwrites the types given by an earlier occurrence of a node, and drops nodes
  of named graphs that only have types.
* C30: an item of a list without RDF value leaves the chain of `rdf:rest` unfinished.
* C32: everything inside a node without identifier is missing from the quads.
* C33: `rdfDirection = compound-literal` gives a blank node without `rdf:value`; a string whose
  language tag is ill-formed is dropped.
* C34: building a document from quads loses cycles, classes with one instance, the lexical form
  of booleans, renders `rdf:first` as `rdf:type`, and never rebuilds a list
  (`reverse_rest.insert(quad.1)` records the predicate).
* C39: a property-valued index may create a property called `@type`.
* C40: a null value object is accepted with both a type and a language; two aliases of the same
  keyword are not detected as colliding; a value object with its own `@context` is rejected.
* C41: a list container keeps only the last list; JSON literals of a `@json` property are merged
  or lost; index and graph-index maps absorb list objects and named graphs, or panic.
* C42: a relative `@base` or `@vocab` changes each time the context is processed.
* C44: `{"@prefix": true, "@id": null}` panics, as does a simple term when the vocabulary policy
  drops.
* C45: `@base` after an IRI in an array of contexts is ignored.
* C50: `@propagate` inside an array of contexts is neither checked nor applied.
* C61: a string in a nested list becomes a node under a term of type `@id` (inner lists are
  compacted for the property `@list`, and expanded for the term); the index of a node reference,
  nodes with only an identifier, and a single unnamed graph object are lost.  Lists and graph
  objects beside an index map, and the values of reverse properties in one, are read as something
  else; keyword-like indexes are lost; language maps lose directions and may hold booleans that
  expansion rejects; with graph containers inner indexes are lost and several nodes become one.
* C65–C67: index and type maps keep type-scoped contexts in their members, arrays do not; keys of
  identifier maps are read outside of the context of the member; relative keys of type maps are
  not resolved.
* C68: list objects revert the context of the type of the node, arrays under a list container do
  not.  C69: set, list and value objects with a context of their own are rejected.
* C71: an alias of `@nest` with a local context differs from `@nest`; the order of the names of
  `@type` decides which type-scoped context comes last.  C73: types under `@nest` have no
  type-scoped context.  C74: null is an empty list with a list container and an empty property
  with a graph container; the specification drops both.
* C75: documents with the same expansion compare as different if they are written differently,
  since the documents themselves are compared first.
* C77: the canonical form of nodes visits neither `@graph` nor `@included`, so that the datatype of
  the number 1.0 depends on where it is.
* C75: comparing documents whose objects repeat a key panics.
* C79: the option expandContext, given by an IRI, resolves relative references of the context
  against the base IRI of the document instead of the IRI of the context.
* C80: embedded contexts are resolved against the URL of the document, not the base option; a
  context with a relative `@base` can be embedded, but not be used to compact.
* C81: the base option wins over `@base` of the context when compacting but not when the output is
  read; `"@base": null` is replaced by the URL of the document when compacting.
* C83: types of nodes are not compared.
* C84: the syntax of a context may make a prefix of a term that was none, give a mapping to a
  protected null term, change an IRI whose scheme is a term, lose a language, or be rejected
  because a term is used (by `@index`) before it is defined.
* C86: an anonymous object with `rdf:first` and `rdf:rest` is never serialized into a list
  (`C86_never_a_list`): both properties are also set, so the test `properties.is_empty()` of
  `SerializeObject::end` always fails. The items are given twice and the rest in reverse order
  after a null. A value in a list visits no object, so lists of values lose their items
  (`C86_list_refuted`).
* C87: with a property-valued index, the first of several values of the index property is lost if
  it is not a string; an index property given by its IRI is not found if it has a term. Nothing is
  said about nodes in language maps.
* C88: the index of an object is printed under the key `@value` (`object/mod.rs` 713): a value with
  an index is printed with two `@value` entries, a node with an index reads as a value. Included
  nodes are printed under `@included`, unlike what `into_json` does.
* C93: the policy for invalid identifiers is not applied to type maps nor to index properties; the
  policy for the vocabulary is applied to keys in the context around an object before its own
  context is processed, so that a term the object defines is rejected.
* C94: merging the graphs of a node map loses the graph of a node that is also in a later graph; the
  index kept depends on the order of a hash map.
* C95: a reverse property before `@reverse` is refused as colliding keywords, after it it is not; of
  two aliases of `@index`, or one under `@nest`, the last one counts. The option `ordered` does not
  change this: `element.rs` 215-219 copies the entries where they should be sorted.
* C96: a scoped context is tried in the half-built context, at the moment its term is defined
  (define.rs 651-682), so `{foo, t}` is accepted and `{t, foo}` is refused when the scoped context of
  `t` uses `foo`.  A term defined early because another one uses it is defined with
  `protected = false`, no base URL and overriding switched off (iri.rs 57-74): it misses `@protected`,
  the base of its scoped context, and the right to replace a protected term.  `pl_ignored` and
  `pl_type` are needed by the proof only.
* C98: the file system loader checks nothing: that a file is inside of the mounted directory rests on
  `iref` returning normalized segments (no `..`).  The first mount point that matches is used, even
  when a later one has a longer prefix.  Percent-encoded characters are not decoded; the query is
  ignored.
* C99: mapping identifiers may give a main node to a document without one.
* C101: `Context::eq` does not compare the term definitions: contexts that compare equal may expand
  a document differently.
* C103: through a vocabulary the key of the index of an object is `@value`; included nodes are
  `@included` among the entries and `@include` in JSON.
* C105: a term whose `@id` or `@reverse` has the form of a keyword is skipped with a warning, but
  stays pending: another term using it gives a cyclic IRI mapping error although there is no cycle.
* C104: a key that the vocabulary mapping or a prefix makes invalid is kept or dropped without a
  warning; every key without meaning, on the contrary, is warned about.
* C102: expanding in a context whose identifiers were mapped is not mapping the expansion.
* C85: a second expansion unwraps a nested unnamed graph, loses included nodes, values in graph
  containers and the language `@none`, and resolves references left unresolved by `"@base": null`.

Noticed while modelling, outside the listed claims:

* definitions made on behalf of another term ignore `@protected` of the context and have no base
  URL (C48_example); a repeated remote context is silently skipped (C52_repeated);
* reverse properties ignore `@context`, `@index` and `@prefix`;
* expansion: `ordered` does not sort the entries of the top-level map; a non-IRI key of an
  index container drops the item; `{"p": null}` with a list container gives an empty list;
* `Context` equality ignores term definitions; `Error::code` maps `InvalidProtectedValue` to
  `InvalidPropagateValue`;
* `Value::try_from_json_object_in` ignores unknown entries;
  `FragmentRef::is_json_object` calls `is_json_array`;
* `Borrow<str>` for `LenientLangTag` breaks the contract between `Hash` and `Eq`;
* compaction: `compact_to_relative` is not used; `@index` is dropped when a node compacts to a
  string; a list whose only item is a JSON array is flattened.

## Tests of the theorems

`seeded/LOG.jsonl` records wrong programs: edits of a model definition (in a copy), the claim they
break and the theorems that no longer prove.  Where all theorems survived, the theorem added or
tightened is named.

{"id": "C01", "title": "Keyword text is a bijection", "statement": "Keyword::try_from accepts a string iff it is the text of exactly one keyword, returns that keyword, and printing the result gives back the same string; every keyword is keyword-like, and is_keyword_like accepts exactly the strings '@' followed by one or more ASCII letters.", "quantifier": "for every string and every keyword", "why_tests_cant": "the set of strings is infinite; a test samples a few spellings and cannot exclude that some other string is accepted or mapped to the wrong keyword", "anchors": ["crates/syntax/src/keyword.rs: Keyword::into_str, TryFrom<&str>, is_keyword, is_keyword_like"]}
{"id": "C02", "title": "Text forms of the other enumerations round-trip", "statement": "For directions, container kinds, type keywords, processing modes and error codes, parsing the printed form gives back the value, and every string accepted by the parser is the printed form of the value returned.", "quantifier": "for every value of each enumeration and every string", "why_tests_cant": "parser side quantifies over all strings; error-code tables are long and tests touch only the codes the suite happens to raise", "anchors": ["crates/syntax/src/direction.rs: Direction", "crates/syntax/src/container.rs: ContainerKind", "crates/syntax/src/context/term_definition/type_.rs: TypeKeyword", "crates/core/src/mode.rs: ProcessingMode", "crates/syntax/src/error.rs: ErrorCode::as_str, TryFrom<&str>"]}
{"id": "C03", "title": "Language tags: lawful Eq, Ord and Hash", "statement": "Equality of lenient language tags is an equivalence relation identifying exactly the tags that differ only in ASCII case; the ordering is a total order whose Equal case coincides with equality; equal tags feed the same byte sequence to the hasher.", "quantifier": "for all byte strings a, b, c", "why_tests_cant": "violating transitivity or Eq/Ord/Hash agreement corrupts maps only for particular pairs/triples of keys; sampling pairs does not establish the laws", "anchors": ["crates/syntax/src/utils.rs: case_insensitive_eq, case_insensitive_cmp, case_insensitive_hash", "crates/syntax/src/lang.rs: LenientLangTag"]}
{"id": "C04", "title": "JSON document comparison decides equality up to array order", "statement": "On JSON values whose objects have no duplicate keys, Compare::compare never panics and returns true iff the two values are equal up to reordering of array items and object entries at every depth; hence it is an equivalence relation. (The greedy matching never misses a matching that exists.)", "quantifier": "for all pairs of JSON values of any depth and width with unique keys", "why_tests_cant": "greedy matching bugs only appear for particular multisets of nested items; number of item orders is factorial in the size", "anchors": ["crates/syntax/src/compare.rs: Compare for Value"]}
{"id": "C05", "title": "Container value denotes exactly the listed container kinds", "statement": "Building a container mapping from a list of container kinds either fails or yields a container whose set of kinds is exactly the set of kinds listed, independent of their order and of repetitions, and it fails exactly when the set is not one of the combinations JSON-LD 1.1 allows.", "quantifier": "for every finite list of container kinds", "why_tests_cant": "unbounded lists, all permutations with repetition", "anchors": ["crates/core/src/container.rs: Container::with, add, from_syntax, from, as_slice"]}
{"id": "C06", "title": "Context text round-trip", "statement": "Whenever a JSON value is successfully parsed as a local context, serializing the parsed context and parsing again succeeds and yields the same context.", "quantifier": "for every JSON value, of any nesting of scoped contexts", "why_tests_cant": "contexts nest arbitrarily (term-scoped contexts) and have ~20 optional entries; tests cover a few shapes", "anchors": ["crates/syntax/src/context/try_from_json.rs: TryFromJson for Context, ContextEntry, TermDefinition", "crates/syntax/src/into_json.rs: IntoJson for Context, Definition, TermDefinition, Expanded", "crates/syntax/src/try_from_json.rs"]}
{"id": "C07", "title": "Simplifying a term definition does not change its meaning", "statement": "Replacing an expanded term definition by the result of Expanded::simplify yields the same processed term definition.", "quantifier": "for every expanded term definition and active context", "why_tests_cant": "equivalence must hold under every context; a unit test checks the syntactic shape only", "anchors": ["crates/syntax/src/context/term_definition/mod.rs: Expanded::simplify, is_null, is_simple_definition", "crates/context-processing/src/algorithm/define.rs: define"]}
{"id": "C08", "title": "Remote context cycle detection is exact and chain-local", "statement": "ProcessingStack::push(url) returns false iff url is already on the current inclusion chain and then leaves the stack unchanged; otherwise exactly url is added; pushes on a clone never influence the original; a chain never contains a URL twice.", "quantifier": "for every sequence of push/clone operations", "why_tests_cant": "history dependent: all sequences of operations and sharing patterns", "anchors": ["crates/context-processing/src/stack.rs: ProcessingStack::push, cycle, StackNode::contains"]}
{"id": "C09", "title": "Loading remote contexts terminates", "statement": "If the loader can only ever serve finitely many distinct context URLs, context processing terminates and along any inclusion chain no URL is loaded twice.", "quantifier": "for every loader (any, also cyclic, graph of contexts) and every local context", "why_tests_cant": "every possible graph of remote contexts, including cycles through @import and scoped contexts", "anchors": ["crates/context-processing/src/algorithm/mod.rs: process_context", "crates/context-processing/src/stack.rs"]}
{"id": "C10", "title": "Term definition dependencies: cycles are reported, never followed forever", "statement": "Creating term definitions from a local context terminates for every local context, and if a term's IRI mapping depends on itself through prefixes the result is the cyclic IRI mapping error.", "quantifier": "for every local context, any dependency graph between terms", "why_tests_cant": "dependency graphs are unbounded; tests contain only short cycles", "anchors": ["crates/context-processing/src/algorithm/define.rs: define, DefinedTerms", "crates/context-processing/src/algorithm/iri.rs: expand_iri_with"]}
{"id": "C11", "title": "Protected terms survive context processing", "statement": "If a term is protected in the active context and override-protected is off, then after successfully processing a local context the term is still defined with the same definition (up to the protected flag); otherwise processing reports an error.", "quantifier": "for every active context, protected term and local context", "why_tests_cant": "must hold for every later context, including those fetched remotely and all definition shapes", "anchors": ["crates/context-processing/src/algorithm/define.rs: define (protected check)", "crates/context-processing/src/algorithm/mod.rs: process_context (null context)"]}
{"id": "C12", "title": "Nullifying a context", "statement": "Processing a null context fails with invalid context nullification iff the active context has a protected term and override-protected is off; otherwise the result is the initial context carrying only the original base IRI.", "quantifier": "for every active context and option setting", "why_tests_cant": "quantifies over every context state reachable by processing", "anchors": ["crates/context-processing/src/algorithm/mod.rs: process_context", "crates/core/src/context/mod.rs: Context::has_protected_items"]}
{"id": "C13", "title": "Keywords cannot be redefined", "statement": "No successfully processed context gives a definition to a keyword other than @type, and @type is only ever given a set container and a protected flag.", "quantifier": "for every initial context and local context", "why_tests_cant": "all contexts, all spellings of terms, remote contexts and imports included", "anchors": ["crates/context-processing/src/algorithm/define.rs: define", "crates/core/src/context/definition.rs: Definitions"]}
{"id": "C14", "title": "IRI expansion fixes absolute identifiers and keywords", "statement": "Expanding a keyword returns it; expanding a string with no matching term or prefix that has the form scheme:rest returns that same IRI; a term is replaced by its mapping under vocab expansion; otherwise the vocabulary mapping is prepended, or the base resolved, or the string is rejected; expansion never changes the active context when no local context is given.", "quantifier": "for every active context and string", "why_tests_cant": "all strings and all contexts", "anchors": ["crates/context-processing/src/algorithm/iri.rs: expand_iri_simple, expand_iri_with"]}
{"id": "C15", "title": "@import merges with the importing context taking precedence", "statement": "Processing a context definition that imports another one behaves as processing the definition whose entries are those of the importing context, completed by those of the imported one.", "quantifier": "for all pairs of context definitions", "why_tests_cant": "pairs of arbitrary definitions", "anchors": ["crates/context-processing/src/algorithm/merged.rs: Merged"]}
{"id": "C16", "title": "Term selection is independent of hash order and selects a correct term", "statement": "The inverse context used for compaction depends only on the set of term definitions, not on their iteration order; the term selected for an IRI is mapped to that IRI and, among the candidates with the same container/type/language key, is the shortest and then lexicographically least.", "quantifier": "for every context, every iteration order and every selection request", "why_tests_cant": "iteration order of a randomized hash map differs per process; all contexts", "anchors": ["crates/core/src/context/inverse.rs: From<&Context>, InverseContext::select", "crates/core/src/context/mod.rs"]}
{"id": "C17", "title": "The cached inverse context is never stale", "statement": "After any sequence of context mutations through the public setters and queries of the inverse context, the inverse context returned is the one computed from the current definitions, default language and direction.", "quantifier": "for every history of setter and query operations", "why_tests_cant": "all operation histories", "anchors": ["crates/core/src/context/mod.rs: Context::inverse, set, set_type, set_default_language, set_default_base_direction, set_vocabulary, set_base_iri"]}
{"id": "C18", "title": "Compacted IRIs expand back to the same IRI", "statement": "If compact_iri (vocab mode) returns a string for an IRI, then expanding this string with vocab against the same context gives back the IRI.", "quantifier": "for every context and IRI", "why_tests_cant": "all contexts (prefixes, vocab, aliases) times all IRIs", "anchors": ["crates/compaction/src/iri.rs: compact_iri_full", "crates/context-processing/src/algorithm/iri.rs: expand_iri_simple"]}
{"id": "C19", "title": "Compact IRI selection is deterministic and shortest", "statement": "Among the compact IRIs available for an IRI the chosen one is the shortest, ties broken lexicographically; in particular the result does not depend on the iteration order of the context's hash map.", "quantifier": "for every context, IRI and iteration order", "why_tests_cant": "random per-process iteration order; a test sees one order", "anchors": ["crates/compaction/src/iri.rs: compact_iri_full"]}
{"id": "C20", "title": "Adding a value to a compacted node never loses values", "statement": "add_value(map, key, value) makes the sequence of values under key the previous sequence followed by the values of the argument, leaves all other keys unchanged, keeps one entry per key, and yields an array whenever as_array is set.", "quantifier": "for every map, key, JSON value and flag", "why_tests_cant": "arbitrary nesting of array arguments and all previous states", "anchors": ["crates/compaction/src/lib.rs: add_value"]}
{"id": "C21", "title": "Compacting then expanding a value object gives the value back", "statement": "Compacting a value object against an active property and expanding the result under the same property gives back the value.", "quantifier": "for every context, property definition and value object", "why_tests_cant": "product of all type/language/direction mappings, defaults and value shapes", "anchors": ["crates/compaction/src/value.rs: compact_indexed_value_with", "crates/expansion/src/value.rs: expand_value", "crates/expansion/src/literal.rs: expand_literal"]}
{"id": "C22", "title": "Language-tagged strings always carry a language or a direction", "statement": "Through the public API of LangString no sequence of operations produces a language string with neither language nor direction, and a rejected update leaves the string unchanged.", "quantifier": "for every sequence of constructor/setter calls", "why_tests_cant": "all operation histories", "anchors": ["crates/core/src/lang_string.rs: LangString::new, set, set_language, set_direction"]}
{"id": "C23", "title": "Multiset equality and hashing are order independent and consistent", "statement": "Equality of expanded-document multisets is exactly equality up to reordering (with multiplicities), it is an equivalence relation, and equal multisets have equal hashes.", "quantifier": "for all pairs/triples of multisets of any size", "why_tests_cant": "all permutations; hash collisions and greedy matching", "anchors": ["crates/core/src/object/node/multiset.rs: Multiset PartialEq, Hash", "crates/core/src/utils/hash.rs: hash_set, hash_map"]}
{"id": "C24", "title": "Expanded objects round-trip through JSON", "statement": "Serializing an expanded object to JSON and parsing it back with the expanded-object parser gives an equal object.", "quantifier": "for every expanded object of any depth", "why_tests_cant": "recursive data of unbounded depth and shape", "anchors": ["crates/core/src/object/mod.rs: IntoJsonWithContext, TryFromJson", "crates/core/src/object/node/mod.rs", "crates/core/src/object/value.rs", "crates/core/src/object/list.rs"]}
{"id": "C25", "title": "Document traversal visits every node", "statement": "The traversal of an expanded document visits every value, list and node it contains, and blank_ids reports every blank node identifier occurring in it.", "quantifier": "for every expanded document", "why_tests_cant": "arbitrary nesting", "anchors": ["crates/core/src/object/mod.rs: Traverse, FragmentRef::sub_fragments, Objects::blank_ids"]}
{"id": "C26", "title": "Blank node relabelling is consistent and injective", "statement": "Relabelling blank nodes maps equal identifiers to equal identifiers and distinct ones to distinct ones (for a generator that never repeats), covers every occurrence, and leaves IRIs unchanged.", "quantifier": "for every document and every non-repeating generator", "why_tests_cant": "all documents and sharing patterns of identifiers", "anchors": ["crates/core/src/object/mod.rs: relabel_with", "crates/core/src/object/node/mod.rs: relabel_with", "crates/core/src/flattening/environment.rs: Environment::assign"]}
{"id": "C27", "title": "Flattened documents are flat with unique subjects", "statement": "In the result of flattening every node object has an identifier, no two node objects of the same graph share an identifier, and property values are references, values or lists of those: no node object is nested inside another.", "quantifier": "for every expanded document", "why_tests_cant": "arbitrary nesting and sharing", "anchors": ["crates/core/src/flattening/mod.rs: flatten_unordered, filter_graph", "crates/core/src/flattening/node_map.rs: extend_node_map"]}
{"id": "C28", "title": "Flattening preserves the described statements", "statement": "Flattening preserves the set of (subject, property, object) and (subject, rdf:type, class) statements of the document up to renaming of blank nodes.", "quantifier": "for every expanded document", "why_tests_cant": "arbitrary nesting and repeated subjects", "anchors": ["crates/core/src/flattening/node_map.rs: extend_node_map_from_node", "crates/core/src/flattening/mod.rs: filter_sub_graph"]}
{"id": "C29", "title": "Conflicting indexes are always detected when flattening", "statement": "Flattening fails with conflicting indexes iff the same subject occurs in the same graph with two different @index values.", "quantifier": "for every expanded document", "why_tests_cant": "occurrences may be anywhere in the document, in any order", "anchors": ["crates/core/src/flattening/node_map.rs: NodeMapGraph::declare_node"]}
{"id": "C30", "title": "RDF lists encode the list items in order", "statement": "The quads emitted for a list form a single well-formed RDF collection from the returned head to rdf:nil whose rdf:first values are the RDF values of the items in order, using one fresh blank node per item.", "quantifier": "for every list of any length and nesting", "why_tests_cant": "unbounded lists; nested lists", "anchors": ["crates/core/src/rdf/mod.rs: ListTriples, NestedListTriples, Value::rdf_value", "crates/core/src/rdf/quad.rs: Quads"]}
{"id": "C31", "title": "Only well-formed RDF is emitted", "statement": "Every emitted quad has an IRI or blank subject and graph, a valid predicate which is an IRI unless generalized RDF was requested, and a valid object.", "quantifier": "for every expanded document and option setting", "why_tests_cant": "all documents, including invalid identifiers anywhere", "anchors": ["crates/core/src/rdf/quad.rs: Quads", "crates/core/src/quad.rs: Quads"]}
{"id": "C32", "title": "Every statement of a node reaches the RDF output", "statement": "For every node with an identifier, each type and each property value with an RDF value gives rise to a quad with that subject in the graph the node occurs in.", "quantifier": "for every expanded document", "why_tests_cant": "arbitrary nesting", "anchors": ["crates/core/src/quad.rs: Quads", "crates/core/src/rdf/quad.rs"]}
{"id": "C33", "title": "Directional strings keep their text in RDF", "statement": "Converting a language string with direction to RDF under either direction encoding keeps its text, language and direction recoverable from the quads.", "quantifier": "for every language string and encoding", "why_tests_cant": "all strings/languages/directions", "anchors": ["crates/core/src/rdf/mod.rs: Value::rdf_value_with, i18n"]}
{"id": "C34", "title": "RDF datasets are rebuilt without losing statements", "statement": "Building an expanded document from RDF quads and reading its statements back gives the same set of statements up to blank renaming; RDF collections become lists.", "quantifier": "for every set of quads", "why_tests_cant": "all finite datasets, in any order, including cycles", "anchors": ["crates/core/src/serialization.rs: from_interpreted_quads_in, SerDataset, render_object"]}
{"id": "C35", "title": "Link headers parse to what was written", "statement": "Printing a list of parameters and a target as a Link header and parsing it gives back the target and for each parameter its last value; the parser terminates and accepts only values of the documented form.", "quantifier": "for every target, parameter list and byte string", "why_tests_cant": "all byte strings", "anchors": ["crates/core/src/loader/reqwest/link.rs: Link::new, rel, type_"]}
{"id": "C36", "title": "Content-Type values parse to what was written", "statement": "Printing a media type with quoted parameters and parsing it gives back the media type and each parameter's last value.", "quantifier": "for every media type, parameter list and byte string", "why_tests_cant": "all byte strings", "anchors": ["crates/core/src/loader/reqwest/content_type.rs: ContentType::new"]}
{"id": "C37", "title": "HTTP loading sends a bounded number of requests and honours the content-type rules", "statement": "Loading a URL sends at most max_redirections + 1 requests whatever the servers answer; a document is returned only for a 200 answer with a JSON media type; a context link is reported only when the media type is not application/ld+json and exactly one such link exists, several being an error.", "quantifier": "for every behaviour of the servers (any answer sequence)", "why_tests_cant": "adversarial, history dependent servers; unbounded redirect chains", "anchors": ["crates/core/src/loader/reqwest/mod.rs: ReqwestLoader::load"]}
{"id": "C38", "title": "Chained loaders answer with the first success", "statement": "A chain of loaders returns the document of the first loader that succeeds, never calls later loaders after a success, and fails only if all fail.", "quantifier": "for every list of loaders and URL", "why_tests_cant": "all loader behaviours and chain shapes", "anchors": ["crates/core/src/loader/chain.rs: ChainLoader", "crates/core/src/loader/none.rs", "crates/core/src/loader/map.rs"]}
{"id": "C39", "title": "Expansion output is well formed", "statement": "Every object produced by expansion is a well formed expanded object: value objects carry a language/direction only on strings and never together with a type, lists contain no null, identifiers are IRIs, blank identifiers or explicitly invalid, properties are never keywords.", "quantifier": "for every JSON document and context", "why_tests_cant": "arbitrary documents", "anchors": ["crates/expansion/src/element.rs", "crates/expansion/src/value.rs", "crates/expansion/src/node.rs"]}
{"id": "C40", "title": "Value object validation", "statement": "A value object is accepted iff it satisfies the JSON-LD grammar for value objects (allowed entries, scalar value, string when language tagged, IRI datatype) and the error reported names the violated rule; null values are dropped.", "quantifier": "for every value object", "why_tests_cant": "product of all entry combinations and value kinds", "anchors": ["crates/expansion/src/value.rs: expand_value"]}
{"id": "C41", "title": "Compaction keeps every list and never panics", "statement": "Compacting a node keeps all the values of each property (in particular all lists of a property with a list container) and never panics.", "quantifier": "for every expanded node and context", "why_tests_cant": "combinations of container mappings and value shapes", "anchors": ["crates/compaction/src/property.rs: compact_property_list, compact_property_graph, compact_property", "crates/compaction/src/lib.rs: add_value"]}
{"id": "C42", "title": "Indexed term definitions do not change on duplicate processing", "statement": "Processing the same protected local context twice gives the same active context as processing it once.", "quantifier": "for every local context without remote references", "why_tests_cant": "all contexts", "anchors": ["crates/context-processing/src/algorithm/define.rs", "crates/context-processing/src/algorithm/mod.rs"]}
{"id": "C43", "title": "Context processing terminates when imports do not nest", "statement": "If the loader answers for finitely many URLs and no document reached through @import has scoped contexts that import again, context processing returns a result, and the result does not depend on how much work it is allowed.", "quantifier": "for every such loader, local context, active context, chain of remote contexts and options", "why_tests_cant": "loops need particular families of remote documents", "anchors": ["crates/context-processing/src/algorithm/mod.rs: process_context", "crates/context-processing/src/stack.rs"]}
{"id": "C44", "title": "Context processing never panics on prefixes with an IRI", "statement": "When every expanded term definition with @prefix: true has a non-null @id (in the local context and in every remote one), and vocabulary-relative IRIs are not dropped, context processing returns a context or an error and never panics. Without either condition it may panic.", "quantifier": "for every loader, local context, active context and options", "why_tests_cant": "the unwraps are reached only by particular combinations of entries", "anchors": ["crates/context-processing/src/algorithm/define.rs: unwrap"]}
{"id": "C45", "title": "Arrays of inline contexts are processed in sequence", "statement": "Processing an array of contexts without remote references gives what processing its elements one after the other gives; an array of one context gives what the context alone gives. This fails with a remote reference in the array.", "quantifier": "for every active context and array", "why_tests_cant": "all arrays and their splits", "anchors": ["crates/context-processing/src/algorithm/mod.rs: process_context"]}
{"id": "C46", "title": "Remote contexts keep the base IRI", "statement": "Processing a remote context never changes the base IRI of the active context, whatever the document and those it includes contain besides null contexts; the original base URL is kept by all processing.", "quantifier": "for every loader, document graph and active context", "why_tests_cant": "all document graphs", "anchors": ["crates/context-processing/src/algorithm/mod.rs: @base"]}
{"id": "C47", "title": "Context processing changes only what the local context mentions", "statement": "Terms without an entry in the contexts involved keep their definition; the default language, direction and vocabulary mapping change only if some context sets them, and then take the value written.", "quantifier": "for every loader, context and term", "why_tests_cant": "frame over all terms and all contexts", "anchors": ["crates/context-processing/src/algorithm/mod.rs", "crates/context-processing/src/algorithm/define.rs"]}
{"id": "C48", "title": "Recorded term definitions are those written", "statement": "After processing a context definition, each of its terms has a definition with exactly the container, index, language, direction, nest, context, prefix and protected entries written, and whose IRI and type mappings are the expansion of the written @id, @reverse and @type in the resulting context, whatever the order of the entries.", "quantifier": "for every context definition, active context, term and order of the entries", "why_tests_cant": "all orders of all sets of mutually dependent terms", "anchors": ["crates/context-processing/src/algorithm/define.rs: define"]}
{"id": "C49", "title": "A JSON value is read as a local context iff it matches the grammar of contexts", "statement": "Context::try_from_json succeeds on a JSON value exactly when the value is null, an IRI reference, an object matching the context definition grammar (typed keyword entries, @version 1.1, each other entry null, a string, or an object whose entries are among the expanded term definition keywords with values of their types), or an array of such non-array values.", "quantifier": "all JSON values", "why_tests_cant": "The accepted set is infinite and recursive (contexts nested in term definitions); tests only sample accepted and rejected inputs, and an over-permissive reader passes every positive test.", "anchors": ["crates/syntax/src/context/try_from_json.rs", "crates/syntax/src/context/definition/mod.rs"]}
{"id": "C50", "title": "In processing mode json-ld-1.0 no 1.1 context entry is accepted", "statement": "If processing a local context in mode JsonLd1_0 succeeds, no context definition of it, at any position of an array, has an @version, @import, @direction or @type entry; @propagate is refused when the context is a single definition (in an array it is silently ignored); each refused entry gives its own error code.", "quantifier": "all local contexts, active contexts, loaders, options with mode 1.0", "why_tests_cant": "Every entry at every position of an array must be refused whatever the rest of the context; test suites give one context per entry.", "anchors": ["crates/context-processing/src/algorithm/mod.rs", "crates/context-processing/src/algorithm/define.rs"]}
{"id": "C51", "title": "The previous context is recorded exactly for non-propagated contexts", "statement": "Processing an inline context without null yields a context whose previous context is that of the active context when the context propagates, and otherwise the previous context of the active context if it has one, else the active context itself; a non-propagated null context keeps as its previous context the whole context it replaces.", "quantifier": "all active contexts, inline local contexts and options", "why_tests_cant": "The previous context only becomes visible later, when an expansion rolls back; the property is about chains of any length.", "anchors": ["crates/context-processing/src/algorithm/mod.rs"]}
{"id": "C52", "title": "References in remote contexts are relative to the document they are in", "statement": "When context documents each contain a single relative reference to the next, processing the first reference is the same as processing the contents of the last document with that document's own URL as base and without the right to override protected terms, whatever the length of the chain.", "quantifier": "all chains of distinct documents of any length, all active contexts, options", "why_tests_cant": "Chains have unbounded length, and resolving against the first document instead of the containing one is invisible when documents share a directory.", "anchors": ["crates/context-processing/src/algorithm/mod.rs", "crates/context-processing/src/stack.rs"]}
{"id": "C53", "title": "A parsed expanded document can be written and read again without loss", "statement": "If an expanded object is read from JSON and has, at any depth, no included nodes, no empty type list and no property of a reversed node named like a keyword of value or list objects, then writing it and reading it again gives exactly the same object, whatever the hashers of the sets do.", "quantifier": "for every JSON value the parser accepts, every hasher and IRI syntax", "why_tests_cant": "Unbounded nesting; sets drop duplicates and keys are removed in a fixed order, so loss can appear at any depth.", "anchors": ["crates/core/src/object/mod.rs", "crates/core/src/object/node/mod.rs", "crates/core/src/object/value.rs", "crates/core/src/indexed.rs"]}
{"id": "C54", "title": "Identification names exactly the anonymous nodes", "statement": "identify_all gives a distinct generated identifier to every node without identifier, at any depth and inside lists, and changes nothing else: no identifier, type, property, index or object is lost, merged or renamed (for a generator that never repeats and gives no identifier of the document).", "quantifier": "for every expanded document, every such generator and every hasher", "why_tests_cant": "arbitrary nesting; sets are rebuilt element by element and could merge elements", "anchors": ["crates/core/src/document/expanded.rs: identify_all_with", "crates/core/src/object/node/mod.rs: identify_all_with", "crates/core/src/object/mod.rs: identify_all_with"]}
{"id": "C55", "title": "RDF output says nothing the document does not", "statement": "Every quad emitted for a document is either an rdf:first/rdf:rest triple of a generated list node or a type, property value or reverse property of a node occurring in the document in that graph, with the RDF terms of the identifiers and values found there.", "quantifier": "for every expanded document, option setting and generator", "why_tests_cant": "all documents and nestings; absence of spurious quads", "anchors": ["crates/core/src/quad.rs: Quads", "crates/core/src/rdf/quad.rs: Quads", "crates/core/src/rdf/mod.rs"]}
{"id": "C56", "title": "The RDF of a node map says what its nodes say, in their graph", "statement": "Converting a node map to RDF gives, for each of its nodes, the quads for its types, properties and reversed properties in the graph under which the node is stored, and no other quad except those of list cells.", "quantifier": "for every node map", "why_tests_cant": "named graphs and default graph with any number of nodes, in any order", "anchors": ["crates/core/src/quad.rs: NodeMap::quads, Quads", "crates/core/src/rdf/quad.rs"]}
{"id": "C57", "title": "Compacted node identifiers expand back to the same IRI", "statement": "If compact_iri (document-relative mode) returns a string for an IRI, then expanding this string as a node identifier (relative to the base IRI, without vocabulary) against the same context gives back the IRI.", "quantifier": "for every context with any base IRI and every IRI", "why_tests_cant": "all contexts, bases and IRIs; relative references that look like keywords or terms", "anchors": ["crates/compaction/src/iri.rs: compact_iri_full, disambiguate_keyword", "crates/context-processing/src/algorithm/iri.rs: expand_iri_simple"]}
{"id": "C58", "title": "IRI compaction fails only on IRIs that would be read as compact IRIs", "statement": "IRI compaction never panics; it reports an IRI confused with a prefix only for an IRI without authority whose scheme is a term usable as a prefix, and returns a string for every other non-null input.", "quantifier": "for every context, IRI, value and mode", "why_tests_cant": "all contexts and IRIs", "anchors": ["crates/compaction/src/iri.rs: compact_iri_full"]}
{"id": "C59", "title": "Expanded documents survive being written and read as JSON", "statement": "If expansion succeeds, every object of the result that holds no included nodes, and whose document defines no property-valued index, is written as JSON that reads back as exactly the same object.", "quantifier": "for every document, loader, options and sound starting context", "why_tests_cant": "arbitrary documents and contexts, including remote and scoped ones", "anchors": ["crates/expansion/src/lib.rs", "crates/core/src/object/mod.rs: into_json_with, try_from_json_in"]}
{"id": "C60", "title": "The term chosen for a property suits the value", "statement": "When IRI compaction returns, for a property and one of its values, a string that is a term of the active context for this property, then the definition of this term agrees with the value: its container can hold it, it is not a reverse property, its type mapping is that of the value (of all the items for a list) or @none, and its language and direction, if any, are those of the value; and among the suitable terms it is the first in the order of preference of the IRI compaction algorithm.", "quantifier": "for every context, property, value, processing mode and way of making IRIs relative", "why_tests_cant": "all combinations of containers, types, languages and directions over all contexts", "anchors": ["crates/compaction/src/iri.rs: compact_iri_full, compact_property_list", "crates/core/src/context/inverse.rs: select"]}
{"id": "C61", "title": "Expanding a compacted document gives the document back", "statement": "Take a context whose terms may have list, set, index, id, type and language containers, but no graph container, index property, local context, nest value, @json type, or language or direction with type @none, and are neither reverse properties nor spelled like keywords, whose aliases of @graph and @included have no other entry, and whose terms, prefixes and vocabulary do not disturb keywords or the IRIs used. Take an expanded document of nodes, each with something else than an identifier, without nested lists, null values, empty lists of types or maps of reverse properties, where a mere reference has no index (unless all the terms of type @id or @vocab are index maps), where no property is itself the key of a term, where tagged strings have no language @none and lack no language or direction for which the context has a default, and that is not a single unnamed graph object. Where a term for a property is an index map, its values are neither lists nor graph objects, their indexes are not read as null or @none, and it has no reverse values; where it is an id map, the same goes for the identifiers; where it is a language map, its values are strings, with the direction that the map gives, whose language is not an alias of @none; where it is a list, it has at most one list as value. If compaction with this context succeeds, expanding the result (with the context it carries) succeeds, and gives an equal document, item by item.", "quantifier": "for every context, document, loader, IRI parser obeying the laws of IRI syntax, way of making IRIs relative, option of compaction, and expansion option with the vocabulary policy keep", "why_tests_cant": "composes two mutually recursive algorithms over all nested documents and all choices of terms; a test checks one document under one context", "anchors": ["crates/compaction/src/lib.rs: Compact for ExpandedDocument, compact_collection", "crates/compaction/src/node.rs: compact_indexed_node_with", "crates/compaction/src/property.rs: compact_property", "crates/expansion/src/lib.rs: expand", "crates/expansion/src/node.rs: expand_node_entries"]}
{"id": "C62", "title": "Expansion always gives an answer", "statement": "If the recursion may go as deep as the size of the document, expansion ends with an expanded document or with one of its documented errors: it never runs out of depth and no unwrap fails, whatever the document and the active context; allowing a greater depth does not change the answer.", "quantifier": "for every JSON document, active context, loader, IRI parser and option", "why_tests_cant": "a test cannot cover all documents; the claim is about the absence of non-termination and of panics", "anchors": ["crates/expansion/src/element.rs: expand_element", "crates/expansion/src/literal.rs: expand_literal", "crates/expansion/src/node.rs: expand_node_entries"]}
{"id": "C63", "title": "Parts with the same expansion may be exchanged", "statement": "If two JSON values have the same expansion in the context in effect at some place of a document and for the property there, then replacing one by the other there (as an item of an array, the value of a property, a member of an index map, the content of @graph, @included, @reverse, @list or @set) does not change the expansion of the document.", "quantifier": "for every document, place, replacement, context, loader and option (unordered for places inside of maps)", "why_tests_cant": "quantifies over pairs of values and over all surrounding documents", "anchors": ["crates/expansion/src/element.rs: expand_element", "crates/expansion/src/node.rs: expand_node_entries", "crates/expansion/src/array.rs: expand_array"]}
{"id": "C64", "title": "Language maps are short for arrays of language-tagged strings", "statement": "In any object, replacing a language map under a property with a language container (and no local context) by the array of its strings, in the order of expansion, each spelled as a value object with its key as @language (none if the key reads as @none) and the direction of the property as @direction (that of the context if it has none), does not change the expansion.", "quantifier": "for every object, active property, property with a language container, language map of strings, arrays of strings and nulls, context and option", "why_tests_cant": "quantifies over all maps, contexts and surrounding objects", "anchors": ["crates/expansion/src/node.rs: expand_node_entries, container mapping @language"]}
{"id": "C65", "title": "Index maps are short for arrays of indexed members", "statement": "In any object, replacing an index map under a property with container @index by the array of its members, each with its key as @index (no entry if the key reads as @none or null), does not change the expansion, if no type-scoped context is to be left and the members are objects, or nulls, without @index, @set or @nest.", "quantifier": "for every object, active property, property with an index container, map, context and option", "why_tests_cant": "quantifies over all maps, contexts and surrounding objects", "anchors": ["crates/expansion/src/node.rs: expand_node_entries, container mapping @index"]}
{"id": "C66", "title": "Identifier maps are short for arrays of identified nodes", "statement": "In any object, replacing an identifier map under a property with container @id by the array of its members, each with its key as @id (no entry if the key reads as @none or null), does not change the expansion, if no type-scoped context is to be left and the members are node objects without @id or @nest in whose own context the key reads as the same identifier.", "quantifier": "for every object, active property, property with an identifier container, map, context and option", "why_tests_cant": "quantifies over all maps, contexts and surrounding objects", "anchors": ["crates/expansion/src/node.rs: expand_node_entries, container mapping @id"]}
{"id": "C67", "title": "Type maps are short for arrays of typed nodes", "statement": "In any object, replacing a type map under a property with container @type by the array of its members, each with its key as @type (no entry if the key reads as @none or null), does not change the expansion, if no type-scoped context is to be left, the keys have no local context and read as absolute IRIs or blank node identifiers, also in the members, and the members are node objects without @type or @nest.", "quantifier": "for every object, active property, property with a type container, map, context and option", "why_tests_cant": "quantifies over all maps, contexts and surrounding objects", "anchors": ["crates/expansion/src/node.rs: expand_node_entries, container mapping @type"]}
{"id": "C68", "title": "List containers are short for list objects", "statement": "In any object, replacing the value of a property with container @list by a list object with that value does not change the expansion, if no type-scoped context is in effect, the term is not of type @json and has no local context, and the value is not itself a list or set object.", "quantifier": "for every object, active property, property with a list container, value, context and option", "why_tests_cant": "quantifies over all values, contexts and surrounding objects", "anchors": ["crates/expansion/src/node.rs: expand_node_entries, container mapping @list", "crates/expansion/src/element.rs: expand_element, @list"]}
{"id": "C69", "title": "Sets are their content", "statement": "A set object, with or without an index, expands as its content does; set and list objects with any other entry are rejected.", "quantifier": "for every object, active property, context and option", "why_tests_cant": "quantifies over all contents, contexts and names of the keywords", "anchors": ["crates/expansion/src/element.rs: expand_element, @list and @set"]}
{"id": "C70", "title": "Terms are short for IRIs with values spelled out", "statement": "In any object, replacing a term by any other key that stands for the same IRI, and its values (alone or in an array) by node objects for terms of type @id and @vocab, typed values for terms with a datatype, strings with the language and direction for other terms, JSON literals for terms of type @json, does not change the expansion, if the terms have no map, list or graph container and no local context.", "quantifier": "for every object, active property, pair of keys, value, context and option", "why_tests_cant": "quantifies over all terms, values, contexts and surrounding objects", "anchors": ["crates/expansion/src/node.rs: expand_node_entries", "crates/expansion/src/literal.rs: expand_literal", "crates/expansion/src/value.rs: expand_value"]}
{"id": "C71", "title": "Aliases of keywords are interchangeable", "statement": "In any object, replacing the name of a keyword other than @nest by another name of the same keyword does not change the expansion (for @type, if no other key stands for it).", "quantifier": "for every object, active property, pair of names, keyword, context and option", "why_tests_cant": "quantifies over all keywords, aliases, contexts and surrounding objects", "anchors": ["crates/expansion/src/element.rs: expand_element", "crates/expansion/src/node.rs: expand_node_entries"]}
{"id": "C72", "title": "Embedded contexts may be processed beforehand", "statement": "A node object with an embedded context expands in an active context as it does without it in the result of processing the embedded context with that active context.", "quantifier": "for every node object, active property, active context, local context that does not revert, and option", "why_tests_cant": "quantifies over all contexts and objects", "anchors": ["crates/expansion/src/element.rs: expand_element, @context", "crates/context-processing/src/algorithm/mod.rs: process_context"]}
{"id": "C73", "title": "Nested properties are properties of the node", "statement": "Entries of an object under @nest, or an alias without a local context, may be moved into the enclosing node object at the place of the @nest entry, if they do not include types.", "quantifier": "for every node object, nested object, active property, context and unordered option set", "why_tests_cant": "quantifies over all nested objects, contexts and surrounding objects", "anchors": ["crates/expansion/src/node.rs: expand_node_entries, @nest"]}
{"id": "C74", "title": "Entries that say nothing may be left out", "statement": "In any node object, leaving out an entry whose key reads as nothing, as null or as no IRI, or a property with value null, does not change the expansion, if the property has no list or graph container and is not of type @json.", "quantifier": "for every node object, entry, active property, context and option", "why_tests_cant": "quantifies over all entries, contexts and surrounding objects", "anchors": ["crates/expansion/src/node.rs: expand_node_entries"]}
{"id": "C75", "title": "Comparison of documents decides equality of JSON up to order and of expansions", "statement": "For documents without repeated keys, compare_full does not panic; it answers true exactly if the two documents are the same JSON up to the order of arrays and entries and both expand, to the same objects in some order; it fails only if one of the expansions fails. On documents that can be expanded it is reflexive, symmetric and transitive.", "quantifier": "for every pair of documents, option, loader, hash function and IRI implementation satisfying the identifier laws", "why_tests_cant": "quantifies over all pairs of documents and over all hashers and loaders", "anchors": ["src/processor/remote_document.rs: compare_full", "crates/syntax/src/compare.rs", "crates/core/src/document/expanded.rs: PartialEq"]}
{"id": "C76", "title": "The RDF of a document, end to end", "statement": "When to_rdf succeeds, its document is the expansion of the input where blank nodes are renamed apart, anonymous nodes get fresh identifiers and numbers may be in canonical form, and nothing but duplicates is lost. Enumerating its quads ends; they state the types, properties and reverse properties of all its nodes, in the graph of the node, and nothing else but the cells of lists, whose identifiers name no node.", "quantifier": "for every document, option, loader and generator that never repeats itself and whose IRIs are not in the document", "why_tests_cant": "quantifies over all documents, of any depth, and all generators", "anchors": ["src/processor/mod.rs: to_rdf_full, ToRdf::quads", "crates/core/src/document/expanded.rs: relabel_and_canonicalize_with", "crates/core/src/rdf.rs"]}
{"id": "C77", "title": "The RDF of a document does not depend on how numbers are written", "statement": "If the expansions of two documents only differ by numbers and JSON literals that have the same canonical form, to_rdf gives the same document and the same quads for both.", "quantifier": "for every pair of documents, option, loader, generator and canonical form", "why_tests_cant": "quantifies over all pairs of documents that differ by any number of literals at any depth", "anchors": ["crates/core/src/object/node/mod.rs: canonicalize_with", "crates/core/src/document/expanded.rs: relabel_and_canonicalize_with", "src/processor/mod.rs: to_rdf_full"]}
{"id": "C78", "title": "Documents and contexts may be given by reference", "statement": "Every operation of the processor gives, for the IRI of a document, what it gives for the document that the loader finds, with the URL found there; contexts given by the IRI of a document are those of its @context entry, whatever else the document contains. A document that cannot be loaded, or a context that cannot be extracted, is an error and never panics or is ignored.", "quantifier": "for every loader, IRI, option, document and context", "why_tests_cant": "quantifies over all documents, contexts, options and loaders; the operations compose loading, context processing, expansion and compaction", "anchors": ["src/processor/mod.rs: JsonLdProcessor for Iri", "crates/core/src/document.rs: RemoteDocumentReference::load_with", "crates/core/src/loader/mod.rs: ExtractContext"]}
{"id": "C79", "title": "Contexts outside of a document are short for embedded contexts", "statement": "For a node object, the option expandContext and the context URL of the server give what the same context, embedded in the node object, gives, provided that the base IRIs they are resolved against give the same active context.", "quantifier": "for every node object, context, option, loader and position of the embedded context", "why_tests_cant": "quantifies over all documents, contexts, options and loaders; the operations compose loading, context processing, expansion and compaction", "anchors": ["src/processor/remote_document.rs: initial_expand_context", "crates/expansion/src/document.rs", "crates/expansion/src/element.rs"]}
{"id": "C80", "title": "The base option and the URL of the document", "statement": "For documents without embedded contexts, and for documents without a URL, expansion with a base option is expansion of the same document at that URL. Compaction with compactToRelative off, or with a context that has a base IRI, does not depend on the URL of the document; with a base option it does not depend on the URL nor on the base IRI of the context.", "quantifier": "for every document, option, context, loader", "why_tests_cant": "quantifies over all documents, contexts, options and loaders; the operations compose loading, context processing, expansion and compaction", "anchors": ["src/processor/remote_document.rs: initial_expand_context, compact_expanded_full", "crates/context-processing/src/algorithm/mod.rs"]}
{"id": "C81", "title": "The processor's compaction, read at the same address, has the same expansion", "statement": "If compact_full of the processor succeeds, with a simple context that is read back from the embedded context and a document whose expansion can be kept, then expand_full of the output at the same URL gives the expansion of the input, for every base option and URL for which the context used to compact and the embedded one agree.", "quantifier": "for every document, URL, option, simple context and loader", "why_tests_cant": "quantifies over all documents, contexts, options and loaders; the operations compose loading, context processing, expansion and compaction", "anchors": ["src/processor/mod.rs: compact_full, expand_full", "src/processor/remote_document.rs: compact_expanded_full", "crates/compaction/src/document.rs: embed_context"]}
{"id": "C82", "title": "The processor's flattening, end to end", "statement": "Without a context, flatten_full gives an array whose items, read one by one, are the nodes of a flat document that says exactly what the expansion of the input says, once blank nodes are renamed apart and anonymous nodes named. With a simple context, its output, read at the same address, has such a flat document as expansion. It fails only if the expansion fails, if a node has two indexes in one graph, or if the flat document cannot be compacted.", "quantifier": "for every document, context, option, loader, order of hash maps and generator that never repeats itself", "why_tests_cant": "quantifies over all documents, orders of hash maps and generators; composes expansion, renaming, the node map, compaction and serialization", "anchors": ["src/processor/mod.rs: flatten_full", "src/processor/remote_document.rs: flatten_full", "crates/core/src/flattening/mod.rs", "crates/core/src/document/flattened.rs: into_json"]}
{"id": "C83", "title": "Equality up to a mapping of blank nodes", "statement": "mapped_eq with a mapping f of blank node identifiers answers true exactly when the second object is the first one with each blank node b replaced by f(b), up to the order of graphs, included nodes, properties and their values; lists are compared in order.", "quantifier": "for every two objects, nodes or sets of objects, and every function between blank node identifiers (injective or not)", "why_tests_cant": "quantifies over all pairs of nested objects and all functions; the matching is greedy, so that its exactness depends on the relation between items", "anchors": ["crates/core/src/object/mapped_eq.rs", "crates/core/src/object/list.rs"]}
{"id": "C84", "title": "The syntax of an active context", "statement": "The context definition given by Context::into_syntax_definition, processed in an empty context, gives a context with the same base IRI, vocabulary, default language and direction and with the same terms, each with the same mapping, type, container, language, direction, nest, index, prefix flag, protection and scoped context, so that it expands every string the same way. The conversion of a processed context does not panic.", "quantifier": "for every active context whose definitions can be written (identifiers that are not read as compact IRIs or keywords, prefixes that are terms, no language together with a type), every loader and options", "why_tests_cant": "quantifies over all contexts; composes the conversion with context processing", "anchors": ["crates/core/src/context/mod.rs: into_syntax_definition", "crates/core/src/context/definition.rs: into_syntax_definition", "crates/context-processing/src/algorithm/mod.rs", "crates/context-processing/src/algorithm/define.rs"]}
{"id": "C85", "title": "Expansion is idempotent", "statement": "Expanding the JSON of an expanded document in the empty context gives the document back: the same objects in the same order, with the same identifiers, types, indexes, values, lists, graphs and reverse properties. In particular expanding the result of an expansion a second time does not change it.", "quantifier": "for every expanded document without included nodes whose graphs are made of non-empty nodes, every base IRI, loader, document URL and options without ordering; for every first expansion, in any context, whose result is such a document", "why_tests_cant": "quantifies over all documents and all contexts of the first expansion; the exceptions are interactions between unrelated features", "anchors": ["crates/expansion/src/document.rs: expand", "crates/expansion/src/element.rs: expand_element", "crates/expansion/src/node.rs: expand_node", "crates/expansion/src/value.rs: expand_value", "crates/core/src/object/mod.rs"]}
{"id": "C86", "title": "Linked data of a document serializes back to it", "statement": "Reading an expanded document as linked data and serializing it gives exactly what remains of it: the same nodes with their valid identifiers, types, properties, reverse properties, graphs and included nodes, and the documented changes of values. The document itself comes back if and only if it has no list, index, direction, invalid identifier, typed number or boolean, null, or graph beside properties. Serialization fails only on predicates that are not identifiers, literals used as nodes or graphs, and lists with reverse properties or included nodes, and an object is never serialized into a list.", "quantifier": "for every expanded document without the properties rdf:type, rdf:first and rdf:rest, every hash function and every behaviour of the number and tag parsers; for every linked data value in the theorems on errors and lists", "why_tests_cant": "tests serialize a handful of derived Rust types; that nothing else is lost in any document, nested to any depth, needs induction on objects", "anchors": ["crates/serialization/src/expanded/node.rs:75-177", "crates/serialization/src/expanded/object.rs:68-253", "crates/serialization/src/expanded/list.rs:20-199", "crates/serialization/src/expanded/value.rs:6-65", "crates/core/src/deserialization/object/node.rs:9-66", "crates/core/src/deserialization/object/list.rs:13-115", "crates/core/src/deserialization/object/value.rs:9-61"]}
{"id": "C87", "title": "Every value of a node is put where its term says", "statement": "When a node is compacted into an object, the object is made of parts, each with a path: the identifier, the types (compacted in the context outside of the type-scoped ones), the reverse terms and @reverse, the index, and one part per item of the graph, of the properties and of the included nodes. The path of an item is the nest value of its term, if any, then the term, then the key of the item in the map of the term, if its container makes one: its language, index, identifier, first type, first value of the index property or graph name, or @none. If no path is the beginning of another one, and no list shares the path of a list container, then every key of the object leads to a part, and at each path there are the values of its parts, in order and nothing else: an array if the term is a set or arrays are not compacted, the value itself if it is alone. A list object that is not the value of a property is its items in a list container, an object with @list otherwise. A compacted document is its only node, or all of them in order in @graph, with the given context first.", "quantifier": "all nodes, contexts, options, loaders and recursion depths for which compaction gives an object; all combinations of containers, nest values and reverse terms", "why_tests_cant": "values of different items are interleaved through nested mutable maps; a test sees only some combinations of containers and the order of some items, and cannot show that nothing else is in the object", "anchors": ["crates/compaction/src/property.rs:16-786", "crates/compaction/src/node.rs:204-448", "crates/compaction/src/lib.rs:298-507", "crates/compaction/src/document.rs:86-201"]}
{"id": "C88", "title": "Printing with layout", "statement": "Printing an expanded document, a node or a context never panics, whatever the layout options: the second pass reads exactly the sizes computed by the first one. What is printed is the layout of one JSON value, that of the entries, each once; this value is read by the parsers of expanded documents and contexts as what was printed, and for a well-formed context it is what into_json gives.", "quantifier": "for every document, node and context, every layout, indentation and sizes", "why_tests_cant": "two traversals of data of any shape that must agree on the order and number of containers", "anchors": ["crates/core/src/print.rs: PrecomputeSizeWithContext, PrintWithSizeAndContext, PrintWithContext", "crates/syntax/src/context/print.rs: PrecomputeSize, PrintWithSize", "crates/core/src/object/mod.rs: IndexedEntries, IndexedEntryKeyRef::into_ref_with", "crates/core/src/object/node/mod.rs: Entries, IndexedEntries", "crates/syntax/src/context/definition/reference.rs: Entries"]}
{"id": "C89", "title": "Mapping identifiers keeps what a document says", "statement": "ExpandedDocument::map_ids, for any two functions on IRIs and identifiers, gives a well-formed document in which exactly the mapped facts are said: each fact of each node (identifier, type, property, reverse property, member of a graph, included node) is found again with its identifiers mapped, and nothing else. Functions that keep identifiers apart only rename, in place. Mapping twice is mapping once with the composition, also when properties or nodes are merged, and a mapping that can be undone is undone; equal documents stay equal.", "quantifier": "for all functions on IRIs and on identifiers (injective or not), all documents, all hash functions", "why_tests_cant": "merging needs particular coincidences at particular places of nested sets and maps; tests cannot cover all functions, all documents and all hash functions", "anchors": ["crates/core/src/document/expanded.rs:186", "crates/core/src/object/mod.rs:406", "crates/core/src/object/node/mod.rs:465", "crates/core/src/object/list.rs:90", "crates/core/src/object/value.rs:327"]}
{"id": "C90", "title": "A node answers for the edits made to it", "statement": "After any sequence of calls editing the (reverse) properties of a node (insert, insert_unique, insert_all, insert_all_unique, set, extend, extend_unique, remove, clear), the values of a property are those given for it since it was last removed, set or cleared, in order, without the ones given through a unique insertion and equivalent to one taken before; contains, get, get_any, iteration and the result of remove agree with it; properties occur once, in order of first use except that removal moves the last property; and two nodes edited differently are equal exactly when they answer alike.", "quantifier": "all types of values and equivalences, all histories of edits, all properties", "why_tests_cant": "Histories are unbounded, and unique and plain insertions, replacement and removal interact; tests exercise one call at a time.", "anchors": ["crates/core/src/object/node/properties.rs", "crates/core/src/object/node/reverse_properties.rs", "crates/core/src/object/node/multiset.rs", "crates/core/src/object/node/mod.rs"]}
{"id": "C91", "title": "Flattening keeps the RDF of a document", "statement": "When flattening a document succeeds, the quads of the flattened document and those of the document with its nodes named (no two confused) are the same apart from duplicates, the letter case of language tags, the generated nodes of the encoding of lists, and types of a node that occurs with different types or that has nothing but types in a named graph: every quad of the flattened document is a quad of the document, every quad of the document is one of the flattened document, and a property of a node is given the same lists, described by quads of the same graph, in both.", "quantifier": "all documents, generators, hash functions and iteration orders of the hash maps; all direction modes, generalized or not", "why_tests_cant": "Two traversals of unboundedly nested documents are compared, with merging, deduplication and hash map orders between; tests compare a few datasets.", "anchors": ["crates/core/src/flattening/mod.rs", "crates/core/src/flattening/environment.rs", "crates/core/src/quad.rs", "crates/core/src/rdf/quad.rs"]}
{"id": "C92", "title": "The views of a context agree with its JSON form", "statement": "The iterators over the entries of a context definition and of a term definition end, announce at every step the number of entries left, and give the entries of the JSON form in its order; access by key finds exactly these; the traversal of a context ends and visits each context, entry, key, value and entry of a term definition exactly once (nothing inside of these: contexts scoped to terms are not visited); what a visited fragment says it is (array, object) its JSON form is; and the number of arrays and objects visited, reserved by the printer, is at most the number of sizes it computes, with equality when there are no scoped contexts nor arrays of containers.", "quantifier": "all contexts, definitions and term definitions, whatever their nesting; all layouts of the printer", "why_tests_cant": "Contexts are nested without bound and the size hints are checked at each of the steps of every iterator; tests iterate over a few definitions.", "anchors": ["crates/syntax/src/context/mod.rs", "crates/syntax/src/context/definition/mod.rs", "crates/syntax/src/context/definition/reference.rs", "crates/syntax/src/context/term_definition/mod.rs", "crates/syntax/src/context/print.rs"]}
{"id": "C93", "title": "Policies of expansion: rejecting only refuses, and invalid names are not let through", "statement": "For expansion: (1) if a document expands under some options and other options differ from them only by replacing rejecting actions with any action, or by allowing undefined terms, then it expands to the same objects under those; (2) if the policy for invalid identifiers is not to keep them, then no property, reverse property or type of a node, at any depth of the result, is an invalid identifier, provided no context that is reached has index properties or type maps (which are shown not to be checked); (3) for an object without context, types, set or value: if undefined terms are not allowed every key that expands to an identifier expands to one with a colon, and if invalid identifiers are rejected none is the expansion of a key; (4) if the use of the vocabulary is rejected and there is one, every key of an object is a keyword, keyword-like, defined in the context around the object, or has a colon.", "quantifier": "all documents, contexts, loaders, base URLs, options and fuels", "why_tests_cant": "The options multiply with the shapes of documents; a test fixes one document and one policy and cannot show that no path around the policy exists.", "anchors": ["crates/expansion/src/options.rs:40-76", "crates/expansion/src/node.rs:195-210", "crates/expansion/src/node.rs:330-410", "crates/expansion/src/node.rs:515-525", "crates/expansion/src/node.rs:985-1003"]}
{"id": "C94", "title": "Merging the graphs of a node map: nothing added, nothing lost but overridden entries", "statement": "For every node map whose default graph keeps its nodes under their identifiers (as every generated one does): the merged graph has an entry for an identifier exactly if some graph has a node so called; the entry has the last index given, the types of all the occurrences in order, and its properties and reverse properties hold values of the occurrences only, and for each value of an occurrence itself or an equivalent value; no equivalent values are added; the graph entry and the included nodes are those of the last occurrence. Merging in another order gives the same nodes, the same types up to order and equivalent values, but may give another index, and the graph of a node can be lost.", "quantifier": "all node maps, all orders of the hash maps, all documents and generators for generated maps", "why_tests_cant": "The order of merging is that of hash maps, which a test does not control, and the property relates every occurrence in every graph to the result.", "anchors": ["crates/core/src/flattening/node_map.rs:78-93", "crates/core/src/flattening/node_map.rs:208-262", "crates/core/src/object/node/properties.rs:139-176"]}
{"id": "C95", "title": "The order of the entries of JSON objects does not matter for expansion", "statement": "Two JSON documents that differ only in the order of the entries of their objects (local contexts excepted) are both refused by expansion, or both expand, to documents with the same objects up to the order of unordered values, which the equality of the crate finds equal; provided that in every object of the document, in every context that is reached, no key occurs twice, no two keys expand to the same keyword, no key expands to @nest, no reverse property stands next to @reverse, and nothing is read as a JSON literal. Each of these conditions (but the first) is shown to be needed, even when the ordered option is set.", "quantifier": "all documents, all reorderings at every depth, all contexts, loaders, base URLs, options, hash functions and fuels", "why_tests_cant": "The number of orders grows factorially with the entries at every level; a test compares the two orders it wrote down, and the option that should fix the order has no effect on the entries of a node.", "anchors": ["crates/expansion/src/element.rs:138-474", "crates/expansion/src/element.rs:215-219", "crates/expansion/src/node.rs:105-560", "crates/expansion/src/node.rs:560-985", "crates/expansion/src/value.rs:60-245"]}
{"id": "C96", "title": "The order of the terms of a context definition does not matter for the context it gives", "statement": "If a context definition is accepted with its terms in one order and also with its terms in another order, both give the same active context: the same base, vocabulary, language, direction and previous context, the same @type definition and the same definition for every term; provided that the definition has no @import, no term occurs twice, @protected is not set for the whole definition, no protected term may be overridden, the context has no URL or no scoped contexts, no term is silently ignored for looking like a keyword, and no term is of the form @type:x. Being accepted does depend on the order, since a scoped context is tried in the context as it is when its term is defined; and the conditions on @protected, on the URL and on overriding are shown to be needed: a term that another term uses is defined without them.", "quantifier": "all context definitions, permutations of their terms, active contexts, loaders, remote stacks, URLs, options and fuels", "why_tests_cant": "Terms are defined on demand, in an order that depends on which term uses which; a test fixes one order of a few terms and compares with an expected context, and does not vary the order.", "anchors": ["crates/context-processing/src/algorithm/define.rs:87-788", "crates/context-processing/src/algorithm/mod.rs:206-409", "crates/context-processing/src/algorithm/iri.rs:28-196", "crates/context-processing/src/algorithm/merged.rs:1-150"]}
{"id": "C97", "title": "The order in which an active context stores its definitions cannot be observed by processing and expansion", "statement": "Two active contexts with the same settings, the same definition for every term, and previous contexts related in the same way, at every depth, are interchangeable: a local context processed in them is refused with the same error, or gives contexts that are again interchangeable; a document expands in them to the very same result or error. It compacts to the same result provided that in no context compaction uses do two compact IRIs compete without one beating all others; without this condition the result of compaction does depend on the iteration order of the hash map of definitions. Context processing never defines a term twice, so the relation applies to every processed context; together with C96, a document expands alike whatever the order of the terms of the context definition.", "quantifier": "all pairs of active contexts related this way, local contexts, documents, loaders, options, hash functions and fuels", "why_tests_cant": "The iteration order of the hash map is chosen at random in each run; a test sees one order, and a dependence on it would show as a test that fails now and then.", "anchors": ["crates/core/src/context/mod.rs:29-225", "crates/core/src/context/definition.rs:75-250", "crates/context-processing/src/algorithm/mod.rs:73-414", "crates/expansion/src/element.rs:66-505", "crates/compaction/src/iri.rs:412-470"]}
{"id": "C98", "title": "The file system loader reads inside of the mounted directory", "statement": "For every sequence of mount points and every URL, the file read by the file system loader is reached from the directory of the first mount point that matches the URL by going down the segments that remain, provided the IRI library returns normalized segments. The answer carries the requested URL; the errors tell that no mount point matches, that the file cannot be read or that it cannot be parsed. A further mount point never changes what is read for a URL already served, and two URLs with other segments under one mount point are read from other files.", "quantifier": "all mount points, all URLs, all file systems, all parsers", "why_tests_cant": "Tests mount one directory and read a few files of it; they do not cover all URLs, nor the shapes of paths (trailing slashes, empty segments, relative directories).", "anchors": ["crates/core/src/loader/fs.rs:53-66", "crates/core/src/loader/fs.rs:70-91"]}
{"id": "C99", "title": "The main node of a document is its only root node, and stays so", "statement": "ExpandedDocument::main_node and into_main_node return a node iff it is the only node object at the root of the document (values and lists beside it do not count, nor do nodes inside of lists); they return nothing iff no node or several nodes are at the root. Relabelling and identification keep the main node up to names and give none where there was none; map_ids and canonicalize turn the main node into its mapped (canonical) form, although they may make one appear by making two nodes equal.", "quantifier": "all documents, all generators that never repeat, all functions on identifiers, all hashers", "why_tests_cant": "The answer depends on the whole document, and these operations rebuild the set of objects where elements may collapse; tests look at single documents.", "anchors": ["crates/core/src/document/expanded.rs:217-251", "crates/core/src/document/expanded.rs:162-172", "crates/core/src/document/expanded.rs:186-201"]}
{"id": "C100", "title": "A success depends on finitely many loaded documents only", "statement": "If expansion, compaction, comparison, flattening or conversion to RDF of a document (given by value or by IRI, with contexts given by value or by IRI) succeeds with some loader, there are finitely many URLs, each of which the loader answered with a document, such that the operation gives the same result with every loader that gives the same documents for these URLs. Hence the operation can be repeated with a map of preloaded documents in place of the loader, a loader that gives more documents never changes a success, and what succeeds without any loader succeeds with the same result with every loader. The same holds for context processing.", "quantifier": "all documents, contexts, options, loaders", "why_tests_cant": "The loader is an arbitrary function of the URL; tests use one fixed loader, and cannot show that no other document was consulted or that none would have mattered.", "anchors": ["src/processor/remote_document.rs:15-312", "crates/core/src/loader/map.rs:12-28", "crates/core/src/loader/none.rs:18-23", "crates/context-processing/src/algorithm/mod.rs:73-414"]}
{"id": "C101", "title": "Active contexts that compare equal are interchangeable", "statement": "Context::eq is an equivalence; it answers true exactly if the base URL, base IRI, vocabulary, language (up to case), direction and previous contexts are the same at every depth. Contexts that answer alike compare equal. Contexts that compare equal give every document the same expansion, if moreover their term definitions, which are not compared, and the spelling of their languages are the same.", "quantifier": "all pairs of contexts, all documents, loaders and options", "why_tests_cant": "quantifies over pairs of contexts and all documents expanded in them; equality ignores the definitions, which a test with equal definitions does not show", "anchors": ["crates/core/src/context/mod.rs: PartialEq for Context", "crates/expansion/src/lib.rs: Expand"]}
{"id": "C102", "title": "Mapping the identifiers of a context", "statement": "Context::map_ids maps the base URLs, the vocabulary, and the IRI mapping, type and base URL of every definition, at every depth, and changes nothing else: keywords, null and invalid identifiers, protection, containers and local contexts stay. A defined term expands to the mapped identifier. If different identifiers stay different, the inverse context selects the same term for the mapped identifier, type and containers. Mapping back gives the same context.", "quantifier": "all contexts, all functions on IRIs and identifiers, all selections", "why_tests_cant": "quantifies over all contexts, functions and selections", "anchors": ["crates/core/src/context/mod.rs: Context::map_ids", "crates/core/src/context/definition.rs: Definitions::map_ids, NormalTermDefinition::map_ids", "crates/core/src/term.rs: Term::map_id", "crates/core/src/ty.rs: Type::map", "crates/core/src/context/inverse.rs: InverseContext::select"]}
{"id": "C103", "title": "The entries of an expanded object are those of its JSON form", "statement": "The iterators over the entries of an expanded object give each entry once and announce exactly how many are left; the entries of a value may be taken from both ends in any order. If no two keys are the same, there are no included nodes and the types are not an empty list, the JSON form of the object has exactly these entries, up to order, with the keys of into_str and the JSON values of the entries. The keyword of a key, if any, agrees with its text. Node::has_key tells whether there is an entry with this key.", "quantifier": "all objects, all sequences of calls to next and next_back, all keys", "why_tests_cant": "quantifies over all objects and all interleavings of calls", "anchors": ["crates/core/src/object/mod.rs: Entries, IndexedEntries, EntryKeyRef", "crates/core/src/object/value.rs: Entries", "crates/core/src/object/node/mod.rs: Entries, EntryKeyRef, has_key", "crates/core/src/object/mod.rs: into_json_with"]}
{"id": "C104", "title": "Warnings about malformed IRIs name exactly the strings without meaning", "statement": "Expanding an identifier warns about a malformed IRI exactly if neither the active context nor the syntax gives it a meaning; then there is one warning, it names the string, and the result is the string itself as an invalid identifier. An invalid identifier comes with a warning unless it is the label _: or the context gives it (value of a term, prefix or vocabulary). For the keys of an element, the malformed IRIs warned about are the keys without meaning, in order; exactly an empty key and blank node identifiers are warned about besides. Warnings never change a result.", "quantifier": "all contexts, strings, options and elements", "why_tests_cant": "quantifies over all contexts and keys, and says that nothing else is warned about", "anchors": ["crates/context-processing/src/algorithm/iri.rs: expand_iri_simple, invalid_iri_simple", "crates/expansion/src/element.rs: loop over the keys", "crates/expansion/src/warning.rs"]}
{"id": "C105", "title": "A cyclic IRI mapping error has a cause in the definitions", "statement": "If context processing reports a cyclic IRI mapping, then some context definition at hand (given, or loaded, together with what it imports) has a term that uses itself through types, identifiers, reverse properties or prefixes, directly or not, or a term whose @id or @reverse has the form of a keyword without being one. Definitions without either never give this error.", "quantifier": "all active contexts, local contexts, loaders, options and amounts of fuel", "why_tests_cant": "quantifies over all contexts and loaders, and excludes an error", "anchors": ["crates/context-processing/src/algorithm/define.rs: DefinedTerms, define", "crates/context-processing/src/algorithm/iri.rs: expand_iri_with", "crates/context-processing/src/algorithm/mod.rs: process_context"]}
{"id": "C106", "title": "Every error of context processing has a cause in the contexts at hand", "statement": "If context processing fails, then the local context or a context that the loader gives has an entry of the kind that the error is about: an error code is never reported for contexts that lack such an entry (for instance, no invalid container mapping without @container, no invalid IRI mapping with every identifier null, no processing mode conflict in mode 1.1, no forbidden vocabulary unless the policy rejects it). A definition whose entries only give identifiers can only fail with five codes.", "quantifier": "all active contexts, local contexts, loaders, options and amounts of fuel", "why_tests_cant": "quantifies over all contexts and loaders, and excludes errors", "anchors": ["crates/context-processing/src/algorithm/mod.rs: process_context", "crates/context-processing/src/algorithm/define.rs: define", "crates/context-processing/src/algorithm/iri.rs: expand_iri_with, expand_iri_simple"]}
{"id": "C107", "title": "Errors about protection need protection", "statement": "If the active context has no protected item, and no definition at hand (given, loaded or imported) marks itself, a term or @type as protected, then context processing reports neither a protected term redefinition nor an invalid context nullification, and the resulting context has no protected item; so does processing any sequence of such contexts.", "quantifier": "all active contexts, local contexts, loaders, options, amounts of fuel, and sequences of contexts", "why_tests_cant": "quantifies over all contexts and loaders, and excludes errors", "anchors": ["crates/context-processing/src/algorithm/define.rs: define", "crates/context-processing/src/algorithm/mod.rs: process_context", "crates/core/src/context/mod.rs: has_protected_items"]}
{"id": "C108", "title": "Contexts of absolute and compact IRIs are accepted", "statement": "A context definition whose terms have neither colon nor slash and are mapped to IRIs with an authority, or to compact IRIs whose prefix is such a term of the same definition ending with a delimiter, in any order, possibly with a type @id or @vocab, a language, a direction and a container (list, set, index or language), is processed without error from any active context in which these terms are not protected and the values are not terms. Each term gets exactly the IRI it stands for and what its entry says, a simple one being a prefix exactly if its IRI ends with a delimiter; everything else in the context is unchanged. Processing it again, or another definition with the same entries, gives the same definitions. The terms, and compact IRIs over them, then expand to the IRIs they stand for.", "quantifier": "all active contexts, definitions of this form, loaders, modes, policies and options; all amounts of fuel from 4 on", "why_tests_cant": "quantifies over all definitions, orders and active contexts, and excludes every error", "anchors": ["crates/context-processing/src/algorithm/define.rs: define", "crates/context-processing/src/algorithm/iri.rs: expand_iri_with", "crates/context-processing/src/algorithm/mod.rs: process_context"]}
{"id": "C109", "title": "Documents over contexts of absolute and compact IRIs expand to what they say", "statement": "A document that is an object with an @context entry as in C108 and, before and after it, entries that are at most one @id, at most one @type, and otherwise terms of the context with strings, numbers, booleans, null, objects of the same kind nested to any depth, or arrays of these, null saying nothing, expands from the initial context, with any base, options and loader, to exactly one node object if some entry stands for objects. It has no graph, included nodes or reverse properties, its identifier and types are the IRIs that the strings written stand for, and the objects of each property are those that the entries for it stand for, in document order: untyped literals, strings with the language and direction of the term, references to the node with the IRI that the string stands for where the term has a type @id or @vocab, nodes for nested objects, and a list object where the container is a list. Two such documents whose entries stand for the same over different contexts, with entries for different properties in any order, expand to nodes that differ at most in the order in which they and the nodes nested in them store their properties.", "quantifier": "all contexts, documents, nesting depths, options, loaders, bases and hash functions as described", "why_tests_cant": "Tests expand fixed documents; they cannot show that every spelling of a document by prefixes and terms gives the same node, or that no option, position of the context or repeated key loses a value.", "anchors": ["crates/expansion/src/document.rs: expand", "crates/expansion/src/element.rs: expand_element", "crates/expansion/src/node.rs: expand_node_entries", "crates/expansion/src/literal.rs: expand_literal", "crates/context-processing/src/algorithm/define.rs: define"]}

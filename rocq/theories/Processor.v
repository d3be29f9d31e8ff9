(** The application programming interface: src/processor/{mod,remote_document}.rs, with the
    references to documents and contexts of crates/core/src/loader/mod.rs 25-185, 484-560 and the
    canonical form of objects (core object/{mod,value,list,node/mod}.rs, document/expanded.rs).

    Asynchrony, warnings and vocabularies are not modelled.  As in the models of the algorithms,
    [n] bounds the recursion over documents and [pf] the recursion of context processing. *)
From Verif Require Import Prelude Json Str Keyword Enums LangTag LangString Container Stack ContextSyntax Ctx Inverse Process
  Object ObjectEq ObjectJson Compare Relabel Flatten Rdf CompactIri Expand Compact.

(** loader/mod.rs 155-178 ([RemoteDocument]); the content type and the profiles play no part. *)
Record rdoc (T : Type) : Type := MkRdoc { rd_url : option string; rd_context_url : option string; rd_document : T }.
Arguments MkRdoc {T}. Arguments rd_url {T}. Arguments rd_context_url {T}. Arguments rd_document {T}.
(** loader/mod.rs 31-37 ([RemoteDocumentReference]). *)
Inductive dref (T : Type) : Type := RefIri (u : string) | RefLoaded (d : rdoc T).
Arguments RefIri {T}. Arguments RefLoaded {T}.
(** loader/mod.rs 452-469 ([Loader::load]): [None] is a [LoadError]. *)
Definition dloader : Type := string -> option (rdoc json).

(** mod.rs 17-81 ([Options]); the expansion policy is given by its three fields. *)
Record jopts : Type := MkJOpts {
  jo_base : option string;
  jo_arrays : bool;
  jo_relative : bool;
  jo_expand_context : option (dref lcontext);
  jo_ordered : bool;
  jo_mode : mode;
  jo_direction : option rdf_direction;
  jo_generalized : bool;
  jo_invalid : action;
  jo_vocab : action;
  jo_allow_undefined : bool
}.
(** mod.rs 131-145. *)
Definition jopts_default : jopts := MkJOpts None true true None false JsonLd11 None false AKeep AKeep true.
(** mod.rs 87-92. *)
Definition unordered (o : jopts) : jopts :=
  MkJOpts (jo_base o) (jo_arrays o) (jo_relative o) (jo_expand_context o) false (jo_mode o) (jo_direction o) (jo_generalized o) (jo_invalid o) (jo_vocab o) (jo_allow_undefined o).
(** mod.rs 96-101. *)
Definition with_expand_context (x : dref lcontext) (o : jopts) : jopts :=
  MkJOpts (jo_base o) (jo_arrays o) (jo_relative o) (Some x) (jo_ordered o) (jo_mode o) (jo_direction o) (jo_generalized o) (jo_invalid o) (jo_vocab o) (jo_allow_undefined o).
(** mod.rs 104-109, 112-118, 121-128. *)
Definition jo_popts (o : jopts) : popts := MkOpts (jo_mode o) false true AKeep.
Definition jo_xopts (o : jopts) : xopts := MkXOpts (jo_mode o) (jo_invalid o) (jo_vocab o) (jo_allow_undefined o) (jo_ordered o).
Definition jo_copts (o : jopts) : copts := MkCOpts (jo_mode o) (jo_arrays o) (jo_ordered o).

(** mod.rs 149-164, 186-205, 225-240: errors.  [AFlatten] is [ConflictingIndexes]; [APanic] is the
    panic of [Compare] on repeated keys. *)
Inductive aerr : Type :=
| AExpansion (e : xerr) | AContextProcessing (e : cerr) | ACompaction (e : kerr) | AFlatten (e : ferr)
| ALoading | AContextLoading | APanic.

(** [Option::or], [Option::or_else]. *)
Definition or_else {A} (a b : option A) : option A := match a with Some x => Some x | None => b end.

(** Canonical forms of numbers ([ryu_js], through [json_number]) and of JSON values ([json_syntax]). *)
Record canon_io : Type := MkCanon { canon_num : string -> string; canon_json : json -> json }.
Section Canon.
  Variable ci : canon_io.
  (** value.rs 106-110, 312-318. *)
  Definition canon_lit (l : lit) : lit := match l with LNum x => LNum (canon_num ci x) | _ => l end.
  Definition canon_value (v : value) : value :=
    match v with VLit l t => VLit (canon_lit l) t | VLang s => VLang s | VJson j => VJson (canon_json ci j) end.
  (** object/mod.rs 170-176, list.rs 77-81, node/mod.rs 194-208: the graph and the included nodes
      are not visited. *)
  Fixpoint canon_o (o : obj) {struct o} : obj :=
    match o with
    | OVal v => OVal (canon_value v)
    | ONode n => ONode (canon_n n)
    | OList l => OList (map (fun x => (fst x, canon_o (snd x))) l)
    end
  with canon_n (n : node) {struct n} : node :=
    match n with
    | MkNode i ts g inc ps rs =>
        MkNode i ts g inc
          (map (fun p => (fst p, map (fun x => (fst x, canon_o (snd x))) (snd p))) ps)
          (option_map (map (fun p => (fst p, map (fun x => (fst x, canon_n (snd x))) (snd p)))) rs)
    end.
End Canon.

Section Processor.
  (** IRI functions, hashers, and IRIs made relative to a base. *)
  Variables (io : iops) (fin rnd : list word -> N) (rel : string -> string -> string).
  Variable dl : dloader.
  Variables (pf n : nat).

  (** loader/mod.rs 531-552 ([into_ld_context]). *)
  Definition into_ld_context (j : json) : option lcontext :=
    match j with
    | JObj m => match get_unique "@context" m with
                | Ok (Some c) => match context_of_json (iri_ref_ok io) c with Ok l => Some l | Err _ => None end
                | _ => None
                end
    | _ => None
    end.
  (** The loader as context processing uses it (loader/mod.rs 106-122, [LdNoContext] for
      [ContextExtractionFailed]). *)
  Definition context_loader : loader := fun u =>
    match dl u with
    | None => LdFail
    | Some d => match into_ld_context (rd_document d) with Some l => LdContext l | None => LdNoContext end
    end.
  (** loader/mod.rs 54-89 ([load_with], [loaded_with]). *)
  Definition load_doc (r : dref json) : result (rdoc json) aerr :=
    match r with
    | RefIri u => match dl u with Some d => Ok d | None => Err ALoading end
    | RefLoaded d => Ok d
    end.
  (** loader/mod.rs 106-122 ([load_context_with]) and [into_document]. *)
  Definition load_context (r : dref lcontext) : result lcontext aerr :=
    match r with
    | RefIri u => match context_loader u with LdContext l => Ok l | _ => Err AContextLoading end
    | RefLoaded d => Ok (rd_document d)
    end.
  Definition aprocess (o : jopts) (c : actx) (l : lcontext) (base : option string) : result actx aerr :=
    map_err AContextProcessing (process_full io context_loader pf c l base (jo_popts o)).

  (** remote_document.rs 57-95: the active context in which the document is expanded. *)
  Definition initial_context (o : jopts) (d : rdoc json) : result actx aerr :=
    let c := ctx_new (or_else (jo_base o) (rd_url d)) in
    do c <- (match jo_expand_context o with
             | Some r => do l <- load_context r ; aprocess o c l (ac_orig c)
             | None => Ok c
             end) ;
    match rd_context_url d with
    | Some u => do l <- load_context (RefIri u) ; aprocess o c l (Some u)
    | None => Ok c
    end.
  (** remote_document.rs 45-108 ([expand_full]). *)
  Definition api_expand (o : jopts) (d : rdoc json) : result (list iobj) aerr :=
    do c <- initial_context o d ;
    map_err AExpansion (expand io context_loader fin rnd pf (jo_xopts o) (or_else (rd_url d) (jo_base o)) n c (rd_document d)).

  (** mod.rs 1876-1930 ([compact_expanded_full]): the context used to compact. *)
  Definition compaction_context (o : jopts) (url : option string) (l : lcontext) : result actx aerr :=
    do c <- aprocess o (ctx_new None) l (or_else url (jo_base o)) ;
    Ok (match jo_base o with
        | Some b => set_base_iri c (Some b)
        | None => if jo_relative o && negb (is_some (ac_base c)) then set_base_iri c url else c
        end).
  Definition compact_expanded (o : jopts) (url : option string) (r : dref lcontext) (doc : list iobj) : result json aerr :=
    do l <- load_context r ;
    do c <- compaction_context o url l ;
    map_err ACompaction (compact io context_loader rel pf (jo_copts o) n c (context_to_json l) doc).
  (** remote_document.rs 127-160 ([compact_full]). *)
  Definition api_compact (o : jopts) (r : dref lcontext) (d : rdoc json) : result json aerr :=
    do doc <- api_expand (unordered o) d ;
    compact_expanded o (rd_url d) r doc.

  (** remote_document.rs 162-206 ([flatten_full]); [gen] is the generator and [pg], [pn], [po] are
      the orders of Flatten.v.  Documents are written as JSON by syntax/src/into_json.rs 8-16. *)
  Definition api_flatten (pg : list (id * graph) -> list (id * graph)) (pn : option id -> graph -> graph) (po : list inode -> list inode)
      (gen : nat -> id) (o : jopts) (r : option (dref lcontext)) (d : rdoc json) : result json aerr :=
    do doc <- api_expand (unordered o) d ;
    do out <- map_err AFlatten (flatten fin rnd pg pn po gen doc) ;
    match r with
    | Some r => compact_expanded o (rd_url d) r (map (fun x => (fst x, ONode (snd x))) out)
    | None => Ok (JArr (map inode_json out))
    end.

  (** remote_document.rs 15-43 ([compare_full]); [==] on expanded documents is that of [IndexSet]
      (core document/expanded.rs 219-226). *)
  Definition same_document (a b : list iobj) : bool := set_eqb (fun x => rnd (iobj_words fin x)) (iobj_eqb fin rnd) a b.
  Definition api_compare (o : jopts) (d e : rdoc json) : result bool aerr :=
    match compare (rd_document d) (rd_document e) with
    | None => Err APanic
    | Some false => Ok false
    | Some true =>
        do a <- api_expand o d ;
        do b <- api_expand o e ;
        Ok (same_document a b)
    end.

  (** core document/expanded.rs 99-115 ([relabel_and_canonicalize_with]): the document and the
      number of identifiers generated. *)
  Definition relabel_canon (ci : canon_io) (gen : nat -> id) (doc : list iobj) : list iobj * nat :=
    let (doc', s) := relabel_l gen (assign_id gen) (collect_o fin rnd) (collect_n fin rnd) env0 doc in
    (collect_o fin rnd (map (fun x => (fst x, canon_o ci (snd x))) doc'), fst s).
  (** [rdf_types::Generator] gives valid identifiers. *)
  Definition of_vid (v : vid) : id := match v with VIri u => IIri u | VBlank b => IBlank b end.
  (** mod.rs 1481-1508 ([to_rdf_full]), 1803-1823 ([ToRdf::new]): the document of [ToRdf], and the
      state of its generator. *)
  Definition api_to_rdf (ci : canon_io) (gen : nat -> vid) (o : jopts) (d : rdoc json) : result (list iobj * nat) aerr :=
    do doc <- api_expand (unordered o) d ;
    Ok (relabel_canon ci (fun k => of_vid (gen k)) doc).
  (** mod.rs 1825-1832 ([ToRdf::quads]), the first time it is called: the generator goes on. *)
  Definition api_quads (ri : rdf_io) (gen : nat -> vid) (o : jopts) (fuel : nat) (t : list iobj * nat) : option (list quad) :=
    rdf_quads ri (fun k => gen (snd t + k)) (jo_direction o) (jo_generalized o) fuel (doc_frames (fst t)).

  (** remote_document.rs 209-312: references to documents. *)
  Definition ref_expand (o : jopts) (r : dref json) : result (list iobj) aerr := do d <- load_doc r ; api_expand o d.
  Definition ref_compact (o : jopts) (x : dref lcontext) (r : dref json) : result json aerr := do d <- load_doc r ; api_compact o x d.
  Definition ref_compare (o : jopts) (r r' : dref json) : result bool aerr := do d <- load_doc r ; do e <- load_doc r' ; api_compare o d e.
End Processor.

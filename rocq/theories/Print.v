(** Printing with layout: core/src/print.rs, syntax/src/context/print.rs, syntax/src/print_ld.rs,
    and the iterators over entries they use (core/src/object/{mod,value}.rs, object/node/mod.rs,
    syntax/src/context/definition/{reference,type_}.rs, context/term_definition/mod.rs).

    Printing is done in two passes. The first one ([pre_compute_size]) computes the sizes of all
    arrays and objects and pushes them on a vector, a container before its items; the second one
    ([fmt_with_size]) reads them in order, at an index that it increments, and panics past the end
    of the vector. *)
From Verif Require Import Prelude Json Enums LangTag LangString Str Keyword Container ContextSyntax Ctx Process Object ObjectEq ObjectJson.

(** What is used of the external crate [json_syntax] ([json_syntax::print]), for given options:
    the sizes ([Size]) and what is written at some indentation for an array or an object, given
    its size and what is written for its items. *)
Record layout (sz : Type) : Type := MkLayout {
  (** [Size::Width], [printed_string_size], [string_literal]. *)
  lo_width : nat -> sz;
  lo_length : string -> nat;
  lo_string : string -> string;
  (** The sizes of arrays and objects. *)
  lo_array_size : list sz -> sz;
  lo_object_size : list (string * sz) -> sz;
  (** The indentation of items. *)
  lo_inner : sz -> nat -> nat;
  (** What is written without items, and with items. *)
  lo_no_item : sz -> nat -> string;
  lo_no_entry : sz -> nat -> string;
  lo_items : sz -> nat -> list string -> string;
  lo_entries : sz -> nat -> list (string * string) -> string
}.
Arguments lo_width {sz}. Arguments lo_length {sz}. Arguments lo_string {sz}.
Arguments lo_array_size {sz}. Arguments lo_object_size {sz}. Arguments lo_inner {sz}.
Arguments lo_no_item {sz}. Arguments lo_no_entry {sz}. Arguments lo_items {sz}. Arguments lo_entries {sz}.

Definition flag {A} (o : option A) : nat := match o with Some _ => 1 | None => 0 end.
Definition entry_of {A B} (k : string) (o : option A) (f : A -> B) : list (string * B) :=
  match o with Some a => [(k, f a)] | None => [] end.

Section Print.
  Context {sz : Type}.
  Variable lo : layout sz.

  (** ** The helpers of [json_syntax] *)

  (** A size, and what is pushed on the vector of sizes. *)
  Definition sized : Type := sz * list sz.
  Definition width (n : nat) : sized := (lo_width lo n, []).
  Definition string_size (s : string) : sized := width (lo_length lo s).
  Definition bool_size (b : bool) : sized := width (if b then 4 else 5).
  (** [pre_compute_array_size], [pre_compute_object_size]. *)
  Definition array_size (l : list sized) : sized :=
    let s := lo_array_size lo (map fst l) in (s, s :: flat_map snd l).
  Definition object_size (l : list (string * sized)) : sized :=
    let s := lo_object_size lo (map (fun e => (fst e, fst (snd e))) l) in
    (s, s :: flat_map (fun e => snd (snd e)) l).

  (** What is written at some indentation, given the sizes that remain ([sizes] from [*index]),
      and the sizes left; [None] is a panic. *)
  Definition printer : Type := nat -> list sz -> option (string * list sz).
  Definition raw (s : string) : printer := fun _ sizes => Some (s, sizes).
  Definition string_fmt (s : string) : printer := raw (lo_string lo s).
  Definition bool_fmt (b : bool) : printer := raw (if b then "true" else "false").
  Fixpoint in_order (l : list printer) (indent : nat) (sizes : list sz) : option (list string * list sz) :=
    match l with
    | [] => Some ([], sizes)
    | p :: l' =>
        match p indent sizes with
        | None => None
        | Some (t, sizes) =>
            match in_order l' indent sizes with
            | None => None
            | Some (ts, sizes) => Some (t :: ts, sizes)
            end
        end
    end.
  (** [print_array], [print_object]; [len] is the length announced by the iterator over the items
      ([ExactSizeIterator::len]). *)
  Definition print_array (len : nat) (l : list printer) : printer := fun indent sizes =>
    match sizes with
    | [] => None
    | s :: sizes =>
        if Nat.eqb len 0 then Some (lo_no_item lo s indent, sizes)
        else match in_order l (lo_inner lo s indent) sizes with
             | None => None
             | Some (ts, sizes) => Some (lo_items lo s indent ts, sizes)
             end
    end.
  Definition print_object (len : nat) (l : list (string * printer)) : printer := fun indent sizes =>
    match sizes with
    | [] => None
    | s :: sizes =>
        if Nat.eqb len 0 then Some (lo_no_entry lo s indent, sizes)
        else match in_order (map snd l) (lo_inner lo s indent) sizes with
             | None => None
             | Some (ts, sizes) => Some (lo_entries lo s indent (combine (map fst l) ts), sizes)
             end
    end.

  (** JSON values ([PrecomputeSize] and [PrintWithSize] of [json_syntax::Value]). *)
  Fixpoint json_pre (j : json) : sized :=
    match j with
    | JNull => width 4
    | JBool b => bool_size b
    | JNum n => width (String.length n)
    | JStr s => string_size s
    | JArr l => array_size (map json_pre l)
    | JObj l => object_size (map (fun e => (fst e, json_pre (snd e))) l)
    end.
  Fixpoint json_fmt (j : json) : printer :=
    match j with
    | JNull => raw "null"
    | JBool b => bool_fmt b
    | JNum n => raw n
    | JStr s => string_fmt s
    | JArr l => print_array (length l) (map json_fmt l)
    | JObj l => print_object (length l) (map (fun e => (fst e, json_fmt (snd e))) l)
    end.

  (** ** Expanded documents: core/src/print.rs *)

  (** print.rs 375-400 (Literal). *)
  Definition lit_pre (l : lit) : sized :=
    match l with
    | LNull => width 4
    | LBool b => bool_size b
    | LNum n => width (String.length n)
    | LStr s => string_size s
    end.
  Definition lit_fmt (l : lit) : printer :=
    match l with
    | LNull => raw "null"
    | LBool b => bool_fmt b
    | LNum n => raw n
    | LStr s => string_fmt s
    end.

  (** The entries of a value object (value.rs 237-258, order of 490-499, keys of 443-450), with
      their sizes (print.rs 270-288, 313-329, 348-356). *)
  Definition value_pre (v : value) : list (string * sized) :=
    match v with
    | VLit l t => ("@value", lit_pre l) :: entry_of "@type" t string_size
    | VLang s =>
        ("@value", string_size (ls_data s)) ::
        entry_of "@language" (ls_language s) string_size ++
        entry_of "@direction" (ls_direction s) (fun d => string_size (dir_str d))
    | VJson j => [("@value", json_pre j); ("@type", string_size "@json")]
    end.
  (** Same entries; print.rs 290-311, 331-346, 358-373. *)
  Definition value_fmt (v : value) : list (string * printer) :=
    match v with
    | VLit l t => ("@value", lit_fmt l) :: entry_of "@type" t string_fmt
    | VLang s =>
        ("@value", string_fmt (ls_data s)) ::
        entry_of "@language" (ls_language s) string_fmt ++
        entry_of "@direction" (ls_direction s) (fun d => string_fmt (dir_str d))
    | VJson j => [("@value", json_fmt j); ("@type", string_fmt "@json")]
    end.
  (** value.rs 469-489 ([size_hint]). *)
  Definition value_len (v : value) : nat :=
    match v with
    | VLit _ t => 1 + flag t
    | VLang s => 1 + flag (ls_language s) + flag (ls_direction s)
    | VJson _ => 1 + 1
    end.

  (** object/mod.rs 512-520: the number of entries announced; node/mod.rs 913-937. *)
  Definition node_len (n : node) : nat :=
    match n with
    | MkNode i ts g inc ps rs => length ps + flag i + flag ts + flag g + flag inc + flag rs
    end.
  Definition obj_len (o : obj) : nat :=
    match o with OVal v => value_len v | OList _ => 1 | ONode n => node_len n end.

  (** print.rs 131-149, 177-193 ([Indexed<Object>]): the index comes first (mod.rs 548-553), under
      the key "@value" (mod.rs 708-717), then the entries of the object. *)
  Definition indexed_object_pre (i : option string) (l : list (string * sized)) : sized :=
    object_size (entry_of "@value" i string_size ++ l).
  (** print.rs 446-464, 492-508 ([Indexed<Node>]): here the key is "@index" (node/mod.rs 1022-1031). *)
  Definition indexed_node_pre (i : option string) (l : list (string * sized)) : sized :=
    object_size (entry_of "@index" i string_size ++ l).

  (** The entries of an object and of a node, with their sizes: print.rs 216-237 (order of
      object/mod.rs 522-528), print.rs 531-563, 624-640 (order of node/mod.rs 939-953, keys of
      node/mod.rs 784-799). *)
  Fixpoint obj_pre (o : obj) : list (string * sized) :=
    match o with
    | OVal v => value_pre v
    | OList l => [("@list", array_size (map (fun x => indexed_object_pre (fst x) (obj_pre (snd x))) l))]
    | ONode n => node_pre n
    end
  with node_pre (n : node) : list (string * sized) :=
    match n with
    | MkNode i ts g inc ps rs =>
        entry_of "@id" i (fun i => string_size (id_str i)) ++
        entry_of "@type" ts (fun l => array_size (map (fun i => string_size (id_str i)) l)) ++
        entry_of "@graph" g (fun l => array_size (map (fun x => indexed_object_pre (fst x) (obj_pre (snd x))) l)) ++
        entry_of "@included" inc (fun l => array_size (map (fun x => indexed_node_pre (fst x) (node_pre (snd x))) l)) ++
        entry_of "@reverse" rs (fun l => object_size (map (fun p =>
          (id_str (fst p), array_size (map (fun x => indexed_node_pre (fst x) (node_pre (snd x))) (snd p)))) l)) ++
        map (fun p => (id_str (fst p), array_size (map (fun x => indexed_object_pre (fst x) (obj_pre (snd x))) (snd p)))) ps
    end.
  Definition iobj_pre (x : iobj) : sized := indexed_object_pre (fst x) (obj_pre (snd x)).
  Definition inode_pre (x : inode) : sized := indexed_node_pre (fst x) (node_pre (snd x)).

  (** print.rs 151-175, 195-214 ([Indexed<Object>]); the length is that of mod.rs 543-546. *)
  Definition indexed_object_fmt (i : option string) (len : nat) (l : list (string * printer)) : printer :=
    print_object (len + flag i) (entry_of "@value" i string_fmt ++ l).
  (** print.rs 466-490, 510-529 ([Indexed<Node>]); the length is that of node/mod.rs 968-971. *)
  Definition indexed_node_fmt (i : option string) (len : nat) (l : list (string * printer)) : printer :=
    print_object (len + flag i) (entry_of "@index" i string_fmt ++ l).

  (** Same entries as [obj_pre], [node_pre]; print.rs 239-268, 565-622, 642-664. *)
  Fixpoint obj_fmt (o : obj) : list (string * printer) :=
    match o with
    | OVal v => value_fmt v
    | OList l => [("@list", print_array (length l) (map (fun x => indexed_object_fmt (fst x) (obj_len (snd x)) (obj_fmt (snd x))) l))]
    | ONode n => node_fmt n
    end
  with node_fmt (n : node) : list (string * printer) :=
    match n with
    | MkNode i ts g inc ps rs =>
        entry_of "@id" i (fun i => string_fmt (id_str i)) ++
        entry_of "@type" ts (fun l => print_array (length l) (map (fun i => string_fmt (id_str i)) l)) ++
        entry_of "@graph" g (fun l => print_array (length l) (map (fun x => indexed_object_fmt (fst x) (obj_len (snd x)) (obj_fmt (snd x))) l)) ++
        entry_of "@included" inc (fun l => print_array (length l) (map (fun x => indexed_node_fmt (fst x) (node_len (snd x)) (node_fmt (snd x))) l)) ++
        entry_of "@reverse" rs (fun l => print_object (length l) (map (fun p =>
          (id_str (fst p), print_array (length (snd p)) (map (fun x => indexed_node_fmt (fst x) (node_len (snd x)) (node_fmt (snd x))) (snd p)))) l)) ++
        map (fun p => (id_str (fst p), print_array (length (snd p))
          (map (fun x => indexed_object_fmt (fst x) (obj_len (snd x)) (obj_fmt (snd x))) (snd p)))) ps
    end.
  Definition iobj_fmt (x : iobj) : printer := indexed_object_fmt (fst x) (obj_len (snd x)) (obj_fmt (snd x)).
  Definition inode_fmt (x : inode) : printer := indexed_node_fmt (fst x) (node_len (snd x)) (node_fmt (snd x)).

  (** A printer run on the sizes computed, from the first one. *)
  Definition run (pre : sized) (fmt : printer) (indent : nat) : option string :=
    match fmt indent (snd pre) with Some (t, _) => Some t | None => None end.

  (** print.rs 24-54, 71-92 ([ExpandedDocument]). *)
  Definition document_pre (doc : list iobj) : sized := array_size (map iobj_pre doc).
  Definition document_fmt (doc : list iobj) : printer := print_array (length doc) (map iobj_fmt doc).
  Definition print_document (doc : list iobj) (indent : nat) : option string :=
    run (document_pre doc) (document_fmt doc) indent.
  (** print.rs 56-69, 402-444 ([Node]). *)
  Definition print_node (n : node) (indent : nat) : option string :=
    run (object_size (node_pre n)) (print_object (node_len n) (node_fmt n)) indent.

  (** ** Contexts: syntax/src/context/print.rs *)

  Definition nullable_pre {A} (f : A -> sized) (n : nullable A) : sized :=
    match n with NNull => width 4 | NSome a => f a end.
  Definition nullable_fmt {A} (f : A -> printer) (n : nullable A) : printer :=
    match n with NNull => raw "null" | NSome a => f a end.

  (** context/print.rs 503-576 (Container, ContainerKind). *)
  Definition container_pre (c : scontainer) : sized :=
    match c with
    | SOne k => string_size (ckind_str k)
    | SMany l => array_size (map (fun k => string_size (ckind_str k)) l)
    end.
  Definition container_fmt (c : scontainer) : printer :=
    match c with
    | SOne k => string_fmt (ckind_str k)
    | SMany l => print_array (length l) (map (fun k => string_fmt (ckind_str k)) l)
    end.

  (** context/print.rs 145-210 (definition::Type); entries of type_.rs 13-50. *)
  Definition dtype_pre (t : dtype) : sized :=
    object_size (("@container", string_size "@set") :: entry_of "@protected" (dt_protected t) bool_size).
  Definition dtype_fmt (t : dtype) : printer :=
    print_object (1 + flag (dt_protected t))
      (("@container", string_fmt "@set") :: entry_of "@protected" (dt_protected t) bool_fmt).

  (** context/print.rs 104-143 (definition::EntryValueRef), 212-256 (Version, Vocab), print_ld.rs;
      entries of definition/reference.rs 81-113, keys of 177-192; terms are already printed. *)
  Definition cdef_pre (d : cdef sized) : list (string * sized) :=
    entry_of "@base" (cd_base d) (nullable_pre string_size) ++
    entry_of "@import" (cd_import d) string_size ++
    entry_of "@language" (cd_language d) (nullable_pre string_size) ++
    entry_of "@direction" (cd_direction d) (nullable_pre (fun x => string_size (dir_str x))) ++
    entry_of "@propagate" (cd_propagate d) bool_size ++
    entry_of "@protected" (cd_protected d) bool_size ++
    entry_of "@type" (cd_type d) dtype_pre ++
    entry_of "@version" (cd_version d) (fun _ => width 3) ++
    entry_of "@vocab" (cd_vocab d) (nullable_pre string_size) ++
    map (fun b => (fst b, nullable_pre (fun x => x) (snd b))) (cd_bindings d).
  Definition cdef_fmt (d : cdef printer) : list (string * printer) :=
    entry_of "@base" (cd_base d) (nullable_fmt string_fmt) ++
    entry_of "@import" (cd_import d) string_fmt ++
    entry_of "@language" (cd_language d) (nullable_fmt string_fmt) ++
    entry_of "@direction" (cd_direction d) (nullable_fmt (fun x => string_fmt (dir_str x))) ++
    entry_of "@propagate" (cd_propagate d) bool_fmt ++
    entry_of "@protected" (cd_protected d) bool_fmt ++
    entry_of "@type" (cd_type d) dtype_fmt ++
    entry_of "@version" (cd_version d) (fun _ => raw "1.1") ++
    entry_of "@vocab" (cd_vocab d) (nullable_fmt string_fmt) ++
    map (fun b => (fst b, nullable_fmt (fun x => x) (snd b))) (cd_bindings d).
  (** definition/reference.rs 39-79. *)
  Definition cdef_len {A} (d : cdef A) : nat :=
    length (cd_bindings d) + flag (cd_base d) + flag (cd_import d) + flag (cd_language d) +
    flag (cd_direction d) + flag (cd_propagate d) + flag (cd_protected d) + flag (cd_type d) +
    flag (cd_version d) + flag (cd_vocab d).

  (** context/print.rs 320-393 (term_definition::Expanded, EntryRef), 395-501; entries of
      term_definition/mod.rs 560-598, keys of 449-470; the context is already printed. *)
  Definition texp_pre (e : texp sized) : list (string * sized) :=
    entry_of "@id" (te_id e) (nullable_pre (fun i => string_size (tid_str i))) ++
    entry_of "@type" (te_type e) (nullable_pre (fun i => string_size (ttype_str i))) ++
    entry_of "@context" (te_context e) (fun x => x) ++
    entry_of "@reverse" (te_reverse e) string_size ++
    entry_of "@index" (te_index e) string_size ++
    entry_of "@language" (te_language e) (nullable_pre string_size) ++
    entry_of "@direction" (te_direction e) (nullable_pre (fun x => string_size (dir_str x))) ++
    entry_of "@container" (te_container e) (nullable_pre container_pre) ++
    entry_of "@nest" (te_nest e) (fun n => string_size (tnest_str n)) ++
    entry_of "@prefix" (te_prefix e) bool_size ++
    entry_of "@propagate" (te_propagate e) bool_size ++
    entry_of "@protected" (te_protected e) bool_size.
  Definition texp_fmt (e : texp printer) : list (string * printer) :=
    entry_of "@id" (te_id e) (nullable_fmt (fun i => string_fmt (tid_str i))) ++
    entry_of "@type" (te_type e) (nullable_fmt (fun i => string_fmt (ttype_str i))) ++
    entry_of "@context" (te_context e) (fun x => x) ++
    entry_of "@reverse" (te_reverse e) string_fmt ++
    entry_of "@index" (te_index e) string_fmt ++
    entry_of "@language" (te_language e) (nullable_fmt string_fmt) ++
    entry_of "@direction" (te_direction e) (nullable_fmt (fun x => string_fmt (dir_str x))) ++
    entry_of "@container" (te_container e) (nullable_fmt container_fmt) ++
    entry_of "@nest" (te_nest e) (fun n => string_fmt (tnest_str n)) ++
    entry_of "@prefix" (te_prefix e) bool_fmt ++
    entry_of "@propagate" (te_propagate e) bool_fmt ++
    entry_of "@protected" (te_protected e) bool_fmt.
  (** term_definition/mod.rs 506-558. *)
  Definition texp_len {A} (e : texp A) : nat :=
    flag (te_id e) + flag (te_type e) + flag (te_context e) + flag (te_reverse e) + flag (te_index e) +
    flag (te_language e) + flag (te_direction e) + flag (te_container e) + flag (te_nest e) +
    flag (te_prefix e) + flag (te_propagate e) + flag (te_protected e).

  (** context/print.rs 19-28, 58-75, 258-280 (Context, ContextEntry, TermDefinition). *)
  Fixpoint context_pre (c : lcontext) : sized :=
    match c with
    | LOne e => centry_pre e
    | LMany l => array_size (map centry_pre l)
    end
  with centry_pre (e : centry) : sized :=
    match e with
    | CENull => width 4
    | CEIri s => string_size s
    | CEDef d => object_size (cdef_pre (cdef_map tdef_pre d))
    end
  with tdef_pre (t : tdef) : sized :=
    match t with
    | TSimple s => string_size s
    | TExpanded e => object_size (texp_pre (texp_map context_pre e))
    end.
  (** context/print.rs 30-46, 77-102, 282-318. *)
  Fixpoint context_fmt (c : lcontext) : printer :=
    match c with
    | LOne e => centry_fmt e
    | LMany l => print_array (length l) (map centry_fmt l)
    end
  with centry_fmt (e : centry) : printer :=
    match e with
    | CENull => raw "null"
    | CEIri s => string_fmt s
    | CEDef d => print_object (cdef_len d) (cdef_fmt (cdef_map tdef_fmt d))
    end
  with tdef_fmt (t : tdef) : printer :=
    match t with
    | TSimple s => string_fmt s
    | TExpanded e => print_object (texp_len e) (texp_fmt (texp_map context_fmt e))
    end.
  (** context/print.rs 6-17. *)
  Definition print_context (c : lcontext) (indent : nat) : option string :=
    run (context_pre c) (context_fmt c) indent.

  (** ** Specification: the layout of a JSON value *)
  Fixpoint size_of (j : json) : sz :=
    match j with
    | JNull => lo_width lo 4
    | JBool b => lo_width lo (if b then 4 else 5)
    | JNum n => lo_width lo (String.length n)
    | JStr s => lo_width lo (lo_length lo s)
    | JArr l => lo_array_size lo (map size_of l)
    | JObj l => lo_object_size lo (map (fun e => (fst e, size_of (snd e))) l)
    end.
  Fixpoint text_of (j : json) (indent : nat) : string :=
    match j with
    | JNull => "null"
    | JBool b => if b then "true" else "false"
    | JNum n => n
    | JStr s => lo_string lo s
    | JArr [] => lo_no_item lo (size_of (JArr [])) indent
    | JArr l => lo_items lo (size_of (JArr l)) indent
        (map (fun x => text_of x (lo_inner lo (size_of (JArr l)) indent)) l)
    | JObj [] => lo_no_entry lo (size_of (JObj [])) indent
    | JObj l => lo_entries lo (size_of (JObj l)) indent
        (map (fun e => (fst e, text_of (snd e) (lo_inner lo (size_of (JObj l)) indent))) l)
    end.
End Print.

(** ** Specification: the JSON value printed for a document

    The entries in the order of their iterators, each one once. *)
Definition value_shown (v : value) : jobject :=
  match v with
  | VLit l t => ("@value", match l with LNull => JNull | LBool b => JBool b | LNum n => JNum n | LStr s => JStr s end)
                :: entry_of "@type" t JStr
  | VLang s => ("@value", JStr (ls_data s)) :: entry_of "@language" (ls_language s) JStr ++
               entry_of "@direction" (ls_direction s) (fun d => JStr (dir_str d))
  | VJson j => [("@value", j); ("@type", JStr "@json")]
  end.
Section Shown.
  (** The key of the index of an object that is not a node of [@included] or [@reverse]. *)
  Variable key : string.
  Fixpoint obj_shown (o : obj) : jobject :=
    match o with
    | OVal v => value_shown v
    | OList l => [("@list", JArr (map (fun x => JObj (entry_of key (fst x) JStr ++ obj_shown (snd x))) l))]
    | ONode n => node_shown n
    end
  with node_shown (n : node) : jobject :=
    match n with
    | MkNode i ts g inc ps rs =>
        entry_of "@id" i (fun i => JStr (id_str i)) ++
        entry_of "@type" ts (fun l => JArr (map (fun i => JStr (id_str i)) l)) ++
        entry_of "@graph" g (fun l => JArr (map (fun x => JObj (entry_of key (fst x) JStr ++ obj_shown (snd x))) l)) ++
        entry_of "@included" inc (fun l => JArr (map (fun x => JObj (entry_of "@index" (fst x) JStr ++ node_shown (snd x))) l)) ++
        entry_of "@reverse" rs (fun l => JObj (map (fun p =>
          (id_str (fst p), JArr (map (fun x => JObj (entry_of "@index" (fst x) JStr ++ node_shown (snd x))) (snd p)))) l)) ++
        map (fun p => (id_str (fst p), JArr (map (fun x => JObj (entry_of key (fst x) JStr ++ obj_shown (snd x))) (snd p)))) ps
    end.
  Definition iobj_shown (x : iobj) : json := JObj (entry_of key (fst x) JStr ++ obj_shown (snd x)).
  Definition inode_shown (x : inode) : json := JObj (entry_of "@index" (fst x) JStr ++ node_shown (snd x)).
  Definition document_shown (doc : list iobj) : json := JArr (map iobj_shown doc).
End Shown.

(** The entries of a context, as many times as they occur. *)
Definition nullable_shown {A} (f : A -> json) (n : nullable A) : json :=
  match n with NNull => JNull | NSome a => f a end.
Definition container_shown (c : scontainer) : json :=
  match c with SOne k => JStr (ckind_str k) | SMany l => JArr (map (fun k => JStr (ckind_str k)) l) end.
Definition dtype_shown (t : dtype) : json :=
  JObj (("@container", JStr "@set") :: entry_of "@protected" (dt_protected t) JBool).
Definition cdef_shown (d : cdef json) : jobject :=
  entry_of "@base" (cd_base d) (nullable_shown JStr) ++
  entry_of "@import" (cd_import d) JStr ++
  entry_of "@language" (cd_language d) (nullable_shown JStr) ++
  entry_of "@direction" (cd_direction d) (nullable_shown (fun x => JStr (dir_str x))) ++
  entry_of "@propagate" (cd_propagate d) JBool ++
  entry_of "@protected" (cd_protected d) JBool ++
  entry_of "@type" (cd_type d) dtype_shown ++
  entry_of "@version" (cd_version d) (fun _ => JNum "1.1") ++
  entry_of "@vocab" (cd_vocab d) (nullable_shown JStr) ++
  map (fun b => (fst b, nullable_shown (fun x => x) (snd b))) (cd_bindings d).
Definition texp_shown (e : texp json) : jobject :=
  entry_of "@id" (te_id e) (nullable_shown (fun i => JStr (tid_str i))) ++
  entry_of "@type" (te_type e) (nullable_shown (fun i => JStr (ttype_str i))) ++
  entry_of "@context" (te_context e) (fun x => x) ++
  entry_of "@reverse" (te_reverse e) JStr ++
  entry_of "@index" (te_index e) JStr ++
  entry_of "@language" (te_language e) (nullable_shown JStr) ++
  entry_of "@direction" (te_direction e) (nullable_shown (fun x => JStr (dir_str x))) ++
  entry_of "@container" (te_container e) (nullable_shown container_shown) ++
  entry_of "@nest" (te_nest e) (fun n => JStr (tnest_str n)) ++
  entry_of "@prefix" (te_prefix e) JBool ++
  entry_of "@propagate" (te_propagate e) JBool ++
  entry_of "@protected" (te_protected e) JBool.
Fixpoint context_shown (c : lcontext) : json :=
  match c with
  | LOne e => centry_shown e
  | LMany l => JArr (map centry_shown l)
  end
with centry_shown (e : centry) : json :=
  match e with
  | CENull => JNull
  | CEIri s => JStr s
  | CEDef d => JObj (cdef_shown (cdef_map tdef_shown d))
  end
with tdef_shown (t : tdef) : json :=
  match t with
  | TSimple s => JStr s
  | TExpanded e => JObj (texp_shown (texp_map context_shown e))
  end.

(** ** Specification: what can be read again *)
Section Legible.
  Variable io : iops.
  (** Identifiers and types that are read as themselves, properties that are not keywords. *)
  Inductive legible : obj -> Prop :=
  | LgVal v : pr_value io v -> legible (OVal v)
  | LgNode n : legible_node n -> legible (ONode n)
  | LgList l : Forall (fun x => legible (snd x)) l -> legible (OList l)
  with legible_node : node -> Prop :=
  | LgMk i ts g inc ps rs :
      (forall x, i = Some x -> readable io x) -> Forall (readable io) (opt_list ts) ->
      Forall (fun x => legible (snd x)) (opt_list g) ->
      Forall (fun x => legible_node (snd x)) (opt_list inc) ->
      Forall (fun p => readable io (fst p) /\ ~ In (id_str (fst p)) reserved /\ Forall (fun x => legible (snd x)) (snd p)) ps ->
      Forall (fun p => readable io (fst p) /\ Forall (fun x => legible_node (snd x)) (snd p)) (opt_list rs) ->
      legible_node (MkNode i ts g inc ps rs).
End Legible.

(** No index on values, lists, and nodes elsewhere than in [@included] and [@reverse]. *)
Inductive unindexed : obj -> Prop :=
| UiVal v : unindexed (OVal v)
| UiNode n : unindexed_node n -> unindexed (ONode n)
| UiList l : Forall (fun x => fst x = None /\ unindexed (snd x)) l -> unindexed (OList l)
with unindexed_node : node -> Prop :=
| UiMk i ts g inc ps rs :
    Forall (fun x => fst x = None /\ unindexed (snd x)) (opt_list g) ->
    Forall (fun x => unindexed_node (snd x)) (opt_list inc) ->
    Forall (fun p => Forall (fun x => fst x = None /\ unindexed (snd x)) (snd p)) ps ->
    Forall (fun p => Forall (fun x => unindexed_node (snd x)) (snd p)) (opt_list rs) ->
    unindexed_node (MkNode i ts g inc ps rs).

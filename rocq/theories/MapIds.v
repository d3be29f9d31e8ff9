(** Mapping the identifiers of documents: [map_ids] of core/src/object/{mod,value,list}.rs,
    object/node/mod.rs and document/expanded.rs. *)
From Verif Require Import Prelude Json Enums LangTag LangString Str Keyword Container ContextSyntax Ctx Object ObjectEq ObjectJson.

Section MapIds.
  Variables (fin rnd : list word -> N).
  (** [map_iri] and [map_id]; closures are functions of their argument alone. *)
  Variables (f : string -> string) (g : id -> id).

  (** [FromIterator] of [IndexSet], and of [Properties] and [ReverseProperties] (properties.rs
      187-199, reverse_properties.rs 193-204). *)
  Definition collect_set {A} (h : A -> N) (e : A -> A -> bool) (l : list A) : list A := fold_left (set_insert h e) l [].
  Definition collect_map {A} (l : list (id * list A)) : list (id * list A) :=
    fold_left (fun r p => insert_all (fst p) (snd p) r) l [].

  (** value.rs 327-333. *)
  Definition value_ids (v : value) : value :=
    match v with
    | VLit l t => VLit l (option_map f t)
    | VLang s => VLang s
    | VJson j => VJson j
    end.
  (** object/mod.rs 406-433, list.rs 90-121; node/mod.rs 465-533. *)
  Fixpoint obj_ids (o : obj) : obj :=
    match o with
    | OVal v => OVal (value_ids v)
    | OList l => OList (map (fun x => (fst x, obj_ids (snd x))) l)
    | ONode n => ONode (node_ids n)
    end
  with node_ids (n : node) : node :=
    match n with
    | MkNode i ts gr inc ps rs =>
        MkNode (option_map g i) (option_map (map g) ts)
          (option_map (fun l => collect_set (iobj_hash fin rnd) (iobj_eqb fin rnd) (map (fun x => (fst x, obj_ids (snd x))) l)) gr)
          (option_map (fun l => collect_set (inode_hash fin rnd) (inode_eqb fin rnd) (map (fun x => (fst x, node_ids (snd x))) l)) inc)
          (collect_map (map (fun p => (g (fst p), map (fun x => (fst x, obj_ids (snd x))) (snd p))) ps))
          (option_map (fun l => collect_map (map (fun p => (g (fst p), map (fun x => (fst x, node_ids (snd x))) (snd p))) l)) rs)
    end.
  (** indexed.rs 73-78 ([map_inner]). *)
  Definition iobj_ids (x : iobj) : iobj := (fst x, obj_ids (snd x)).
  Definition inode_ids (x : inode) : inode := (fst x, node_ids (snd x)).
  (** expanded.rs 186-201. *)
  Definition doc_ids (d : list iobj) : list iobj := collect_set (iobj_hash fin rnd) (iobj_eqb fin rnd) (map iobj_ids d).

  (** ** Specification: every identifier is replaced, nothing else *)
  Fixpoint renamed (o : obj) : obj :=
    match o with
    | OVal (VLit l (Some t)) => OVal (VLit l (Some (f t)))
    | OVal v => OVal v
    | OList l => OList (map (fun x => (fst x, renamed (snd x))) l)
    | ONode n => ONode (renamed_node n)
    end
  with renamed_node (n : node) : node :=
    match n with
    | MkNode i ts gr inc ps rs =>
        MkNode (option_map g i) (option_map (map g) ts)
          (option_map (map (fun x => (fst x, renamed (snd x)))) gr)
          (option_map (map (fun x => (fst x, renamed_node (snd x)))) inc)
          (map (fun p => (g (fst p), map (fun x => (fst x, renamed (snd x))) (snd p))) ps)
          (option_map (map (fun p => (g (fst p), map (fun x => (fst x, renamed_node (snd x))) (snd p)))) rs)
    end.
  Definition renamed_i (x : iobj) : iobj := (fst x, renamed (snd x)).
  Definition renamed_in (x : inode) : inode := (fst x, renamed_node (snd x)).
End MapIds.

(** ** Specification: what the nodes of a document say *)

(** The nodes anywhere in an object, itself included. *)
Inductive inside : obj -> node -> Prop :=
| InNode n m : inside_node n m -> inside (ONode n) m
| InList l x m : In x l -> inside (snd x) m -> inside (OList l) m
with inside_node : node -> node -> Prop :=
| InSelf n : inside_node n n
| InGraph n x m : In x (opt_list (n_graph n)) -> inside (snd x) m -> inside_node n m
| InIncluded n x m : In x (opt_list (n_included n)) -> inside_node (snd x) m -> inside_node n m
| InProp n p x m : In p (n_props n) -> In x (snd p) -> inside (snd x) m -> inside_node n m
| InReverse n p x m : In p (opt_list (n_reverse n)) -> In x (snd p) -> inside_node (snd x) m -> inside_node n m.

Inductive fact : Type :=
| FcId (i : id) | FcType (t : id)
| FcGraph (x : iobj) | FcIncluded (x : inode)
| FcProp (p : id) (x : iobj) | FcReverse (p : id) (x : inode).
Inductive says (n : node) : fact -> Prop :=
| SyId i : n_id n = Some i -> says n (FcId i)
| SyType t : In t (opt_list (n_types n)) -> says n (FcType t)
| SyGraph x : In x (opt_list (n_graph n)) -> says n (FcGraph x)
| SyIncluded x : In x (opt_list (n_included n)) -> says n (FcIncluded x)
| SyProp p l x : In (p, l) (n_props n) -> In x l -> says n (FcProp p x)
| SyReverse p l x : In (p, l) (opt_list (n_reverse n)) -> In x l -> says n (FcReverse p x).
Inductive same_fact : fact -> fact -> Prop :=
| SfId i : same_fact (FcId i) (FcId i)
| SfType t : same_fact (FcType t) (FcType t)
| SfGraph x y : same_i x y -> same_fact (FcGraph x) (FcGraph y)
| SfIncluded x y : same_in x y -> same_fact (FcIncluded x) (FcIncluded y)
| SfProp p x y : same_i x y -> same_fact (FcProp p x) (FcProp p y)
| SfReverse p x y : same_in x y -> same_fact (FcReverse p x) (FcReverse p y).
(** A fact with its identifiers mapped. *)
Definition fact_ids (fin rnd : list word -> N) (f : string -> string) (g : id -> id) (c : fact) : fact :=
  match c with
  | FcId i => FcId (g i)
  | FcType t => FcType (g t)
  | FcGraph x => FcGraph (iobj_ids fin rnd f g x)
  | FcIncluded x => FcIncluded (inode_ids fin rnd f g x)
  | FcProp p x => FcProp (g p) (iobj_ids fin rnd f g x)
  | FcReverse p x => FcReverse (g p) (inode_ids fin rnd f g x)
  end.

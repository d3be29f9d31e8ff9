(** Expanded documents as linked data (core/src/deserialization) and the serialization of linked
    data into expanded documents (crates/serialization). *)
From Verif Require Import Prelude Json Enums LangTag LangString Str Keyword Container ContextSyntax Ctx
  Object ObjectEq ObjectJson ObjectJsonProofs CompactIri Expand Rdf.

(** ** Linked data *)

(** Literals of [linked_data] ([RdfLiteral]).  The values of [xsd_types] are distinguished as far
    as value.rs 32-55 (serialization) does: booleans, strings, decimals and integers (text and
    datatype), the others (text and datatype). *)
Inductive xval : Type := XBool (b : bool) | XStr (s : string) | XNum (t dt : string) | XOther (t dt : string).
Inductive dlit : Type := DTyped (s dt : string) | DLang (s tag : string) | DXsd (v : xval) | DJson (j : json).
(** [Term]: a valid identifier or a literal. *)
Inductive dterm : Type := DId (i : id) | DLit (l : dlit).

(** What a visitor of a subject meets: [predicate], [reverse_predicate], [graph], [include], each
    with the subjects it visits in turn.  A value implementing [LinkedDataSubject] and
    [LinkedDataResource] is its lexical representation and the calls it makes, in order. *)
Inductive vkind : Type := EPred (p : option dterm) | ERev (p : option dterm) | EGraph | EIncl.
Inductive subj : Type := MkSubj (r : option dterm) (vs : list (vkind * list subj)).
Definition s_repr (s : subj) := match s with MkSubj r _ => r end.
Definition s_visits (s : subj) := match s with MkSubj _ v => v end.
(** A value implementing [LinkedData]: the calls of [default_graph] and [named_graph]. *)
Inductive gkind : Type := GDefault | GNamed (r : option dterm).
Definition ldata : Type := list (gkind * list subj).

(** External: [LenientLangTag::as_well_formed]; [Number::as_i64] (the text of the integer);
    the text of the double; [xsd_types::Datatype::from_iri] and [parse]; [json_syntax::Number::new]. *)
Record ldops : Type := MkLd {
  ld_tag : string -> bool;
  ld_i64 : string -> option string;
  ld_f64 : string -> string;
  ld_typed : string -> string -> option xval;
  ld_num : string -> bool
}.

Section Data.
Variable io : ldops.

(** deserialization/object/value.rs 9-61. *)
Definition value_lit (v : value) : dlit :=
  match v with
  | VLit LNull _ => DXsd (XStr "null")
  | VLit (LBool b) _ => DXsd (XBool b)
  | VLit (LNum n) (Some t) => match ld_typed io t n with Some x => DXsd x | None => DTyped n t end
  | VLit (LNum n) None => match ld_i64 io n with
                          | Some i => DXsd (XNum i (xsd "integer"))
                          | None => DXsd (XOther (ld_f64 io n) (xsd "double"))
                          end
  | VLit (LStr s) (Some t) => DTyped s t
  | VLit (LStr s) None => DXsd (XStr s)
  | VLang s => match ls_language s with
               | Some l => if ld_tag io l then DLang (ls_data s) l else DXsd (XStr (ls_data s))
               | None => DXsd (XStr (ls_data s))
               end
  | VJson j => DJson j
  end.

Definition iri_pred (s : string) : vkind := EPred (Some (DId (IIri s))).
(** An identifier alone: IRIs and blank node identifiers have nothing to visit. *)
Definition id_subj (i : id) : subj := MkSubj (Some (DId i)) [].

Definition is_value (o : obj) : bool := match o with OVal _ => true | _ => false end.
(** object/mod.rs 15-45, value.rs 74-81 (nothing to visit), list.rs 13-39, 87-115, node.rs 9-66. *)
Fixpoint obj_subj (o : obj) : subj :=
  match o with
  | OVal v => MkSubj (Some (DLit (value_lit v))) []
  | ONode n => node_subj n
  | OList l => (fix rest (l : list iobj) : subj :=
      match l with
      | [] => MkSubj None []
      | x :: l' =>
          (** object/mod.rs 47-64: [visit_objects] of the item; value.rs 83-90: none for values. *)
          MkSubj None [(iri_pred (rdf "first"), if is_value (snd x) then [] else [obj_subj (snd x)]);
                       (iri_pred (rdf "rest"), [rest l'])]
      end) l
  end
with node_subj (n : node) : subj :=
  match n with
  | MkNode i ts g inc ps rs =>
      MkSubj (match i with Some i => if id_valid i then Some (DId i) else None | None => None end)
        ((match opt_list ts with [] => [] | ts => [(iri_pred (rdf "type"), map id_subj (filter id_valid ts))] end)
         ++ flat_map (fun p => if id_valid (fst p) then [(EPred (Some (DId (fst p))), map (fun x => obj_subj (snd x)) (snd p))] else []) ps
         ++ match rs with
            | Some rs => flat_map (fun p => if id_valid (fst p) then [(ERev (Some (DId (fst p))), map (fun x => node_subj (snd x)) (snd p))] else []) rs
            | None => []
            end
         ++ (match g with
             | Some g => if is_graph n then [(EGraph, map (fun x => obj_subj (snd x)) g)] else []
             | None => []
             end)
         ++ match inc with Some l => map (fun x => (EIncl, [node_subj (snd x)])) l | None => [] end)
  end.

(** deserialization/mod.rs 8-40. *)
Definition doc_data (e : list iobj) : ldata := [(GDefault, map (fun x => obj_subj (snd x)) e)].

(** ** Serialization *)

(** lib.rs 23-39 ([Error]). *)
Inductive serr : Type := SInvalidGraph | SInvalidPredicate | SInvalidNode | SListReverse | SListInclude.

Variables (fin rnd : list word -> N).

(** expanded/value.rs 6-65. *)
Definition xsd_value (v : xval) : value :=
  match v with
  | XBool b => VLit (LBool b) None
  | XStr s => VLit (LStr s) None
  | XNum t dt => if ld_num io t then VLit (LNum t) None else VLit (LStr t) (Some dt)
  | XOther t dt => VLit (LStr t) (Some dt)
  end.
Definition lit_value (l : dlit) : value :=
  match l with
  | DTyped s dt => VLit (LStr s) (if streq dt (xsd "string") then None else Some dt)
  | DLang s t => VLang (MkLS s (Some t) None)
  | DXsd v => xsd_value v
  | DJson j => VJson j
  end.

(** [Properties::set] (properties.rs 164-166): [IndexMap::insert]. *)
Fixpoint set_key {A} (k : id) (v : A) (l : list (id * A)) : list (id * A) :=
  match l with
  | [] => [(k, v)]
  | (k', w) :: l' => if id_eqb k k' then (k', v) :: l' else (k', w) :: set_key k v l'
  end.

(** What the serializers give for a subject: [serialize_object_with], [serialize_node_with], and
    [visit_subject] with a [SerializeList]. *)
Record sres : Type := MkRes {
  r_object : result obj serr;
  r_node : result node serr;
  r_list : result (list iobj) serr
}.
Definition bare_obj (o : obj) : iobj := (None, o).
Definition bare_node (n : node) : inode := (None, n).

(** node.rs 105-111, object.rs 111-137: the identifier of a predicate. *)
Definition pred_id (p : option dterm) : result id serr :=
  match p with Some (DId i) => Ok i | _ => Err SInvalidPredicate end.
Definition is_iri (i : id) (s : string) : bool := match i with IIri u => streq u s | _ => false end.
(** property.rs 31-57, 59-101; graph.rs 28-58. *)
Definition ser_objects (os : list sres) : result (list iobj) serr := do l <- map_r r_object os ; Ok (map bare_obj l).
Definition ser_nodes (os : list sres) : result (list inode) serr := do l <- map_r r_node os ; Ok (map bare_node l).
Definition ser_graph (os : list sres) : result (list iobj) serr :=
  do l <- map_r r_object os ; Ok (fold_left (oset_insert fin rnd) (map bare_obj l) []).
(** list.rs 112-157 ([SerializeListFirst]): the last object. *)
Definition ser_first (os : list sres) : result (option obj) serr :=
  fold_r (fun _ o => do x <- r_object o ; Ok (Some x)) None os.
(** list.rs 159-199 ([SerializeListRest]): the items of the last object. *)
Definition ser_rest (os : list sres) : result (list iobj) serr := fold_r (fun _ o => r_list o) [] os.

(** node.rs 178-195 ([into_type_value]), for objects without an index. *)
Definition type_value (o : obj) : option id :=
  match o with ONode n => if n_empty n then n_id n else None | _ => None end.
Definition as_types (l : list iobj) : list id := flat_map (fun x => match type_value (snd x) with Some i => [i] | None => [] end) l.
Definition not_types (l : list iobj) : list iobj := filter (fun x => negb (is_some (type_value (snd x)))) l.

Definition on_types (f : option (list id) -> option (list id)) (n : node) : node :=
  match n with MkNode i ts g inc ps rs => MkNode i (f ts) g inc ps rs end.
Definition on_props (f : list (id * list iobj) -> list (id * list iobj)) (n : node) : node :=
  match n with MkNode i ts g inc ps rs => MkNode i ts g inc (f ps) rs end.
Definition push_types (l : list id) (ts : option (list id)) : option (list id) :=
  match l with [] => ts | _ => Some (opt_list ts ++ l) end.
(** node.rs 113-137, object.rs 139-165: a predicate, its objects being known. *)
Definition add_objects (p : id) (l : list iobj) (n : node) : node :=
  if is_iri p (rdf "type") then
    on_props (fun ps => match not_types l with [] => ps | r => set_key p r ps end) (on_types (push_types (as_types l)) n)
  else on_props (set_key p l) n.
Definition add_reverse_nodes (p : id) (l : list inode) (n : node) : node :=
  match n with MkNode i ts g inc ps rs => MkNode i ts g inc ps (Some (set_key p l (opt_list rs))) end.
Definition set_graph (g : list iobj) (n : node) : node :=
  match n with MkNode i ts _ inc ps rs => MkNode i ts (Some g) inc ps rs end.
Definition include_node (x : inode) (n : node) : node :=
  match n with MkNode i ts g inc ps rs => MkNode i ts g (Some (nset_insert fin rnd (opt_list inc) x)) ps rs end.

(** node.rs 75-177 ([SerializeNode]); an included node is one subject. *)
Definition node_visit (n : node) (v : vkind * list sres) : result node serr :=
  let '(k, os) := v in
  match k with
  | EPred p => do p <- pred_id p ; do l <- ser_objects os ; Ok (add_objects p l n)
  | ERev p => do p <- pred_id p ; do l <- ser_nodes os ; Ok (add_reverse_nodes p l n)
  | EGraph => do g <- ser_graph os ; Ok (set_graph g n)
  | EIncl => do l <- ser_nodes os ; Ok (fold_left (fun n x => include_node x n) l n)
  end.
Definition visit_node (i : option id) (vs : list (vkind * list sres)) : result node serr := fold_r node_visit (node_new i) vs.

(** object.rs 68-210 ([SerializeObject]): the node being built (without identifier), the first
    item and the rest. *)
Definition ostate : Type := node * option obj * option (list iobj).
Definition object_visit (s : ostate) (v : vkind * list sres) : result ostate serr :=
  let '(n, first, rest) := s in
  match fst v with
  | EPred p =>
      do p <- pred_id p ;
      do (first, rest) <-
        (if is_iri p (rdf "first") then do f <- ser_first (snd v) ; Ok (f, rest)
         else if is_iri p (rdf "rest") then do r <- ser_rest (snd v) ; Ok (first, Some r)
         else Ok (first, rest)) ;
      do l <- ser_objects (snd v) ; Ok (add_objects p l n, first, rest)
  | _ => do n <- node_visit n v ; Ok (n, first, rest)
  end.
(** object.rs 206-254 ([end]). *)
Definition object_end (s : ostate) : obj :=
  let '(n, first, rest) := s in
  match first, rest, n_types n, n_props n, n_graph n with
  | Some x, Some l, None, [], None => OList (rev (l ++ [bare_obj x]))
  | _, _, _, _, _ =>
      let n := match first with Some x => on_props (insert_all (IIri (rdf "first")) [bare_obj x]) n | None => n end in
      let n := match rest with Some l => on_props (insert_all (IIri (rdf "rest")) [bare_obj (OList l)]) n | None => n end in
      ONode n
  end.
Definition visit_object (vs : list (vkind * list sres)) : result obj serr :=
  do s <- fold_r object_visit (node_new None, None, None) vs ; Ok (object_end s).

(** list.rs 20-110 ([SerializeList]). *)
Definition list_visit (s : option obj * list iobj) (v : vkind * list sres) : result (option obj * list iobj) serr :=
  match fst v with
  | EPred p =>
      do p <- pred_id p ;
      if is_iri p (rdf "first") then do f <- ser_first (snd v) ; Ok (f, snd s)
      else if is_iri p (rdf "rest") then do r <- ser_rest (snd v) ; Ok (fst s, r)
      else Ok s
  | ERev _ => Err SListReverse
  | EGraph => Ok s
  | EIncl => Err SListInclude
  end.
Definition visit_list (vs : list (vkind * list sres)) : result (list iobj) serr :=
  do s <- fold_r list_visit (None, []) vs ;
  Ok (snd s ++ [bare_obj (match fst s with Some x => x | None => OVal (VLit LNull None) end)]).

(** object.rs 29-66 ([serialize_object_with]), node.rs 19-48 ([serialize_node_with]). *)
Definition ser_of (r : option dterm) (vs : list (vkind * list sres)) : sres :=
  MkRes
    (match r with
     | Some (DLit l) => Ok (OVal (lit_value l))
     | Some (DId i) => do n <- visit_node (Some i) vs ; Ok (ONode n)
     | None => visit_object vs
     end)
    (match r with
     | Some (DLit _) => Err SInvalidNode
     | Some (DId i) => visit_node (Some i) vs
     | None => visit_node None vs
     end)
    (visit_list vs).
Fixpoint ser (s : subj) : sres :=
  match s with MkSubj r vs => ser_of r (map (fun v => (fst v, map ser (snd v))) vs) end.
Definition serialize_object (s : subj) : result obj serr := r_object (ser s).
Definition serialize_node (s : subj) : result node serr := r_node (ser s).

(** default_graph.rs 48-71: the subjects of the default graph. *)
Definition default_subject (s : subj) : result obj serr :=
  match s_repr s with
  | Some (DLit l) => Ok (OVal (lit_value l))
  | _ => do n <- r_node (ser s) ; Ok (ONode n)
  end.
(** expanded/mod.rs 53-92, lib.rs 42-65 ([serialize]). *)
Definition doc_visit (e : list iobj) (g : gkind * list subj) : result (list iobj) serr :=
  match fst g with
  | GDefault => fold_r (fun e s => do o <- default_subject s ; Ok (oset_insert fin rnd e (bare_obj o))) e (snd g)
  | GNamed (Some (DLit _)) => Err SInvalidGraph
  | GNamed r =>
      do l <- ser_graph (map ser (snd g)) ;
      Ok (oset_insert fin rnd e (bare_obj (ONode (set_graph l (node_new (match r with Some (DId i) => Some i | _ => None end))))))
  end.
Definition serialize (d : ldata) : result (list iobj) serr := fold_r doc_visit [] d.
End Data.

(** ** Specification: what remains of a document *)
Section Remains.
Variable io : ldops.
Variables (fin rnd : list word -> N).
Definition nset (l : list inode) : list inode := fold_left (nset_insert fin rnd) l [].

Definition valid_only (i : option id) : option id := match i with Some i => if id_valid i then Some i else None | None => None end.
Definition non_empty {A} (l : list A) : option (list A) := match l with [] => None | _ => Some l end.

(** Values: types of numbers and booleans, directions and ill-formed languages are lost. *)
Definition rem_number (x : xval) : value :=
  match x with
  | XBool b => VLit (LBool b) None
  | XStr s => VLit (LStr s) None
  | XNum t dt => if ld_num io t then VLit (LNum t) None else VLit (LStr t) (Some dt)
  | XOther t dt => VLit (LStr t) (Some dt)
  end.
Definition rem_type (t : string) : option string := if streq t (xsd "string") then None else Some t.
Definition rem_value (v : value) : value :=
  match v with
  | VLit LNull _ => VLit (LStr "null") None
  | VLit (LBool b) _ => VLit (LBool b) None
  | VLit (LStr s) None => v
  | VLit (LStr s) (Some t) => VLit (LStr s) (rem_type t)
  | VLit (LNum n) (Some t) => match ld_typed io t n with Some x => rem_number x | None => VLit (LStr n) (rem_type t) end
  | VLit (LNum n) None => match ld_i64 io n with
                          | Some i => rem_number (XNum i (xsd "integer"))
                          | None => VLit (LStr (ld_f64 io n)) (Some (xsd "double"))
                          end
  | VLang (MkLS s (Some l) _) => if ld_tag io l then VLang (MkLS s (Some l) None) else VLit (LStr s) None
  | VLang (MkLS s None _) => VLit (LStr s) None
  | VJson j => v
  end.

(** Objects: indexes, invalid identifiers, types and properties, the graphs of nodes that have
    something else are lost; a list is a chain of nodes where the values are lost, each with the
    first item twice, and the rest twice, once as a list in reverse order after a null. *)
Fixpoint remains (o : obj) : obj :=
  match o with
  | OVal v => OVal (rem_value v)
  | ONode n => ONode (remains_node n)
  | OList l => (fix rest (l : list iobj) : obj :=
      match l with
      | [] => ONode (node_new None)
      | x :: l' => ONode (MkNode None None None None
          [(IIri (rdf "first"), if is_value (snd x) then [] else [(None, remains (snd x)); (None, remains (snd x))]);
           (IIri (rdf "rest"), [(None, rest l');
             (None, OList ((None, OVal (VLit LNull None)) :: rev (map (fun x => (None, if is_value (snd x) then OVal (VLit LNull None) else remains (snd x))) l')))])] None)
      end) l
  end
with remains_node (n : node) : node :=
  match n with
  | MkNode i ts g inc ps rs =>
      MkNode (valid_only i) (non_empty (filter id_valid (opt_list ts)))
        (match g with Some g => if is_graph n then Some (oset fin rnd (map (fun x => (None, remains (snd x))) g)) else None | None => None end)
        (match inc with Some l => non_empty (nset (map (fun x => (None, remains_node (snd x))) l)) | None => None end)
        (flat_map (fun p => if id_valid (fst p) then [(fst p, map (fun x => (None, remains (snd x))) (snd p))] else []) ps)
        (match rs with
         | Some rs => non_empty (flat_map (fun p => if id_valid (fst p) then [(fst p, map (fun x => (None, remains_node (snd x))) (snd p))] else []) rs)
         | None => None
         end)
  end.

(** At the top of a document, the first item and the rest of a list are not given twice. *)
Definition remains_top (o : obj) : obj :=
  match o with
  | OList (x :: l) => ONode (MkNode None None None None
      [(IIri (rdf "first"), if is_value (snd x) then [] else [(None, remains (snd x))]);
       (IIri (rdf "rest"), [(None, remains (OList l))])] None)
  | _ => remains o
  end.

(** No property is one of those that the serializer looks at. *)
Definition ordinary_key (p : id) : Prop := p <> IIri (rdf "type") /\ p <> IIri (rdf "first") /\ p <> IIri (rdf "rest").
Inductive ordinary : obj -> Prop :=
| OrVal v : ordinary (OVal v)
| OrNode n : ordinary_node n -> ordinary (ONode n)
| OrList l : Forall (fun x => ordinary (snd x)) l -> ordinary (OList l)
with ordinary_node : node -> Prop :=
| OrMk i ts g inc ps rs :
    Forall (fun x => ordinary (snd x)) (opt_list g) -> Forall (fun x => ordinary_node (snd x)) (opt_list inc) ->
    NoDup (map fst ps) -> Forall (fun p => ordinary_key (fst p) /\ Forall (fun x => ordinary (snd x)) (snd p)) ps ->
    NoDup (map fst (opt_list rs)) -> Forall (fun p => Forall (fun x => ordinary_node (snd x)) (snd p)) (opt_list rs) ->
    ordinary_node (MkNode i ts g inc ps rs).
End Remains.

(** ** Specification: the documents that come back *)
Section Kept.
Variable io : ldops.

Definition kept_value (v : value) : Prop :=
  match v with
  | VLit (LBool _) None | VLit (LStr _) None | VJson _ => True
  | VLit (LStr _) (Some t) => t <> xsd "string"
  | VLit (LNum n) None => ld_i64 io n = Some n /\ ld_num io n = true
  | VLang (MkLS _ (Some l) None) => ld_tag io l = true
  | _ => False
  end.
Inductive kept : obj -> Prop :=
| KeVal v : kept_value v -> kept (OVal v)
| KeNode n : kept_node n -> kept (ONode n)
with kept_node : node -> Prop :=
| KeMk i ts g inc ps rs :
    (forall j, i = Some j -> id_valid j = true) ->
    ts <> Some [] -> Forall (fun t => id_valid t = true) (opt_list ts) ->
    (g <> None -> ts = None /\ inc = None /\ ps = [] /\ rs = None) -> Forall (fun x => fst x = None /\ kept (snd x)) (opt_list g) ->
    inc <> Some [] -> Forall (fun x => fst x = None /\ kept_node (snd x)) (opt_list inc) ->
    Forall (fun p => id_valid (fst p) = true /\ Forall (fun x => fst x = None /\ kept (snd x)) (snd p)) ps ->
    rs <> Some [] -> Forall (fun p => id_valid (fst p) = true /\ Forall (fun x => fst x = None /\ kept_node (snd x)) (snd p)) (opt_list rs) ->
    kept_node (MkNode i ts g inc ps rs).
End Kept.

(** ** Specification: the data that can be serialized *)
Definition every {A} (P : A -> Prop) : list A -> Prop := fix go l := match l with [] => True | x :: l' => P x /\ go l' end.
Definition is_id (r : option dterm) : Prop := exists i, r = Some (DId i).
Definition not_literal (r : option dterm) : Prop := forall l, r <> Some (DLit l).
(** The subject can be read as the rest of a list. *)
Fixpoint listable (s : subj) : Prop :=
  match s with
  | MkSubj _ vs => every (fun v => match fst v with
                                   | EPred p => is_id p /\ (p = Some (DId (IIri (rdf "rest"))) -> every listable (snd v))
                                   | EGraph => True
                                   | _ => False
                                   end) vs
  end.
Fixpoint proper (s : subj) : Prop :=
  match s with
  | MkSubj r vs => every (fun v => every proper (snd v) /\
      match fst v with
      | EPred p => is_id p /\ (r = None -> p = Some (DId (IIri (rdf "rest"))) -> every listable (snd v))
      | ERev p => is_id p /\ every (fun s => not_literal (s_repr s)) (snd v)
      | EGraph => True
      | EIncl => every (fun s => not_literal (s_repr s)) (snd v)
      end) vs
  end.

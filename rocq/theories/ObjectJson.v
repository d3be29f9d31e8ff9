(** Expanded objects to and from JSON: [IntoJsonWithContext] and [TryFromJson] of
    core/src/object/{mod,value,list}.rs, node/mod.rs, node/{properties,reverse_properties}.rs,
    indexed.rs, id.rs, lang_string.rs. *)
From Verif Require Import Prelude Json Enums LangTag LangString Str Keyword Container ContextSyntax Ctx Process Object ObjectEq.

(** ** To JSON *)

(** value.rs 94-101. *)
Definition lit_json (l : lit) : json :=
  match l with LNull => JNull | LBool b => JBool b | LNum n => JNum n | LStr s => JStr s end.
(** value.rs 603-636. *)
Definition value_json (v : value) : json :=
  match v with
  | VLit l t =>
      let m := match t with Some t => insert "@type" (JStr t) [] | None => [] end in
      JObj (insert "@value" (lit_json l) m)
  | VLang s =>
      let m := match ls_language s with Some l => insert "@language" (JStr l) [] | None => [] end in
      let m := match ls_direction s with Some d => insert "@direction" (JStr (dir_str d)) m | None => m end in
      JObj (insert "@value" (JStr (ls_data s)) m)
  | VJson j => JObj (insert "@value" j (insert "@type" (JStr "@json") []))
  end.
(** indexed.rs 166-178. *)
Definition with_index (i : option string) (j : json) : json :=
  match j, i with
  | JObj m, Some i => JObj (insert "@index" (JStr i) m)
  | _, _ => j
  end.
(** id.rs 338-342. *)
Definition id_json (i : id) : json := JStr (id_str i).

(** mod.rs 1157-1165, list.rs 209-217, node/mod.rs 1295-1343, reverse_properties.rs 337-350,
    multiset.rs 205-214. *)
Fixpoint obj_json (o : obj) : json :=
  match o with
  | OVal v => value_json v
  | ONode n => node_json n
  | OList l => JObj (insert "@list" (JArr (map (fun x => with_index (fst x) (obj_json (snd x))) l)) [])
  end
with node_json (n : node) : json :=
  match n with
  | MkNode i ts g inc ps rs =>
      let m := match i with Some i => insert "@id" (id_json i) [] | None => [] end in
      let m := match ts with
               | Some ((_ :: _) as ts) => insert "@type" (JArr (map id_json ts)) m
               | _ => m
               end in
      let m := match g with Some g => insert "@graph" (JArr (map (fun x => with_index (fst x) (obj_json (snd x))) g)) m | None => m end in
      let m := match inc with Some l => insert "@include" (JArr (map (fun x => with_index (fst x) (node_json (snd x))) l)) m | None => m end in
      let m := match rs with
               | Some rs => insert "@reverse" (JObj (fold_left (fun m p =>
                   insert (id_str (fst p)) (JArr (map (fun x => with_index (fst x) (node_json (snd x))) (snd p))) m) rs [])) m
               | None => m
               end in
      JObj (fold_left (fun m p =>
        insert (id_str (fst p)) (JArr (map (fun x => with_index (fst x) (obj_json (snd x))) (snd p))) m) ps m)
  end.
Definition iobj_json (x : iobj) : json := with_index (fst x) (obj_json (snd x)).
Definition inode_json (x : inode) : json := with_index (fst x) (node_json (snd x)).

(** ** From JSON *)

(** mod.rs 889-902; [JFuel] is the model's own (never returned, see [try_no_fuel]). *)
Inductive jerr : Type :=
| JInvalidObject | JInvalidList | JInvalidIndex | JInvalidId | JInvalidValueType | JInvalidLiteral
| JInvalidDirection | JNotExpanded | JUnexpectedEntry | JDuplicateKey (k : string) | JUnexpected | JFuel.

(** [Object::remove_unique] followed by [InvalidExpandedJson::duplicate_key], mod.rs 904-912. *)
Definition remove_unique (k : string) (m : jobject) : result (option json * jobject) jerr :=
  match get_unique k m with Ok v => Ok (v, remove_key k m) | Err _ => Err (JDuplicateKey k) end.

Fixpoint map_r {A B E} (f : A -> result B E) (l : list A) : result (list B) E :=
  match l with
  | [] => Ok []
  | x :: l' => do y <- f x ; do r <- map_r f l' ; Ok (y :: r)
  end.

(** value.rs 336-348. *)
Definition lit_of_json (j : json) : result lit jerr :=
  match j with
  | JNull => Ok LNull | JBool b => Ok (LBool b) | JNum n => Ok (LNum n) | JStr s => Ok (LStr s)
  | _ => Err JInvalidLiteral
  end.
(** lang_string.rs 140-188. *)
Definition ls_of_json (m : jobject) (v : json) (language dir : option json) : result lang_string jerr :=
  do data <- (match v with JStr s => Ok s | _ => Err JUnexpected end) ;
  do l <- (match language with Some (JStr s) => Ok (Some s) | Some _ => Err JUnexpected | None => Ok None end) ;
  do d <- (match dir with
           | Some (JStr s) => match dir_of_str s with Some d => Ok (Some d) | None => Err JInvalidDirection end
           | Some _ => Err JUnexpected
           | None => Ok None
           end) ;
  match m with [] => Ok (MkLS data l d) | _ => Err JUnexpectedEntry end.

Section Parse.
  Variable io : iops.
  Variables (fin rnd : list word -> N).

  (** value.rs 260-306. *)
  Definition value_of_json (m : jobject) (v : json) : result value jerr :=
    do (t, m) <- remove_unique "@type" m ;
    match t with
    | Some (JStr t) =>
        if streq t "@json" then Ok (VJson v)
        else if iri_ok io t then do l <- lit_of_json v ; Ok (VLit l (Some t))
        else Err JInvalidValueType
    | Some _ => Err JInvalidValueType
    | None =>
        do (l, m) <- remove_unique "@language" m ;
        do (d, m) <- remove_unique "@direction" m ;
        match l, d with
        | None, None => do l <- lit_of_json v ; Ok (VLit l None)
        | _, _ => do s <- ls_of_json m v l d ; Ok (VLang s)
        end
    end.

  (** id.rs 100-118. *)
  Definition id_of_json (j : json) : result id jerr :=
    match j with JStr s => Ok (id_of_string io s) | _ => Err JInvalidId end.

  (** mod.rs 796-814 ([Vec]). *)
  Definition list_of_json {A} (f : json -> result A jerr) (j : json) : result (list A) jerr :=
    match j with JArr l => map_r f l | _ => Err JInvalidList end.
  (** mod.rs 816-834 ([IndexSet]): an element equal to an earlier one is dropped. *)
  Definition set_insert {A} (h : A -> N) (e : A -> A -> bool) (s : list A) (x : A) : list A :=
    if existsb (fun y => N.eqb (h y) (h x) && e y x) s then s else s ++ [x].
  Definition set_of_json {A} (h : A -> N) (e : A -> A -> bool) (f : json -> result A jerr) (j : json) : result (list A) jerr :=
    do l <- list_of_json f j ; Ok (fold_left (set_insert h e) l []).
  (** properties.rs 123-133 ([insert_all]). *)
  Fixpoint insert_all {A} (k : id) (v : list A) (l : list (id * list A)) : list (id * list A) :=
    match l with
    | [] => [(k, v)]
    | (k', w) :: l' => if id_eqb k k' then (k', w ++ v) :: l' else (k', w) :: insert_all k v l'
    end.
  (** properties.rs 213-228, reverse_properties.rs 218-233. *)
  Definition props_of_json {A} (f : json -> result A jerr) (m : jobject) : result (list (id * list A)) jerr :=
    do l <- map_r (fun e => do v <- list_of_json f (snd e) ; Ok (id_of_string io (fst e), v)) m ;
    Ok (fold_left (fun r p => insert_all (fst p) (snd p) r) l []).

  (** indexed.rs 87-113. *)
  Definition indexed_of_json {A} (f : jobject -> result A jerr) (j : json) : result (option string * A) jerr :=
    match j with
    | JObj m =>
        do (i, m) <- remove_unique "@index" m ;
        do i <- (match i with Some (JStr s) => Ok (Some s) | Some _ => Err JInvalidIndex | None => Ok None end) ;
        do x <- f m ; Ok (i, x)
    | _ => Err JInvalidObject
    end.

  Definition opt_r {A B E} (f : A -> result B E) (o : option A) : result (option B) E :=
    match o with Some x => do y <- f x ; Ok (Some y) | None => Ok None end.

  Definition iobj_hash (x : iobj) : N := rnd (iobj_words fin x).
  Definition inode_hash (x : inode) : N := rnd (inode_words fin x).
  Definition iobj_eqb (x y : iobj) : bool := opt_eqb streq (fst x) (fst y) && obj_eqb fin rnd (snd x) (snd y).
  Definition inode_eqb (x y : inode) : bool := opt_eqb streq (fst x) (fst y) && node_eqb fin rnd (snd x) (snd y).

  (** node/mod.rs 1234-1293; [pi] and [pn] parse indexed objects and nodes. *)
  Definition node_of_json (pi : json -> result iobj jerr) (pn : json -> result inode jerr) (m : jobject) : result node jerr :=
    do (i, m) <- remove_unique "@id" m ;
    do i <- opt_r id_of_json i ;
    do (ts, m) <- remove_unique "@type" m ;
    do ts <- opt_r (list_of_json id_of_json) ts ;
    do (g, m) <- remove_unique "@graph" m ;
    do g <- opt_r (set_of_json iobj_hash iobj_eqb pi) g ;
    do (inc, m) <- remove_unique "@included" m ;
    do inc <- opt_r (set_of_json inode_hash inode_eqb pn) inc ;
    do (rs, m) <- remove_unique "@reverse" m ;
    do rs <- opt_r (fun j => match j with JObj m => props_of_json pn m | _ => Err JInvalidObject end) rs ;
    do ps <- props_of_json pi m ;
    Ok (MkNode i ts g inc ps rs).

  (** mod.rs 836-882, list.rs 139-150. *)
  Definition obj_of_json (pi : json -> result iobj jerr) (pn : json -> result inode jerr) (m : jobject) : result obj jerr :=
    do (c, m) <- remove_unique "@context" m ;
    match c with
    | Some _ => Err JNotExpanded
    | None =>
        do (v, m) <- remove_unique "@value" m ;
        match v with
        | Some v => do v <- value_of_json m v ; Ok (OVal v)
        | None =>
            do (l, m) <- remove_unique "@list" m ;
            match l with
            | Some j =>
                do l <- list_of_json pi j ;
                match m with [] => Ok (OList l) | _ => Err JUnexpectedEntry end
            | None => do n <- node_of_json pi pn m ; Ok (ONode n)
            end
        end
    end.

  (** The recursion of the parser; [n] bounds the nesting. *)
  Fixpoint parse_i (n : nat) (j : json) {struct n} : result iobj jerr :=
    match n with O => Err JFuel | S n => indexed_of_json (obj_of_json (parse_i n) (parse_n n)) j end
  with parse_n (n : nat) (j : json) {struct n} : result inode jerr :=
    match n with O => Err JFuel | S n => indexed_of_json (node_of_json (parse_i n) (parse_n n)) j end.

  Definition try_from_json (j : json) : result iobj jerr := parse_i (json_size j) j.
  Definition try_node_from_json (j : json) : result inode jerr := parse_n (json_size j) j.
End Parse.

(** ** Specification: what can be written *)
Section Printable.
  Variable io : iops.
  (** Read back as itself. *)
  Definition readable (i : id) : Prop := id_of_string io (id_str i) = i.
  Definition reserved : list string :=
    ["@context"; "@value"; "@list"; "@id"; "@type"; "@graph"; "@included"; "@reverse"; "@index"].
  Inductive pr_value : value -> Prop :=
  | PvLit l t : (forall t', t = Some t' -> iri_ok io t' = true /\ t' <> "@json") -> pr_value (VLit l t)
  | PvLang s : tagged s -> pr_value (VLang s)
  | PvJson j : pr_value (VJson j).
  Inductive printable : obj -> Prop :=
  | PrVal v : pr_value v -> printable (OVal v)
  | PrNode n : printable_node n -> printable (ONode n)
  | PrList l : Forall (fun x => printable (snd x)) l -> printable (OList l)
  with printable_node : node -> Prop :=
  | PrMk i ts g ps rs :
      (forall x, i = Some x -> readable x) -> ts <> Some [] -> Forall readable (opt_list ts) ->
      Forall (fun x => printable (snd x)) (opt_list g) ->
      Forall (fun p => readable (fst p) /\ ~ In (id_str (fst p)) reserved /\ Forall (fun x => printable (snd x)) (snd p)) ps ->
      Forall (fun p => readable (fst p) /\ Forall (fun x => printable_node (snd x)) (snd p)) (opt_list rs) ->
      printable_node (MkNode i ts g None ps rs).
End Printable.

(** What a parsed object must satisfy to be written back: no included nodes, no empty list of
    types, no property of a reversed node called "@context", "@value" or "@list". *)
Inductive plain : obj -> Prop :=
| PlVal v : plain (OVal v)
| PlNode n : plain_node n -> plain (ONode n)
| PlList l : Forall (fun x => plain (snd x)) l -> plain (OList l)
with plain_node : node -> Prop :=
| PlMk i ts g ps rs : ts <> Some [] -> Forall (fun x => plain (snd x)) (opt_list g) ->
    Forall (fun p => Forall (fun x => plain (snd x)) (snd p)) ps ->
    Forall (fun p => Forall (fun x => plain_node (snd x) /\
      forall q, In q (n_props (snd x)) -> ~ In (id_str (fst q)) ["@context"; "@value"; "@list"]) (snd p)) (opt_list rs) ->
    plain_node (MkNode i ts g None ps rs).

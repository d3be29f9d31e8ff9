(** Model of the compaction algorithm: crates/compaction/src/{lib,value,property,node,document}.rs.

    Context processing is [process_full] with a fixed fuel [pf]; IRI compaction is CompactIri.v.
    Asynchrony is not modelled.  [unwrap] gives [KePanic].  The recursion over the objects is
    bounded by a fuel argument; running out of it is [KeFuel], which no Rust execution produces. *)
From Verif Require Import Prelude Json Str Keyword Enums LangTag LangString Container Stack ContextSyntax Ctx Inverse Process
  Object ObjectJson AddValue CompactIri Expand.

(** lib.rs 33-43. *)
Inductive kerr : Type := KeIri | KeNest | KeContext (e : cerr) | KePanic | KeFuel.

(** lib.rs 67-83; [compact_to_relative] is never read. *)
Record copts : Type := MkCOpts { co_mode : mode; co_arrays : bool; co_ordered : bool }.
(** lib.rs 112-121. *)
Definition copts_default : copts := MkCOpts JsonLd11 true false.
(** lib.rs 94-101. *)
Definition popts_for (o : copts) : popts := MkOpts (co_mode o) false true AKeep.

Definition is_null (j : json) : bool := match j with JNull => true | _ => false end.
(** The container mapping of a term (definition.rs 115-126, 375-380): the definition of [@type]
    has the container [@set]. *)
Definition container_of (c : actx) (k : string) : container :=
  if streq k "@type" then match ac_type c with Some _ => CSet | None => CNone end
  else match get_normal c k with Some d => nd_container d | None => CNone end.
Definition container_ap (c : actx) (ap : option string) : container :=
  match ap with Some k => container_of c k | None => CNone end.

(** lib.rs 434-447 ([value_value]), literals. *)
Definition lit_json (l : lit) : json :=
  match l with LNull => JNull | LBool b => JBool b | LNum n => JNum n | LStr s => JStr s end.
Definition value_value (v : value) : json :=
  match v with VLit l _ => lit_json l | VLang s => JStr (ls_data s) | VJson j => j end.
(** node.rs 10-13 ([optional_string]). *)
Definition opt_string (s : option string) : json := match s with Some s => JStr s | None => JNull end.
(** core lenient_language_tag.rs: comparison of languages; derived comparison of directions. *)
Definition lang_opt_eqb : option string -> option string -> bool := opt_eqb lang_eqb.
Definition dir_opt_eqb : option direction -> option direction -> bool := opt_eqb direction_eqb.

(** [add_value], where [None] is a panic. *)
Definition kadd (m : jobject) (k : string) (v : json) (as_array : bool) : result jobject kerr :=
  match add_value m k v as_array with Some m => Ok m | None => Err KePanic end.
(** [get_unique(k).ok().unwrap()]. *)
Definition kget (k : string) (m : jobject) : result (option json) kerr :=
  match get_unique k m with Ok v => Ok v | Err _ => Err KePanic end.

(** property.rs 123-141 and similar: the map under a key, created if necessary, is changed by
    [f]. *)
Definition in_map (m : jobject) (k : string) (f : jobject -> result jobject kerr) : result jobject kerr :=
  do v <- kget k m ;
  match v with
  | None => do x <- f [] ; Ok (insert k (JObj x) m)
  | Some (JObj x) => do x <- f x ; Ok (insert k (JObj x) m)
  | Some _ => Err KePanic
  end.

Section Compact.
Variable io : iops.
Variable ld : loader.
Variable rel : string -> string -> string.
Variable pf : nat.
Variable o : copts.

Definition kiri (c : actx) (t : term) (vocab : bool) : result (option string) kerr :=
  match compact_iri rel c (co_mode o) t vocab false with
  | Ok k => Ok k
  | Err IEConfused => Err KeIri
  | Err IEPanic => Err KePanic
  end.
Definition kiri_with (c : actx) (t : term) (x : iobj) (reverse : bool) : result (option string) kerr :=
  match compact_iri_full rel c (co_mode o) t (Some x) true reverse with
  | Ok k => Ok k
  | Err IEConfused => Err KeIri
  | Err IEPanic => Err KePanic
  end.
(** [compact_iri(..)?.unwrap()]. *)
Definition kunwrap (r : result (option string) kerr) : result string kerr :=
  do k <- r ; match k with Some k => Ok k | None => Err KePanic end.
Definition kkey (c : actx) (k : keyword) : result string kerr := kunwrap (kiri c (TmKw k) true).
(** [result.insert(compact_key(keyword)?.unwrap(), v)]. *)
Definition put (c : actx) (k : keyword) (v : json) (m : jobject) : result jobject kerr :=
  do k <- kkey c k ; Ok (insert k v m).

Definition kprocess (c : actx) (lc : lcontext) (url : option string) (po : popts) : result actx kerr :=
  map_err KeContext (process_full io ld pf c lc url po).
(** value.rs 26-44, node.rs 46-66: the local context of the active property, whose definition is
    looked up in [dc]. *)
Definition scoped (dc : actx) (c : actx) (ap : option string) : result actx kerr :=
  match prop_def dc ap with
  | Some d => match nd_context d with
              | Some lc => kprocess c lc (nd_base_url d) (with_override (popts_for o))
              | None => Ok c
              end
  | None => Ok c
  end.

(** *** Values *)

(** value.rs 102-103. *)
Definition remove_index (c : actx) (ap : option string) (index : option string) : bool :=
  negb (is_some index) || c_contains (container_ap c ap) CKIndex.
Definition mapped_type (d : option ndef) : option ty := match d with Some d => nd_typ d | None => None end.
(** value.rs 53-299: without the local context. *)
Definition compact_value_in (c : actx) (ap : option string) (index : option string) (v : value) : result json kerr :=
  let d := prop_def c ap in
  let language := lang_for c d in
  let direction := dir_for c d in
  let removed := remove_index c ap index in
  let finish m :=
    do m <- (if negb removed then match index with Some i => put c KIndex (JStr i) m | None => Ok m end else Ok m) ;
    Ok (JObj m) in
  match v with
  | VLit l t =>
      if opt_eqb ty_eqb (option_map TyIri t) (mapped_type d) && removed then
        match l with
        | LStr s => if is_some t || negb (is_some language) && negb (is_some direction) then Ok (JStr s)
                    else do m <- put c KValue (JStr s) [] ; finish m
        | _ => Ok (lit_json l)
        end
      else
        do m <- put c KValue (lit_json l) [] ;
        do m <- (match t with
                 | Some t => do k <- kkey c KType ;
                             do s <- kiri c (TmId (IIri t)) true ;
                             Ok (insert k (opt_string s) m)
                 | None => Ok m
                 end) ;
        finish m
  | VLang s =>
      if removed && (negb (is_some (ls_language s)) || lang_opt_eqb language (ls_language s))
         && (negb (is_some (ls_direction s)) || dir_opt_eqb direction (ls_direction s))
      then Ok (JStr (ls_data s))
      else
        do m <- put c KValue (JStr (ls_data s)) [] ;
        do m <- (match ls_language s with Some l => put c KLanguage (JStr l) m | None => Ok m end) ;
        do m <- (match ls_direction s with Some d => put c KDirection (JStr (dir_str d)) m | None => Ok m end) ;
        finish m
  | VJson j =>
      if opt_eqb ty_eqb (mapped_type d) (Some TyJson) && removed then Ok j
      else
        do m <- put c KValue j [] ;
        do k <- kkey c KType ;
        do s <- kiri c (TmKw KJson) true ;
        finish (insert k (opt_string s) m)
  end.
(** value.rs 10-302 ([compact_indexed_value_with]). *)
Definition compact_value (c : actx) (ap : option string) (index : option string) (v : value) : result json kerr :=
  do c <- scoped c c ap ; compact_value_in c ap index v.

Section Items.
(** [compact_indexed_fragment]: index, object, active context, type-scoped context, active
    property. *)
Variable rec : option string -> obj -> actx -> actx -> option string -> result json kerr.

(** lib.rs 449-507 ([compact_collection_with]). *)
Definition compact_collection (l : list iobj) (c tsc : actx) (ap : option string) : result json kerr :=
  do r <- flat_r (fun x => do j <- rec (fst x) (snd x) c tsc ap ; Ok (if is_null j then [] else [j])) l ;
  Ok (match r with
      | [j] => if negb (co_arrays o) || ap_is ap KGraph || ap_is ap KSet
                  || c_contains (container_ap c ap) CKList || c_contains (container_ap c ap) CKSet
               then JArr r else j
      | _ => JArr r
      end).

(** property.rs 16-95 ([compact_property_list]). *)
Definition compact_property_list (l : list iobj) (index : option string) (m : jobject) (cn : container) (as_array : bool)
  (key : string) (c : actx) : result jobject kerr :=
  do j <- compact_collection l c c (Some key) ;
  let j := match j with JArr _ => j | _ => JArr [j] end in
  if negb (c_contains cn CKList) then
    do x <- put c KList j [] ;
    do x <- (match index with Some i => put c KIndex (JStr i) x | None => Ok x end) ;
    kadd m key (JObj x) as_array
  else Ok (insert key j m).

(** node/mod.rs 316-318 ([is_simple_graph]), for a graph object. *)
Definition is_simple (n : node) : bool := negb (is_some (n_id n)).
(** property.rs 101-301 ([compact_property_graph]); [g] is the graph of [n]. *)
Definition compact_property_graph (n : node) (g : list iobj) (index : option string) (m : jobject) (cn : container)
  (as_array : bool) (key : string) (c : actx) : result jobject kerr :=
  do j <- compact_collection g c c (Some key) ;
  if c_contains cn CKGraph && c_contains cn CKId then
    in_map m key (fun x =>
      do k <- kunwrap (match n_id n with Some i => kiri c (TmId i) false | None => kiri c (TmKw KNone) true end) ;
      kadd x k j as_array)
  else if c_contains cn CKGraph && c_contains cn CKIndex && is_simple n then
    in_map m key (fun x => kadd x (match index with Some i => i | None => "@none" end) j as_array)
  else if c_contains cn CKGraph && is_simple n then
    do j <- (match j with
             | JArr (_ :: _ :: _) => do x <- put c KIncluded j [] ; Ok (JObj x)
             | _ => Ok j
             end) ;
    kadd m key j as_array
  else
    do x <- put c KGraph j [] ;
    do x <- (match n_id n with
             | Some i => do k <- kunwrap (kiri c (TmKw KId) false) ;
                         do s <- kiri c (TmId i) false ;
                         Ok (insert k (opt_string s) x)
             | None => Ok x
             end) ;
    do x <- (match index with Some i => put c KIndex (JStr i) x | None => Ok x end) ;
    kadd m key (JObj x) as_array.

(** property.rs 303-382 ([select_nest_result]): [f] changes the map that receives the values. *)
Definition with_nest (m : jobject) (c : actx) (key : string) (f : jobject -> result jobject kerr) : result jobject kerr :=
  match prop_def c (Some key) with
  | Some d =>
      match nd_nest d with
      | Some n =>
          if match n with
             | TNest => true
             | TNestTerm t => match get_value c t with Some (Some (TmKw KNest)) => true | _ => false end
             end
          then in_map m (tnest_str n) f
          else Err KeNest
      | None => f m
      end
  | None => f m
  end.
Definition as_array_for (c : actx) (key : string) : bool :=
  c_contains (container_of c key) CKSet || streq key "@graph" || streq key "@list" || negb (co_arrays o).

(** property.rs 571-602, 650-677: the first value of a key, which is removed, and the others. *)
Definition take_first (k : string) (j : json) : result (option string * list json * json) kerr :=
  match j with
  | JObj x =>
      do v <- kget k x ;
      let x' := JObj (remove_key k x) in
      Ok (match v with
          | Some (JStr s) => (Some s, [], x')
          | Some (JArr (v :: l)) => (as_str v, l, x')
          | Some (JArr []) => (None, [], x')
          | Some v => (None, [v], x')
          | None => (None, [], j)
          end)
  | _ => Ok (None, [], j)
  end.
(** property.rs 609-620, 684-695. *)
Definition put_back (k : string) (l : list json) (j : json) : result json kerr :=
  match l, j with
  | [], _ => Ok j
  | _, JObj x => do x <- fold_r (fun x v => kadd x k v false) x l ; Ok (JObj x)
  | _, _ => Ok j
  end.

(** property.rs 515-743: the key of an item in the map of its property, and its value. *)
Definition map_entry (cn : container) (key : string) (x : iobj) (j : json) (c : actx) : result (string * json) kerr :=
  do (k, j) <-
    (if c_contains cn CKLanguage && is_value (snd x) then
       Ok (match snd x with OVal v => (v_language v, value_value v) | _ => (None, j) end)
     else if c_contains cn CKLanguage then
       (* [container_type] is [Language] but none of the branches for it applies: the last one,
          for [@type], with the compacted [@language] *)
       do ck <- kkey c KLanguage ;
       do (r, j) <- take_first ck j ;
       let '(k, l) := r in
       do j <- put_back ck l j ;
       do j <- (match j with
                | JObj [("@id", _)] =>
                    match o_id (snd x) with
                    | Some i => rec None (ONode (node_new (Some i))) c c (Some key)
                    | None => Err KePanic
                    end
                | _ => Ok j
                end) ;
       Ok (k, j)
     else if c_contains cn CKIndex then
       match match prop_def c (Some key) with Some d => nd_index d | None => None end with
       | Some ik =>
           do ck <- kunwrap (kiri c (TmId (IInvalid ik)) true) ;
           do (r, j) <- take_first ck j ;
           let '(k, l) := r in
           do j <- put_back ck l j ;
           Ok (k, j)
       | None => Ok (fst x, j)
       end
     else if c_contains cn CKId then
       do ck <- kkey c KId ;
       match j with
       | JObj y => do v <- kget ck y ;
                   Ok (match v with Some v => (as_str v, JObj (remove_key ck y)) | None => (None, j) end)
       | _ => Ok (None, j)
       end
     else
       do ck <- kkey c KType ;
       do (r, j) <- take_first ck j ;
       let '(k, l) := r in
       do j <- put_back ck l j ;
       do j <- (match j with
                | JObj [("@id", _)] =>
                    match o_id (snd x) with
                    | Some i => rec None (ONode (node_new (Some i))) c c (Some key)
                    | None => Err KePanic
                    end
                | _ => Ok j
                end) ;
       Ok (k, j)) ;
  do k <- (match k with Some k => Ok k | None => kkey c KNone end) ;
  Ok (k, j).

(** property.rs 469-749: an item that is neither a list nor a graph object. *)
Definition compact_plain (x : iobj) (m : jobject) (cn : container) (as_array : bool) (key : string) (c : actx)
  : result jobject kerr :=
  do j <- rec (fst x) (snd x) c c (Some key) ;
  if negb (c_contains cn CKGraph)
     && (c_contains cn CKLanguage || c_contains cn CKIndex || c_contains cn CKId || c_contains cn CKType)
  then in_map m key (fun y => do (k, j) <- map_entry cn key x j c ; kadd y k j as_array)
  else kadd m key j as_array.

(** property.rs 407-751: an item. *)
Definition compact_item (t : term) (c : actx) (reverse : bool) (m : jobject) (x : iobj) : result jobject kerr :=
  do key <- kiri_with c t x reverse ;
  match key with
  | None => Ok m
  | Some key =>
      with_nest m c key (fun m =>
        let cn := container_of c key in
        let as_array := as_array_for c key in
        match snd x with
        | OList l => compact_property_list l (fst x) m cn as_array key c
        | ONode n => match (if is_graph n then n_graph n else None) with
                     | Some g => compact_property_graph n g (fst x) m cn as_array key c
                     | None => compact_plain x m cn as_array key c
                     end
        | OVal _ => compact_plain x m cn as_array key c
        end)
  end.

(** property.rs 386-786 ([compact_property]). *)
Definition compact_property (t : term) (l : list iobj) (c : actx) (reverse : bool) (m : jobject) : result jobject kerr :=
  match l with
  | [] =>
      do key <- kiri_with c t (None, ONode (node_new None)) reverse ;
      match key with
      | None => Ok m
      | Some key => with_nest m c key (fun m => kadd m key (JArr []) true)
      end
  | _ => fold_r (compact_item t c reverse) m l
  end.

(** node.rs 71-108: the contexts of the types. *)
Definition compact_types_context (tsc : actx) (n : node) (c : actx) : result actx kerr :=
  do ts <- map_r (fun t => kunwrap (kiri tsc (TmId t) true)) (opt_list (n_types n)) ;
  fold_r (fun c t =>
    match prop_def tsc (Some t) with
    | Some d => match nd_context d with
                | Some lc => kprocess c lc (nd_base_url d) (without_propagation (popts_for o))
                | None => Ok c
                end
    | None => Ok c
    end) c (sort_key (fun s => s) ts).

(** node.rs 373-449 ([compact_types]). *)
Definition compact_types (tsc c : actx) (ts : option (list id)) (m : jobject) : result jobject kerr :=
  match opt_list ts with
  | [] => Ok m
  | ts =>
      do v <- (match ts with
               | [t] => do s <- kiri tsc (TmId t) true ; Ok (opt_string s)
               | _ => do l <- map_r (fun t => do s <- kiri tsc (TmId t) true ; Ok (opt_string s)) ts ; Ok (JArr l)
               end) ;
      do alias <- kkey c KType ;
      let as_array := match co_mode o with JsonLd11 => c_contains (container_of c alias) CKSet | JsonLd10 => false end
                      || negb (co_arrays o) in
      kadd m alias v as_array
  end.

(** node.rs 269-309: the reverse properties are moved to the result or to [@reverse]. *)
Definition reverse_step (c : actx) (s : jobject * jobject) (e : string * json) : result (jobject * jobject) kerr :=
  let '(m, r) := s in
  let '(k, v) := e in
  if match prop_def c (Some k) with Some d => nd_reverse d | None => false end
  then do m <- kadd m k v (c_contains (container_of c k) CKSet || negb (co_arrays o)) ; Ok (m, r)
  else Ok (m, insert k v r).

(** node.rs 204-370: the entries after [@id]. *)
Definition compact_node_body (n : node) (index : option string) (c tsc : actx) (ap : option string) (m : jobject) : result json kerr :=
  let entries := if co_ordered o then sort_key (fun e => id_str (fst e)) (n_props n) else n_props n in
  do m <- compact_types tsc c (n_types n) m ;
  do (c, m) <-
    (match opt_list (n_reverse n) with
     | [] => Ok (c, m)
     | rs =>
         do c <- scoped c c (Some "@reverse") ;
         do r <- fold_r (fun r e => compact_property (TmId (fst e)) (map (fun x : inode => (fst x, ONode (snd x))) (snd e)) c true r) [] rs ;
         do (m, r) <- fold_r (reverse_step c) (m, []) r ;
         do m <- (match r with [] => Ok m | _ => put c KReverse (JObj r) m end) ;
         Ok (c, m)
     end) ;
  do m <- (match index with
           | Some i => if c_contains (container_ap c ap) CKIndex then Ok m else put c KIndex (JStr i) m
           | None => Ok m
           end) ;
  do m <- (match n_graph n with Some g => compact_property (TmKw KGraph) g c false m | None => Ok m end) ;
  do m <- fold_r (fun m e => compact_property (TmId (fst e)) (snd e) c false m) m entries ;
  do m <- (match n_included n with
           | Some l => compact_property (TmKw KIncluded) (map (fun x : inode => (fst x, ONode (snd x))) l) c false m
           | None => Ok m
           end) ;
  Ok (JObj m).
(** node.rs 120-370: after the contexts. *)
Definition compact_node_in (n : node) (index : option string) (c tsc : actx) (ap : option string) : result json kerr :=
  let body := compact_node_body n index c tsc ap in
  match n_id n with
  | None => body []
  | Some i =>
      let t := mapped_type (prop_def c ap) in
      match (if n_empty n then t else None) with
      | Some TyId => do s <- kiri c (TmId i) false ; Ok (opt_string s)
      | Some TyVocab => do s <- kiri c (TmId i) true ; Ok (opt_string s)
      | _ =>
          do s <- kiri c (TmId i) false ;
          do alias <- kiri c (TmKw KId) true ;
          body (match alias with Some k => insert k (opt_string s) [] | None => [] end)
      end
  end.
(** node.rs 17-370 ([compact_indexed_node_with]). *)
Definition compact_node (n : node) (index : option string) (c tsc : actx) (ap : option string) : result json kerr :=
  let c := if n_empty n && is_some (n_id n) then c else match ac_prev c with Some p => p | None => c end in
  do c <- scoped tsc c ap ;
  do c <- compact_types_context tsc n c ;
  compact_node_in n index c tsc ap.

(** lib.rs 298-395: a list object. *)
Definition compact_list (l : list iobj) (index : option string) (c tsc : actx) (ap : option string) : result json kerr :=
  let c := match ac_prev c with Some p => p | None => c end in
  do c <- scoped tsc c ap ;
  if c_contains (container_ap tsc ap) CKList then compact_collection l c c ap
  else
    do m <- compact_property (TmKw KList) l c false [] ;
    do m <- (match index with
             | Some i => if c_contains (container_ap c ap) CKIndex then Ok m else put c KIndex (JStr i) m
             | None => Ok m
             end) ;
    Ok (JObj m).
End Items.

(** lib.rs 249-396 ([compact_indexed_fragment]). *)
Fixpoint compact_object (n : nat) (index : option string) (x : obj) (c tsc : actx) (ap : option string) : result json kerr :=
  match n with
  | O => Err KeFuel
  | S n =>
      match x with
      | OVal v => compact_value c ap index v
      | ONode y => compact_node (compact_object n) y index c tsc ap
      | OList l => compact_list (compact_object n) l index c tsc ap
      end
  end.

(** document.rs 151-201 ([embed_context]); [j] is the unprocessed context. *)
Definition embed_context (c : actx) (j : json) (v : json) : result json kerr :=
  do m <- (match v with
           | JArr [] => Ok (Some [])
           | JArr l => do k <- kkey c KGraph ; Ok (Some (insert k (JArr l) []))
           | JObj m => Ok (Some m)
           | _ => Ok None
           end) ;
  Ok (match m with
      | Some m => if match m with [] => true | _ => false end || match j with JNull | JArr [] | JObj [] => true | _ => false end
                  then JObj m else JObj (("@context", j) :: remove_key "@context" m)
      | None => JNull
      end).

(** document.rs 88-116 ([compact_full] for expanded documents): the processed context, and the
    unprocessed one. *)
Definition compact (n : nat) (c : actx) (j : json) (doc : list iobj) : result json kerr :=
  do v <- compact_collection (compact_object n) doc c c None ;
  embed_context c j v.
End Compact.

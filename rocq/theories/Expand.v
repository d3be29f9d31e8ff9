(** Model of the expansion algorithm: crates/expansion/src/{element,array,literal,value,node,
    document,expanded,options,error}.rs.

    Context processing is [process_full] of Process.v with a fixed fuel [pf]; IRI expansion is
    [expand_iri_simple].  Warnings and asynchrony are not modelled.  [unwrap] and [panic!] give
    [XPanic].  The recursion over the document is bounded by a fuel argument; running out of it
    is [XFuel], which no Rust execution produces. *)
From Verif Require Import Prelude Json Str Keyword Enums LangTag LangString Container Stack ContextSyntax Ctx Process
  Object ObjectJson CompactIri.

(** value.rs 10-35 ([InvalidValue]). *)
Inductive verr : Type :=
| VLanguageTaggedString | VBaseDirection | VIndexValue | VTypedValue | VValueObject | VValueObjectValue
| VLanguageTaggedValue | VForbiddenVocab.
(** literal.rs 59-66; [LPanic] stands for the [unwrap]s of 108-109. *)
Inductive lerr : Type := LInvalidTypeValue | LForbiddenVocab | LPanic.
(** error.rs 4-61. *)
Inductive xerr : Type :=
| XContextSyntax (e : ctx_err) | XContextProcessing (e : cerr)
| XInvalidIndexValue | XInvalidSetOrListObject | XInvalidReversePropertyMap | XInvalidTypeValue
| XKeyExpansionFailed (k : string) | XInvalidReversePropertyValue | XInvalidLanguageMapValue
| XCollidingKeywords | XInvalidIdValue | XInvalidIncludedValue | XInvalidReverseValue
| XInvalidNestValue | XDuplicateKey (k : string) | XLiteral (e : lerr) | XValue (e : verr)
| XForbiddenVocab | XPanic | XFuel.

(** options.rs 7-19, 55-66. *)
Record xopts : Type := MkXOpts {
  xo_mode : mode;
  xo_invalid : action;
  xo_vocab : action;
  xo_allow_undefined : bool;
  xo_ordered : bool
}.
(** Derived [Default], options.rs 68-76. *)
Definition xopts_default : xopts := MkXOpts JsonLd11 AKeep AKeep true false.
(** options.rs 30-37 ([From<Options>]), and [without_propagation] (context-processing lib.rs). *)
Definition popts_of (o : xopts) : popts := MkOpts (xo_mode o) false true AKeep.
Definition without_propagation (o : popts) : popts := MkOpts (po_mode o) (po_override o) false (po_vocab o).

(** expanded.rs 3-7, 10-16, 51-62. *)
Inductive expanded : Type := XNull | XObj (o : iobj) | XArr (l : list iobj).
Definition items (e : expanded) : list iobj := match e with XNull => [] | XObj o => [o] | XArr l => l end.
Definition is_list (o : obj) : bool := match o with OList _ => true | _ => false end.
(** expanded.rs 26-31. *)
Definition x_is_list (e : expanded) : bool := match e with XObj o => is_list (snd o) | _ => false end.

Definition map_err {A E F} (f : E -> F) (r : result A E) : result A F :=
  match r with Ok a => Ok a | Err e => Err (f e) end.
Fixpoint fold_r {A B E} (f : A -> B -> result A E) (a : A) (l : list B) : result A E :=
  match l with [] => Ok a | x :: l' => do b <- f a x ; fold_r f b l' end.
Fixpoint flat_r {A B E} (f : A -> result (list B) E) (l : list A) : result (list B) E :=
  match l with [] => Ok [] | x :: l' => do y <- f x ; do ys <- flat_r f l' ; Ok (y ++ ys) end.

(** [json_syntax::Value::force_as_array]. *)
Definition force_array (j : json) : list json := match j with JArr l => l | _ => [j] end.
Definition as_str (j : json) : option string := match j with JStr s => Some s | _ => None end.

(** [sort_by_key(|entry| &entry.key)] and [sort_unstable]: an insertion sort.  The unstable sort
    of the [@type] entries (element.rs 231) is taken to be stable: this matters only for
    repeated keys. *)
Fixpoint insert_sorted {A} (key : A -> string) (x : A) (l : list A) : list A :=
  match l with
  | [] => [x]
  | y :: l' => match String.compare (key x) (key y) with
               | Lt | Eq => x :: l
               | Gt => y :: insert_sorted key x l'
               end
  end.
Definition sort_key {A} (key : A -> string) (l : list A) : list A := fold_right (insert_sorted key) [] l.

(** node.rs 20-27 ([node_id_of_term]). *)
Definition node_id_of_term (t : term) : option id :=
  match t with TmNull => None | TmId i => Some i | TmKw k => Some (IInvalid (kw_str k)) end.
(** id.rs 297-307. *)
Definition id_of_term (t : term) : option id := match t with TmId i => Some i | _ => None end.
(** object/mod.rs [TryFrom<Object> for Node] through indexed.rs 84-90. *)
Definition as_node (o : iobj) : option inode := match snd o with ONode n => Some (fst o, n) | _ => None end.

(** element.rs 33-44: the definition of the active property.  The definition of [@type] has no
    local context, type, language, direction or index mapping, so it behaves as no definition. *)
Definition prop_def (c : actx) (ap : option string) : option ndef :=
  match ap with
  | Some k => if streq k "@type" then None else get_normal c k
  | None => None
  end.
(** element.rs 53-60. *)
Definition ap_is (ap : option string) (k : keyword) : bool :=
  match ap with Some s => streq s (kw_str k) | None => false end.
Definition has_container (d : option ndef) (k : ckind) : bool :=
  match d with Some d => c_contains (nd_container d) k | None => false end.

(** element.rs 13: an entry with its expanded key. *)
Definition xentry : Type := string * term * json.

Section Expand.
Variable io : iops.
Variable ld : loader.
(** Hash functions, as in Object.v. *)
Variables (fin rnd : list word -> N).
(** Fuel of each call of the context processing algorithm. *)
Variable pf : nat.
Variable o : xopts.
Variable base_url : option string.

(** [IndexSet] of objects and nodes. *)
Definition oset_insert : list iobj -> iobj -> list iobj := set_insert (iobj_hash fin rnd) (iobj_eqb fin rnd).
Definition oset (l : list iobj) : list iobj := fold_left oset_insert l [].
Definition nset_insert : list inode -> inode -> list inode := set_insert (inode_hash fin rnd) (inode_eqb fin rnd).

(** lib.rs 32: [expand_iri] is [expand_iri_simple]. *)
Definition xiri (c : actx) (s : string) (docrel : bool) (vocab : option action) : result (option term) unit :=
  map_err (fun _ => tt) (expand_iri_simple io c (NSome (xp_of_str s)) docrel vocab).
(** The expansion of a key. *)
Definition xkey (c : actx) (k : string) : result (option term) xerr :=
  map_err (fun _ => XForbiddenVocab) (xiri c k false (Some (xo_vocab o))).

Definition xprocess (c : actx) (lc : lcontext) (url : option string) (po : popts) : result actx xerr :=
  map_err XContextProcessing (process_full io ld pf c lc url po).

(** *** Literals *)

(** literal.rs 13-25, 39-42. *)
Definition given (j : json) : option lit :=
  match j with JBool b => Some (LBool b) | JNum n => Some (LNum n) | JStr s => Some (LStr s) | _ => None end.

(** literal.rs 176-204: the language and direction of a string. *)
Definition lang_for (c : actx) (d : option ndef) : option string :=
  match d with
  | Some d => match nd_language d with Some l => nullable_option l | None => ac_lang c end
  | None => ac_lang c
  end.
Definition dir_for (c : actx) (d : option ndef) : option direction :=
  match d with
  | Some d => match nd_direction d with Some l => nullable_option l | None => ac_dir c end
  | None => ac_dir c
  end.
(** literal.rs 206-217. *)
Definition string_value (s : string) (l : option string) (d : option direction) : value :=
  match ls_new s l d with Ok ls => VLang ls | Err _ => VLit (LStr s) None end.

(** literal.rs 81-236 ([expand_literal]); the literal is given as a [lit] that is not [LNull]. *)
Definition expand_literal (c : actx) (ap : option string) (v : lit) : result iobj lerr :=
  let d := prop_def c ap in
  let t := match d with Some d => nd_typ d | None => None end in
  let plain :=
    match t with
    | None | Some TyId | Some TyVocab | Some TyNone =>
        match v with
        | LStr s => Ok (None, OVal (string_value s (lang_for c d) (dir_for c d)))
        | _ => Ok (None, OVal (VLit v None))
        end
    | Some (TyIri i) => Ok (None, OVal (VLit v (Some i)))
    | Some TyJson => Err LInvalidTypeValue
    end in
  match t, v with
  | Some TyId, LStr s =>
      match xiri c s true None with
      | Ok (Some t) => Ok (None, ONode (node_new (node_id_of_term t)))
      | _ => Err LPanic
      end
  | Some TyVocab, LStr s =>
      do t <- map_err (fun _ => LForbiddenVocab) (xiri c s true (Some (xo_vocab o))) ;
      Ok (None, ONode (node_new (match t with Some t => node_id_of_term t | None => None end)))
  | _, _ => plain
  end.

(** *** Value objects *)

(** value.rs 75-82: the variables of the loop. *)
Record vstate : Type := MkVs {
  vs_json : bool; vs_ty : option string; vs_index : option string; vs_lang : option string; vs_dir : option direction }.

(** value.rs 84-159. *)
Definition value_step (tsc : actx) (s : vstate) (e : xentry) : result vstate verr :=
  let '(_, k, v) := e in
  match k with
  | TmKw KLanguage =>
      match as_str v with
      | Some l => Ok (if streq l "@none" then s else MkVs (vs_json s) (vs_ty s) (vs_index s) (Some l) (vs_dir s))
      | None => Err VLanguageTaggedString
      end
  | TmKw KDirection =>
      match as_str v with
      | Some d => match dir_of_str d with
                  | Some d => Ok (MkVs (vs_json s) (vs_ty s) (vs_index s) (vs_lang s) (Some d))
                  | None => Err VBaseDirection
                  end
      | None => Err VBaseDirection
      end
  | TmKw KIndex =>
      match as_str v with
      | Some i => Ok (MkVs (vs_json s) (vs_ty s) (Some i) (vs_lang s) (vs_dir s))
      | None => Err VIndexValue
      end
  | TmKw KType =>
      match as_str v with
      | Some t =>
          do t <- map_err (fun _ => VForbiddenVocab) (xiri tsc t true (Some (xo_vocab o))) ;
          match t with
          | Some (TmKw KJson) => Ok (MkVs true (vs_ty s) (vs_index s) (vs_lang s) (vs_dir s))
          | Some (TmId (IIri i)) => Ok (MkVs false (Some i) (vs_index s) (vs_lang s) (vs_dir s))
          | _ => Err VTypedValue
          end
      | None => Err VTypedValue
      end
  | TmKw KValue => Ok s
  | _ => Err VValueObject
  end.

(** value.rs 58-245 ([expand_value]). *)
Definition expand_value (input_type : option term) (tsc : actx) (es : list xentry) (ve : json)
  : result (option iobj) verr :=
  let start := match input_type with Some (TmKw KJson) => true | _ => false end in
  do s <- fold_r (value_step tsc) (MkVs start None None None None) es ;
  if vs_json s then
    if is_some (vs_lang s) || is_some (vs_dir s) then Err VValueObject
    else Ok (Some (vs_index s, OVal (VJson ve)))
  else
    match ve with
    | JNull => Ok None
    | JArr _ | JObj _ => Err VValueObjectValue
    | _ =>
        if is_some (vs_lang s) || is_some (vs_dir s) then
          if is_some (vs_ty s) then Err VValueObject
          else match ve with
               | JStr t => match ls_new t (vs_lang s) (vs_dir s) with
                           | Ok ls => Ok (Some (vs_index s, OVal (VLang ls)))
                           | Err _ => Err VLanguageTaggedValue
                           end
               | _ => Err VLanguageTaggedValue
               end
        else match given ve with
             | Some l => Ok (Some (vs_index s, OVal (VLit l (vs_ty s))))
             | None => Err VValueObjectValue (* not reached *)
             end
    end.

(** *** Node objects *)

(** The setters of node/mod.rs used here. *)
Definition set_nid (i : option id) (n : node) : node := match n with MkNode _ ts g inc ps rs => MkNode i ts g inc ps rs end.
Definition push_type (t : id) (n : node) : node := match n with MkNode i ts g inc ps rs => MkNode i (Some (opt_list ts ++ [t])) g inc ps rs end.
Definition unshift_type (t : id) (n : node) : node := match n with MkNode i ts g inc ps rs => MkNode i (Some (t :: opt_list ts)) g inc ps rs end.
Definition set_ngraph (g : option (list iobj)) (n : node) : node := match n with MkNode i ts _ inc ps rs => MkNode i ts g inc ps rs end.
Definition add_included (l : list inode) (n : node) : node :=
  match n with MkNode i ts g inc ps rs => MkNode i ts g (Some (fold_left nset_insert l (opt_list inc))) ps rs end.
Definition add_prop (p : id) (l : list iobj) (n : node) : node :=
  match n with MkNode i ts g inc ps rs => MkNode i ts g inc (insert_all p l ps) rs end.
Definition add_reverse (p : id) (l : list inode) (n : node) : node :=
  match n with MkNode i ts g inc ps rs => MkNode i ts g inc ps (Some (insert_all p l (opt_list rs))) end.
(** node/mod.rs 546-556 ([has_key]), keywords only. *)
Definition has_key (n : node) (k : keyword) : bool :=
  match k with
  | KId => is_some (n_id n)
  | KType => is_some (n_types n)
  | KGraph => is_some (n_graph n)
  | KIncluded => is_some (n_included n)
  | KReverse => is_some (n_reverse n)
  | _ => false
  end.
(** node/mod.rs 294-300 ([is_empty]). *)
Definition n_empty (n : node) : bool :=
  negb (is_some (n_types n)) && negb (is_some (n_graph n)) && negb (is_some (n_included n))
  && match n_props n with [] => true | _ => false end && negb (is_some (n_reverse n)).
Definition graph_of (ev : iobj) : iobj := (None, ONode (set_ngraph (Some (oset_insert [] ev)) (node_new None))).
(** document.rs 54-57 ([filter_top_level_item]). *)
Definition top_level (x : iobj) : bool := match snd x with OVal _ => false | _ => true end.
Definition id_has_colon (i : id) : bool := contains_char ":" (id_str i).

(** The node being built with its index, and the flag [has_value_object_entries]. *)
Definition nstate : Type := inode * bool.
Definition on_node (f : node -> node) (s : nstate) : nstate := ((fst (fst s), f (snd (fst s))), snd s).
Definition entries_sorted (l : jobject) : jobject := if xo_ordered o then sort_key fst l else l.

Definition as_nodes (e : xerr) (l : list iobj) : result (list inode) xerr :=
  map_r (fun x => match as_node x with Some n => Ok n | None => Err e end) l.

(** The policy on invalid keys: [Some false] when the entry is dropped. *)
Definition invalid_policy (i : id) (e : xerr) : result bool xerr :=
  match i with
  | IInvalid _ => match xo_invalid o with AKeep => Ok true | ADrop => Ok false | AReject => Err e end
  | _ => Ok true
  end.

Section Entries.
(** [expand_element]: context, active property, element, [from_map]. *)
Variable rec : actx -> option string -> json -> bool -> result expanded xerr.

(** node.rs 180-217 ([@type]). *)
Definition expand_types (tsc : actx) (v : json) (n : node) : result node xerr :=
  fold_r (fun n t =>
    match as_str t with
    | Some t =>
        do t <- map_err (fun _ => XForbiddenVocab) (xiri tsc t true (Some (xo_vocab o))) ;
        match t with
        | Some t => match id_of_term t with
                    | Some i => do keep <- invalid_policy i XInvalidTypeValue ; Ok (if keep then push_type i n else n)
                    | None => Err XInvalidTypeValue
                    end
        | None => Ok n
        end
    | None => Err XInvalidTypeValue
    end) n (force_array v).

(** node.rs 304-416 ([@reverse]). *)
Definition reverse_entry (c : actx) (n : node) (e : string * json) : result node xerr :=
  let '(k, v) := e in
  do t <- xkey c k ;
  match t with
  | Some (TmKw _) => Err XInvalidReversePropertyMap
  | Some (TmId p) =>
      if id_has_colon p then
        do keep <- invalid_policy p (XKeyExpansionFailed k) ;
        if negb keep then Ok n
        else
          do x <- rec c (Some k) v false ;
          if match prop_def c (Some k) with Some d => nd_reverse d | None => false end
          then Ok (add_prop p (items x) n)
          else do l <- as_nodes XInvalidReversePropertyValue (items x) ; Ok (add_reverse p l n)
      else if match xo_invalid o with AReject => true | _ => false end || negb (xo_allow_undefined o)
           then Err (XKeyExpansionFailed k) else Ok n
  | _ => if match xo_invalid o with AReject => true | _ => false end || negb (xo_allow_undefined o)
         then Err (XKeyExpansionFailed k) else Ok n
  end.

(** node.rs 551-661: a language map. *)
Definition expand_language_map (c : actx) (d : option ndef) (m : jobject) : result (list iobj) xerr :=
  let dir := dir_for c d in
  flat_r (fun e =>
    flat_r (fun item =>
      match item with
      | JNull => Ok []
      | JStr s =>
          do t <- xkey c (fst e) ;
          let l := match t with Some (TmKw KNone) => None | _ => Some (fst e) end in
          Ok [(None, OVal (string_value s l dir))]
      | _ => Err XInvalidLanguageMapValue
      end) (force_array (snd e))) (entries_sorted m).

(** node.rs 786-901: what is done to each item of an index, identifier or type map; [None] when
    the item is skipped ([continue]). *)
Definition index_item (c : actx) (cont : ckind -> bool) (index_key : string) (index : string)
  (x : option term) (item : iobj) : result (option iobj) xerr :=
  let item := if cont CKGraph && negb (o_is_graph (snd item)) then graph_of item else item in
  match x with
  | None => Ok (Some item)
  | Some x =>
      if cont CKIndex && negb (streq index_key "@index") then
        do re <- map_err XLiteral (expand_literal c (Some index_key) (LStr index)) ;
        do k <- xkey c index_key ;
        match k with
        | Some (TmId p) =>
            match snd item with
            | ONode n => Ok (Some (fst item, ONode (add_prop p [re] n)))
            | _ => Err (XValue VValueObject)
            end
        | _ => Ok None
        end
      else if cont CKIndex && negb (is_some (fst item)) then Ok (Some (Some index, snd item))
      else if cont CKId && negb (is_some (o_id (snd item))) then
        match snd item with
        | ONode n =>
            do i <- map_err (fun _ => XForbiddenVocab) (xiri c index true None) ;
            Ok (Some (fst item, ONode (set_nid (match i with Some t => node_id_of_term t | None => None end) n)))
        | _ => Ok (Some item)
        end
      else if cont CKType then
        match id_of_term x with
        | Some t => Ok (Some (match snd item with ONode n => (fst item, ONode (unshift_type t n)) | _ => item end))
        | None => Err XInvalidTypeValue
        end
      else Ok (Some item)
  end.

(** node.rs 662-905: an index, identifier or type map. *)
Definition expand_index_map (c : actx) (d : option ndef) (key : string) (m : jobject) : result (list iobj) xerr :=
  let cont := has_container d in
  let index_key := match d with Some d => match nd_index d with Some i => i | None => "@index" end | None => "@index" end in
  flat_r (fun e =>
    let '(index, v) := e in
    let mc := if cont CKType || cont CKId then match ac_prev c with Some p => p | None => c end else c in
    do mc <- (if cont CKType
              then match prop_def mc (Some index) with
                   | Some id => match nd_context id with
                                | Some lc => xprocess mc lc (nd_base_url id) (popts_of o)
                                | None => Ok mc
                                end
                   | None => Ok mc
                   end
              else Ok mc) ;
    do x <- xkey c index ;
    let x := match x with Some TmNull | Some (TmKw KNone) => None | _ => x end in
    do ev <- rec mc (Some key) v true ;
    flat_r (fun item => do r <- index_item c cont index_key index x item ; Ok (match r with Some y => [y] | None => [] end))
      (items ev)) (entries_sorted m).

(** node.rs 527-926: the value of a property. *)
Definition expand_property (c : actx) (key : string) (v : json) : result expanded xerr :=
  let d := prop_def c (Some key) in
  let cont := has_container d in
  if match d with Some d => match nd_typ d with Some TyJson => true | _ => false end | None => false end
  then Ok (XObj (None, OVal (VJson v)))
  else match v with
       | JObj m =>
           if cont CKLanguage then do l <- expand_language_map c d m ; Ok (XArr l)
           else if cont CKIndex || cont CKType || cont CKId then do l <- expand_index_map c d key m ; Ok (XArr l)
           else rec c (Some key) v false
       | _ => rec c (Some key) v false
       end.
(** node.rs 928-961: the containers [@list] and [@graph]. *)
Definition wrap_list (d : option ndef) (x : expanded) : expanded :=
  if has_container d CKList && negb (x_is_list x) then XObj (None, OList (items x)) else x.
Definition wrap_graph (d : option ndef) (x : expanded) : expanded :=
  if has_container d CKGraph && negb (has_container d CKId) && negb (has_container d CKIndex)
  then XArr (map graph_of (items x)) else x.
(** node.rs 963-985. *)
Definition store (d : option ndef) (p : id) (x : expanded) (n : node) : result node xerr :=
  match x with
  | XNull => Ok n
  | _ => if match d with Some d => nd_reverse d | None => false end
         then do l <- as_nodes XInvalidReversePropertyValue (items x) ; Ok (add_reverse p l n)
         else Ok (add_prop p (items x) n)
  end.
Definition property_entry (c : actx) (key : string) (p : id) (v : json) (n : node) : result node xerr :=
  if id_has_colon p then
    do keep <- invalid_policy p (XKeyExpansionFailed (id_str p)) ;
    if negb keep then Ok n
    else
      do x <- expand_property c key v ;
      let d := prop_def c (Some key) in
      store d p (wrap_graph d (wrap_list d x)) n
  else (* node.rs 988-1002 *)
    do _ <- invalid_policy p (XKeyExpansionFailed (id_str p)) ;
    if xo_allow_undefined o then Ok n else Err (XKeyExpansionFailed (id_str p)).

(** node.rs 418-512 ([@nest]); [self] is [expand_node_entries]. *)
Definition nest_entry (self : actx -> list xentry -> nstate -> result nstate xerr) (c : actx) (key : string)
  (s : nstate) (v : json) : result nstate xerr :=
  do c <- (match prop_def c (Some key) with
           | Some d => match nd_context d with
                       | Some lc => xprocess c lc (nd_base_url d) (with_override (popts_of o))
                       | None => Ok c
                       end
           | None => Ok c
           end) ;
  match v with
  | JObj m =>
      do es <- flat_r (fun e => do t <- xkey c (fst e) ; Ok (match t with Some t => [(fst e, t, snd e)] | None => [] end))
                 (entries_sorted m) ;
      self c es s
  | _ => Err XInvalidNestValue
  end.

(** node.rs 132-516: an entry whose key is a keyword. *)
Definition keyword_entry (self : actx -> list xentry -> nstate -> result nstate xerr) (ap : option string)
  (c tsc : actx) (s : nstate) (key : string) (k : keyword) (v : json) : result nstate xerr :=
  let n := snd (fst s) in
  if ap_is ap KReverse then Err XInvalidReversePropertyMap
  else if (match xo_mode o with JsonLd10 => true | JsonLd11 => negb (keyword_eqb k KIncluded) && negb (keyword_eqb k KType) end)
          && has_key n k
  then Err XCollidingKeywords
  else match k with
  | KId => match as_str v with
           | Some i => do t <- map_err (fun _ => XForbiddenVocab) (xiri c i true None) ;
                       Ok (on_node (set_nid (match t with Some t => node_id_of_term t | None => None end)) s)
           | None => Err XInvalidIdValue
           end
  | KType => do n <- expand_types tsc v n ; Ok (on_node (fun _ => n) s)
  | KGraph =>
      do x <- rec c (Some "@graph") v false ;
      Ok (on_node (set_ngraph (Some (oset (filter top_level (items x))))) s)
  | KIncluded =>
      match xo_mode o with
      | JsonLd10 => Ok s
      | JsonLd11 =>
          do x <- rec c (Some "@included") v false ;
          do l <- as_nodes XInvalidIncludedValue (items x) ;
          Ok (on_node (add_included l) s)
      end
  | KLanguage | KDirection => Ok (fst s, true)
  | KIndex => match as_str v with
              | Some i => Ok ((Some i, n), snd s)
              | None => Err XInvalidIndexValue
              end
  | KReverse =>
      match v with
      | JObj m => do n <- fold_r (reverse_entry c) n (entries_sorted m) ; Ok (on_node (fun _ => n) s)
      | _ => Err XInvalidReverseValue
      end
  | KNest => fold_r (nest_entry self c key) s (force_array v)
  | KValue => Err XInvalidNestValue
  | _ => Ok s
  end.

(** node.rs 106-1008 ([expand_node_entries]), one entry. *)
Definition node_entry (self : actx -> list xentry -> nstate -> result nstate xerr) (ap : option string)
  (c tsc : actx) (s : nstate) (e : xentry) : result nstate xerr :=
  let '(key, t, v) := e in
  match t with
  | TmNull | TmKw KContext => Ok s
  | TmKw k => keyword_entry self ap c tsc s key k v
  | TmId p => do n <- property_entry c key p v (snd (fst s)) ; Ok (on_node (fun _ => n) s)
  end.

Fixpoint node_entries (m : nat) (ap : option string) (tsc c : actx) (es : list xentry) (s : nstate) : result nstate xerr :=
  match m with
  | O => Err XFuel
  | S m => fold_r (node_entry (node_entries m ap tsc) ap c tsc) s es
  end.

(** node.rs 30-93 ([expand_node]). *)
Definition free_floating (ap : option string) : bool := negb (is_some ap) || ap_is ap KGraph.
Definition expand_node (m : nat) (ap : option string) (c tsc : actx) (es : list xentry) : result (option inode) xerr :=
  do (r, has_value) <- node_entries m ap tsc c es ((None, node_new None), false) ;
  if has_value && n_empty (snd r) && negb (is_some (n_id (snd r))) then Ok None
  else if free_floating ap && n_empty (snd r) && negb (is_some (fst r)) then Ok None
  else Ok (Some r).

(** *** Elements *)

(** element.rs 142-160: [@value] and [@id] entries before the contexts are applied. *)
Definition preliminary (c : actx) (m : jobject) : result (bool * bool) xerr :=
  fold_r (fun s e =>
    do t <- xkey c (fst e) ;
    Ok (match t with
        | Some (TmKw KValue) => (true, snd s)
        | Some (TmKw KId) => (fst s, true)
        | _ => s
        end)) (false, false) m.

(** element.rs 162-222: the contexts applied to a map. *)
Definition element_context (c : actx) (ap : option string) (m : jobject) (from_map : bool) : result actx xerr :=
  let d := prop_def c ap in
  do (has_value, has_id) <- preliminary c m ;
  let c := match ac_prev c with
           | Some p => if negb from_map && negb has_value && negb (Nat.eqb (length m) 1 && has_id) then p else c
           | None => c
           end in
  do c <- (match d with
           | Some d => match nd_context d with
                       | Some lc => xprocess c lc (nd_base_url d) (with_override (popts_of o))
                       | None => Ok c
                       end
           | None => Ok c
           end) ;
  do lc <- map_err (fun _ => XDuplicateKey "@context") (get_unique "@context" m) ;
  match lc with
  | Some lc =>
      do lc <- map_err XContextSyntax (context_of_json (iri_ref_ok io) lc) ;
      xprocess c lc base_url (popts_of o)
  | None => Ok c
  end.

(** element.rs 230-248. *)
Definition type_entries (c : actx) (m : jobject) : result (list (string * json)) xerr :=
  do l <- flat_r (fun e => do t <- xkey c (fst e) ;
                           Ok (match t with Some (TmKw KType) => [e] | _ => [] end)) m ;
  Ok (sort_key fst l).

(** element.rs 250-300: type-scoped contexts. *)
Definition type_scoped (tsc : actx) (ts : list (string * json)) : result actx xerr :=
  fold_r (fun c e =>
    fold_r (fun c t =>
      match prop_def tsc (Some t) with
      | Some d => match nd_context d with
                  | Some lc => xprocess c lc (nd_base_url d) (without_propagation (popts_of o))
                  | None => Ok c
                  end
      | None => Ok c
      end) c (sort_key (fun s => s) (flat_map (fun t => match as_str t with Some s => [s] | None => [] end) (force_array (snd e)))))
    tsc ts.

(** element.rs 302-327. *)
Definition input_type (c : actx) (ts : list (string * json)) : result (option term) xerr :=
  match ts with
  | (_, v) :: _ =>
      match rev (force_array v) with
      | JStr s :: _ => xkey c s
      | _ => Ok None
      end
  | [] => Ok None
  end.

(** element.rs 329-368: the expanded entries; the last [@list], [@set] and [@value] entries. *)
Definition expand_entries (c : actx) (m : jobject) : result (list xentry) xerr :=
  flat_r (fun e => do t <- xkey c (fst e) ; Ok (match t with Some t => [(fst e, t, snd e)] | None => [] end)) m.
Definition last_entry (k : keyword) (es : list xentry) : option json :=
  fold_left (fun a e => match snd (fst e) with TmKw k' => if keyword_eqb k' k then Some (snd e) else a | _ => a end) es None.

(** element.rs 370-386: the index of a list object. *)
Definition list_index (es : list xentry) : result (option string) xerr :=
  fold_r (fun i e =>
    match snd (fst e) with
    | TmKw KIndex => match as_str (snd e) with Some s => Ok (Some s) | None => Err XInvalidIndexValue end
    | TmKw KList => Ok i
    | _ => Err XInvalidSetOrListObject
    end) None es.
(** element.rs 418-428. *)
Definition set_check (es : list xentry) : result unit xerr :=
  fold_r (fun _ e =>
    match snd (fst e) with
    | TmKw KIndex | TmKw KSet => Ok tt
    | _ => Err XInvalidSetOrListObject
    end) tt es.

(** element.rs 138-474: a map. *)
Definition expand_map (fuel : nat) (c : actx) (ap : option string) (m : jobject) (from_map : bool) : result expanded xerr :=
  do tsc <- element_context c ap m from_map ;
  do ts <- type_entries tsc m ;
  do c <- type_scoped tsc ts ;
  do it <- input_type c ts ;
  do es <- expand_entries c m ;
  match (if is_some ap && negb (ap_is ap KGraph) then last_entry KList es else None) with
  | Some l =>
      do i <- list_index es ;
      do r <- flat_r (fun item => do x <- rec c ap item false ; Ok (items x)) (force_array l) ;
      Ok (XObj (i, OList r))
  | None =>
      match last_entry KSet es with
      | Some s => do _ <- set_check es ; rec c ap s false
      | None =>
          match last_entry KValue es with
          | Some v => do r <- map_err XValue (expand_value it tsc es v) ;
                      Ok (match r with Some x => XObj x | None => XNull end)
          | None => do r <- expand_node fuel ap c tsc es ;
                    Ok (match r with Some n => XObj (fst n, ONode (snd n)) | None => XNull end)
          end
      end
  end.

(** element.rs 476-503: a scalar. *)
Definition expand_scalar (c : actx) (ap : option string) (j : json) : result expanded xerr :=
  if free_floating ap then Ok XNull
  else
    do c' <- (match prop_def c ap with
              | Some d => match nd_context d with
                          | Some lc => xprocess c lc (nd_base_url d) (popts_of o)
                          | None => Ok c
                          end
              | None => Ok c
              end) ;
    match given j with
    | Some l => do x <- map_err XLiteral (expand_literal c' ap l) ; Ok (XObj x)
    | None => Err XPanic
    end.

(** element.rs 66-505 ([expand_element]); array.rs ([expand_array]). *)
Definition element_body (fuel : nat) (c : actx) (ap : option string) (j : json) (from_map : bool) : result expanded xerr :=
  match j with
  | JNull => Ok XNull
  | JArr l =>
      do r <- flat_r (fun item => do x <- rec c ap item from_map ; Ok (items x)) l ;
      Ok (if has_container (prop_def c ap) CKList then XObj (None, OList r) else XArr r)
  | JObj m => expand_map fuel c ap m from_map
  | _ => expand_scalar c ap j
  end.
End Entries.

Fixpoint expand_element (n : nat) (c : actx) (ap : option string) (j : json) (from_map : bool) : result expanded xerr :=
  match n with
  | O => Err XFuel
  | S n => element_body (expand_element n) n c ap j from_map
  end.

(** object/mod.rs 482-491, node/mod.rs 319-327, 436-442. *)
Definition unnamed_graph (x : iobj) : option (list iobj) :=
  match snd x with
  | ONode n => if is_graph n && negb (is_some (n_id n)) then n_graph n else None
  | _ => None
  end.

(** document.rs 13-52 ([expand]). *)
Definition expand (n : nat) (c : actx) (doc : json) : result (list iobj) xerr :=
  do x <- expand_element n c None doc false ;
  Ok (match items x with
      | [x] => match unnamed_graph x with
               | Some g => g
               | None => if top_level x then oset [x] else []
               end
      | l => oset (filter top_level l)
      end).
End Expand.

(** Model of IRI compaction: crates/compaction/src/iri.rs.
    The iteration order of the definitions (a hash map) is the order of [ac_defs], over which
    the theorems quantify. *)
From Verif Require Import Prelude Json Str Keyword Enums LangTag LangString Container Ctx Inverse Object Process.

(** [IriConfusedWithPrefix] (iri.rs 11), and the [unwrap] of line 338. *)
Inductive ierr : Type := IEConfused | IEPanic.

(** compaction/src/lib.rs ([TypeLangValue]). *)
Inductive tlv : Type := TlvType (t : tsel) | TlvLang (l : langdir).

(** core/src/object/value.rs 206-234 ([Value::typ], [language], [direction]). *)
Definition v_type (v : value) : option ty :=
  match v with VLit _ (Some t) => Some (TyIri t) | VJson _ => Some TyJson | _ => None end.
Definition v_language (v : value) : option string := match v with VLang s => ls_language s | _ => None end.
Definition v_direction (v : value) : option direction := match v with VLang s => ls_direction s | _ => None end.

(** core/src/object/node/mod.rs 306-312 ([is_graph]). *)
Definition is_graph (n : node) : bool :=
  match n with
  | MkNode _ None (Some _) None [] None => true
  | _ => false
  end.
(** core/src/object/mod.rs 30-35, 57-62 ([Any::id], [Any::is_graph]). *)
Definition o_id (o : obj) : option id := match o with ONode n => n_id n | _ => None end.
Definition o_is_graph (o : obj) : bool := match o with ONode n => is_graph n | _ => false end.

(** iri.rs 149-173: the type and the language of a list item, and whether it is a value. *)
Definition item_type (o : obj) : option ty :=
  match o with OVal (VLang _) | OVal (VLit _ None) => None | OVal v => v_type v | _ => Some TyId end.
Definition item_lang (o : obj) : option langdir :=
  match o with
  | OVal (VLang s) => Some (NSome (ls_language s, ls_direction s))
  | OVal (VLit _ None) => Some NNull
  | _ => None
  end.
Definition is_value (o : obj) : bool := match o with OVal _ => true | _ => false end.

Definition no_lang : langdir := NSome (None, None).
Definition lang_is (a b : option langdir) : bool := opt_eqb langdir_eqb a b.
Definition type_is (a b : option (option ty)) : bool := opt_eqb (opt_eqb ty_eqb) a b.

(** iri.rs 148-190: the loop over the items of a list. *)
Fixpoint common (l : list iobj) (ct : option (option ty)) (cl : option langdir)
  : option (option ty) * option langdir :=
  match l with
  | [] => (ct, cl)
  | (_, o) :: l =>
      let cl := match cl with
                | None => item_lang o
                | Some _ => if is_value o && negb (lang_is cl (item_lang o)) then Some no_lang else cl
                end in
      let ct := match ct with
                | None => Some (item_type o)
                | Some t => if opt_eqb ty_eqb t (item_type o) then ct else Some None
                end in
      if lang_is cl (Some no_lang) && type_is ct (Some None) then (ct, cl) else common l ct cl
  end.

(** iri.rs 135-213: what is looked for with a list. *)
Definition list_tlv (c : actx) (l : list iobj) : tlv :=
  let '(ct, cl) := match l with
                   | [] => (None, Some (NSome (ac_lang c, ac_dir c)))
                   | _ => common l None None
                   end in
  match ct with
  | Some (Some t) => TlvType (TsType t)
  | _ => TlvLang (match cl with Some l => l | None => no_lang end)
  end.

(** iri.rs 125-288: containers, what is looked for, and whether the value is simple. *)
Definition prefer (c : actx) (value : option iobj) (reverse : bool) : list container * option tlv * bool :=
  if reverse then ([CSet], Some (TlvType TsReverse), false)
  else match value with
  | Some (ix, OList l) => (if is_some ix then [] else [CList], Some (list_tlv c l), false)
  | Some (ix, OVal v) =>
      if (is_some (v_direction v) || is_some (v_language v)) && negb (is_some ix)
      then ([CLanguage; CLanguageSet; CSet], Some (TlvLang (NSome (v_language v, v_direction v))), false)
      else match v_type v with
           | Some t => ([CSet], Some (TlvType (TsType t)), false)
           | None => ([CSet], None, negb (is_some (v_direction v)) && negb (is_some (v_language v)) && negb (is_some ix))
           end
  | Some (ix, ONode n) =>
      if is_graph n then
        ((if is_some ix then [CGraphIndex; CGraphIndexSet] else [])
         ++ (if is_some (n_id n) then [CGraphId; CGraphIdSet] else [])
         ++ [CGraph; CGraphSet; CSet]
         ++ (if is_some ix then [] else [CGraphIndex; CGraphIndexSet])
         ++ (if is_some (n_id n) then [] else [CGraphId; CGraphIdSet])
         ++ [CIndex; CIndexSet], Some (TlvType (TsType TyId)), false)
      else ([CId; CIdSet; CType; CSetType; CSet], Some (TlvType (TsType TyId)), false)
  | None => ([CId; CIdSet; CType; CSetType; CSet], Some (TlvType (TsType TyId)), false)
  end.

(** iri.rs 115-120, 289-299: all the containers.  [has_index] (line 122) is only set when the
    property is not reversed. *)
Definition containers (c : actx) (m : mode) (value : option iobj) (reverse : bool) : list container :=
  let '(cs, _, simple) := prefer c value reverse in
  let has_index := match value with Some (ix, _) => negb reverse && is_some ix | None => false end in
  let v11 := match m with JsonLd10 => false | JsonLd11 => true end in
  match value with Some (Some _, o) => if o_is_graph o then [] else [CIndex; CIndexSet] | _ => [] end
  ++ cs ++ [CNone]
  ++ (if v11 && negb has_index then [CIndex; CIndexSet] else [])
  ++ (if v11 && simple then [CLanguage; CLanguageSet] else []).

(** iri.rs 301-388; [as_vocab] tells whether an identifier compacts to a term for itself. *)
Definition selection_of (as_vocab : id -> result bool ierr) (c : actx) (value : option iobj) (reverse : bool)
  : result selection ierr :=
  match value with
  | Some (_, OList []) => Ok SelAny
  | _ =>
      match snd (fst (prefer c value reverse)) with
      | Some (TlvType t) =>
          let id := match t with
                    | TsReverse | TsType TyId => match value with Some (_, o) => o_id o | None => None end
                    | _ => None
                    end in
          do l <- match id with
                  | Some i => do b <- as_vocab i ;
                              Ok (if b then [TsType TyVocab; TsType TyId; TsType TyNone]
                                  else [TsType TyId; TsType TyVocab; TsType TyNone])
                  | None => Ok [t; TsType TyNone]
                  end ;
          Ok (SelType ((match t with TsReverse => [TsReverse] | _ => [] end) ++ l ++ [TsAny]))
      | Some (TlvLang l) =>
          Ok (SelLang ([LsLang l; LsLang no_lang; LsAny]
                       ++ match l with NSome (Some _, Some d) => [LsLang (NSome (None, Some d))] | _ => [] end))
      | None => Ok (SelLang [LsLang NNull; LsLang no_lang; LsAny])
      end
  end.

(** iri.rs 397-410. *)
Definition by_vocab (c : actx) (var : term) : option string :=
  match ac_vocab c with
  | Some m => match strip_prefix (term_str m) (term_str var) with
              | Some x => if negb (streq x "") && negb (is_some (get_value c x)) then Some x else None
              | None => None
              end
  | None => None
  end.

(** [str] order, by bytes. *)
Definition str_lt (a b : string) : bool := match String.compare a b with Lt => true | _ => false end.

(** iri.rs 419-462: one definition; [no_value] is [value.is_none()]. *)
Definition candidate_of (var : term) (b : string * ndef) : option string :=
  match nd_value (snd b) with
  | Some t => if nd_prefix (snd b)
              then match strip_prefix (term_str t) (term_str var) with
                   | Some x => if streq x "" then None else Some (fst b +++ ":" +++ x)
                   | None => None
                   end
              else None
  | None => None
  end.
Definition usable (c : actx) (var : term) (no_value : bool) (k : string) : bool :=
  match get_value c k with
  | None => true
  | Some v => match v with Some t => term_eqb t var | None => false end && no_value
  end.
Definition better (k : string) (best : string) : bool :=
  streq best "" || (String.length k <=? String.length best)%nat && str_lt k best.
Definition try_prefix (c : actx) (var : term) (no_value : bool) (best : string) (b : string * ndef) : string :=
  match candidate_of var b with
  | Some k => if better k best && usable c var no_value k then k else best
  | None => best
  end.
Definition by_prefixes (c : actx) (var : term) (no_value : bool) : string :=
  fold_left (try_prefix c var no_value) (ac_defs c) "".

(** iref: the scheme of an IRI is what precedes its first colon. *)
Definition scheme_of (s : string) : string := match split_once ":" s with Some (p, _) => p | None => s end.

(** iri.rs 499-505. *)
Definition disambiguate_keyword (s : string) : string :=
  if is_keyword_like s && negb (is_some (kw_of_str s)) then "./" +++ s else s.

Section Compact.
(** iref: [Iri::relative_to]: the IRI, then the base. *)
Variable relative_to : string -> string -> string.

(** iri.rs 412-497: without the inverse context and the vocabulary mapping. *)
Definition compact_tail (c : actx) (var : term) (no_value vocab : bool) : result (option string) ierr :=
  let k := by_prefixes c var no_value in
  if negb (streq k "") then Ok (Some k)
  else match term_as_iri var with
  | Some s =>
      if is_some (get_value c (scheme_of s)) then Err IEConfused
      else match (if vocab then None else ac_base c) with
           | Some b => Ok (Some (disambiguate_keyword (relative_to s b)))
           | None => Ok (Some s)
           end
  | None => Ok (Some (term_str var))
  end.

(** iri.rs 88-497 ([compact_iri_full]). *)
Definition compact_body (as_vocab : id -> result bool ierr) (c : actx) (m : mode) (var : term)
  (value : option iobj) (vocab reverse : bool) : result (option string) ierr :=
  match var with
  | TmNull => Ok None
  | _ =>
      do k <- (if vocab then
                 match get_by term_eqb var (inverse_of c) with
                 | Some d => do s <- selection_of as_vocab c value reverse ;
                             Ok (d_select d (containers c m value reverse) s)
                 | None => Ok None
                 end
               else Ok None) ;
      match k with
      | Some k => Ok (Some k)
      | None => match (if vocab then by_vocab c var else None) with
                | Some k => Ok (Some k)
                | None => compact_tail c var (negb (is_some value)) vocab
                end
      end
  end.

(** iri.rs 16-37 ([compact_iri]): without value, no identifier is looked at. *)
Definition compact_iri (c : actx) (m : mode) (var : term) (vocab reverse : bool) : result (option string) ierr :=
  compact_body (fun _ => Ok false) c m var None vocab reverse.
(** iri.rs 327-343. *)
Definition as_vocab (c : actx) (m : mode) (i : id) : result bool ierr :=
  do k <- compact_iri c m (TmId i) true false ;
  match k with
  | Some k => Ok (match get_value c k with Some (Some t) => term_eqb t (TmId i) | _ => false end)
  | None => Err IEPanic
  end.
Definition compact_iri_full (c : actx) (m : mode) (var : term) (value : option iobj) (vocab reverse : bool)
  : result (option string) ierr :=
  compact_body (as_vocab c m) c m var value vocab reverse.
End Compact.

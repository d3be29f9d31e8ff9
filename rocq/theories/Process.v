(** Model of the context processing algorithm:
    crates/context-processing/src/algorithm/{iri,define,merged,mod}.rs.

    External functions are collected in two records:
    - [iops]: the syntax checks of the [iref] and [rdf-types] crates ([Iri::new],
      [IriRef::new], [BlankId::new]) and reference resolution ([IriRef::resolved]);
    - [loader]: loading a document and extracting its context
      ([Loader::load_with] followed by [into_ld_context]), assumed to be a function of the URL.

    Asynchrony is not modelled (every future is awaited immediately).  Warnings are not
    modelled.  [&mut] parameters become results.  A panic is the error [EPanic].  Recursion
    is bounded by a fuel argument; running out of it is the error [EFuel], which no Rust
    execution produces. *)
From Verif Require Import Prelude Str Keyword Enums LangTag Container Stack ContextSyntax Ctx.

(** ** External functions *)
Record iops : Type := MkIops {
  iri_ok : string -> bool;             (* iref::Iri::new(s).is_ok(), IriRef::as_iri().is_some() *)
  iri_ref_ok : string -> bool;         (* iref::IriRef::new(s).is_ok() *)
  blank_ok : string -> bool;           (* rdf_types::BlankId::new(s).is_ok() *)
  resolve : string -> string -> string (* base, reference: IriRef::resolved *)
}.

Inductive loaded : Type :=
| LdFail                    (* loading failed *)
| LdNoContext               (* no context can be extracted from the document *)
| LdContext (c : lcontext).
Definition loader := string -> loaded.

(** lib.rs 45-111 ([Error]). *)
Inductive cerr : Type :=
| EInvalidContextNullification | ELoadingDocumentFailed | EProcessingModeConflict
| EInvalidContextEntry | EInvalidImportValue | EInvalidRemoteContext | EInvalidBaseIri
| EInvalidVocabMapping | ECyclicIriMapping | EInvalidTermDefinition | EKeywordRedefinition
| EInvalidTypeMapping | EInvalidReverseProperty | EInvalidIriMapping | EInvalidKeywordAlias
| EInvalidContainerMapping | EInvalidScopedContext | EProtectedTermRedefinition
| EContextLoadingFailed | EContextExtractionFailed | EForbiddenVocab
| EPanic | EFuel.

(** iri.rs 210-216 ([Action]). *)
Inductive action : Type := AKeep | ADrop | AReject.

(** lib.rs 228-240 ([Options]). *)
Record popts : Type := MkOpts {
  po_mode : mode;
  po_override : bool;
  po_propagate : bool;
  po_vocab : action
}.
(** lib.rs 242-277. *)
Definition popts_default : popts := MkOpts JsonLd11 false true AKeep.
Definition with_override (o : popts) : popts := MkOpts (po_mode o) true (po_propagate o) (po_vocab o).
Definition with_no_override (o : popts) : popts := MkOpts (po_mode o) false (po_propagate o) (po_vocab o).
Definition is_10 (o : popts) : bool := match po_mode o with JsonLd10 => true | JsonLd11 => false end.

(** syntax/src/expandable.rs 10-16 ([ExpandableRef]). *)
Inductive expandable : Type := XKw (k : keyword) | XStr (s : string).
(** expandable.rs 36-43 ([From<&str>]). *)
Definition xp_of_str (s : string) : expandable :=
  match kw_of_str s with Some k => XKw k | None => XStr s end.
(** expandable.rs 27-34; term_definition/id.rs 152-159; term_definition/type_.rs. *)
Definition xp_of_tid (i : tid) : expandable := match i with TIdKeyword k => XKw k | TIdTerm s => XStr s end.
Definition xp_of_ttype (t : ttype) : expandable := match t with TTyKeyword k => XKw (tkw_kw k) | TTyTerm s => XStr s end.

Section Proc.
Variable io : iops.
Variable ld : loader.

(** ** IRI expansion *)

(** algorithm/mod.rs 53-66 ([resolve_iri]). *)
Definition resolve_iri (r : string) (base : option string) : option string :=
  match base with
  | Some b => Some (resolve io b r)
  | None => if iri_ok io r then Some r else None
  end.

(** core/src/id.rs ([Id::from_string_in]). *)
Definition id_of_string (s : string) : id :=
  if iri_ok io s then IIri s else if blank_ok io s then IBlank s else IInvalid s.

(** syntax/src/compact_iri.rs 9-19, 38-46 ([CompactIri::new], [prefix], [suffix]). *)
Definition compact_iri_of (s : string) : option (string * string) :=
  match split_once ":" s with
  | Some (p, x) =>
      if negb (streq p "_") && negb (starts_with "//" x) && iri_ref_ok io s then Some (p, x) else None
  | None => None
  end.

(** [value.find(':').map(|i| i > 0).unwrap_or(false)] (iri.rs 95, 272). *)
Definition colon_inside (s : string) : bool :=
  match find_char ":" s with Some (S _) => true | _ => false end.

(** iri.rs 76-93, 253-270: result from the term definition of [s], if it decides. *)
Definition expand_defined (c : actx) (s : string) (vocab : option action) : option term :=
  match get_value c s with
  | Some (Some (TmKw k)) => Some (TmKw k)
  | Some v => match vocab with
              | Some _ => Some (match v with Some t => t | None => TmNull end)
              | None => None
              end
  | None => None
  end.

(** iri.rs 129-146, 284-301: expansion of a compact IRI by the definition of its prefix. *)
Definition expand_prefixed (c : actx) (p x : string) : option term :=
  match get_normal c p with
  | Some d => if nd_prefix d
              then match nd_value d with
                   | Some t => Some (TmId (id_of_string (term_str t +++ x)))
                   | None => None
                   end
              else None
  | None => None
  end.

(** iri.rs 154-193, 309-348: the last steps (vocabulary mapping, base IRI). *)
Definition expand_tail (c : actx) (s : string) (docrel : bool) (vocab : option action)
  : result (option term) cerr :=
  let last :=
    Ok (Some (if docrel && iri_ref_ok io s
              then match resolve_iri s (ac_base c) with
                   | Some i => TmId (IIri i)
                   | None => TmId (IInvalid s)
                   end
              else TmId (IInvalid s))) in
  match vocab with
  | Some act =>
      match ac_vocab c with
      | Some (TmId m) => match act with
                         | AKeep => Ok (Some (TmId (id_of_string (id_str m +++ s))))
                         | ADrop => Ok None
                         | AReject => Err EForbiddenVocab
                         end
      | Some _ => Ok (Some (TmId (IInvalid s)))
      | None => last
      end
  | None => last
  end.

(** iri.rs 149-151, 304-306. *)
Definition expand_absolute (c : actx) (s : string) (docrel : bool) (vocab : option action)
  : result (option term) cerr :=
  if iri_ok io s then Ok (Some (TmId (IIri s))) else expand_tail c s docrel vocab.

(** iri.rs 231-351 ([expand_iri_simple]); [Err EForbiddenVocab] stands for [RejectVocab]. *)
Definition expand_iri_simple (c : actx) (v : nullable expandable) (docrel : bool)
  (vocab : option action) : result (option term) cerr :=
  match v with
  | NNull => Ok (Some TmNull)
  | NSome (XKw k) => Ok (Some (TmKw k))
  | NSome (XStr s) =>
      if is_keyword_like s then Ok (Some TmNull)
      else match expand_defined c s vocab with
      | Some t => Ok (Some t)
      | None =>
          if colon_inside s then
            if blank_ok io s then Ok (Some (TmId (IBlank s)))
            else if streq s "_:" then Ok (Some (TmId (IInvalid "_:")))
            else match compact_iri_of s with
                 | Some (p, x) => match expand_prefixed c p x with
                                  | Some t => Ok (Some t)
                                  | None => expand_absolute c s docrel vocab
                                  end
                 | None => expand_absolute c s docrel vocab
                 end
          else expand_tail c s docrel vocab
      end
  end.

(** ** Merged local contexts: merged.rs *)
Record merged : Type := MkMerged { m_base : cdef tdef; m_imported : option (cdef tdef) }.

Definition or_else {A} (a b : option A) : option A := match a with Some _ => a | None => b end.
(** merged.rs 27-67. *)
Definition m_field {A} (f : cdef tdef -> option A) (m : merged) : option A :=
  or_else (f (m_base m)) (match m_imported m with Some d => f d | None => None end).

(** syntax/src/context/definition/key.rs ([KeyOrKeyword]). *)
Inductive kk : Type := KKey (s : string) | KKeyword (k : keyword).
Definition kk_eqb (a b : kk) : bool :=
  match a, b with
  | KKey x, KKey y => streq x y
  | KKeyword x, KKeyword y => keyword_eqb x y
  | _, _ => false
  end.
(** key.rs 212-219 ([From<&str>]). *)
Definition kk_of_str (s : string) : kk := match kw_of_str s with Some k => KKeyword k | None => KKey s end.

(** syntax/src/context/definition/mod.rs 117-147 ([Definition::get]); the entries that are
    neither [@type] nor term definitions are not distinguished ([EvOther]). *)
Inductive entry_value : Type := EvType (t : dtype) | EvDef (d : nullable tdef) | EvOther.
Definition def_get (d : cdef tdef) (k : kk) : option entry_value :=
  match k with
  | KKeyword KBase => option_map (fun _ => EvOther) (cd_base d)
  | KKeyword KImport => option_map (fun _ => EvOther) (cd_import d)
  | KKeyword KLanguage => option_map (fun _ => EvOther) (cd_language d)
  | KKeyword KDirection => option_map (fun _ => EvOther) (cd_direction d)
  | KKeyword KPropagate => option_map (fun _ => EvOther) (cd_propagate d)
  | KKeyword KProtected => option_map (fun _ => EvOther) (cd_protected d)
  | KKeyword KType => option_map EvType (cd_type d)
  | KKeyword KVersion => option_map (fun _ => EvOther) (cd_version d)
  | KKeyword KVocab => option_map (fun _ => EvOther) (cd_vocab d)
  | KKeyword _ => None
  | KKey s => option_map EvDef (assoc s (cd_bindings d))
  end.
(** merged.rs 77-87. *)
Definition m_get (m : merged) (k : kk) : option entry_value :=
  or_else (def_get (m_base m) k) (match m_imported m with Some d => def_get d k | None => None end).

(** merged.rs 69-75, 139-163: the imported bindings that are not in the base, then the base. *)
Definition m_keys (m : merged) : list string :=
  match m_imported m with
  | Some i => filter (fun k => match assoc k (cd_bindings (m_base m)) with Some _ => false | None => true end)
                (map fst (cd_bindings i))
  | None => []
  end ++ map fst (cd_bindings (m_base m)).

(** ** The terms being defined: define.rs 50-82.  The value is the [pending] flag. *)
Definition dmap := list (kk * bool).
Fixpoint dget (k : kk) (d : dmap) : option bool :=
  match d with
  | [] => None
  | (k', b) :: r => if kk_eqb k k' then Some b else dget k r
  end.
(** define.rs 75-77; the [unwrap] never fails since [end] follows [begin]. *)
Definition dend (k : kk) (d : dmap) : dmap := (k, false) :: d.

Definition st := (actx * dmap)%type.

(** Recursive calls available to the bodies below. *)
Record eng : Type := MkEng {
  e_process : actx -> lcontext -> pstack -> option string -> popts -> result actx cerr;
  e_define : st -> merged -> kk -> pstack -> option string -> bool -> popts -> result st cerr
}.

Section Body.
Variable r : eng.

(** iri.rs 28-196 ([expand_iri_with]). *)
Definition expand_iri_with (s0 : st) (v : nullable expandable) (docrel : bool)
  (vocab : option action) (m : merged) (rs : pstack) (o : popts) : result (st * option term) cerr :=
  match v with
  | NNull => Ok (s0, Some TmNull)
  | NSome (XKw k) => Ok (s0, Some (TmKw k))
  | NSome (XStr s) =>
      if is_keyword_like s then Ok (s0, Some TmNull)
      else
        do s1 <- e_define r s0 m (kk_of_str s) rs None false (with_no_override o) ;
        match expand_defined (fst s1) s vocab with
        | Some t => Ok (s1, Some t)
        | None =>
            if colon_inside s then
              if blank_ok io s then Ok (s1, Some (TmId (IBlank s)))
              else if streq s "_:" then Ok (s1, Some (TmId (IInvalid "_:")))
              else match compact_iri_of s with
                   | Some (p, x) =>
                       do s2 <- e_define r s1 m (KKey p) rs None false (with_no_override o) ;
                       match expand_prefixed (fst s2) p x with
                       | Some t => Ok (s2, Some t)
                       | None => do t <- expand_absolute (fst s2) s docrel vocab ; Ok (s2, t)
                       end
                   | None => do t <- expand_absolute (fst s1) s docrel vocab ; Ok (s1, t)
                   end
            else do t <- expand_tail (fst s1) s docrel vocab ; Ok (s1, t)
        end
  end.

(** ** Term definition creation: define.rs *)

(** define.rs 18-48. *)
Definition is_gen_delim (c : ascii) : bool := existsb (Ascii.eqb c) (list_ascii_of_string ":/?#[]@").
Definition is_gen_delim_or_blank (t : term) : bool :=
  match t with
  | TmId (IBlank _) => true
  | TmId (IIri s) => match last_char s with Some c => is_gen_delim c | None => false end
  | _ => false
  end.
Definition contains_between_boundaries (s : string) (c : ascii) : bool :=
  match find_char c s, rfind_char c s with
  | Some i, Some j => Nat.ltb 0 i && Nat.ltb j (String.length s - 1)
  | _, _ => false
  end.

(** term_definition/mod.rs 37-45, 313-323 ([ExpandedRef::from]). *)
Definition expanded_of (d : nullable tdef) : texp lcontext :=
  match d with
  | NSome (TSimple s) => MkTExp (Some (NSome (tid_of_str s))) None None None None None None None None None None None
  | NSome (TExpanded e) => e
  | NNull => MkTExp (Some NNull) None None None None None None None None None None None
  end.
(** define.rs 177. *)
Definition simple_term (d : nullable tdef) : bool :=
  match d with NSome (TExpanded _) => false | _ => true end.

(** define.rs 199-238: the [@type] entry. *)
Definition define_type (s0 : st) (m : merged) (rs : pstack) (o : popts) (e : texp lcontext) (d : ndef)
  : result (st * ndef) cerr :=
  match te_type e with
  | None => Ok (s0, d)
  | Some t =>
      let v := match t with NNull => NNull | NSome t => NSome (xp_of_ttype t) end in
      do (s1, typ) <- expand_iri_with s0 v false (Some (po_vocab o)) m rs o ;
      match typ with
      | None => Ok (s1, d)
      | Some typ =>
          if is_10 o && (term_eqb typ (TmKw KJson) || term_eqb typ (TmKw KNone)) then Err EInvalidTypeMapping
          else match ty_of_term typ with
               | Some ty => Ok (s1, nd_set_typ d (Some ty))
               | None => Err EInvalidTypeMapping
               end
      end
  end.

(** define.rs 283-304: the container of a reverse property. *)
Definition reverse_container (e : texp lcontext) (d : ndef) : result ndef cerr :=
  match te_container e with
  | Some (NSome c) => match c_from_syntax (NSome c) with
                      | Some CSet => Ok (nd_set_container d CSet)
                      | Some CIndex => Ok (nd_set_container d CIndex)
                      | _ => Err EInvalidReverseProperty
                      end
  | _ => Ok d
  end.

(** define.rs 240-315: the [@reverse] entry.  [Ok (s, true)]: the term is defined
    ([defined.end] is called); [Ok (s, false)]: early return without [defined.end]. *)
Definition define_reverse (s0 : st) (m : merged) (k : string) (rs : pstack) (o : popts)
  (e : texp lcontext) (d : ndef) (rev : string) : result (st * bool) cerr :=
  if match te_id e with Some _ => true | None => false end
     || match te_nest e with Some _ => true | None => false end
  then Err EInvalidReverseProperty
  else if is_keyword_like rev then Ok (s0, false)
  else
    do (s1, t) <- expand_iri_with s0 (NSome (xp_of_str rev)) false (Some (po_vocab o)) m rs o ;
    match t with
    | Some (TmId i) =>
        if id_valid i then
          do d1 <- reverse_container e (nd_set_value d (Some (TmId i))) ;
          Ok ((set_normal (fst s1) k (Some (nd_set_reverse d1 true)), snd s1), true)
        else Err EInvalidIriMapping
    | _ => Err EInvalidIriMapping
    end.

(** define.rs 319-320: [id_value.cast() != Nullable::Some(key.into())]. *)
Definition id_differs (i : nullable tid) (k : string) : bool :=
  match i with NSome (TIdTerm s) => negb (streq s k) | _ => true end.

(** define.rs 327-424: the [@id] entry when it differs from the term.  [None]: early
    return. *)
Definition define_id (s0 : st) (m : merged) (k : string) (rs : pstack) (o : popts)
  (simple : bool) (i : tid) (d : ndef) : result (st * option ndef) cerr :=
  if is_keyword_like (tid_str i) && negb (match i with TIdKeyword _ => true | _ => false end) then Ok (s0, None)
  else
    do (s1, v) <- expand_iri_with s0 (NSome (xp_of_tid i)) false (Some (po_vocab o)) m rs o ;
    if match v with Some (TmKw KContext) => true | _ => false end then Err EInvalidKeywordAlias
    else if match v with Some (TmId p) => negb (id_valid p) | _ => false end then Err EInvalidIriMapping
    else
      do s2 <-
        (if contains_between_boundaries k ":" || contains_char "/" k then
           do (s2, t) <- expand_iri_with (fst s1, dend (KKey k) (snd s1)) (NSome (XStr k)) false (Some (po_vocab o)) m rs o ;
           if opt_eqb term_eqb v t then Ok s2 else Err EInvalidIriMapping
         else Ok s1) ;
      if negb (contains_char ":" k) && negb (contains_char "/" k) && simple then
        match v with
        | Some t => Ok (s2, Some (nd_set_prefix (nd_set_value d v) (is_gen_delim_or_blank t)))
        | None => Err EPanic
        end
      else Ok (s2, Some (nd_set_value d v)).

(** define.rs 526-561: vocabulary mapping. *)
Definition default_mapping (c : actx) (k : string) : result term cerr :=
  match ac_vocab c with
  | Some (TmId (IIri v)) => if iri_ok io (v +++ k) then Ok (TmId (IIri (v +++ k))) else Err EInvalidIriMapping
  | _ => Err EInvalidIriMapping
  end.

(** define.rs 487-561: the term is not a compact IRI with a defined prefix. *)
Definition own_mapping (c : actx) (k : string) (o : popts) : result term cerr :=
  if blank_ok io k then Ok (TmId (IBlank k))
  else if iri_ref_ok io k then
    if iri_ok io k then Ok (TmId (IIri k))
    else if contains_char "/" k then
      do t <- expand_iri_simple c (NSome (XStr k)) false (Some (po_vocab o)) ;
      match t with
      | Some (TmId (IIri i)) => Ok (TmId (IIri i))
      | _ => Err EInvalidIriMapping
      end
    else default_mapping c k
  else default_mapping c k.

(** define.rs 432-564: no [@id] entry, or [@id] equals the term. *)
Definition define_no_id (s0 : st) (m : merged) (k : string) (rs : pstack) (o : popts)
  : result (st * term) cerr :=
  match compact_iri_of k with
  | Some (p, x) =>
      do s1 <- e_define r s0 m (KKey p) rs None false (with_no_override o) ;
      match get_value (fst s1) p with
      | Some v =>
          let prefix := match v with Some t => match term_as_iri t with Some i => i | None => "" end | None => "" end in
          if iri_ok io (prefix +++ x) then Ok (s1, TmId (IIri (prefix +++ x))) else Err EInvalidIriMapping
      | None => do t <- own_mapping (fst s1) k o ; Ok (s1, t)
      end
  | None => do t <- own_mapping (fst s0) k o ; Ok (s0, t)
  end.

(** define.rs 567-620: the [@container] entry. *)
Definition define_container (o : popts) (e : texp lcontext) (d : ndef) : result ndef cerr :=
  match te_container e with
  | None => Ok d
  | Some c =>
      if is_10 o && match c with
                    | NNull | NSome (SMany _) | NSome (SOne CKGraph) | NSome (SOne CKId) | NSome (SOne CKType) => true
                    | _ => false
                    end
      then Err EInvalidContainerMapping
      else match c_from_syntax c with
           | None => Err EInvalidContainerMapping
           | Some c =>
               let d1 := nd_set_container d c in
               if c_contains c CKType then
                 match nd_typ d1 with
                 | Some TyId | Some TyVocab => Ok d1
                 | Some _ => Err EInvalidTypeMapping
                 | None => Ok (nd_set_typ d1 (Some TyId))
                 end
               else Ok d1
           end
  end.

(** define.rs 622-649: the [@index] entry. *)
Definition define_index (c : actx) (o : popts) (e : texp lcontext) (d : ndef) : result ndef cerr :=
  match te_index e with
  | None => Ok d
  | Some i =>
      if negb (c_contains (nd_container d) CKIndex) || is_10 o then Err EInvalidTermDefinition
      else
        do t <- expand_iri_simple c (NSome (xp_of_str i)) false (Some (po_vocab o)) ;
        match t with
        | Some (TmId (IIri _)) => Ok (nd_set_index d (Some i))
        | _ => Err EInvalidTermDefinition
        end
  end.

(** define.rs 651-682: the [@context] entry.  The processed scoped context is discarded.
    Panics and non-termination are not errors of the inner call. *)
Definition define_context (c : actx) (rs : pstack) (base_url : option string) (o : popts)
  (e : texp lcontext) (d : ndef) : result ndef cerr :=
  match te_context e with
  | None => Ok d
  | Some lc =>
      if is_10 o then Err EInvalidTermDefinition
      else match e_process r c lc rs base_url (with_override o) with
           | Ok _ => Ok (nd_set_context d lc base_url)
           | Err EPanic => Err EPanic
           | Err EFuel => Err EFuel
           | Err _ => Err EInvalidScopedContext
           end
  end.

(** define.rs 684-706: [@language] and [@direction]. *)
Definition define_language (e : texp lcontext) (d : ndef) : ndef :=
  match te_type e with
  | Some _ => d
  | None =>
      let d1 := match te_language e with Some l => nd_set_language d (Some l) | None => d end in
      match te_direction e with Some x => nd_set_direction d1 (Some x) | None => d1 end
  end.

(** define.rs 708-717: [@nest]. *)
Definition define_nest (o : popts) (e : texp lcontext) (d : ndef) : result ndef cerr :=
  match te_nest e with
  | None => Ok d
  | Some n => if is_10 o then Err EInvalidTermDefinition else Ok (nd_set_nest d (Some n))
  end.

(** define.rs 719-743: [@prefix]. *)
Definition define_prefix (k : string) (o : popts) (e : texp lcontext) (d : ndef) : result ndef cerr :=
  match te_prefix e with
  | None => Ok d
  | Some p =>
      if contains_char ":" k || contains_char "/" k || is_10 o then Err EInvalidTermDefinition
      else if p then
        match nd_value d with
        | None => Err EPanic
        | Some t => if term_is_kw t then Err EInvalidTermDefinition else Ok (nd_set_prefix d true)
        end
      else Ok (nd_set_prefix d false)
  end.

(** define.rs 745-750: [@propagate] is not allowed. *)
Definition define_propagate (e : texp lcontext) (d : ndef) : result ndef cerr :=
  match te_propagate e with Some _ => Err EInvalidTermDefinition | None => Ok d end.

(** define.rs 752-770: protected terms. *)
Definition define_protect (o : popts) (prev : option ndef) (d : ndef) : result ndef cerr :=
  if po_override o then Ok d
  else match prev with
       | Some p => if nd_protected p
                   then if modulo_protected_eqb d p then Ok (nd_set_protected d true)
                        else Err EProtectedTermRedefinition
                   else Ok d
       | None => Ok d
       end.

(** define.rs 187-197: [@protected]. *)
Definition define_protected (protected : bool) (o : popts) (e : texp lcontext) : result ndef cerr :=
  match te_protected e with
  | None => Ok (nd_set_protected ndef_default protected)
  | Some p => if is_10 o then Err EInvalidTermDefinition else Ok (nd_set_protected ndef_default p)
  end.

(** define.rs 317-565: the IRI mapping.  [None]: early return. *)
Definition define_mapping (s0 : st) (m : merged) (k : string) (rs : pstack) (o : popts)
  (simple : bool) (e : texp lcontext) (d : ndef) : result (st * option ndef) cerr :=
  let no_id := do (s1, t) <- define_no_id s0 m k rs o ; Ok (s1, Some (nd_set_value d (Some t))) in
  match te_id e with
  | None => no_id
  | Some i => if id_differs i k then
                match i with
                | NNull => Ok (s0, Some d)
                | NSome i => define_id s0 m k rs o simple i d
                end
              else no_id
  end.

(** define.rs 567-774: the remaining entries, then the definition is stored. *)
Definition define_rest (s0 : st) (k : string) (rs : pstack) (base_url : option string) (o : popts)
  (e : texp lcontext) (prev : option ndef) (d : ndef) : result st cerr :=
  do d <- define_container o e d ;
  do d <- define_index (fst s0) o e d ;
  do d <- define_context (fst s0) rs base_url o e d ;
  do d <- define_nest o e (define_language e d) ;
  do d <- define_prefix k o e d ;
  do d <- define_propagate e d ;
  do d <- define_protect o prev d ;
  Ok (set_normal (fst s0) k (Some d), snd s0).

(** define.rs 171-775: a term definition entry.  The flag tells whether [defined.end] is
    reached. *)
Definition define_normal (s0 : st) (m : merged) (k : string) (rs : pstack)
  (base_url : option string) (protected : bool) (o : popts) (v : nullable tdef)
  : result (st * bool) cerr :=
  let prev := get_normal (fst s0) k in
  let s0 := (set_normal (fst s0) k None, snd s0) in
  let e := expanded_of v in
  do d <- define_protected protected o e ;
  do (s1, d) <- define_type s0 m rs o e d ;
  match te_reverse e with
  | Some rev => define_reverse s1 m k rs o e d rev
  | None =>
      do (s2, d) <- define_mapping s1 m k rs o (simple_term v) e d ;
      match d with
      | None => Ok (s2, false)
      | Some d => do s3 <- define_rest s2 k rs base_url o e prev d ; Ok (s3, true)
      end
  end.

(** define.rs 120-170: the [@type] entry. *)
Definition define_type_term (c : actx) (o : popts) (t : dtype) : result actx cerr :=
  if is_10 o then Err EKeywordRedefinition
  else
    let prev := ac_type c in
    let p := match dt_protected t with Some p => p | None => false end in
    let p := if po_override o then p else match prev with Some true => true | _ => p end in
    Ok (set_type c (Some p)).

(** define.rs 87-788 ([define]). *)
Definition define_body (s0 : st) (m : merged) (k : kk) (rs : pstack) (base_url : option string)
  (protected : bool) (o : popts) : result st cerr :=
  match dget k (snd s0) with
  | Some true => Err ECyclicIriMapping
  | Some false => Ok s0
  | None =>
      let s0 := (fst s0, (k, true) :: snd s0) in
      if match k with KKey s => streq s "" | KKeyword _ => false end then Err EInvalidTermDefinition
      else match m_get m k with
      | None => Ok (fst s0, dend k (snd s0))
      | Some (EvType t) => do c <- define_type_term (fst s0) o t ; Ok (c, dend k (snd s0))
      | Some (EvDef v) =>
          match k with
          | KKey s =>
              do (s1, ended) <- define_normal s0 m s rs base_url protected o v ;
              Ok (if ended then (fst s1, dend k (snd s1)) else s1)
          | KKeyword _ => Err EPanic
          end
      | Some EvOther => Err EKeywordRedefinition
      end
  end.

(** ** Context processing: mod.rs *)

(** mod.rs 216-269: the [@import] entry. *)
Definition import_of (d : cdef tdef) (base_url : option string) (o : popts) : result (option (cdef tdef)) cerr :=
  match cd_import d with
  | None => Ok None
  | Some i =>
      if is_10 o then Err EInvalidContextEntry
      else match resolve_iri i base_url with
           | None => Err EInvalidImportValue
           | Some u =>
               match ld u with
               | LdFail => Err EContextLoadingFailed
               | LdNoContext => Err EContextExtractionFailed
               | LdContext (LOne (CEDef i)) =>
                   match cd_import i with
                   | Some _ => Err EInvalidContextEntry
                   | None => Ok (Some i)
                   end
               | LdContext _ => Err EInvalidRemoteContext
               end
           end
  end.

(** mod.rs 273-294: [@base]. *)
Definition process_base (c : actx) (m : merged) (rs : pstack) : result actx cerr :=
  if ps_is_empty rs then
    match m_field cd_base m with
    | None => Ok c
    | Some NNull => Ok (set_base_iri c None)
    | Some (NSome i) =>
        if iri_ok io i then Ok (set_base_iri c (Some i))
        else match resolve_iri i (ac_base c) with
             | Some u => Ok (set_base_iri c (Some u))
             | None => Err EInvalidBaseIri
             end
    end
  else Ok c.

(** mod.rs 296-326: [@vocab]. *)
Definition process_vocab (c : actx) (m : merged) (o : popts) : result actx cerr :=
  match m_field cd_vocab m with
  | None => Ok c
  | Some NNull => Ok (set_vocabulary c None)
  | Some (NSome v) =>
      do t <- expand_iri_simple c (NSome (xp_of_str v)) true (Some (po_vocab o)) ;
      match t with
      | Some (TmId i) => Ok (set_vocabulary c (Some (TmId i)))
      | _ => Err EInvalidVocabMapping
      end
  end.

(** mod.rs 328-339: [@language]. *)
Definition process_language (c : actx) (m : merged) : actx :=
  match m_field cd_language m with
  | None => c
  | Some l => set_default_language c (nullable_option l)
  end.

(** mod.rs 341-358: [@direction]. *)
Definition process_direction (c : actx) (m : merged) (o : popts) : result actx cerr :=
  match m_field cd_direction m with
  | None => Ok c
  | Some d => if is_10 o then Err EInvalidContextEntry else Ok (set_default_direction c (nullable_option d))
  end.

(** mod.rs 391-408: the bindings. *)
Fixpoint define_keys (ks : list string) (s0 : st) (m : merged) (rs : pstack) (base_url : option string)
  (protected : bool) (o : popts) : result st cerr :=
  match ks with
  | [] => Ok s0
  | k :: ks' => do s1 <- e_define r s0 m (KKey k) rs base_url protected o ;
                define_keys ks' s1 m rs base_url protected o
  end.

(** mod.rs 360-408: creation of all the term definitions. *)
Definition define_all (c : actx) (m : merged) (rs : pstack) (base_url : option string) (o : popts)
  : result actx cerr :=
  let protected := match m_field cd_protected m with Some p => p | None => false end in
  do s1 <- match m_field cd_type m with
           | Some _ => e_define r (c, []) m (KKeyword KType) rs base_url protected o
           | None => Ok (c, [])
           end ;
  do s2 <- define_keys (m_keys m) s1 m rs base_url protected o ;
  Ok (fst s2).

(** mod.rs 271-409: a context definition, [@import] being resolved. *)
Definition process_merged (c : actx) (m : merged) (rs : pstack) (base_url : option string) (o : popts)
  : result actx cerr :=
  do c <- process_base c m rs ;
  do c <- process_vocab c m o ;
  do c <- process_direction (process_language c m) m o ;
  define_all c m rs base_url o.

(** mod.rs 206-409: a context definition. *)
Definition process_def (c : actx) (d : cdef tdef) (rs : pstack) (base_url : option string) (o : popts)
  : result actx cerr :=
  if match cd_version d with Some _ => is_10 o | None => false end then Err EProcessingModeConflict
  else
    do i <- import_of d base_url o ;
    process_merged c (MkMerged d i) rs base_url o.

(** mod.rs 113-137: the null context. *)
Definition process_null (active c : actx) (o : popts) : result actx cerr :=
  if negb (po_override o) && has_protected_items c then Err EInvalidContextNullification
  else let n := ctx_new (ac_orig active) in
       Ok (if po_propagate o then n else set_previous n c).

(** mod.rs 139-203: a reference to a remote context. *)
Definition process_iri (c : actx) (i : string) (rs : pstack) (base_url : option string) (o : popts)
  : result (actx * pstack) cerr :=
  match resolve_iri i base_url with
  | None => Err ELoadingDocumentFailed
  | Some u =>
      let '(pushed, rs) := ps_push rs u in
      if pushed then
        match ld u with
        | LdFail => Err EContextLoadingFailed
        | LdNoContext => Err EContextExtractionFailed
        | LdContext lc =>
            do c' <- e_process r c lc rs (Some u) (MkOpts (po_mode o) false true (po_vocab o)) ;
            Ok (c', rs)
        end
      else Ok (c, rs)
  end.

(** mod.rs 109-411: the loop over the entries. *)
Fixpoint process_entries (es : list centry) (active c : actx) (rs : pstack) (base_url : option string)
  (o : popts) : result actx cerr :=
  match es with
  | [] => Ok c
  | e :: es' =>
      do (c', rs') <- match e with
                       | CENull => do c' <- process_null active c o ; Ok (c', rs)
                       | CEIri i => process_iri c i rs base_url o
                       | CEDef d => do c' <- process_def c d rs base_url o ; Ok (c', rs)
                       end ;
      process_entries es' active c' rs' base_url o
  end.

(** syntax/src/context/mod.rs: iteration over a context. *)
Definition entries_of (lc : lcontext) : list centry :=
  match lc with LOne e => [e] | LMany l => l end.

(** mod.rs 91-101: [@propagate]. *)
Definition propagate_of (lc : lcontext) (o : popts) : result popts cerr :=
  match lc with
  | LOne (CEDef d) =>
      match cd_propagate d with
      | Some p => if is_10 o then Err EInvalidContextEntry
                  else Ok (MkOpts (po_mode o) (po_override o) p (po_vocab o))
      | None => Ok o
      end
  | _ => Ok o
  end.

(** mod.rs 73-414 ([process_context]). *)
Definition process_body (active : actx) (lc : lcontext) (rs : pstack) (base_url : option string)
  (o : popts) : result actx cerr :=
  do o <- propagate_of lc o ;
  let c := if negb (po_propagate o) && match ac_prev active with None => true | Some _ => false end
           then set_previous active active else active in
  process_entries (entries_of lc) active c rs base_url o.

End Body.

(** The recursion between [define] and [process_context]. *)
Fixpoint engine (n : nat) : eng :=
  match n with
  | 0 => MkEng (fun _ _ _ _ _ => Err EFuel) (fun _ _ _ _ _ _ _ => Err EFuel)
  | S n' => MkEng (process_body (engine n')) (define_body (engine n'))
  end.

Definition define (n : nat) := e_define (engine n).
Definition process_context (n : nat) := e_process (engine n).

(** mod.rs 20-51 ([Process::process_full]). *)
Definition process_full (n : nat) (active : actx) (lc : lcontext) (base_url : option string) (o : popts)
  : result actx cerr := process_context n active lc ps_new base_url o.

End Proc.

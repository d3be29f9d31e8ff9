(** Model of the conversion of an active context back into its syntax
    (core/src/context/mod.rs 227-255, context/definition.rs 303-308, 575-640), and what is
    needed for the result to be read as the same context. *)
From Verif Require Import Prelude Str Keyword Enums LangTag Container Stack ContextSyntax Ctx Process ObjectJson CompactIriRead Sound.

(** ** The model *)

(** definition.rs 303-308 ([TypeTermDefinition::into_syntax_definition]). *)
Definition type_into_syntax (p : bool) : dtype := MkDType (if p then Some true else None).

(** definition.rs 580-589 ([term_into_id]). *)
Definition term_into_id (t : term) : nullable tid :=
  match t with
  | TmNull => NNull
  | TmKw k => NSome (TIdKeyword k)
  | TmId i => NSome (TIdTerm (id_str i))
  end.
(** definition.rs 591-600 ([term_into_key]); [None]: the panic of line 596. *)
Definition term_into_key (t : term) : option string :=
  match t with
  | TmNull => None
  | TmKw k => Some (kw_str k)
  | TmId i => Some (id_str i)
  end.
(** definition.rs 602-613 ([type_into_syntax]). *)
Definition ty_into_syntax (t : ty) : ttype :=
  match t with
  | TyId => TTyKeyword TKId
  | TyJson => TTyKeyword TKJson
  | TyNone => TTyKeyword TKNone
  | TyVocab => TTyKeyword TKVocab
  | TyIri s => TTyTerm s
  end.

Definition flag (b : bool) : option bool := if b then Some true else None.

(** definition.rs 615-640: the members of the expanded definition, before [simplify]. *)
Definition def_members (d : ndef) (i : option (nullable tid)) (rev : option string) : texp lcontext :=
  MkTExp i (option_map (fun t => NSome (ty_into_syntax t)) (nd_typ d)) (nd_context d) rev (nd_index d)
    (nd_language d) (nd_direction d) (option_map NSome (c_into_syntax (nd_container d))) (nd_nest d)
    (flag (nd_prefix d)) None (flag (nd_protected d)).

(** definition.rs 575-640 ([NormalTermDefinition::into_syntax_definition]); [None]: panic. *)
Definition def_into_syntax (d : ndef) : option (nullable tdef) :=
  if nd_reverse d then
    match nd_value d with
    | None => Some (simplify (def_members d None None))
    | Some t => match term_into_key t with
                | Some k => Some (simplify (def_members d None (Some k)))
                | None => None
                end
    end
  else Some (simplify (def_members d (option_map term_into_id (nd_value d)) None)).

(** mod.rs 249-252: the bindings, in the order in which the map is visited. *)
Fixpoint bindings_into_syntax (l : defs) : option (list (string * nullable tdef)) :=
  match l with
  | [] => Some []
  | (k, d) :: l' => match def_into_syntax d, bindings_into_syntax l' with
                    | Some v, Some r => Some ((k, v) :: r)
                    | _, _ => None
                    end
  end.

(** mod.rs 227-255 ([Context::into_syntax_definition]); [None]: panic. *)
Definition ctx_into_syntax (c : actx) : option (cdef tdef) :=
  match (match ac_vocab c with
         | None => Some None
         | Some TmNull => Some (Some NNull)
         | Some (TmId i) => Some (Some (NSome (id_str i)))
         | Some (TmKw _) => None
         end), bindings_into_syntax (ac_defs c) with
  | Some v, Some b =>
      Some (MkDef (option_map NSome (ac_base c)) None (option_map NSome (ac_lang c))
              (option_map NSome (ac_dir c)) None None (option_map type_into_syntax (ac_type c)) None v b)
  | _, _ => None
  end.

(** ** Specification *)

(** The IRI mapping of a definition: no mapping and the null mapping are the same. *)
Definition mapping (d : ndef) : term := match nd_value d with Some t => t | None => TmNull end.

(** Two definitions say the same. *)
Record same_term (a b : ndef) : Prop := {
  st_mapping : mapping b = mapping a;
  st_prefix : nd_prefix b = nd_prefix a;
  st_protected : nd_protected b = nd_protected a;
  st_reverse : nd_reverse b = nd_reverse a;
  st_context : nd_context b = nd_context a;
  st_base : nd_base_url b = nd_base_url a;
  st_container : nd_container b = nd_container a;
  st_direction : nd_direction b = nd_direction a;
  st_index : nd_index b = nd_index a;
  st_language : nd_language b = nd_language a;
  st_nest : nd_nest b = nd_nest a;
  st_typ : nd_typ b = nd_typ a
}.

(** Two contexts say the same. *)
Record same_ctx (a b : actx) : Prop := {
  sc_base : ac_base b = ac_base a;
  sc_vocab : ac_vocab b = ac_vocab a;
  sc_lang : ac_lang b = ac_lang a;
  sc_dir : ac_dir b = ac_dir a;
  sc_prev : ac_prev b = ac_prev a;
  sc_type : ac_type b = ac_type a;
  sc_terms : forall k, match get_normal a k, get_normal b k with
                       | Some x, Some y => same_term x y
                       | None, None => True
                       | _, _ => False
                       end
}.

(** A definition made of its IRI mapping alone. *)
Definition bare (d : ndef) : Prop :=
  nd_prefix d = false /\ nd_protected d = false /\ nd_context d = None /\ nd_container d = CNone /\
  nd_direction d = None /\ nd_index d = None /\ nd_language d = None /\ nd_nest d = None /\ nd_typ d = None.

(** The text of an identifier that no term of the context disturbs: it is not a term, and
    neither is what comes before its first colon, unless [//] follows. *)
Definition free_text (c : actx) (s : string) : Prop :=
  get_normal c s = None /\
  forall p x, s = p +++ ":" +++ x -> contains_char ":" p = false -> (exists y, x = "//" +++ y) \/ get_normal c p = None.

(** An IRI or a blank node identifier. *)
Definition real_id (io : iops) (i : id) : Prop :=
  match i with
  | IIri s => iri_ok io s = true
  | IBlank s => blank_ok io s = true
  | IInvalid _ => False
  end.

(** The identifier ends like a prefix. *)
Definition ends_open (t : term) : bool :=
  match t with
  | TmId (IBlank _) => true
  | TmId (IIri s) => match last_char s with
                     | Some a => existsb (Ascii.eqb a) [":"; "/"; "?"; "#"; "["; "]"; "@"]%char
                     | None => false
                     end
  | _ => false
  end.

(** The definitions whose conversion is read as themselves, in the context [c], from a
    document at [url]. *)
Record convertible (io : iops) (ok : lcontext -> Prop) (url : option string) (c : actx) (k : string) (d : ndef) : Prop := {
  cv_key : k <> "" /\ contains_char ":" k = false /\ contains_char "/" k = false;
  cv_null : mapping d = TmNull -> nd_value d = None -> nd_reverse d = false /\ bare d;
  cv_id : forall i, nd_value d = Some (TmId i) -> real_id io i /\ free_text c (id_str i);
  cv_kw : nd_value d <> Some (TmKw KContext);
  cv_open : bare d -> nd_reverse d = false -> ends_open (mapping d) = false;
  cv_prefix : nd_prefix d = true -> exists i, nd_value d = Some (TmId i);
  cv_typ : forall s, nd_typ d = Some (TyIri s) -> iri_ok io s = true /\ free_text c s;
  cv_language : nd_typ d <> None -> nd_language d = None /\ nd_direction d = None;
  cv_type_map : In CKType (as_slice (nd_container d)) -> nd_typ d = Some TyId \/ nd_typ d = Some TyVocab;
  cv_index : forall s, nd_index d = Some s -> iri_ok io s = true /\ free_text c s /\ In CKIndex (as_slice (nd_container d));
  cv_context : forall l, nd_context d = Some l -> ok l /\ nd_base_url d = url;
  cv_no_context : nd_context d = None -> nd_base_url d = None;
  cv_reverse : nd_reverse d = true -> (exists i, nd_value d = Some (TmId i)) /\ In (nd_container d) [CNone; CSet; CIndex] /\
    nd_context d = None /\ nd_index d = None /\ nd_language d = None /\ nd_direction d = None /\ nd_nest d = None /\ nd_prefix d = false
}.

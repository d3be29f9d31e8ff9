(** The views of a context: its entries (syntax/src/context/definition/reference.rs,
    context/term_definition/mod.rs), access by key (definition/mod.rs) and the traversal of its
    fragments (context/mod.rs, definition/mod.rs, term_definition/mod.rs). *)
From Verif Require Import Prelude Json Enums Keyword Container ContextSyntax.

(** ** Entries of a context definition *)
(** definition/reference.rs 115-126 (enum [EntryValueRef]). *)
Inductive dvalue : Type :=
| DvBase (v : nullable string) | DvImport (v : string) | DvLanguage (v : nullable string) | DvDirection (v : nullable direction)
| DvPropagate (v : bool) | DvProtected (v : bool) | DvType (v : dtype) | DvVersion (v : unit) | DvVocab (v : nullable string)
| DvDefinition (v : nullable tdef).
(** definition/reference.rs 148-159 (enum [EntryRef]). *)
Inductive dentry : Type :=
| DeBase (v : nullable string) | DeImport (v : string) | DeLanguage (v : nullable string) | DeDirection (v : nullable direction)
| DePropagate (v : bool) | DeProtected (v : bool) | DeType (v : dtype) | DeVersion (v : unit) | DeVocab (v : nullable string)
| DeDefinition (k : string) (v : nullable tdef).
(** definition/reference.rs 161-173 (enum [EntryKeyRef]). *)
Inductive dkey : Type :=
| DkBase | DkImport | DkLanguage | DkDirection | DkPropagate | DkProtected | DkType | DkVersion | DkVocab | DkDefinition (k : string).
(** definition/reference.rs 175-190. *)
Definition dkey_str (k : dkey) : string :=
  match k with
  | DkBase => "@base" | DkImport => "@import" | DkLanguage => "@language" | DkDirection => "@direction" | DkPropagate => "@propagate"
  | DkProtected => "@protected" | DkType => "@type" | DkVersion => "@version" | DkVocab => "@vocab" | DkDefinition k => k
  end.
(** definition/reference.rs 193-221. *)
Definition dentry_key (e : dentry) : dkey :=
  match e with
  | DeBase _ => DkBase | DeImport _ => DkImport | DeLanguage _ => DkLanguage | DeDirection _ => DkDirection | DePropagate _ => DkPropagate
  | DeProtected _ => DkProtected | DeType _ => DkType | DeVersion _ => DkVersion | DeVocab _ => DkVocab | DeDefinition k _ => DkDefinition k
  end.
(** definition/reference.rs 223-251. *)
Definition dentry_value (e : dentry) : dvalue :=
  match e with
  | DeBase v => DvBase v | DeImport v => DvImport v | DeLanguage v => DvLanguage v | DeDirection v => DvDirection v | DePropagate v => DvPropagate v
  | DeProtected v => DvProtected v | DeType v => DvType v | DeVersion v => DvVersion v | DeVocab v => DvVocab v | DeDefinition _ v => DvDefinition v
  end.
(** definition/reference.rs 24-36 (struct [Entries]): what is left is a definition; 81-113. *)
Definition d_next (d : cdef tdef) : option (dentry * cdef tdef) :=
  match d with
  | MkDef (Some v) i l dr pg pt ty vs vo b => Some (DeBase v, MkDef None i l dr pg pt ty vs vo b)
  | MkDef None (Some v) l dr pg pt ty vs vo b => Some (DeImport v, MkDef None None l dr pg pt ty vs vo b)
  | MkDef None None (Some v) dr pg pt ty vs vo b => Some (DeLanguage v, MkDef None None None dr pg pt ty vs vo b)
  | MkDef None None None (Some v) pg pt ty vs vo b => Some (DeDirection v, MkDef None None None None pg pt ty vs vo b)
  | MkDef None None None None (Some v) pt ty vs vo b => Some (DePropagate v, MkDef None None None None None pt ty vs vo b)
  | MkDef None None None None None (Some v) ty vs vo b => Some (DeProtected v, MkDef None None None None None None ty vs vo b)
  | MkDef None None None None None None (Some v) vs vo b => Some (DeType v, MkDef None None None None None None None vs vo b)
  | MkDef None None None None None None None (Some v) vo b => Some (DeVersion v, MkDef None None None None None None None None vo b)
  | MkDef None None None None None None None None (Some v) b => Some (DeVocab v, MkDef None None None None None None None None None b)
  | MkDef None None None None None None None None None ((k, v) :: b) => Some (DeDefinition k v, MkDef None None None None None None None None None b)
  | MkDef None None None None None None None None None [] => None
  end.
Definition one {A} (o : option A) : nat := match o with Some _ => 1 | None => 0 end.
(** definition/reference.rs 41-79. *)
Definition d_hint (d : cdef tdef) : nat :=
  List.length (cd_bindings d) + one (cd_base d) + one (cd_import d) + one (cd_language d) + one (cd_direction d) + one (cd_propagate d)
  + one (cd_protected d) + one (cd_type d) + one (cd_version d) + one (cd_vocab d).
(** definition/mod.rs 117-146; the keys of the bindings ([IndexMap::get]). *)
Definition d_get (d : cdef tdef) (k : keyword + string) : option dvalue :=
  match k with
  | inl KBase => option_map DvBase (cd_base d)
  | inl KImport => option_map DvImport (cd_import d)
  | inl KLanguage => option_map DvLanguage (cd_language d)
  | inl KDirection => option_map DvDirection (cd_direction d)
  | inl KPropagate => option_map DvPropagate (cd_propagate d)
  | inl KProtected => option_map DvProtected (cd_protected d)
  | inl KType => option_map DvType (cd_type d)
  | inl KVersion => option_map DvVersion (cd_version d)
  | inl KVocab => option_map DvVocab (cd_vocab d)
  | inl _ => None
  | inr k => option_map DvDefinition (assoc k (cd_bindings d))
  end.

(** ** Entries of a term definition *)
(** term_definition/mod.rs 330-343 (enum [EntryRef]); 471-484 ([EntryValueRef] has the same cases). *)
Inductive tentry : Type :=
| TeId (v : nullable tid) | TeType (v : nullable ttype) | TeContext (v : lcontext) | TeReverse (v : string) | TeIndex (v : string)
| TeLanguage (v : nullable string) | TeDirection (v : nullable direction) | TeContainer (v : nullable scontainer) | TeNest (v : tnest)
| TePrefix (v : bool) | TePropagate (v : bool) | TeProtected (v : bool).
(** term_definition/mod.rs 347-379, 448-469 (the text of [EntryKey]). *)
Definition tentry_key (e : tentry) : string :=
  match e with
  | TeId _ => "@id" | TeType _ => "@type" | TeContext _ => "@context" | TeReverse _ => "@reverse" | TeIndex _ => "@index" | TeLanguage _ => "@language"
  | TeDirection _ => "@direction" | TeContainer _ => "@container" | TeNest _ => "@nest" | TePrefix _ => "@prefix" | TePropagate _ => "@propagate"
  | TeProtected _ => "@protected"
  end.
(** term_definition/mod.rs 556-597; what is left is a term definition. *)
Definition t_next (e : texp lcontext) : option (tentry * texp lcontext) :=
  match e with
  | MkTExp (Some v) t c r x l d ct n pf pp pt => Some (TeId v, MkTExp None t c r x l d ct n pf pp pt)
  | MkTExp None (Some v) c r x l d ct n pf pp pt => Some (TeType v, MkTExp None None c r x l d ct n pf pp pt)
  | MkTExp None None (Some v) r x l d ct n pf pp pt => Some (TeContext v, MkTExp None None None r x l d ct n pf pp pt)
  | MkTExp None None None (Some v) x l d ct n pf pp pt => Some (TeReverse v, MkTExp None None None None x l d ct n pf pp pt)
  | MkTExp None None None None (Some v) l d ct n pf pp pt => Some (TeIndex v, MkTExp None None None None None l d ct n pf pp pt)
  | MkTExp None None None None None (Some v) d ct n pf pp pt => Some (TeLanguage v, MkTExp None None None None None None d ct n pf pp pt)
  | MkTExp None None None None None None (Some v) ct n pf pp pt => Some (TeDirection v, MkTExp None None None None None None None ct n pf pp pt)
  | MkTExp None None None None None None None (Some v) n pf pp pt => Some (TeContainer v, MkTExp None None None None None None None None n pf pp pt)
  | MkTExp None None None None None None None None (Some v) pf pp pt => Some (TeNest v, MkTExp None None None None None None None None None pf pp pt)
  | MkTExp None None None None None None None None None (Some v) pp pt => Some (TePrefix v, MkTExp None None None None None None None None None None pp pt)
  | MkTExp None None None None None None None None None None (Some v) pt => Some (TePropagate v, MkTExp None None None None None None None None None None None pt)
  | MkTExp None None None None None None None None None None None (Some v) => Some (TeProtected v, MkTExp None None None None None None None None None None None None)
  | MkTExp None None None None None None None None None None None None => None
  end.
(** term_definition/mod.rs 505-554. *)
Definition t_hint (e : texp lcontext) : nat :=
  one (te_id e) + one (te_type e) + one (te_context e) + one (te_reverse e) + one (te_index e) + one (te_language e) + one (te_direction e)
  + one (te_container e) + one (te_nest e) + one (te_prefix e) + one (te_propagate e) + one (te_protected e).

(** ** Running an iterator *)
Section Iter.
  Context {St A : Type} (next : St -> option (A * St)).
  (** The items given by at most [fuel] calls; [None] if the iterator has not ended by then. *)
  Fixpoint collect (fuel : nat) (s : St) : option (list A) :=
    match fuel with
    | O => None
    | S fuel => match next s with None => Some [] | Some (x, s') => option_map (cons x) (collect fuel s') end
    end.
End Iter.
(** The lists made from the iterators: a definition has at most [d_hint] entries (proved below). *)
Definition d_entries (d : cdef tdef) : list dentry := match collect d_next (S (d_hint d)) d with Some l => l | None => [] end.
Definition t_entries (e : texp lcontext) : list tentry := match collect t_next (S (t_hint e)) e with Some l => l | None => [] end.

(** ** Fragments *)
(** term_definition/mod.rs 604-616 (enum [FragmentRef]); definition/mod.rs 245-257; context/mod.rs
    227-236. *)
Inductive tfrag : Type := TfEntry (e : tentry) | TfKey (k : string) | TfValue (e : tentry) | TfContainer (k : ckind).
Inductive dfrag : Type := DfEntry (e : dentry) | DfKey (k : dkey) | DfValue (v : dvalue) | DfTerm (f : tfrag).
Inductive frag : Type := FrArray (l : list centry) | FrContext (e : centry) | FrDef (f : dfrag).
(** term_definition/mod.rs 641-648; container.rs 115-120. *)
Definition tfrag_subs (f : tfrag) : list tfrag :=
  match f with
  | TfValue (TeContainer (NSome (SMany l))) => map TfContainer l
  | _ => []
  end.
(** definition/mod.rs 291-298, 306-317, 326-340; reference.rs 140-147. *)
Definition dfrag_subs (f : dfrag) : list dfrag :=
  match f with
  | DfEntry e => [DfKey (dentry_key e); DfValue (dentry_value e)]
  | DfKey _ => []
  | DfValue (DvDefinition (NSome (TExpanded e))) => map (fun x => DfTerm (TfEntry x)) (t_entries e)
  | DfValue _ => []
  | DfTerm f => map DfTerm (tfrag_subs f)
  end.
(** context/mod.rs 184-189, 255-261, 269-297. *)
Definition frag_subs (f : frag) : list frag :=
  match f with
  | FrArray l => map FrContext l
  | FrContext (CEDef d) => map (fun e => FrDef (DfEntry e)) (d_entries d)
  | FrContext _ => []
  | FrDef f => map FrDef (dfrag_subs f)
  end.
(** context/mod.rs 299-326: the stack, top first. *)
Definition trav_next (st : list frag) : option (frag * list frag) :=
  match st with
  | f :: st => Some (f, rev (frag_subs f) ++ st)
  | [] => None
  end.
(** context/mod.rs 85-90. *)
Definition traverse (c : lcontext) : list frag :=
  match c with LOne e => [FrContext e] | LMany l => [FrArray l] end.

(** reference.rs 129-138; mod.rs 29-35 of [TermDefinition]; term_definition/mod.rs 487-499, 627-639;
    container.rs [is_array]; definition/mod.rs 276-289; context/mod.rs 76-83, 191-193, 239-253. *)
Definition ctx_is_object (c : lcontext) : bool := match c with LOne (CEDef _) => true | _ => false end.
Definition tvalue_is_object (e : tentry) : bool := match e with TeContext c => ctx_is_object c | _ => false end.
Definition tvalue_is_array (e : tentry) : bool := match e with TeContainer (NSome (SMany _)) => true | _ => false end.
Definition dvalue_is_object (v : dvalue) : bool :=
  match v with DvType _ => true | DvDefinition (NSome (TExpanded _)) => true | _ => false end.
Definition is_object (f : frag) : bool :=
  match f with
  | FrContext (CEDef _) => true
  | FrDef (DfValue v) => dvalue_is_object v
  | FrDef (DfTerm (TfValue e)) => tvalue_is_object e
  | _ => false
  end.
Definition is_array (f : frag) : bool :=
  match f with
  | FrArray _ => true
  | FrDef (DfTerm (TfValue e)) => tvalue_is_array e
  | _ => false
  end.

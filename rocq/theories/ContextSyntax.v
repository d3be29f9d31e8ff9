(** Model of the local context syntax: crates/syntax/src/context (AST),
    crates/syntax/src/context/try_from_json.rs, crates/syntax/src/try_from_json.rs and
    crates/syntax/src/into_json.rs. *)
From Verif Require Import Prelude Keyword Enums Container Json.

(** ** Abstract syntax *)

(** context/term_definition/id.rs 8-15 (enum [Id]). *)
Inductive tid : Type := TIdKeyword (k : keyword) | TIdTerm (s : string).
(** context/term_definition/type_.rs 5-11 (enum [Type]). *)
Inductive ttype : Type := TTyKeyword (k : tkeyword) | TTyTerm (s : string).
(** context/term_definition/nest.rs 5-11 (enum [Nest]). *)
Inductive tnest : Type := TNest | TNestTerm (s : string).
(** context/definition/type_.rs 3-11; the only [TypeContainer] is [@set], the only
    [Version] is 1.1 (version.rs 7-13), so these are represented by [unit]. *)
Record dtype : Type := MkDType { dt_protected : option bool }.

(** context/term_definition/mod.rs 93-205 (struct [Expanded]). *)
Record texp (C : Type) : Type := MkTExp {
  te_id : option (nullable tid);
  te_type : option (nullable ttype);
  te_context : option C;
  te_reverse : option string;
  te_index : option string;
  te_language : option (nullable string);
  te_direction : option (nullable direction);
  te_container : option (nullable scontainer);
  te_nest : option tnest;
  te_prefix : option bool;
  te_propagate : option bool;
  te_protected : option bool
}.
Arguments MkTExp {C}.
Arguments te_id {C} _. Arguments te_type {C} _. Arguments te_context {C} _.
Arguments te_reverse {C} _. Arguments te_index {C} _. Arguments te_language {C} _.
Arguments te_direction {C} _. Arguments te_container {C} _. Arguments te_nest {C} _.
Arguments te_prefix {C} _. Arguments te_propagate {C} _. Arguments te_protected {C} _.

(** context/definition/mod.rs 18-110 (struct [Definition]); [bindings] is an
    insertion-ordered map ([IndexMap]). *)
Record cdef (T : Type) : Type := MkDef {
  cd_base : option (nullable string);
  cd_import : option string;
  cd_language : option (nullable string);
  cd_direction : option (nullable direction);
  cd_propagate : option bool;
  cd_protected : option bool;
  cd_type : option dtype;
  cd_version : option unit;
  cd_vocab : option (nullable string);
  cd_bindings : list (string * nullable T)
}.
Arguments MkDef {T}.
Arguments cd_base {T} _. Arguments cd_import {T} _. Arguments cd_language {T} _.
Arguments cd_direction {T} _. Arguments cd_propagate {T} _. Arguments cd_protected {T} _.
Arguments cd_type {T} _. Arguments cd_version {T} _. Arguments cd_vocab {T} _.
Arguments cd_bindings {T} _.

(** context/mod.rs 19-22, 177-181 ([Context], [ContextEntry]) and
    term_definition/mod.rs 23-26 ([TermDefinition]). *)
Inductive lcontext : Type :=
| LOne (e : centry)
| LMany (l : list centry)
with centry : Type :=
| CENull
| CEIri (s : string)
| CEDef (d : cdef tdef)
with tdef : Type :=
| TSimple (s : string)
| TExpanded (e : texp lcontext).

(** A property of the contents of a nullable or optional value. *)
Definition on_nsome {A} (P : A -> Prop) (n : nullable A) : Prop := match n with NSome a => P a | NNull => True end.
Definition on_some {A} (P : A -> Prop) (n : option A) : Prop := match n with Some a => P a | None => True end.

(** Induction over local contexts with hypotheses for every nested context. *)
Section AstInd.
  Variables (Pc : lcontext -> Prop) (Pe : centry -> Prop) (Pt : tdef -> Prop).
  Hypothesis Hone : forall e, Pe e -> Pc (LOne e).
  Hypothesis Hmany : forall l, Forall Pe l -> Pc (LMany l).
  Hypothesis Hnull : Pe CENull.
  Hypothesis Hiri : forall s, Pe (CEIri s).
  Hypothesis Hdef : forall d,
    Forall (fun b : string * nullable tdef => on_nsome Pt (snd b)) (cd_bindings d) ->
    Pe (CEDef d).
  Hypothesis Hsimple : forall s, Pt (TSimple s).
  Hypothesis Hexp : forall e,
    on_some Pc (te_context e) -> Pt (TExpanded e).

  Fixpoint lcontext_ind' (c : lcontext) : Pc c :=
    match c with
    | LOne e => Hone e (centry_ind' e)
    | LMany l => Hmany l ((fix go (l : list centry) : Forall Pe l :=
        match l with
        | [] => Forall_nil _
        | x :: l' => Forall_cons _ (centry_ind' x) (go l')
        end) l)
    end
  with centry_ind' (e : centry) : Pe e :=
    match e with
    | CENull => Hnull
    | CEIri s => Hiri s
    | CEDef d => Hdef d ((fix go (l : list (string * nullable tdef)) :
          Forall (fun b : string * nullable tdef => on_nsome Pt (snd b)) l :=
        match l with
        | [] => Forall_nil _
        | (k, n) :: l' =>
            @Forall_cons _ (fun b : string * nullable tdef => on_nsome Pt (snd b)) (k, n) l'
              (match n as n0 return on_nsome Pt n0 with
               | NSome t => tdef_ind' t
               | NNull => I
               end) (go l')
        end) (cd_bindings d))
    end
  with tdef_ind' (t : tdef) : Pt t :=
    match t with
    | TSimple s => Hsimple s
    | TExpanded e => Hexp e
        (match te_context e as o return on_some Pc o with
         | Some c => lcontext_ind' c
         | None => I
         end)
    end.
End AstInd.

Definition texp_new : texp lcontext :=
  MkTExp None None None None None None None None None None None None.
Definition cdef_new : cdef tdef :=
  MkDef None None None None None None None None None [].

(** ** Parsing *)

(** context/try_from_json.rs 10-28 (enum [InvalidContext], payloads dropped). *)
Inductive ctx_err : Type :=
| XInvalidIriRef | XUnexpected | XInvalidDirection | XDuplicateKey
| XInvalidTermDefinition | XInvalidNestValue.

(** id.rs 93-100 ([From<String> for Id]). *)
Definition tid_of_str (s : string) : tid :=
  match kw_of_str s with Some k => TIdKeyword k | None => TIdTerm s end.
(** id.rs 51-56 ([Id::into_string]). *)
Definition tid_str (i : tid) : string :=
  match i with TIdKeyword k => kw_str k | TIdTerm s => s end.

(** type_.rs 68-75 ([From<String> for Type]). *)
Definition ttype_of_str (s : string) : ttype :=
  match tkw_of_str s with Some k => TTyKeyword k | None => TTyTerm s end.
(** type_.rs 42-47 ([Type::into_string]). *)
Definition ttype_str (t : ttype) : string :=
  match t with TTyKeyword k => tkw_str k | TTyTerm s => s end.

(** nest.rs 51-63 ([TryFrom<String> for Nest]). *)
Definition tnest_of_str (s : string) : result tnest ctx_err :=
  if streq s "@nest" then Ok TNest
  else if is_keyword s then Err XInvalidNestValue
  else Ok (TNestTerm s).
(** nest.rs 21-26 ([Nest::into_string]). *)
Definition tnest_str (n : tnest) : string :=
  match n with TNest => "@nest" | TNestTerm s => s end.

Section Parse.
  (** [IriRefBuf::new] of the external crate [iref]. *)
  Variable iri_ref_ok : string -> bool.

  (** src/try_from_json.rs 12-24 (bool). *)
  Definition bool_of_json (j : json) : result bool ctx_err :=
    match j with JBool b => Ok b | _ => Err XUnexpected end.
  (** src/try_from_json.rs 26-41 (IriRefBuf). *)
  Definition iriref_of_json (j : json) : result string ctx_err :=
    match j with
    | JStr s => if iri_ref_ok s then Ok s else Err XInvalidIriRef
    | _ => Err XUnexpected
    end.
  (** src/try_from_json.rs 43-58 (LenientLangTagBuf); context/try_from_json.rs 202-214, 230-256
      (Vocab, Key, Index): any string. *)
  Definition str_of_json (j : json) : result string ctx_err :=
    match j with JStr s => Ok s | _ => Err XUnexpected end.
  (** src/try_from_json.rs 60-75 (Direction). *)
  Definition dir_of_json (j : json) : result direction ctx_err :=
    match j with
    | JStr s => match dir_of_str s with Some d => Ok d | None => Err XInvalidDirection end
    | _ => Err XUnexpected
    end.
  (** src/try_from_json.rs 77-86 (Nullable). *)
  Definition nullable_of_json {A} (f : json -> result A ctx_err) (j : json) : result (nullable A) ctx_err :=
    match j with
    | JNull => Ok NNull
    | _ => do a <- f j ; Ok (NSome a)
    end.
  (** src/try_from_json.rs 107-122 (ContainerKind). *)
  Definition ckind_of_json (j : json) : result ckind ctx_err :=
    match j with
    | JStr s => match ckind_of_str s with Some k => Ok k | None => Err XInvalidTermDefinition end
    | _ => Err XUnexpected
    end.
  Fixpoint mapm {A B} (f : A -> result B ctx_err) (l : list A) : result (list B) ctx_err :=
    match l with
    | [] => Ok []
    | x :: l' => do y <- f x ; do ys <- mapm f l' ; Ok (y :: ys)
    end.
  (** src/try_from_json.rs 88-104 (Container). *)
  Definition container_of_json (j : json) : result scontainer ctx_err :=
    match j with
    | JArr a => do l <- mapm ckind_of_json a ; Ok (SMany l)
    | _ => do k <- ckind_of_json j ; Ok (SOne k)
    end.
  (** context/try_from_json.rs 110-122 (term_definition::Type), 216-228 (Id), 258-273 (Nest). *)
  Definition ttype_of_json (j : json) : result ttype ctx_err :=
    match j with JStr s => Ok (ttype_of_str s) | _ => Err XUnexpected end.
  Definition tid_of_json (j : json) : result tid ctx_err :=
    match j with JStr s => Ok (tid_of_str s) | _ => Err XUnexpected end.
  Definition tnest_of_json (j : json) : result tnest ctx_err :=
    match j with JStr s => tnest_of_str s | _ => Err XUnexpected end.
  (** context/try_from_json.rs 124-139 (definition::TypeContainer). *)
  Definition tcontainer_of_json (j : json) : result unit ctx_err :=
    match j with
    | JStr s => match kw_of_str s with Some KSet => Ok tt | _ => Err XInvalidTermDefinition end
    | _ => Err XUnexpected
    end.
  (** context/try_from_json.rs 141-183 (definition::Type). *)
  Fixpoint dtype_loop (c : option unit) (p : option bool) (l : jobject) : result dtype ctx_err :=
    match l with
    | [] => match c with Some _ => Ok (MkDType p) | None => Err XInvalidTermDefinition end
    | (k, v) :: l' =>
        match kw_of_str k with
        | Some KContainer =>
            do c' <- tcontainer_of_json v ;
            match c with Some _ => Err XDuplicateKey | None => dtype_loop (Some c') p l' end
        | Some KProtected =>
            do b <- bool_of_json v ;
            match p with Some _ => Err XDuplicateKey | None => dtype_loop c (Some b) l' end
        | _ => Err XInvalidTermDefinition
        end
    end.
  Definition dtype_of_json (j : json) : result dtype ctx_err :=
    match j with JObj o => dtype_loop None None o | _ => Err XUnexpected end.
  (** context/try_from_json.rs 185-200 (Version). *)
  Definition version_of_json (j : json) : result unit ctx_err :=
    match j with
    | JNum n => if streq n "1.1" then Ok tt else Err XInvalidTermDefinition
    | _ => Err XUnexpected
    end.

  (** The three readings of a JSON value as a context entry, a term definition or a context. *)
  Record parsed : Type := MkParsed {
    p_entry : result centry ctx_err;
    p_tdef : result tdef ctx_err;
    p_ctx : result lcontext ctx_err
  }.

  (** context/try_from_json.rs 60-96: one entry of an expanded term definition; later
      duplicates overwrite. *)
  Definition texp_step (e : texp lcontext) (kv : string * json * parsed) : result (texp lcontext) ctx_err :=
    let '(k, v, p) := kv in
    let '(MkTExp i t c r x l d ct n pf pp pt) := e in
    match kw_of_str k with
    | Some KId => do a <- nullable_of_json tid_of_json v ; Ok (MkTExp (Some a) t c r x l d ct n pf pp pt)
    | Some KType => do a <- nullable_of_json ttype_of_json v ; Ok (MkTExp i (Some a) c r x l d ct n pf pp pt)
    | Some KContext => do a <- p_ctx p ; Ok (MkTExp i t (Some a) r x l d ct n pf pp pt)
    | Some KReverse => do a <- str_of_json v ; Ok (MkTExp i t c (Some a) x l d ct n pf pp pt)
    | Some KIndex => do a <- str_of_json v ; Ok (MkTExp i t c r (Some a) l d ct n pf pp pt)
    | Some KLanguage => do a <- nullable_of_json str_of_json v ; Ok (MkTExp i t c r x (Some a) d ct n pf pp pt)
    | Some KDirection => do a <- nullable_of_json dir_of_json v ; Ok (MkTExp i t c r x l (Some a) ct n pf pp pt)
    | Some KContainer => do a <- nullable_of_json container_of_json v ; Ok (MkTExp i t c r x l d (Some a) n pf pp pt)
    | Some KNest => do a <- tnest_of_json v ; Ok (MkTExp i t c r x l d ct (Some a) pf pp pt)
    | Some KPrefix => do a <- bool_of_json v ; Ok (MkTExp i t c r x l d ct n (Some a) pp pt)
    | Some KPropagate => do a <- bool_of_json v ; Ok (MkTExp i t c r x l d ct n pf (Some a) pt)
    | Some KProtected => do a <- bool_of_json v ; Ok (MkTExp i t c r x l d ct n pf pp (Some a))
    | _ => Err XInvalidTermDefinition
    end.

  Fixpoint foldm {A B} (f : A -> B -> result A ctx_err) (a : A) (l : list B) : result A ctx_err :=
    match l with
    | [] => Ok a
    | x :: l' => do a' <- f a x ; foldm f a' l'
    end.

  (** context/try_from_json.rs 299-336: one entry of a context definition. *)
  Definition cdef_step (e : cdef tdef) (kv : string * json * parsed) : result (cdef tdef) ctx_err :=
    let '(k, v, p) := kv in
    let '(MkDef ba im la di pg pt ty ve vo bi) := e in
    match kw_of_str k with
    | Some KBase => do a <- nullable_of_json iriref_of_json v ; Ok (MkDef (Some a) im la di pg pt ty ve vo bi)
    | Some KImport => do a <- iriref_of_json v ; Ok (MkDef ba (Some a) la di pg pt ty ve vo bi)
    | Some KLanguage => do a <- nullable_of_json str_of_json v ; Ok (MkDef ba im (Some a) di pg pt ty ve vo bi)
    | Some KDirection => do a <- nullable_of_json dir_of_json v ; Ok (MkDef ba im la (Some a) pg pt ty ve vo bi)
    | Some KPropagate => do a <- bool_of_json v ; Ok (MkDef ba im la di (Some a) pt ty ve vo bi)
    | Some KProtected => do a <- bool_of_json v ; Ok (MkDef ba im la di pg (Some a) ty ve vo bi)
    | Some KType => do a <- dtype_of_json v ; Ok (MkDef ba im la di pg pt (Some a) ve vo bi)
    | Some KVersion => do a <- version_of_json v ; Ok (MkDef ba im la di pg pt ty (Some a) vo bi)
    | Some KVocab => do a <- nullable_of_json str_of_json v ; Ok (MkDef ba im la di pg pt ty ve (Some a) bi)
    | _ =>
        do a <- match v with JNull => Ok NNull | _ => do t <- p_tdef p ; Ok (NSome t) end ;
        match assoc k bi with
        | Some _ => Err XDuplicateKey
        | None => Ok (MkDef ba im la di pg pt ty ve vo (bi ++ [(k, a)]))
        end
    end.

  (** context/try_from_json.rs 49-108 ([TermDefinition]), 294-351 ([ContextEntry]),
      275-292 ([Context]), computed together for a value. *)
  Fixpoint parse_all (j : json) : parsed :=
    let entry :=
      match j with
      | JNull => Ok CENull
      | JStr s => if iri_ref_ok s then Ok (CEIri s) else Err XInvalidIriRef
      | JObj o => do d <- foldm cdef_step cdef_new (map (fun e => (fst e, snd e, parse_all (snd e))) o) ; Ok (CEDef d)
      | _ => Err XUnexpected
      end in
    MkParsed entry
      (match j with
       | JStr s => Ok (TSimple s)
       | JObj o => do e <- foldm texp_step texp_new (map (fun e => (fst e, snd e, parse_all (snd e))) o) ; Ok (TExpanded e)
       | _ => Err XUnexpected
       end)
      (match j with
       | JArr a => do l <- mapm p_entry (map parse_all a) ; Ok (LMany l)
       | _ => do e <- entry ; Ok (LOne e)
       end).

  (** [Context::try_from_json], [TermDefinition::try_from_json]. *)
  Definition context_of_json (j : json) : result lcontext ctx_err := p_ctx (parse_all j).
  Definition tdef_of_json (j : json) : result tdef ctx_err := p_tdef (parse_all j).
End Parse.

(** ** Printing: crates/syntax/src/into_json.rs *)
Definition insert_opt (k : string) (o : option json) (l : jobject) : jobject :=
  match o with Some v => insert k v l | None => l end.

Definition nullable_to_json {A} (f : A -> json) (n : nullable A) : json :=
  match n with NNull => JNull | NSome a => f a end.

(** into_json.rs 149-164 (Container, ContainerKind). *)
Definition ckind_to_json (k : ckind) : json := JStr (ckind_str k).
Definition container_to_json (c : scontainer) : json :=
  match c with SOne k => ckind_to_json k | SMany l => JArr (map ckind_to_json l) end.

(** into_json.rs 105-117 (definition::Type). *)
Definition dtype_to_json (t : dtype) : json :=
  JObj (insert_opt "@protected" (option_map JBool (dt_protected t))
         (insert "@container" (JStr "@set") [])).

(** into_json.rs 196-242 (Definition); the bindings are already converted. *)
Definition cdef_to_obj (d : cdef json) : jobject :=
  fold_left (fun o b => insert (fst b) (nullable_to_json (fun j => j) (snd b)) o) (cd_bindings d)
  (insert_opt "@vocab" (option_map (nullable_to_json JStr) (cd_vocab d))
  (insert_opt "@version" (option_map (fun _ => JNum "1.1") (cd_version d))
  (insert_opt "@type" (option_map dtype_to_json (cd_type d))
  (insert_opt "@protected" (option_map JBool (cd_protected d))
  (insert_opt "@propagate" (option_map JBool (cd_propagate d))
  (insert_opt "@direction" (option_map (nullable_to_json (fun x => JStr (dir_str x))) (cd_direction d))
  (insert_opt "@language" (option_map (nullable_to_json JStr) (cd_language d))
  (insert_opt "@import" (option_map JStr (cd_import d))
  (insert_opt "@base" (option_map (nullable_to_json JStr) (cd_base d)) []))))))))).

(** into_json.rs 271-325 (Expanded); the context is already converted. *)
Definition texp_to_obj (e : texp json) : jobject :=
  insert_opt "@protected" (option_map JBool (te_protected e))
  (insert_opt "@propagate" (option_map JBool (te_propagate e))
  (insert_opt "@prefix" (option_map JBool (te_prefix e))
  (insert_opt "@nest" (option_map (fun n => JStr (tnest_str n)) (te_nest e))
  (insert_opt "@container" (option_map (nullable_to_json container_to_json) (te_container e))
  (insert_opt "@direction" (option_map (nullable_to_json (fun x => JStr (dir_str x))) (te_direction e))
  (insert_opt "@language" (option_map (nullable_to_json JStr) (te_language e))
  (insert_opt "@index" (option_map JStr (te_index e))
  (insert_opt "@reverse" (option_map JStr (te_reverse e))
  (insert_opt "@context" (te_context e)
  (insert_opt "@type" (option_map (nullable_to_json (fun t => JStr (ttype_str t))) (te_type e))
  (insert_opt "@id" (option_map (nullable_to_json (fun t => JStr (tid_str t))) (te_id e)) []))))))))))).

Definition map_bindings {A B} (f : A -> B) (l : list (string * nullable A)) : list (string * nullable B) :=
  map (fun b => (fst b, match snd b with NNull => NNull | NSome a => NSome (f a) end)) l.

Definition cdef_map {A B} (f : A -> B) (d : cdef A) : cdef B :=
  MkDef (cd_base d) (cd_import d) (cd_language d) (cd_direction d) (cd_propagate d)
        (cd_protected d) (cd_type d) (cd_version d) (cd_vocab d) (map_bindings f (cd_bindings d)).

Definition texp_map {A B} (f : A -> B) (e : texp A) : texp B :=
  MkTExp (te_id e) (te_type e) (option_map f (te_context e)) (te_reverse e) (te_index e)
         (te_language e) (te_direction e) (te_container e) (te_nest e) (te_prefix e)
         (te_propagate e) (te_protected e).

(** into_json.rs 175-194, 244-257 (Context, ContextEntry, TermDefinition). *)
Fixpoint context_to_json (c : lcontext) : json :=
  match c with
  | LOne e => entry_to_json e
  | LMany l => JArr (map entry_to_json l)
  end
with entry_to_json (e : centry) : json :=
  match e with
  | CENull => JNull
  | CEIri s => JStr s
  | CEDef d => JObj (cdef_to_obj (cdef_map tdef_to_json d))
  end
with tdef_to_json (t : tdef) : json :=
  match t with
  | TSimple s => JStr s
  | TExpanded e => JObj (texp_to_obj (texp_map context_to_json e))
  end.

(** ** Simplification: context/term_definition/mod.rs 207-254 *)
Definition none_b {A} (o : option A) : bool := match o with None => true | Some _ => false end.

Definition rest_none {C} (e : texp C) : bool :=
  none_b (te_type e) && none_b (te_context e) && none_b (te_reverse e) && none_b (te_index e) &&
  none_b (te_language e) && none_b (te_direction e) && none_b (te_container e) && none_b (te_nest e) &&
  none_b (te_prefix e) && none_b (te_propagate e) && none_b (te_protected e).

Definition texp_is_null (e : texp lcontext) : bool :=
  match te_id e with None | Some NNull => rest_none e | _ => false end.
Definition texp_is_simple (e : texp lcontext) : bool :=
  match te_id e with Some (NSome _) => rest_none e | _ => false end.
Definition simplify (e : texp lcontext) : nullable tdef :=
  if texp_is_null e then NNull
  else if texp_is_simple e then
    match te_id e with Some (NSome i) => NSome (TSimple (tid_str i)) | _ => NNull end
  else NSome (TExpanded e).

(** ** Specification: well-formed local contexts

    The values a local context can take according to its documentation: IRI references are
    valid, identifiers that read as a keyword are represented as that keyword, a nest value
    is not another keyword, and a term is bound at most once and is not one of the entries
    of the context definition itself. *)
Definition definition_entries : list string :=
  ["@base"; "@import"; "@language"; "@direction"; "@propagate"; "@protected"; "@type"; "@version"; "@vocab"].

Section Wf.
  Variable iri_ref_ok : string -> bool.
  Inductive wf_ctx : lcontext -> Prop :=
  | WOne e : wf_entry e -> wf_ctx (LOne e)
  | WMany l : Forall wf_entry l -> wf_ctx (LMany l)
  with wf_entry : centry -> Prop :=
  | WNull : wf_entry CENull
  | WIri s : iri_ref_ok s = true -> wf_entry (CEIri s)
  | WDef d :
      (forall b, cd_base d = Some (NSome b) -> iri_ref_ok b = true) ->
      (forall b, cd_import d = Some b -> iri_ref_ok b = true) ->
      NoDup (map fst (cd_bindings d)) ->
      Forall (fun b => ~ In (fst b) definition_entries) (cd_bindings d) ->
      (forall k t, In (k, NSome t) (cd_bindings d) -> wf_tdef t) ->
      wf_entry (CEDef d)
  with wf_tdef : tdef -> Prop :=
  | WSimple s : wf_tdef (TSimple s)
  | WExpanded e :
      (forall s, te_id e = Some (NSome (TIdTerm s)) -> forall k, s <> kw_str k) ->
      (forall s, te_type e = Some (NSome (TTyTerm s)) -> forall k, s <> tkw_str k) ->
      (forall s, te_nest e = Some (TNestTerm s) -> forall k, s <> kw_str k) ->
      (forall c, te_context e = Some c -> wf_ctx c) ->
      wf_tdef (TExpanded e).
End Wf.

(** Model of the processed ("active") context: crates/core/src/id.rs, term.rs, ty.rs,
    context/mod.rs and context/definition.rs.

    IRIs and blank node identifiers are represented by their text: the vocabulary
    (interning) of the crates is not modelled. *)
From Verif Require Import Prelude Str Keyword Enums LangTag Container ContextSyntax.

(** ** Identifiers and terms *)

(** id.rs 36-43 ([Id]); [Valid(ValidId::Iri)], [Valid(ValidId::Blank)], [Invalid]. *)
Inductive id : Type := IIri (s : string) | IBlank (s : string) | IInvalid (s : string).
(** term.rs 9-19. *)
Inductive term : Type := TmNull | TmId (i : id) | TmKw (k : keyword).
(** ty.rs 11-31. *)
Inductive ty : Type := TyId | TyJson | TyNone | TyVocab | TyIri (s : string).

(** id.rs 140-240 ([is_valid], [as_str], [as_iri]). *)
Definition id_valid (i : id) : bool := match i with IInvalid _ => false | _ => true end.
Definition id_str (i : id) : string := match i with IIri s | IBlank s | IInvalid s => s end.

(** term.rs 73-91. *)
Definition term_str (t : term) : string :=
  match t with TmId i => id_str i | TmKw k => kw_str k | TmNull => "" end.
(** term.rs 38-48. *)
Definition term_is_kw (t : term) : bool := match t with TmKw _ => true | _ => false end.
Definition term_as_iri (t : term) : option string := match t with TmId (IIri s) => Some s | _ => None end.

(** ty.rs 114-127 ([TryFrom<Term> for Type]). *)
Definition ty_of_term (t : term) : option ty :=
  match t with
  | TmKw KId => Some TyId
  | TmKw KJson => Some TyJson
  | TmKw KNone => Some TyNone
  | TmKw KVocab => Some TyVocab
  | TmId (IIri s) => Some (TyIri s)
  | _ => None
  end.

(** Derived equalities. *)
Definition id_eqb (a b : id) : bool :=
  match a, b with
  | IIri x, IIri y | IBlank x, IBlank y | IInvalid x, IInvalid y => streq x y
  | _, _ => false
  end.
Definition term_eqb (a b : term) : bool :=
  match a, b with
  | TmNull, TmNull => true
  | TmId x, TmId y => id_eqb x y
  | TmKw x, TmKw y => keyword_eqb x y
  | _, _ => false
  end.
Definition ty_eqb (a b : ty) : bool :=
  match a, b with
  | TyId, TyId | TyJson, TyJson | TyNone, TyNone | TyVocab, TyVocab => true
  | TyIri x, TyIri y => streq x y
  | _, _ => false
  end.
Definition tnest_eqb (a b : tnest) : bool :=
  match a, b with
  | TNest, TNest => true
  | TNestTerm x, TNestTerm y => streq x y
  | _, _ => false
  end.
Definition nullable_eqb {A} (eqb : A -> A -> bool) (a b : nullable A) : bool :=
  match a, b with
  | NNull, NNull => true
  | NSome x, NSome y => eqb x y
  | _, _ => false
  end.
(** syntax/src/lang.rs: language tags compare ignoring ASCII case. *)
Definition lang_eqb (a b : string) : bool := ci_eq (list_ascii_of_string a) (list_ascii_of_string b).
Definition tid_eqb (a b : tid) : bool :=
  match a, b with
  | TIdKeyword x, TIdKeyword y => keyword_eqb x y
  | TIdTerm x, TIdTerm y => streq x y
  | _, _ => false
  end.
Definition ttype_eqb (a b : ttype) : bool :=
  match a, b with
  | TTyKeyword x, TTyKeyword y => tkeyword_eqb x y
  | TTyTerm x, TTyTerm y => streq x y
  | _, _ => false
  end.
(** syntax/src/container.rs: derived equality of syntax containers. *)
Definition scontainer_eqb (a b : scontainer) : bool :=
  match a, b with
  | SOne x, SOne y => ckind_eqb x y
  | SMany x, SMany y => list_eqb ckind_eqb x y
  | _, _ => false
  end.

(** Derived equality of local contexts (syntax crate).  [Bindings] is an [IndexMap], whose
    equality is that of maps (order is ignored). *)
Fixpoint lctx_eqb (a b : lcontext) {struct a} : bool :=
  match a, b with
  | LOne x, LOne y => centry_eqb x y
  | LMany l, LMany m =>
      (fix go (l m : list centry) {struct l} : bool :=
         match l, m with
         | [], [] => true
         | x :: l', y :: m' => centry_eqb x y && go l' m'
         | _, _ => false
         end) l m
  | _, _ => false
  end
with centry_eqb (a b : centry) {struct a} : bool :=
  match a, b with
  | CENull, CENull => true
  | CEIri x, CEIri y => streq x y
  | CEDef d, CEDef e =>
      opt_eqb (nullable_eqb streq) (cd_base d) (cd_base e)
      && opt_eqb streq (cd_import d) (cd_import e)
      && opt_eqb (nullable_eqb lang_eqb) (cd_language d) (cd_language e)
      && opt_eqb (nullable_eqb direction_eqb) (cd_direction d) (cd_direction e)
      && opt_eqb Bool.eqb (cd_propagate d) (cd_propagate e)
      && opt_eqb Bool.eqb (cd_protected d) (cd_protected e)
      && opt_eqb (fun t u => opt_eqb Bool.eqb (dt_protected t) (dt_protected u)) (cd_type d) (cd_type e)
      && opt_eqb (fun _ _ => true) (cd_version d) (cd_version e)
      && opt_eqb (nullable_eqb streq) (cd_vocab d) (cd_vocab e)
      && Nat.eqb (length (cd_bindings d)) (length (cd_bindings e))
      && forallb (fun b => match assoc (fst b) (cd_bindings e) with
                           | Some n => match snd b, n with
                                       | NNull, NNull => true
                                       | NSome t, NSome u => tdef_eqb t u
                                       | _, _ => false
                                       end
                           | None => false
                           end) (cd_bindings d)
  | _, _ => false
  end
with tdef_eqb (a b : tdef) {struct a} : bool :=
  match a, b with
  | TSimple x, TSimple y => streq x y
  | TExpanded d, TExpanded e =>
      opt_eqb (nullable_eqb tid_eqb) (te_id d) (te_id e)
      && opt_eqb (nullable_eqb ttype_eqb) (te_type d) (te_type e)
      && match te_context d, te_context e with
         | Some c, Some c' => lctx_eqb c c'
         | None, None => true
         | _, _ => false
         end
      && opt_eqb streq (te_reverse d) (te_reverse e)
      && opt_eqb streq (te_index d) (te_index e)
      && opt_eqb (nullable_eqb lang_eqb) (te_language d) (te_language e)
      && opt_eqb (nullable_eqb direction_eqb) (te_direction d) (te_direction e)
      && opt_eqb (nullable_eqb scontainer_eqb) (te_container d) (te_container e)
      && opt_eqb tnest_eqb (te_nest d) (te_nest e)
      && opt_eqb Bool.eqb (te_prefix d) (te_prefix e)
      && opt_eqb Bool.eqb (te_propagate d) (te_propagate e)
      && opt_eqb Bool.eqb (te_protected d) (te_protected e)
  | _, _ => false
  end.

(** ** Term definitions *)

(** context/definition.rs 528-564 ([NormalTermDefinition]). *)
Record ndef : Type := MkNDef {
  nd_value : option term;
  nd_prefix : bool;
  nd_protected : bool;
  nd_reverse : bool;
  nd_base_url : option string;
  nd_context : option lcontext;
  nd_container : container;
  nd_direction : option (nullable direction);
  nd_index : option string;
  nd_language : option (nullable string);
  nd_nest : option tnest;
  nd_typ : option ty
}.

(** definition.rs 665-682 ([Default]). *)
Definition ndef_default : ndef :=
  MkNDef None false false false None None CNone None None None None None.

(** Field updates of a definition. *)
Definition nd_set_value (d : ndef) v := MkNDef v (nd_prefix d) (nd_protected d) (nd_reverse d) (nd_base_url d) (nd_context d) (nd_container d) (nd_direction d) (nd_index d) (nd_language d) (nd_nest d) (nd_typ d).
Definition nd_set_prefix (d : ndef) v := MkNDef (nd_value d) v (nd_protected d) (nd_reverse d) (nd_base_url d) (nd_context d) (nd_container d) (nd_direction d) (nd_index d) (nd_language d) (nd_nest d) (nd_typ d).
Definition nd_set_protected (d : ndef) v := MkNDef (nd_value d) (nd_prefix d) v (nd_reverse d) (nd_base_url d) (nd_context d) (nd_container d) (nd_direction d) (nd_index d) (nd_language d) (nd_nest d) (nd_typ d).
Definition nd_set_reverse (d : ndef) v := MkNDef (nd_value d) (nd_prefix d) (nd_protected d) v (nd_base_url d) (nd_context d) (nd_container d) (nd_direction d) (nd_index d) (nd_language d) (nd_nest d) (nd_typ d).
Definition nd_set_context (d : ndef) c u := MkNDef (nd_value d) (nd_prefix d) (nd_protected d) (nd_reverse d) u (Some c) (nd_container d) (nd_direction d) (nd_index d) (nd_language d) (nd_nest d) (nd_typ d).
Definition nd_set_container (d : ndef) v := MkNDef (nd_value d) (nd_prefix d) (nd_protected d) (nd_reverse d) (nd_base_url d) (nd_context d) v (nd_direction d) (nd_index d) (nd_language d) (nd_nest d) (nd_typ d).
Definition nd_set_direction (d : ndef) v := MkNDef (nd_value d) (nd_prefix d) (nd_protected d) (nd_reverse d) (nd_base_url d) (nd_context d) (nd_container d) v (nd_index d) (nd_language d) (nd_nest d) (nd_typ d).
Definition nd_set_index (d : ndef) v := MkNDef (nd_value d) (nd_prefix d) (nd_protected d) (nd_reverse d) (nd_base_url d) (nd_context d) (nd_container d) (nd_direction d) v (nd_language d) (nd_nest d) (nd_typ d).
Definition nd_set_language (d : ndef) v := MkNDef (nd_value d) (nd_prefix d) (nd_protected d) (nd_reverse d) (nd_base_url d) (nd_context d) (nd_container d) (nd_direction d) (nd_index d) v (nd_nest d) (nd_typ d).
Definition nd_set_nest (d : ndef) v := MkNDef (nd_value d) (nd_prefix d) (nd_protected d) (nd_reverse d) (nd_base_url d) (nd_context d) (nd_container d) (nd_direction d) (nd_index d) (nd_language d) v (nd_typ d).
Definition nd_set_typ (d : ndef) v := MkNDef (nd_value d) (nd_prefix d) (nd_protected d) (nd_reverse d) (nd_base_url d) (nd_context d) (nd_container d) (nd_direction d) (nd_index d) (nd_language d) (nd_nest d) v.

(** core/src/container.rs: derived equality. *)
Definition container_eqb (a b : container) : bool := list_eqb ckind_eqb (as_slice a) (as_slice b).

(** definition.rs 687-704 ([ModuloProtected] equality on normal definitions). *)
Definition modulo_protected_eqb (a b : ndef) : bool :=
  Bool.eqb (nd_prefix a) (nd_prefix b)
  && Bool.eqb (nd_reverse a) (nd_reverse b)
  && opt_eqb (nullable_eqb lang_eqb) (nd_language a) (nd_language b)
  && opt_eqb (nullable_eqb direction_eqb) (nd_direction a) (nd_direction b)
  && opt_eqb tnest_eqb (nd_nest a) (nd_nest b)
  && opt_eqb streq (nd_index a) (nd_index b)
  && container_eqb (nd_container a) (nd_container b)
  && opt_eqb streq (nd_base_url a) (nd_base_url b)
  && opt_eqb term_eqb (nd_value a) (nd_value b)
  && opt_eqb ty_eqb (nd_typ a) (nd_typ b)
  && opt_eqb lctx_eqb (nd_context a) (nd_context b).

(** ** The map from terms to definitions

    definition.rs 75-87: a [HashMap]; represented by an association list.  Its iteration
    order is only observed by [has_protected_items] (order independent) and by the
    construction of the inverse context (which sorts; see [Inverse.v]). *)
Definition defs := list (string * ndef).

Definition mdel (k : string) (m : defs) : defs := filter (fun p => negb (streq k (fst p))) m.
Definition mset (k : string) (d : option ndef) (m : defs) : defs :=
  match d with Some d => (k, d) :: mdel k m | None => mdel k m end.

Lemma assoc_mdel k k' m : assoc k' (mdel k m) = if streq k k' then None else assoc k' m.
Proof.
  unfold mdel. induction m as [|[x d] m IH]; cbn [filter assoc fst].
  - destruct (streq k k'); reflexivity.
  - destruct (streq_spec k x) as [->|N]; cbn [negb].
    + rewrite IH. destruct (streq_spec x k') as [->|N']; [reflexivity|].
      destruct (streq_spec k' x); [congruence|reflexivity].
    + cbn [assoc]. rewrite IH. destruct (streq_spec k k') as [->|N'].
      * destruct (streq_spec k' x); [congruence|reflexivity].
      * reflexivity.
Qed.

Lemma assoc_mset k k' d m : assoc k' (mset k d m) = if streq k k' then d else assoc k' m.
Proof.
  unfold mset. destruct d as [d|]; [cbn [assoc]|]; rewrite assoc_mdel.
  - destruct (streq_spec k k') as [->|N]; [rewrite streq_refl; reflexivity|].
    destruct (streq_spec k' k); [congruence|reflexivity].
  - reflexivity.
Qed.

(** ** The context

    context/mod.rs 29-38.  The [inverse] cache is modelled separately ([Inverse.v]).
    [ac_type] is the [type_] definition ([TypeTermDefinition]): the only type container is
    [@set], so only the protected flag remains. *)
Inductive actx : Type := MkCtx
  (orig base : option string) (voc : option term) (lang : option string)
  (dir : option direction) (prev : option actx) (dfs : defs) (typ : option bool).

Definition ac_orig c := match c with MkCtx o _ _ _ _ _ _ _ => o end.
Definition ac_base c := match c with MkCtx _ b _ _ _ _ _ _ => b end.
Definition ac_vocab c := match c with MkCtx _ _ v _ _ _ _ _ => v end.
Definition ac_lang c := match c with MkCtx _ _ _ l _ _ _ _ => l end.
Definition ac_dir c := match c with MkCtx _ _ _ _ d _ _ _ => d end.
Definition ac_prev c := match c with MkCtx _ _ _ _ _ p _ _ => p end.
Definition ac_defs c := match c with MkCtx _ _ _ _ _ _ d _ => d end.
Definition ac_type c := match c with MkCtx _ _ _ _ _ _ _ t => t end.

(** mod.rs 59-73 ([Context::new]). *)
Definition ctx_new (base : option string) : actx := MkCtx base base None None None None [] None.

(** mod.rs 183-225 (setters). *)
Definition set_base_iri c b := MkCtx (ac_orig c) b (ac_vocab c) (ac_lang c) (ac_dir c) (ac_prev c) (ac_defs c) (ac_type c).
Definition set_vocabulary c v := MkCtx (ac_orig c) (ac_base c) v (ac_lang c) (ac_dir c) (ac_prev c) (ac_defs c) (ac_type c).
Definition set_default_language c l := MkCtx (ac_orig c) (ac_base c) (ac_vocab c) l (ac_dir c) (ac_prev c) (ac_defs c) (ac_type c).
Definition set_default_direction c d := MkCtx (ac_orig c) (ac_base c) (ac_vocab c) (ac_lang c) d (ac_prev c) (ac_defs c) (ac_type c).
Definition set_previous c p := MkCtx (ac_orig c) (ac_base c) (ac_vocab c) (ac_lang c) (ac_dir c) (Some p) (ac_defs c) (ac_type c).
Definition set_type c t := MkCtx (ac_orig c) (ac_base c) (ac_vocab c) (ac_lang c) (ac_dir c) (ac_prev c) (ac_defs c) t.
Definition set_normal c k d := MkCtx (ac_orig c) (ac_base c) (ac_vocab c) (ac_lang c) (ac_dir c) (ac_prev c) (mset k d (ac_defs c)) (ac_type c).

(** mod.rs 86-92 / definition.rs 129-135 ([get_normal]). *)
Definition get_normal (c : actx) (k : string) : option ndef := assoc k (ac_defs c).

(** definition.rs 115-126 ([get]) seen through [TermDefinitionRef::value]: [None] if the term
    is undefined, [Some v] with [v] the IRI mapping otherwise (a [@type] definition has no IRI
    mapping). *)
Definition get_value (c : actx) (k : string) : option (option term) :=
  if streq k "@type" then option_map (fun _ => None) (ac_type c)
  else option_map nd_value (get_normal c k).

(** mod.rs 163-171 ([has_protected_items]). *)
Definition has_protected_items (c : actx) : bool :=
  existsb (fun p => nd_protected (snd p)) (ac_defs c)
  || match ac_type c with Some p => p | None => false end.

(** ** Lemmas *)
Lemma get_normal_set c k d k' : get_normal (set_normal c k d) k' = if streq k k' then d else get_normal c k'.
Proof. unfold get_normal, set_normal. cbn. apply assoc_mset. Qed.

Lemma id_eqb_spec a b : reflect (a = b) (id_eqb a b).
Proof.
  destruct a, b; cbn; try (constructor; discriminate);
    destruct (streq_spec s s0); constructor; congruence.
Qed.
Lemma term_eqb_spec a b : reflect (a = b) (term_eqb a b).
Proof.
  destruct a, b; cbn; try (constructor; discriminate); try (constructor; reflexivity).
  - destruct (id_eqb_spec i i0); constructor; congruence.
  - destruct (keyword_eqb_spec k k0); constructor; congruence.
Qed.
Lemma ty_eqb_spec a b : reflect (a = b) (ty_eqb a b).
Proof.
  destruct a, b; cbn; try (constructor; discriminate); try (constructor; reflexivity).
  destruct (streq_spec s s0); constructor; congruence.
Qed.
Lemma tnest_eqb_spec a b : reflect (a = b) (tnest_eqb a b).
Proof.
  destruct a, b; cbn; try (constructor; discriminate); try (constructor; reflexivity).
  destruct (streq_spec s s0); constructor; congruence.
Qed.
Lemma container_eqb_spec a b : reflect (a = b) (container_eqb a b).
Proof. destruct a, b; cbn; constructor; congruence. Qed.
Lemma opt_eqb_spec {A} (e : A -> A -> bool) (H : forall x y, reflect (x = y) (e x y)) a b :
  reflect (a = b) (opt_eqb e a b).
Proof.
  destruct a, b; cbn; try (constructor; congruence).
  destruct (H a a0); constructor; congruence.
Qed.
Lemma nullable_eqb_spec {A} (e : A -> A -> bool) (H : forall x y, reflect (x = y) (e x y)) a b :
  reflect (a = b) (nullable_eqb e a b).
Proof.
  destruct a, b; cbn; try (constructor; congruence).
  destruct (H a a0); constructor; congruence.
Qed.

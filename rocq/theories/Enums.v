(** Models of the small enumerations with a text form. *)
From Verif Require Import Prelude Keyword.
Local Open Scope string_scope.

(** ** crates/syntax/src/direction.rs 17-24 (enum [Direction]). *)
Inductive direction : Type := Ltr | Rtl.

(** crates/syntax/src/direction.rs 27-32 ([Direction::as_str]). *)
Definition dir_str (d : direction) : string :=
  match d with Ltr => "ltr" | Rtl => "rtl" end.

(** crates/syntax/src/direction.rs 47-58 ([TryFrom<&str>]). *)
Definition dir_of_str (s : string) : option direction :=
  if streq s "ltr" then Some Ltr
  else if streq s "rtl" then Some Rtl
  else None.

Definition direction_eqb (a b : direction) : bool :=
  match a, b with Ltr, Ltr | Rtl, Rtl => true | _, _ => false end.

(** ** crates/syntax/src/container.rs 3-26 (enum [ContainerKind]). *)
Inductive ckind : Type :=
| CKGraph | CKId | CKIndex | CKLanguage | CKList | CKSet | CKType.

(** crates/syntax/src/container.rs 78-91 ([From<ContainerKind> for Keyword]). *)
Definition ckind_kw (c : ckind) : keyword :=
  match c with
  | CKGraph => KGraph | CKId => KId | CKIndex => KIndex | CKLanguage => KLanguage
  | CKList => KList | CKSet => KSet | CKType => KType
  end.

(** crates/syntax/src/container.rs 37-39 ([ContainerKind::as_str]). *)
Definition ckind_str (c : ckind) : string := kw_str (ckind_kw c).

(** crates/syntax/src/container.rs 42-58 ([TryFrom<&str> for ContainerKind]). *)
Definition ckind_of_str (s : string) : option ckind :=
  if streq s "@graph" then Some CKGraph
  else if streq s "@id" then Some CKId
  else if streq s "@index" then Some CKIndex
  else if streq s "@language" then Some CKLanguage
  else if streq s "@list" then Some CKList
  else if streq s "@set" then Some CKSet
  else if streq s "@type" then Some CKType
  else None.

(** crates/syntax/src/container.rs 60-76 ([TryFrom<Keyword> for ContainerKind]). *)
Definition ckind_of_kw (k : keyword) : option ckind :=
  match k with
  | KGraph => Some CKGraph | KId => Some CKId | KIndex => Some CKIndex
  | KLanguage => Some CKLanguage | KList => Some CKList | KSet => Some CKSet
  | KType => Some CKType | _ => None
  end.

Definition ckind_eqb (a b : ckind) : bool := keyword_eqb (ckind_kw a) (ckind_kw b).

(** ** crates/syntax/src/context/term_definition/type_.rs 81-93 (enum [TypeKeyword]). *)
Inductive tkeyword : Type := TKId | TKJson | TKNone | TKVocab.

(** type_.rs 152-161 ([From<TypeKeyword> for Keyword]). *)
Definition tkw_kw (t : tkeyword) : keyword :=
  match t with TKId => KId | TKJson => KJson | TKNone => KNone | TKVocab => KVocab end.

(** type_.rs 124-126 ([TypeKeyword::as_str]). *)
Definition tkw_str (t : tkeyword) : string := kw_str (tkw_kw t).

(** type_.rs 163-175 ([TryFrom<Keyword> for TypeKeyword]). *)
Definition tkw_of_kw (k : keyword) : option tkeyword :=
  match k with
  | KId => Some TKId | KJson => Some TKJson | KNone => Some TKNone
  | KVocab => Some TKVocab | _ => None
  end.

(** type_.rs 177-183 ([TryFrom<&str> for TypeKeyword]). *)
Definition tkw_of_str (s : string) : option tkeyword :=
  match kw_of_str s with Some k => tkw_of_kw k | None => None end.

Definition tkeyword_eqb (a b : tkeyword) : bool := keyword_eqb (tkw_kw a) (tkw_kw b).

(** ** crates/core/src/mode.rs 9-16 (enum [ProcessingMode]). *)
Inductive mode : Type := JsonLd10 | JsonLd11.

(** mode.rs 21-26 ([ProcessingMode::as_str]). *)
Definition mode_str (m : mode) : string :=
  match m with JsonLd10 => "json-ld-1.0" | JsonLd11 => "json-ld-1.1" end.

(** mode.rs 29-39 ([TryFrom<&str>]). *)
Definition mode_of_str (s : string) : option mode :=
  if streq s "json-ld-1.0" then Some JsonLd10
  else if streq s "json-ld-1.1" then Some JsonLd11
  else None.

(** ** crates/syntax/src/error.rs 6-174 (enum [ErrorCode]). *)
Inductive error_code : Type :=
| ECCollidingKeywords
| ECConflictingIndexes
| ECContextOverflow
| ECCyclicIriMapping
| ECInvalidIdValue
| ECInvalidImportValue
| ECInvalidIncludedValue
| ECInvalidIndexValue
| ECInvalidNestValue
| ECInvalidPrefixValue
| ECInvalidPropagateValue
| ECInvalidProtectedValue
| ECInvalidReverseValue
| ECInvalidVersionValue
| ECInvalidBaseDirection
| ECInvalidBaseIri
| ECInvalidContainerMapping
| ECInvalidContextEntry
| ECInvalidContextNullification
| ECInvalidDefaultLanguage
| ECInvalidIriMapping
| ECInvalidJsonLiteral
| ECInvalidKeywordAlias
| ECInvalidLanguageMapValue
| ECInvalidLanguageMapping
| ECInvalidLanguageTaggedString
| ECInvalidLanguageTaggedValue
| ECInvalidLocalContext
| ECInvalidRemoteContext
| ECInvalidReverseProperty
| ECInvalidReversePropertyMap
| ECInvalidReversePropertyValue
| ECInvalidScopedContext
| ECInvalidScriptElement
| ECInvalidSetOrListObject
| ECInvalidTermDefinition
| ECInvalidTypeMapping
| ECInvalidTypeValue
| ECInvalidTypedValue
| ECInvalidValueObject
| ECInvalidValueObjectValue
| ECInvalidVocabMapping
| ECIriConfusedWithPrefix
| ECKeyExpansionFailed
| ECKeywordRedefinition
| ECLoadingDocumentFailed
| ECLoadingRemoteContextFailed
| ECMultipleContextLinkHeaders
| ECProcessingModeConflict
| ECProtectedTermRedefinition
| ECDuplicateKey.

(** error.rs 178-234 ([ErrorCode::as_str]). *)
Definition ec_str (e : error_code) : string :=
  match e with
  | ECCollidingKeywords => "colliding keywords"
  | ECConflictingIndexes => "conflicting indexes"
  | ECContextOverflow => "context overflow"
  | ECCyclicIriMapping => "cyclic IRI mapping"
  | ECInvalidIdValue => "invalid @id value"
  | ECInvalidImportValue => "invalid @import value"
  | ECInvalidIncludedValue => "invalid @included value"
  | ECInvalidIndexValue => "invalid @index value"
  | ECInvalidNestValue => "invalid @nest value"
  | ECInvalidPrefixValue => "invalid @prefix value"
  | ECInvalidPropagateValue => "invalid @propagate value"
  | ECInvalidProtectedValue => "invalid @protected value"
  | ECInvalidReverseValue => "invalid @reverse value"
  | ECInvalidVersionValue => "invalid @version value"
  | ECInvalidBaseDirection => "invalid base direction"
  | ECInvalidBaseIri => "invalid base IRI"
  | ECInvalidContainerMapping => "invalid container mapping"
  | ECInvalidContextEntry => "invalid context entry"
  | ECInvalidContextNullification => "invalid context nullification"
  | ECInvalidDefaultLanguage => "invalid default language"
  | ECInvalidIriMapping => "invalid IRI mapping"
  | ECInvalidJsonLiteral => "invalid JSON literal"
  | ECInvalidKeywordAlias => "invalid keyword alias"
  | ECInvalidLanguageMapValue => "invalid language map value"
  | ECInvalidLanguageMapping => "invalid language mapping"
  | ECInvalidLanguageTaggedString => "invalid language-tagged string"
  | ECInvalidLanguageTaggedValue => "invalid language-tagged value"
  | ECInvalidLocalContext => "invalid local context"
  | ECInvalidRemoteContext => "invalid remote context"
  | ECInvalidReverseProperty => "invalid reverse property"
  | ECInvalidReversePropertyMap => "invalid reverse property map"
  | ECInvalidReversePropertyValue => "invalid reverse property value"
  | ECInvalidScopedContext => "invalid scoped context"
  | ECInvalidScriptElement => "invalid script element"
  | ECInvalidSetOrListObject => "invalid set or list object"
  | ECInvalidTermDefinition => "invalid term definition"
  | ECInvalidTypeMapping => "invalid type mapping"
  | ECInvalidTypeValue => "invalid type value"
  | ECInvalidTypedValue => "invalid typed value"
  | ECInvalidValueObject => "invalid value object"
  | ECInvalidValueObjectValue => "invalid value object value"
  | ECInvalidVocabMapping => "invalid vocab mapping"
  | ECIriConfusedWithPrefix => "IRI confused with prefix"
  | ECKeyExpansionFailed => "key expansion failed"
  | ECKeywordRedefinition => "keyword redefinition"
  | ECLoadingDocumentFailed => "loading document failed"
  | ECLoadingRemoteContextFailed => "loading remote context failed"
  | ECMultipleContextLinkHeaders => "multiple context link headers"
  | ECProcessingModeConflict => "processing mode conflict"
  | ECProtectedTermRedefinition => "protected term redefinition"
  | ECDuplicateKey => "duplicate key"
  end.

(** error.rs 237-296 ([TryFrom<&str> for ErrorCode]). *)
Definition ec_of_str (s : string) : option error_code :=
  if streq s "colliding keywords" then Some ECCollidingKeywords
  else if streq s "conflicting indexes" then Some ECConflictingIndexes
  else if streq s "context overflow" then Some ECContextOverflow
  else if streq s "cyclic IRI mapping" then Some ECCyclicIriMapping
  else if streq s "invalid @id value" then Some ECInvalidIdValue
  else if streq s "invalid @import value" then Some ECInvalidImportValue
  else if streq s "invalid @included value" then Some ECInvalidIncludedValue
  else if streq s "invalid @index value" then Some ECInvalidIndexValue
  else if streq s "invalid @nest value" then Some ECInvalidNestValue
  else if streq s "invalid @prefix value" then Some ECInvalidPrefixValue
  else if streq s "invalid @propagate value" then Some ECInvalidPropagateValue
  else if streq s "invalid @protected value" then Some ECInvalidProtectedValue
  else if streq s "invalid @reverse value" then Some ECInvalidReverseValue
  else if streq s "invalid @version value" then Some ECInvalidVersionValue
  else if streq s "invalid base direction" then Some ECInvalidBaseDirection
  else if streq s "invalid base IRI" then Some ECInvalidBaseIri
  else if streq s "invalid container mapping" then Some ECInvalidContainerMapping
  else if streq s "invalid context entry" then Some ECInvalidContextEntry
  else if streq s "invalid context nullification" then Some ECInvalidContextNullification
  else if streq s "invalid default language" then Some ECInvalidDefaultLanguage
  else if streq s "invalid IRI mapping" then Some ECInvalidIriMapping
  else if streq s "invalid JSON literal" then Some ECInvalidJsonLiteral
  else if streq s "invalid keyword alias" then Some ECInvalidKeywordAlias
  else if streq s "invalid language map value" then Some ECInvalidLanguageMapValue
  else if streq s "invalid language mapping" then Some ECInvalidLanguageMapping
  else if streq s "invalid language-tagged string" then Some ECInvalidLanguageTaggedString
  else if streq s "invalid language-tagged value" then Some ECInvalidLanguageTaggedValue
  else if streq s "invalid local context" then Some ECInvalidLocalContext
  else if streq s "invalid remote context" then Some ECInvalidRemoteContext
  else if streq s "invalid reverse property" then Some ECInvalidReverseProperty
  else if streq s "invalid reverse property map" then Some ECInvalidReversePropertyMap
  else if streq s "invalid reverse property value" then Some ECInvalidReversePropertyValue
  else if streq s "invalid scoped context" then Some ECInvalidScopedContext
  else if streq s "invalid script element" then Some ECInvalidScriptElement
  else if streq s "invalid set or list object" then Some ECInvalidSetOrListObject
  else if streq s "invalid term definition" then Some ECInvalidTermDefinition
  else if streq s "invalid type mapping" then Some ECInvalidTypeMapping
  else if streq s "invalid type value" then Some ECInvalidTypeValue
  else if streq s "invalid typed value" then Some ECInvalidTypedValue
  else if streq s "invalid value object" then Some ECInvalidValueObject
  else if streq s "invalid value object value" then Some ECInvalidValueObjectValue
  else if streq s "invalid vocab mapping" then Some ECInvalidVocabMapping
  else if streq s "IRI confused with prefix" then Some ECIriConfusedWithPrefix
  else if streq s "key expansion failed" then Some ECKeyExpansionFailed
  else if streq s "keyword redefinition" then Some ECKeywordRedefinition
  else if streq s "loading document failed" then Some ECLoadingDocumentFailed
  else if streq s "loading remote context failed" then Some ECLoadingRemoteContextFailed
  else if streq s "multiple context link headers" then Some ECMultipleContextLinkHeaders
  else if streq s "processing mode conflict" then Some ECProcessingModeConflict
  else if streq s "protected term redefinition" then Some ECProtectedTermRedefinition
  else None.

(** ** Lemmas *)

Ltac table_sound H s :=
  repeat match type of H with
  | (if streq s ?l then _ else _) = _ =>
      destruct (streq_spec s l) as [?E|_];
      [ injection H as H; subst; reflexivity |]
  end; discriminate H.

Lemma dir_roundtrip d : dir_of_str (dir_str d) = Some d.
Proof. destruct d; reflexivity. Qed.
Lemma dir_sound s d : dir_of_str s = Some d -> s = dir_str d.
Proof. unfold dir_of_str. intro H. table_sound H s. Qed.

Lemma direction_eqb_spec a b : reflect (a = b) (direction_eqb a b).
Proof. destruct a, b; constructor; congruence. Qed.

Lemma ckind_roundtrip c : ckind_of_str (ckind_str c) = Some c.
Proof. destruct c; reflexivity. Qed.
Lemma ckind_sound s c : ckind_of_str s = Some c -> s = ckind_str c.
Proof. unfold ckind_of_str. intro H. table_sound H s. Qed.
Lemma ckind_kw_roundtrip c : ckind_of_kw (ckind_kw c) = Some c.
Proof. destruct c; reflexivity. Qed.
Lemma ckind_kw_sound k c : ckind_of_kw k = Some c -> k = ckind_kw c.
Proof. destruct k; simpl; intro H; try discriminate; injection H as <-; reflexivity. Qed.

Lemma ckind_eqb_spec a b : reflect (a = b) (ckind_eqb a b).
Proof. destruct a, b; vm_compute; constructor; congruence. Qed.

Lemma tkw_roundtrip t : tkw_of_str (tkw_str t) = Some t.
Proof. destruct t; reflexivity. Qed.
Lemma tkw_sound s t : tkw_of_str s = Some t -> s = tkw_str t.
Proof.
  unfold tkw_of_str, tkw_str. destruct (kw_of_str s) as [k|] eqn:E; [|discriminate].
  intro H. apply kw_of_str_sound in E. subst s. f_equal.
  destruct k; simpl in H; try discriminate; injection H as <-; reflexivity.
Qed.

Lemma tkeyword_eqb_spec a b : reflect (a = b) (tkeyword_eqb a b).
Proof. destruct a, b; vm_compute; constructor; congruence. Qed.

Lemma mode_roundtrip m : mode_of_str (mode_str m) = Some m.
Proof. destruct m; reflexivity. Qed.
Lemma mode_sound s m : mode_of_str s = Some m -> s = mode_str m.
Proof. unfold mode_of_str. intro H. table_sound H s. Qed.

Lemma ec_sound s e : ec_of_str s = Some e -> s = ec_str e.
Proof. unfold ec_of_str. intro H. table_sound H s. Qed.
Lemma ec_roundtrip_partial e : e <> ECDuplicateKey -> ec_of_str (ec_str e) = Some e.
Proof. destruct e; intro H; try reflexivity. exfalso. apply H. reflexivity. Qed.
Lemma ec_duplicate_key : ec_of_str (ec_str ECDuplicateKey) = None.
Proof. reflexivity. Qed.

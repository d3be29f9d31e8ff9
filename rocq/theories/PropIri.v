(** Property theorems: C14 (IRI expansion), C15 (@import). *)
From Verif Require Import Prelude Str Keyword Enums LangTag Container Stack ContextSyntax Ctx Process
  ProcessRel ProcessExt IriSpec Samples.

(** ** C14 *)

(** The result of IRI expansion is exactly the one described by the relation [expansion] of
    IriSpec.v (which is total and deterministic): keywords, keyword-like strings, terms, blank
    node identifiers, compact IRIs, absolute IRIs, then the vocabulary mapping, the base IRI,
    or an invalid identifier. *)
Theorem C14_expansion : forall io c docrel vocab v r,
  outcome_of (expand_iri_simple io c v docrel vocab) = Some r <-> expansion io c docrel vocab v r.
Proof. exact expansion_iff. Qed.
Print Assumptions C14_expansion.

(** Every expansion has an outcome: a term, nothing, or the rejection error. *)
Theorem C14_total : forall io c docrel vocab v,
  exists r, outcome_of (expand_iri_simple io c v docrel vocab) = Some r.
Proof. intros. destruct (expansion_sound io c docrel vocab v) as (r & E & _). eauto. Qed.
Print Assumptions C14_total.

Theorem C14_keyword : forall io c docrel vocab k,
  expand_iri_simple io c (NSome (xp_of_str (kw_str k))) docrel vocab = Ok (Some (TmKw k)).
Proof. intros. unfold xp_of_str. rewrite kw_of_str_kw_str. reflexivity. Qed.
Print Assumptions C14_keyword.

(** An absolute IRI, with no definition for itself or for its scheme, is unchanged. *)
Theorem C14_absolute_fixed : forall io c docrel vocab p x,
  let s := p +++ ":" +++ x in
  p <> "" -> contains_char ":" p = false -> is_keyword_like s = false ->
  iri_ok io s = true -> blank_ok io s = false ->
  assoc s (ac_defs c) = None -> assoc p (ac_defs c) = None -> p <> "_" ->
  expand_iri_simple io c (NSome (XStr s)) docrel vocab = Ok (Some (TmId (IIri s))).
Proof.
  intros io c docrel vocab p x s Np Cp K I B A1 A2 Nu.
  assert (H : expansion io c docrel vocab (NSome (XStr s)) (OTerm (TmId (IIri s)))).
  { apply ex_absolute; auto.
    - intros t []; congruence.
    - intros E. pose proof (Cycles.colon_split p x Cp) as X. fold s in X. rewrite E in X.
      cbn in X. injection X as X _. apply Nu. symmetry. exact X.
    - exists p, x. auto.
    - intros i [p' x' d t i' E C' N' N1 S R A P V Hi].
      assert (p = p').
      { pose proof (Cycles.colon_split p x Cp) as X. pose proof (Cycles.colon_split p' x' C') as Y.
        unfold s in E. rewrite E in X. rewrite X in Y. congruence. }
      subst p'. congruence. }
  apply expansion_iff in H. unfold outcome_of in H.
  destruct (expand_iri_simple _ _ _ _ _) as [[t|]|[]]; try discriminate H. injection H as ->. reflexivity.
Qed.
Print Assumptions C14_absolute_fixed.

(** Without a local context, the algorithm used during context processing gives the same
    result and leaves the active context unchanged. *)
Theorem C14_context_unchanged : forall io ld n c v docrel vocab rs o, v <> NSome (XStr "") ->
  match expand_iri_with io (engine io ld (S n)) (c, []) v docrel vocab empty_local rs o with
  | Ok (s', t) => fst s' = c /\ expand_iri_simple io c v docrel vocab = Ok t
  | Err e => expand_iri_simple io c v docrel vocab = Err e
  end.
Proof. exact expand_empty. Qed.
Print Assumptions C14_context_unchanged.

Example C14_example :
  let c := MkCtx None (Some "http://b/") (iri_term "http://v/") None None None
             [("t", ndef_of "http://t/" true false); ("type", nd_set_value ndef_default (Some (TmKw KType)))] None in
  let e s d v := expand_iri_simple sample_iops c (NSome (XStr s)) d v in
  e "t" false (Some AKeep) = Ok (iri_term "http://t/") /\
  e "type" true None = Ok (Some (TmKw KType)) /\
  e "t:x" false None = Ok (iri_term "http://t/x") /\
  e "u:x" false None = Ok (iri_term "u:x") /\
  e "w" false (Some AKeep) = Ok (iri_term "http://v/w") /\
  e "w" false (Some AReject) = Err EForbiddenVocab /\
  e "w" true None = Ok (iri_term "http://b/w") /\
  e "w" false None = Ok (Some (TmId (IInvalid "w"))) /\
  e "@foo" true None = Ok (Some TmNull).
Proof. vm_compute. repeat split. Qed.

(** ** C15 *)

(** The definition whose entries are those of [d], completed by those of [i].  The entries
    about the processing itself ([@import], [@propagate], [@version]) are not imported. *)
Definition first {A} (a b : option A) : option A := match a with Some x => Some x | None => b end.
Definition completed (d i : cdef tdef) : cdef tdef :=
  MkDef (first (cd_base d) (cd_base i)) None (first (cd_language d) (cd_language i))
    (first (cd_direction d) (cd_direction i)) (cd_propagate d) (first (cd_protected d) (cd_protected i))
    (first (cd_type d) (cd_type i)) (cd_version d) (first (cd_vocab d) (cd_vocab i))
    (filter (fun b => match assoc (fst b) (cd_bindings d) with Some _ => false | None => true end) (cd_bindings i)
     ++ cd_bindings d).

Lemma assoc_completed d i k :
  assoc k (cd_bindings (completed d i)) = first (assoc k (cd_bindings d)) (assoc k (cd_bindings i)).
Proof.
  unfold completed. cbn [cd_bindings]. generalize (cd_bindings d) as l. intros l.
  assert (forall l', assoc k (filter (fun b => match assoc (fst b) l with Some _ => false | None => true end) l' ++ l)
                     = first (assoc k l) (assoc k l')) as H; [|apply H].
  induction l' as [|[x v] l' IH]; cbn [filter app fst assoc].
  - destruct (assoc k l); reflexivity.
  - destruct (assoc x l) as [y|] eqn:E.
    + rewrite IH. destruct (streq_spec k x) as [->|]; [rewrite E; reflexivity|reflexivity].
    + cbn [app assoc]. rewrite IH. destruct (streq_spec k x) as [->|]; [rewrite E; reflexivity|reflexivity].
Qed.

Theorem C15_import : forall io ld n a d i x u rs b o,
  po_mode o = JsonLd11 -> cd_import d = Some x -> resolve_iri io x b = Some u ->
  ld u = LdContext (LOne (CEDef i)) -> cd_import i = None ->
  process_context io ld n a (LOne (CEDef d)) rs b o =
  process_context io ld n a (LOne (CEDef (completed d i))) rs b o.
Proof.
  intros io ld n a d i x u rs b o HM Hx Hu Hl Hi. unfold process_context. destruct n as [|n]; [reflexivity|].
  cbn [engine e_process]. unfold process_body, propagate_of.
  change (cd_propagate (completed d i)) with (cd_propagate d).
  apply bind_ext; [reflexivity|]. intros o' Ho.
  assert (HM' : po_mode o' = JsonLd11).
  { destruct (cd_propagate d); [destruct (is_10 o); [discriminate|]|]; injection Ho as <-; exact HM. }
  cbn [entries_of process_entries]. apply bind_ext; [|reflexivity]. apply bind_ext; [|reflexivity].
  unfold process_def. change (cd_version (completed d i)) with (cd_version d).
  destruct (match cd_version d with Some _ => _ | None => _ end); [reflexivity|].
  unfold import_of. rewrite Hx, Hu, Hl, Hi. unfold is_10. rewrite HM'.
  change (cd_import (completed d i)) with (@None string). cbn [bind].
  apply ext_merged; try (unfold m_field; cbn [m_base m_imported completed cd_base cd_vocab cd_language cd_direction cd_protected cd_type];
    match goal with |- or_else ?p ?q = _ => destruct p; [reflexivity|destruct q; reflexivity] end).
  - intros k. unfold m_get, def_get. cbn [m_base m_imported]. rewrite assoc_completed.
    destruct (assoc k (cd_bindings d)), (assoc k (cd_bindings i)); apply se_refl.
  - unfold m_keys. cbn [m_base m_imported completed cd_bindings app]. rewrite map_app. f_equal.
    induction (cd_bindings i) as [|[y v] l IH]; [reflexivity|]. cbn [map filter fst].
    destruct (assoc y (cd_bindings d)); cbn [map fst]; rewrite IH; reflexivity.
Qed.
Print Assumptions C15_import.

(** What is not an importable definition is an error. *)
Theorem C15_not_importable : forall io ld n a d x u rs b o,
  po_mode o = JsonLd11 -> cd_import d = Some x -> resolve_iri io x b = Some u ->
  (forall i, ld u = LdContext (LOne (CEDef i)) -> cd_import i <> None) ->
  forall c', process_context io ld n a (LOne (CEDef d)) rs b o <> Ok c'.
Proof.
  intros io ld n a d x u rs b o HM Hx Hu Hl c' H. unfold process_context in H. destruct n as [|n]; [discriminate|].
  cbn [engine e_process] in H. unfold process_body, propagate_of in H.
  apply bind_ok in H. destruct H as (o' & Ho & H).
  assert (HM' : po_mode o' = JsonLd11).
  { destruct (cd_propagate d); [destruct (is_10 o); [discriminate|]|]; injection Ho as <-; exact HM. }
  cbn [entries_of process_entries] in H. apply bind_ok in H. destruct H as ([c1 rs1] & H & _).
  apply bind_ok in H. destruct H as (c2 & H & _). unfold process_def in H.
  destruct (match cd_version d with Some _ => _ | None => _ end); [discriminate|].
  apply bind_ok in H. destruct H as (i & H & _). unfold import_of in H. rewrite Hx, Hu in H.
  destruct (is_10 o'); [discriminate|].
  destruct (ld u) as [| |[[| |i']|l]]; try discriminate. specialize (Hl i' eq_refl). destruct (cd_import i'); [discriminate|congruence].
Qed.
Print Assumptions C15_not_importable.

Example C15_example :
  let d := MkDef None (Some "http://i/") None None None None None None None
             [("x", NSome (TSimple "http://x/")); ("y", NSome (TSimple "p:y"))] in
  let i := MkDef None None (Some (NSome "en")) None None None None None (Some (NSome "http://v/"))
             [("y", NSome (TSimple "http://no/")); ("p", NSome (TSimple "http://p/"))] in
  let ld := fun u => if streq u "http://i/" then LdContext (LOne (CEDef i)) else LdFail in
  process_full sample_iops ld 9 (ctx_new None) (LOne (CEDef d)) None popts_default
  = Ok (MkCtx None None (iri_term "http://v/") (Some "en") None None
          [("y", ndef_of "http://p/y" false false); ("x", ndef_of "http://x/" true false); ("p", ndef_of "http://p/" true false)] None).
Proof. vm_compute. reflexivity. Qed.

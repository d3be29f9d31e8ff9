(** Equality of active contexts, and mapping of their identifiers: C101, C102. *)
From Verif Require Import Prelude Str Keyword Enums LangTag LangString Container Stack ContextSyntax Ctx Process Json Object ObjectJson Inverse
  Expand MapIds Samples PropExpand Interchange PropInterchange CtxEq.

(** ** C101 *)

(** Two active contexts compare equal exactly if their settings are the same, up to the case of language tags, at every depth. *)
Theorem C101_settings : forall c c', ctx_eqb c c' = true <-> same_settings c c'.
Proof. exact ctx_eqb_settings. Qed.
Print Assumptions C101_settings.

(** This is an equivalence. *)
Theorem C101_equivalence : (forall c, ctx_eqb c c = true) /\ (forall c c', ctx_eqb c c' = true -> ctx_eqb c' c = true) /\
  (forall a b c, ctx_eqb a b = true -> ctx_eqb b c = true -> ctx_eqb a c = true).
Proof.
  split; [intros c; apply ctx_eqb_settings, settings_refl|]. split.
  - intros c c'. rewrite !ctx_eqb_settings. apply settings_sym.
  - intros a b c. rewrite !ctx_eqb_settings. apply settings_trans.
Qed.
Print Assumptions C101_equivalence.

(** Contexts that answer alike (C97) compare equal. *)
Theorem C101_alike : forall c c', answers_alike c c' -> ctx_eqb c c' = true.
Proof. intros c c' H. apply ctx_eqb_settings, alike_settings, H. Qed.
Print Assumptions C101_alike.

(** Contexts that compare equal give the same expansions and the same errors, if moreover their definitions and the spelling
    of their default languages are the same.  Missing: equality alone does not suffice. *)
Theorem C101_expand_partial : forall io ld fin rnd pf o base n c c' doc, ctx_eqb c c' = true -> same_definitions c c' ->
  expand io ld fin rnd pf o base n c doc = expand io ld fin rnd pf o base n c' doc.
Proof. intros. apply C97_expand. apply settings_definitions; [apply ctx_eqb_settings|]; assumption. Qed.
Print Assumptions C101_expand_partial.

(** Two context definitions may give contexts that compare equal, though a document has different expansions in them. *)
Definition c101_run (l : list (string * nullable tdef)) : result actx cerr := process_full sample_iops no_loader 20 (ctx_new None) (lc_of l) None popts_default.
Theorem C101_definitions_refuted : exists l l' c c' doc r r', c101_run l = Ok c /\ c101_run l' = Ok c' /\ ctx_eqb c c' = true /\
  sample_expand c doc = Ok r /\ sample_expand c' doc = Ok r' /\ r <> r'.
Proof.
  exists [("a", NSome (TSimple "http://x/a"))], [("a", NSome (TSimple "http://y/b"))]. eexists. eexists. exists (JObj [("a", JStr "v")]). eexists. eexists.
  split; [vm_compute; reflexivity|]. split; [vm_compute; reflexivity|]. split; [vm_compute; reflexivity|].
  split; [vm_compute; reflexivity|]. split; [vm_compute; reflexivity|]. discriminate.
Qed.
Print Assumptions C101_definitions_refuted.

Definition c101_ctx (base lang : string) (p : option actx) (l : defs) : actx :=
  MkCtx None (Some base) None (Some lang) (Some Rtl) p l None.
Example C101_example :
  let a := ("a", ndef_of "http://x/a" false false) in let b := ("b", ndef_of "http://x/b" true false) in
  let c := c101_ctx "http://x/" "en-GB" (Some (ctx_of [a; b])) [b; a] in
  ctx_eqb c (c101_ctx "http://x/" "EN-gb" (Some (ctx_of [])) []) = true /\
  ctx_eqb c (c101_ctx "http://x/" "en-US" (Some (ctx_of [a; b])) [b; a]) = false /\
  ctx_eqb c (c101_ctx "http://x/" "en-GB" None [b; a]) = false /\
  same_definitions c (c101_ctx "http://x/" "en-GB" (Some (ctx_of [b; a])) [a; b]) /\
  sample_expand c (JObj [("a", JStr "v"); ("b:c", JStr "w")]) = sample_expand (c101_ctx "http://x/" "en-GB" (Some (ctx_of [b; a])) [a; b]) (JObj [("a", JStr "v"); ("b:c", JStr "w")]).
Proof.
  intros a b c. assert (D : same_definitions c (c101_ctx "http://x/" "en-GB" (Some (ctx_of [b; a])) [a; b])).
  { assert (ND : forall x y : string * ndef, fst x <> fst y -> NoDup (map fst [x; y])).
    { intros x y N. constructor; [intros [E|[]]; congruence|]. constructor; [intros []|constructor]. }
    constructor; try reflexivity; try (apply ND; discriminate).
    - intros k. unfold get_normal. cbn. destruct (streq_spec k "b") as [->|]; [reflexivity|]. destruct (streq k "a"); reflexivity.
    - constructor. constructor; try reflexivity; try (apply ND; discriminate); [|constructor].
      intros k. unfold get_normal. cbn. destruct (streq_spec k "b") as [->|]; [reflexivity|]. destruct (streq k "a"); reflexivity. }
  repeat (split; [first [exact D|vm_compute; reflexivity]|]). apply C101_expand_partial; [vm_compute; reflexivity|exact D].
Qed.

(** ** C102 *)

(** Every setting and every definition is mapped, at every depth; nothing else is touched. *)
Theorem C102_mapped : forall f g c, mapped f g c (ctx_ids f g c).
Proof. exact ctx_ids_mapped. Qed.
Print Assumptions C102_mapped.

(** There is only one such context, up to what can be observed. *)
Theorem C102_only : forall f g c c', once c -> once c' -> mapped f g c c' -> answers_alike (ctx_ids f g c) c'.
Proof. intros f g c c' O O' H. apply (mapped_same f g c); auto using ctx_ids_mapped, ctx_ids_once. Qed.
Print Assumptions C102_only.

(** A term that is defined expands to the mapped identifier. *)
Theorem C102_term : forall f g io c k d t docrel a, get_normal c k = Some d -> nd_value d = Some t -> is_keyword_like k = false ->
  expand_iri_simple io (ctx_ids f g c) (NSome (XStr k)) docrel (Some a) = Ok (Some (term_ids g t)).
Proof.
  intros f g io c k d t docrel a G V K. unfold expand_iri_simple. rewrite K. unfold expand_defined, get_value.
  destruct (streq_spec k "@type") as [->|_]; [discriminate K|]. rewrite get_ids, G. cbn. rewrite V. cbn. destruct t; reflexivity.
Qed.
Print Assumptions C102_term.

(** Protection is kept. *)
Theorem C102_protected : forall f g c, has_protected_items (ctx_ids f g c) = has_protected_items c.
Proof. exact ids_protected. Qed.
Print Assumptions C102_protected.

(** If different identifiers stay different, compaction selects the same terms. *)
Theorem C102_select : forall f g c v cs s, injective_ids f g ->
  select (inverse_of (ctx_ids f g c)) (term_ids g v) cs (sel_ids f s) = select (inverse_of c) v cs s.
Proof. intros. apply select_ids. assumption. Qed.
Print Assumptions C102_select.

(** Mapping back gives the very same context. *)
Theorem C102_undone : forall f f' g g' c, (forall s, f' (f s) = s) -> (forall i, id_valid i = true -> g' (g i) = i) -> keeps_valid g ->
  ctx_ids f' g' (ctx_ids f g c) = c.
Proof. intros. apply ctx_undone; assumption. Qed.
Print Assumptions C102_undone.

(** If two identifiers become the same, another term may be selected. *)
Theorem C102_select_refuted : exists f g c v cs s, keeps_valid g /\
  select (inverse_of (ctx_ids f g c)) (term_ids g v) cs (sel_ids f s) <> select (inverse_of c) v cs s.
Proof.
  exists (fun _ => "http://z/"), (fun _ => IIri "http://z/"), (ctx_of [("ab", ndef_of "http://x/a" false false); ("c", ndef_of "http://x/c" false false)]),
    (TmId (IIri "http://x/a")), [CNone], SelAny. split; [intros i _; reflexivity|]. vm_compute. discriminate.
Qed.
Print Assumptions C102_select_refuted.

(** Expanding in the mapped context is not mapping the expansion: the vocabulary is mapped, but not what it is the beginning of. *)
Definition swap_iri (s : string) : string := if streq s "http://v/" then "http://w/" else if streq s "http://w/" then "http://v/" else s.
Definition swap_id (i : id) : id := match i with IIri s => IIri (swap_iri s) | _ => i end.
Lemma swap_swap s : swap_iri (swap_iri s) = s.
Proof.
  unfold swap_iri. destruct (streq_spec s "http://v/") as [->|N]; [reflexivity|]. destruct (streq_spec s "http://w/") as [->|M]; [reflexivity|].
  destruct (streq_spec s "http://v/"); [contradiction|]. destruct (streq_spec s "http://w/"); [contradiction|reflexivity].
Qed.
Lemma swap_injective : injective_ids swap_iri swap_id.
Proof.
  assert (I : forall s s', swap_iri s = swap_iri s' -> s = s') by (intros s s' E; rewrite <- (swap_swap s), E; apply swap_swap).
  split; [exact I|]. split; [intros [] H; exact H|]. intros [] [] _ _ E; try discriminate E; cbn in E; try congruence. injection E as E. apply I in E. congruence.
Qed.
Theorem C102_expand_refuted : exists f g c doc r r', injective_ids f g /\ sample_expand c doc = Ok r /\ sample_expand (ctx_ids f g c) doc = Ok r' /\
  r' <> doc_ids sample_hash sample_hash f g r.
Proof.
  exists swap_iri, swap_id, (set_vocabulary (ctx_new None) (iri_term "http://v/")), (JObj [("p", JStr "x")]). eexists. eexists.
  split; [exact swap_injective|]. split; [vm_compute; reflexivity|]. split; [vm_compute; reflexivity|]. vm_compute. discriminate.
Qed.
Print Assumptions C102_expand_refuted.

Example C102_example :
  let typed i t := nd_set_typ (ndef_of i false true) (Some t) in
  let c i j := MkCtx (Some i) None (iri_term i) (Some "en") None (Some (ctx_of [("q", ndef_of j true false)]))
    [("a", typed i (TyIri j)); ("b", typed i TyId); ("d", ndef_of "http://d/" false false)] (Some true) in
  ctx_ids swap_iri swap_id (c "http://v/" "http://w/") = c "http://w/" "http://v/" /\
  select (inverse_of (c "http://w/" "http://v/")) (TmId (IIri "http://w/")) [CNone] (SelType [TsType (TyIri "http://v/")]) = Some "a" /\
  select (inverse_of (c "http://v/" "http://w/")) (TmId (IIri "http://v/")) [CNone] (SelType [TsType (TyIri "http://w/")]) = Some "a" /\
  select (inverse_of (c "http://v/" "http://w/")) (TmId (IIri "http://v/")) [CNone] (SelType [TsType (TyIri "http://v/"); TsType TyId]) = Some "b".
Proof. vm_compute. repeat split; reflexivity. Qed.

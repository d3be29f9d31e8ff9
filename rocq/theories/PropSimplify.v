(** Property theorems: C07 (simplification of term definitions), C42 (repeated processing). *)
From Verif Require Import Prelude Str Keyword Enums LangTag Container Stack ContextSyntax Ctx Process
  ProcessRel NoErr ProcessExt Protected Samples.

(** ** C07 *)

(** [e] has no entry but possibly [@id]. *)
Definition bare (e : texp lcontext) : Prop :=
  e = MkTExp (te_id e) None None None None None None None None None None None.

Lemma rest_none_bare e : rest_none e = true <-> bare e.
Proof.
  unfold bare. split.
  - destruct e as [i t c r x l d ct n pf pp pt]. unfold rest_none. cbn.
    destruct t, c, r, x, l, d, ct, n, pf, pp, pt; cbn; try discriminate. reflexivity.
  - intros ->. reflexivity.
Qed.

Definition simplify_entry (v : nullable tdef) : nullable tdef :=
  match v with NSome (TExpanded e) => simplify e | _ => v end.
Definition simplify_def (d : cdef tdef) : cdef tdef :=
  MkDef (cd_base d) (cd_import d) (cd_language d) (cd_direction d) (cd_propagate d) (cd_protected d)
    (cd_type d) (cd_version d) (cd_vocab d) (map (fun b => (fst b, simplify_entry (snd b))) (cd_bindings d)).

(** The two cases where simplification changes the meaning are excluded: the definition
    without any entry, and a definition with only an [@id] for a term that could be used as a
    prefix.  An [@id] that reads as a keyword is represented as that keyword (as the parser
    does, see [wf_tdef]). *)
Definition simplifiable (k : string) (v : nullable tdef) : Prop :=
  forall e, v = NSome (TExpanded e) -> bare e ->
    te_id e <> None /\
    (forall i, te_id e = Some (NSome i) -> contains_char ":" k = true \/ contains_char "/" k = true) /\
    (forall s, te_id e = Some (NSome (TIdTerm s)) -> forall k, s <> kw_str k).

Lemma tid_canonical i : (forall s, i = TIdTerm s -> forall k, s <> kw_str k) -> tid_of_str (tid_str i) = i.
Proof.
  destruct i as [k|s]; cbn; unfold tid_of_str.
  - intros _. rewrite kw_of_str_kw_str. reflexivity.
  - intros H. destruct (kw_of_str s) as [k|] eqn:E; [|reflexivity]. exfalso.
    apply kw_of_str_sound in E. exact (H s eq_refl k E).
Qed.

Lemma simplify_alike k v : simplifiable k v -> alike k v (simplify_entry v).
Proof.
  intros H. destruct v as [|[s|e]]; try (split; [reflexivity|left; reflexivity]).
  cbn [simplify_entry]. unfold simplify, texp_is_null, texp_is_simple. specialize (H e eq_refl).
  destruct (rest_none e) eqn:R.
  2:{ destruct (te_id e) as [[|i]|]; (split; [reflexivity|left; reflexivity]). }
  apply rest_none_bare in R. destruct (H R) as (H1 & H2 & H3).
  destruct (te_id e) as [[|i]|] eqn:I; [| |congruence].
  - split; [cbn [expanded_of]; rewrite R, I; reflexivity|]. right. right. right. cbn [expanded_of]. intros i. congruence.
  - split; [|right; destruct (H2 i eq_refl); auto].
    cbn [expanded_of]. rewrite tid_canonical; [rewrite R, I; reflexivity|].
    intros s -> k'. apply H3. reflexivity.
Qed.

(** Partial: simplifying every simplifiable definition of a context definition leaves its
    processing unchanged.  Missing: definitions excluded by [simplifiable], for which the
    claim is false ([C07_refuted_empty], [C07_refuted_prefix]). *)
Theorem C07_simplify_partial : forall io ld n a d rs b o,
  (forall k v, assoc k (cd_bindings d) = Some v -> simplifiable k v) ->
  process_context io ld n a (LOne (CEDef d)) rs b o =
  process_context io ld n a (LOne (CEDef (simplify_def d))) rs b o.
Proof.
  intros io ld n a d rs b o HS. unfold process_context. destruct n as [|n]; [reflexivity|].
  cbn [engine e_process]. unfold process_body, propagate_of.
  change (cd_propagate (simplify_def d)) with (cd_propagate d).
  apply bind_ext; [reflexivity|]. intros o' _. cbn [entries_of process_entries].
  apply bind_ext; [|reflexivity]. apply bind_ext; [|reflexivity].
  unfold process_def. change (cd_version (simplify_def d)) with (cd_version d).
  destruct (match cd_version d with Some _ => _ | None => _ end); [reflexivity|].
  unfold import_of. change (cd_import (simplify_def d)) with (cd_import d).
  assert (A : forall k, assoc k (cd_bindings (simplify_def d)) = option_map simplify_entry (assoc k (cd_bindings d))).
  { intros k. cbn [cd_bindings simplify_def]. clear. induction (cd_bindings d) as [|[x v] l IH]; [reflexivity|].
    cbn [map assoc fst snd]. destruct (streq k x); [reflexivity|exact IH]. }
  apply bind_ext; [reflexivity|]. intros i _. apply ext_merged; try reflexivity.
  - intros k. unfold m_get, def_get. cbn [m_base m_imported]. rewrite A.
    destruct (assoc k (cd_bindings d)) as [v|] eqn:E; cbn [option_map or_else]; [|apply se_refl].
    apply se_def, simplify_alike, (HS k v E).
  - unfold m_keys. cbn [m_base m_imported]. f_equal.
    + destruct i as [i|]; [|reflexivity]. apply filter_ext. intros k. rewrite A. destruct (assoc k (cd_bindings d)); reflexivity.
    + cbn [simplify_def cd_bindings]. rewrite map_map. apply map_ext. reflexivity.
Qed.
Print Assumptions C07_simplify_partial.

(** In general, for a definition with only an [@id], the simplified definition gives the same
    result except that the term may become usable as a prefix. *)
Definition same_but_prefix (k : string) (c c' : actx) : Prop :=
  c = c' \/ exists c0 d, c = set_normal c0 k (Some d) /\ nd_prefix d = false /\ c' = set_normal c0 k (Some (nd_set_prefix d true)).

Theorem C07_prefix_only_partial : forall io r s m k rs b p o e i,
  po_vocab o <> ADrop -> bare e -> te_id e = Some (NSome i) ->
  (forall s, i = TIdTerm s -> forall k, s <> kw_str k) ->
  (forall d, get_normal (fst s) k = Some d -> nd_protected d = false) ->
  match define_normal io r s m k rs b p o (NSome (TExpanded e)),
        define_normal io r s m k rs b p o (simplify e) with
  | Ok (s1, f1), Ok (s2, f2) => snd s1 = snd s2 /\ f1 = f2 /\ same_but_prefix k (fst s1) (fst s2)
  | Err e1, Err e2 => e1 = e2
  | _, _ => False
  end.
Proof.
  intros io r s m k rs b p o e i HV HB HI HC HP.
  assert (ES : simplify e = NSome (TSimple (tid_str i))).
  { unfold simplify, texp_is_null, texp_is_simple. rewrite HI, (proj2 (rest_none_bare e) HB). reflexivity. }
  rewrite ES. unfold define_normal. cbn [expanded_of simple_term]. rewrite (tid_canonical i HC).
  assert (EE : e = MkTExp (Some (NSome i)) None None None None None None None None None None None) by (rewrite HB, HI; reflexivity).
  rewrite EE. clear EE ES HB HI e.
  unfold define_protected. cbn [te_protected bind]. unfold define_type. cbn [te_type bind te_reverse].
  set (d0 := nd_set_protected ndef_default p). cbn [fst snd]. set (s0 := (set_normal (fst s) k None, snd s)).
  assert (HR : forall s2 d, define_rest io r s2 k rs b o (MkTExp (Some (NSome i)) None None None None None None None None None None None)
     (get_normal (fst s) k) d = Ok (set_normal (fst s2) k (Some d), snd s2)).
  { intros s2 d. unfold define_rest, define_container, define_index, define_context, define_language, define_nest, define_prefix, define_propagate.
    cbn [te_container te_index te_context te_type te_language te_direction te_nest te_prefix te_propagate bind].
    unfold define_protect. destruct (po_override o); [reflexivity|].
    destruct (get_normal (fst s) k) as [pd|] eqn:G; [rewrite (HP pd eq_refl)|]; reflexivity. }
  unfold define_mapping. cbn [te_id]. destruct (id_differs (NSome i) k).
  2:{ destruct (bind (define_no_id io r s0 m k rs o) _) as [[s2 [d2|]]|e2]; cbn [bind]; auto.
      - rewrite HR. cbn [bind fst snd]. repeat split. left. reflexivity.
      - repeat split. left. reflexivity. }
  unfold define_id. destruct (_ && negb _)%bool; [cbn [bind]; repeat split; left; reflexivity|].
  destruct (expand_iri_with io r s0 _ _ _ m rs o) as [[s1 v]|e1] eqn:X; cbn [bind]; [|reflexivity].
  destruct (match v with Some (TmKw KContext) => true | _ => false end); [reflexivity|].
  destruct (match v with Some (TmId q) => negb (id_valid q) | _ => false end); [reflexivity|].
  destruct (if (_ || _)%bool then _ else Ok s1) as [s2|e2]; cbn [bind]; [|reflexivity].
  rewrite andb_false_r. destruct (_ && true)%bool.
  - apply expand_some in X; [|exact HV]. destruct v as [t|]; [|congruence]. cbn [bind]. rewrite !HR. cbn [bind fst snd].
    repeat split. destruct (is_gen_delim_or_blank t); [right|left; reflexivity].
    exists (fst s2), (nd_set_value d0 (Some t)). repeat split.
  - cbn [bind]. rewrite HR. cbn [bind fst snd]. repeat split. left. reflexivity.
Qed.
Print Assumptions C07_prefix_only_partial.

(** [{}] under a vocabulary mapping defines the term, null does not. *)
Theorem C07_refuted_empty : exists io ld n a e d d' c c',
  def_of [("t", NSome (TExpanded e))] = d /\ simplify_def d = d' /\
  process_full io ld n a (LOne (CEDef d)) None popts_default = Ok c /\
  process_full io ld n a (LOne (CEDef d')) None popts_default = Ok c' /\
  option_map nd_value (get_normal c "t") = Some (iri_term "http://v/t") /\
  option_map nd_value (get_normal c' "t") = Some None.
Proof.
  exists sample_iops, no_loader, 5, (set_vocabulary (ctx_new None) (iri_term "http://v/")), texp_new.
  eexists. eexists. eexists. eexists. split; [reflexivity|]. split; [reflexivity|].
  split; [vm_compute; reflexivity|]. split; [vm_compute; reflexivity|]. split; reflexivity.
Qed.
Print Assumptions C07_refuted_empty.

(** A definition with only an [@id] does not define a prefix, a simple one does. *)
Theorem C07_refuted_prefix : exists io ld n e d d' c c',
  def_of [("t", NSome (TExpanded e)); ("u", NSome (TSimple "t:x"))] = d /\ simplify_def d = d' /\
  process_full io ld n (ctx_new None) (LOne (CEDef d)) None popts_default = Ok c /\
  process_full io ld n (ctx_new None) (LOne (CEDef d')) None popts_default = Ok c' /\
  option_map nd_value (get_normal c "u") = Some (iri_term "t:x") /\
  option_map nd_value (get_normal c' "u") = Some (iri_term "http://t/x").
Proof.
  exists sample_iops, no_loader, 5, (te_id_only (NSome (TIdTerm "http://t/"))).
  eexists. eexists. eexists. eexists. split; [reflexivity|]. split; [reflexivity|].
  split; [vm_compute; reflexivity|]. split; [vm_compute; reflexivity|]. split; reflexivity.
Qed.
Print Assumptions C07_refuted_prefix.

Example C07_example :
  let d := def_of [("a/b", NSome (TExpanded (te_id_only (NSome (TIdTerm "http://a/b")))));
                   ("n", NSome (TExpanded (te_id_only NNull)))] in
  (forall k v, assoc k (cd_bindings d) = Some v -> simplifiable k v) /\
  cd_bindings (simplify_def d) = [("a/b", NSome (TSimple "http://a/b")); ("n", NNull)] /\
  process_full sample_iops no_loader 5 (set_vocabulary (ctx_new None) (iri_term "http://")) (LOne (CEDef d)) None popts_default
  = Ok (MkCtx None None (iri_term "http://") None None None
          [("n", ndef_default); ("a/b", ndef_of "http://a/b" false false)] None).
Proof.
  cbv zeta. split; [|split; [reflexivity|vm_compute; reflexivity]].
  intros k v H e -> _. cbn in H. destruct (streq_spec k "a/b") as [->|_].
  - injection H as <-. cbn. split; [discriminate|]. split; [auto|]. intros s E k E'. injection E as <-. subst. destruct k; discriminate E'.
  - destruct (streq_spec k "n") as [->|_]; [|discriminate]. injection H as <-. repeat split; discriminate.
Qed.

(** ** C42 *)

(** Partial: processing the context again, if it succeeds, keeps every protected definition
    (up to the equality of definitions).  Missing: that it succeeds, and the settings of the
    context, which do change ([C42_refuted_base], [C42_refuted_vocab]). *)
Theorem C42_definitions_kept_partial : forall io ld n a lc b o c1 c2 k d,
  po_override o = false -> ctx_all (comparable_in k) lc -> load_all ld (comparable_in k) ->
  process_full io ld n a lc b o = Ok c1 -> process_full io ld n c1 lc b o = Ok c2 ->
  get_normal c1 k = Some d -> nd_protected d = true -> still_defined k d c2.
Proof. intros. eapply process_protected; eassumption. Qed.
Print Assumptions C42_definitions_kept_partial.

Definition protected_def (base vocab : option (nullable string)) : cdef tdef :=
  MkDef base None None None None (Some true) None None vocab [("t", NSome (TSimple "http://t/"))].

Theorem C42_refuted_base : exists io ld n a lc c1 c2,
  lc = LOne (CEDef (protected_def (Some (NSome "x/")) None)) /\
  process_full io ld n a lc None popts_default = Ok c1 /\
  process_full io ld n c1 lc None popts_default = Ok c2 /\
  ac_base c1 = Some "http://b/x/" /\ ac_base c2 = Some "http://b/x/x/".
Proof.
  exists sample_iops, no_loader, 5, (ctx_new (Some "http://b/")). eexists. eexists. eexists.
  split; [reflexivity|]. split; [vm_compute; reflexivity|]. split; [vm_compute; reflexivity|]. split; reflexivity.
Qed.
Print Assumptions C42_refuted_base.

Theorem C42_refuted_vocab : exists io ld n a lc c1 c2,
  lc = LOne (CEDef (protected_def None (Some (NSome "x/")))) /\
  process_full io ld n a lc None popts_default = Ok c1 /\
  process_full io ld n c1 lc None popts_default = Ok c2 /\
  ac_vocab c1 = iri_term "http://v/x/" /\ ac_vocab c2 = iri_term "http://v/x/x/".
Proof.
  exists sample_iops, no_loader, 5, (set_vocabulary (ctx_new None) (iri_term "http://v/")). eexists. eexists. eexists.
  split; [reflexivity|]. split; [vm_compute; reflexivity|]. split; [vm_compute; reflexivity|]. split; reflexivity.
Qed.
Print Assumptions C42_refuted_vocab.

Example C42_example :
  let lc := LOne (CEDef (protected_def (Some (NSome "http://b/")) (Some (NSome "http://v/")))) in
  exists c, process_full sample_iops no_loader 5 (ctx_new None) lc None popts_default = Ok c /\
    process_full sample_iops no_loader 5 c lc None popts_default = Ok c /\
    get_normal c "t" = Some (ndef_of "http://t/" true true) /\ ctx_all (comparable_in "t") lc.
Proof.
  cbv zeta. eexists. split; [vm_compute; reflexivity|]. split; [vm_compute; reflexivity|]. split; [reflexivity|].
  intros d [H|[]] v Hv. injection H as <-. injection Hv as <-. split; [reflexivity|].
  intros s H. injection H as <-. right. reflexivity.
Qed.

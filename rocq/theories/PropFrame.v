(** Property theorems: C43 (termination), C44 (no panic), C45 (sequences), C46 (base IRI), C47
    (frame), C48 (contents of the term definitions). *)
From Verif Require Import Prelude Str Keyword Enums LangTag Container Stack ContextSyntax Ctx Process
  ProcessRel ProcessExt Termination NoPanic IriSpec Frame Created Samples PropProcess.

(** ** C43 *)
Theorem C43_terminates : forall io ld U lc b,
  (forall u lc, ld u = LdContext lc -> In u U) ->
  (forall u lc, ld u = LdContext lc -> import_once io ld lc) -> import_once io ld lc ->
  exists N, forall a rs o, exists r, r <> Err EFuel /\ forall n, N <= n -> process_context io ld n a lc rs b o = r.
Proof.
  intros io ld U lc b HU HA HL. destruct (C09_terminates_partial io ld U lc b HU HA HL) as [N HN].
  exists N. intros a rs o. exists (process_context io ld N a lc rs b o). split; [apply HN; auto|].
  intros n H. apply HN, H.
Qed.
Print Assumptions C43_terminates.

(** Two documents that include each other, one of them with a term whose scoped context includes
    the other again. *)
Definition mutual_loader : loader := fun u =>
  if streq u "http://a/" then LdContext (LMany [CEIri "http://b/"; CEDef (def_of [("x", NSome (TSimple "http://x/"))])])
  else if streq u "http://b/" then LdContext (LMany [CEIri "http://a/"; CEDef (def_of
    [("y", NSome (TExpanded (MkTExp (Some (NSome (TIdTerm "x:y"))) None (Some (LOne (CEIri "http://a/"))) None None None None None None None None None)))])])
  else LdFail.
Example C43_example :
  (forall u lc, mutual_loader u = LdContext lc -> In u ["http://a/"; "http://b/"]) /\
  process_full sample_iops mutual_loader 9 (ctx_new None) (LOne (CEIri "http://a/")) None popts_default =
  process_full sample_iops mutual_loader 8 (ctx_new None) (LOne (CEIri "http://a/")) None popts_default /\
  process_full sample_iops mutual_loader 8 (ctx_new None) (LOne (CEIri "http://a/")) None popts_default <> Err EFuel.
Proof.
  split; [|split; [vm_compute; reflexivity|vm_compute; discriminate]]. intros u lc. unfold mutual_loader.
  destruct (streq_spec u "http://a/") as [->|]; [cbn; auto|]. destruct (streq_spec u "http://b/") as [->|]; [cbn; auto|discriminate].
Qed.

(** ** C44 *)
Theorem C44_no_panic : forall io ld n a lc rs b o,
  (forall u lc, ld u = LdContext lc -> prefixes_have_id lc) -> prefixes_have_id lc -> po_vocab o <> ADrop ->
  process_context io ld n a lc rs b o <> Err EPanic.
Proof. intros. apply no_panic; assumption. Qed.
Print Assumptions C44_no_panic.

(** Both conditions are needed. *)
Theorem C44_prefix_refuted : exists io n a lc,
  process_full io no_loader n a lc None popts_default = Err EPanic.
Proof.
  exists sample_iops, 5, (ctx_new None),
    (lc_of [("t", NSome (TExpanded (MkTExp (Some NNull) None None None None None None None None (Some true) None None)))]).
  vm_compute. reflexivity.
Qed.
Print Assumptions C44_prefix_refuted.
Theorem C44_drop_refuted : exists io n a lc,
  process_full io no_loader n a lc None (MkOpts JsonLd11 false true ADrop) = Err EPanic.
Proof.
  exists sample_iops, 5, (set_vocabulary (ctx_new None) (iri_term "http://v/")), (lc_of [("t", NSome (TSimple "u"))]).
  vm_compute. reflexivity.
Qed.
Print Assumptions C44_drop_refuted.
Example C44_example :
  let lc := lc_of [("t", NSome (TExpanded (MkTExp (Some (NSome (TIdTerm "http://t/"))) None None None None None None None None (Some true) None None)))] in
  prefixes_have_id lc /\ process_full sample_iops no_loader 5 (ctx_new None) lc None popts_default = Ok (ctx_of [("t", ndef_of "http://t/" true false)]).
Proof.
  cbv zeta. split; [|vm_compute; reflexivity]. intros d H.
  assert (In (CEDef d) (entries_of (lc_of [("t", NSome (TExpanded (MkTExp (Some (NSome (TIdTerm "http://t/"))) None None None None None None None None (Some true) None None)))])) \/ False) as [[E|[]]|[]].
  { inversion H as [? Hd|? ? ? Hd Hs]; subst; [left; exact Hd|]. exfalso. destruct Hd as [E|[]]. injection E as <-.
    destruct Hs as (k & e & Hk & He). cbn in Hk. destruct Hk as [Hk|[]]. injection Hk as _ <-. discriminate He. }
  injection E as <-. intros k e [Hk|[]] _. injection Hk as _ <-. discriminate.
Qed.

(** ** C45 *)

(** Inline contexts: processing an array amounts to processing its elements in sequence. *)
Theorem C45_sequence : forall io ld n a es es' rs b o,
  (forall e, In e es -> forall i, e <> CEIri i) -> po_propagate o = true ->
  process_context io ld n a (LMany (es ++ es')) rs b o =
  match process_context io ld n a (LMany es) rs b o with
  | Ok c => process_context io ld n c (LMany es') rs b o
  | Err e => Err e
  end.
Proof.
  intros io ld n a es es' rs b o HI HP. rewrite process_many_app by assumption.
  destruct (process_context io ld n a (LMany es) rs b o); reflexivity.
Qed.
Print Assumptions C45_sequence.

(** A context alone or in an array of one element is the same when it does not use
    [@propagate]. *)
Theorem C45_singleton : forall io ld n a e rs b o,
  (forall d, e = CEDef d -> cd_propagate d = None) ->
  process_context io ld n a (LOne e) rs b o = process_context io ld n a (LMany [e]) rs b o.
Proof.
  intros io ld n a e rs b o H. unfold process_context. destruct n as [|n]; [reflexivity|]. cbn [engine e_process].
  unfold process_body. destruct e as [|i|d]; try reflexivity. cbn [propagate_of]. rewrite (H d eq_refl). reflexivity.
Qed.
Print Assumptions C45_singleton.

(** With a remote context the sequence is not equivalent: the chain of remote contexts seen so
    far is kept for the following elements, so their [@base] is ignored. *)
Definition base_def (s : string) : cdef tdef := MkDef (Some (NSome s)) None None None None None None None None [].
Definition one_loader : loader := fun u => if streq u "http://a/" then LdContext (lc_of []) else LdFail.
Theorem C45_remote_refuted : exists io ld n a es es' c1 c2 c3,
  process_full io ld n a (LMany es) None popts_default = Ok c1 /\
  process_full io ld n c1 (LMany es') None popts_default = Ok c2 /\
  process_full io ld n a (LMany (es ++ es')) None popts_default = Ok c3 /\
  ac_base c2 = Some "http://b/" /\ ac_base c3 = None.
Proof.
  exists sample_iops, one_loader, 5, (ctx_new None), [CEIri "http://a/"], [CEDef (base_def "http://b/")].
  eexists. eexists. eexists. repeat (split; [vm_compute; reflexivity|]). reflexivity.
Qed.
Print Assumptions C45_remote_refuted.

Example C45_example :
  process_full sample_iops no_loader 5 (ctx_new None) (LMany ([CEDef (base_def "http://b/"); CENull] ++ [CEDef (base_def "http://c/")])) None popts_default
  = Ok (set_base_iri (ctx_new None) (Some "http://c/")).
Proof. vm_compute. reflexivity. Qed.

(** ** C46 *)
Theorem C46_original_base : forall io ld n a lc rs b o c',
  process_context io ld n a lc rs b o = Ok c' -> ac_orig c' = ac_orig a.
Proof. exact process_orig. Qed.
Print Assumptions C46_original_base.

(** No remote context changes the base IRI, whatever it contains except null (which restores
    the original base IRI). *)
Theorem C46_remote_base : forall io ld n a u b o c',
  (forall u lc, ld u = LdContext lc -> forall e, In e (entries_of lc) -> e <> CENull) ->
  process_full io ld n a (LOne (CEIri u)) b o = Ok c' -> ac_base c' = ac_base a.
Proof.
  intros io ld n a u b o c' HL H. unfold process_full, process_context in H.
  destruct n as [|n]; [discriminate|]. cbn [engine e_process] in H. unfold process_body in H. cbn [propagate_of bind entries_of process_entries] in H.
  apply bind_ok in H. destruct H as ([c1 r1] & E & H). injection H as ->.
  unfold process_iri in E. destruct (resolve_iri io u b) as [w|]; [|discriminate].
  destruct (ps_push ps_new w) as [x r] eqn:P. assert (x = true) as -> by (cbn in P; congruence). apply ps_push_grows in P. destruct (ld w) as [| |lc] eqn:L; try discriminate.
  apply bind_ok in E. destruct E as (c2 & E & E'). injection E' as -> _.
  eapply (process_remote_base io ld n) in E; [|exact P|intros e He; eapply HL; eassumption|exact HL].
  rewrite E. destruct (_ && _)%bool; reflexivity.
Qed.
Print Assumptions C46_remote_base.

Example C46_example :
  let ld := fun u => if streq u "http://a/" then LdContext (LOne (CEDef (base_def "http://b/"))) else LdFail in
  let a := ctx_new (Some "http://o/") in
  process_full sample_iops ld 5 a (LOne (CEIri "http://a/")) None popts_default = Ok a /\
  process_full sample_iops ld 5 a (LOne (CEDef (base_def "http://b/"))) None popts_default = Ok (set_base_iri a (Some "http://b/")).
Proof. vm_compute. split; reflexivity. Qed.

(** ** C47 *)

(** No entry is null and none has a value for the entry [f]. *)
Definition leaves {A} (f : cdef tdef -> option A) (lc : lcontext) : Prop :=
  forall e, In e (entries_of lc) -> e <> CENull /\ forall d, e = CEDef d -> f d = None.

Theorem C47_terms : forall io ld n a lc rs b o c' k,
  leaves (fun d => assoc k (cd_bindings d)) lc ->
  (forall u lc, ld u = LdContext lc -> leaves (fun d => assoc k (cd_bindings d)) lc) ->
  process_context io ld n a lc rs b o = Ok c' -> assoc k (ac_defs c') = assoc k (ac_defs a).
Proof.
  intros io ld n a lc rs b o c' k H HL. apply process_frame.
  - intros e He. destruct (H e He) as [N B]. split; [exact N|]. intros d Hd X. apply X. apply B, Hd.
  - intros u l E e He. destruct (HL u l E e He) as [N B]. split; [exact N|]. intros d Hd X. apply X. apply B, Hd.
Qed.
Print Assumptions C47_terms.

Theorem C47_language : forall io ld n a lc rs b o c',
  leaves cd_language lc -> (forall u lc, ld u = LdContext lc -> leaves cd_language lc) ->
  process_context io ld n a lc rs b o = Ok c' -> ac_lang c' = ac_lang a.
Proof. intros io ld n a lc rs b o c' H HL. apply process_language; [exact H|exact HL]. Qed.
Print Assumptions C47_language.
Theorem C47_direction : forall io ld n a lc rs b o c',
  leaves cd_direction lc -> (forall u lc, ld u = LdContext lc -> leaves cd_direction lc) ->
  process_context io ld n a lc rs b o = Ok c' -> ac_dir c' = ac_dir a.
Proof. intros io ld n a lc rs b o c' H HL. apply process_direction; [exact H|exact HL]. Qed.
Print Assumptions C47_direction.
Theorem C47_vocabulary : forall io ld n a lc rs b o c',
  leaves cd_vocab lc -> (forall u lc, ld u = LdContext lc -> leaves cd_vocab lc) ->
  process_context io ld n a lc rs b o = Ok c' -> ac_vocab c' = ac_vocab a.
Proof. intros io ld n a lc rs b o c' H HL. apply process_vocab_kept; [exact H|exact HL]. Qed.
Print Assumptions C47_vocabulary.

(** The default language and direction are those of the definition, if it gives any. *)
Theorem C47_set : forall io ld n a d rs b o c', cd_import d = None ->
  process_context io ld n a (LOne (CEDef d)) rs b o = Ok c' ->
  (forall l, cd_language d = Some l -> ac_lang c' = match l with NNull => None | NSome l => Some l end) /\
  (forall x, cd_direction d = Some x -> ac_dir c' = match x with NNull => None | NSome x => Some x end) /\
  (cd_vocab d = Some NNull -> ac_vocab c' = None).
Proof.
  intros io ld n a d rs b o c' HI H. unfold process_context in H. destruct n as [|n]; [discriminate|]. cbn [engine e_process] in H.
  unfold process_body in H. apply bind_ok in H. destruct H as (o' & _ & H). cbn [entries_of process_entries] in H.
  apply bind_ok in H. destruct H as ([c1 r1] & E & H). injection H as ->.
  apply bind_ok in E. destruct E as (c2 & E & H). injection H as -> _. unfold process_def in E.
  destruct (match cd_version d with Some _ => _ | None => _ end); [discriminate|].
  unfold import_of in E. rewrite HI in E. cbn [bind] in E.
  assert (M : forall A (f : cdef tdef -> option A), m_field f (MkMerged d None) = f d).
  { intros A f. unfold m_field, or_else. cbn. destruct (f d); reflexivity. }
  pose proof (process_merged_settings _ _ _ _ _ _ _ _ _ E) as (_ & _ & L & D & _). rewrite !M in *.
  split; [intros l El; rewrite El in L; exact L|]. split; [intros x Ex; rewrite Ex in D; exact D|]. intros V.
  unfold process_merged in E. apply bind_ok in E. destruct E as (c3 & E1 & E). apply bind_ok in E. destruct E as (c4 & E2 & E).
  apply bind_ok in E. destruct E as (c5 & E3 & E). unfold process_vocab in E2. rewrite M, V in E2. injection E2 as <-.
  apply process_direction_spec in E3. apply define_all_settings in E. destruct E as (_ & _ & E & _). destruct E3 as (_ & _ & E3 & _).
  rewrite <- E, E3. reflexivity.
Qed.
Print Assumptions C47_set.

Example C47_example :
  let a := MkCtx None None (iri_term "http://v/") (Some "en") (Some Ltr) None [("t", ndef_of "http://t/" true false)] None in
  let d := MkDef None None None (Some NNull) None None None None None [("u", NSome (TSimple "t:u"))] in
  process_full sample_iops no_loader 5 a (LOne (CEDef d)) None popts_default =
  Ok (MkCtx None None (iri_term "http://v/") (Some "en") None None
        [("u", ndef_of "http://t/u" false false); ("t", ndef_of "http://t/" true false)] None).
Proof. vm_compute. reflexivity. Qed.

(** ** C48 *)

(** Every term of a context definition is recorded as described by [created] (Created.v): its
    IRI mapping and type mapping are the expansion of its [@id] and [@type] in the *resulting*
    context, whatever the order of the entries; the other fields are those written.  [b'] and
    [p'] are the URL and the [@protected] flag of the context, or none if the term was needed
    by a previous one. *)
Theorem C48_created : forall io ld n a d rs b o c' k v,
  process_context io ld n a (LOne (CEDef d)) rs b o = Ok c' -> cd_import d = None ->
  assoc k (cd_bindings d) = Some v ->
  exists b' p' ov',
    (b' = b /\ p' = (match cd_protected d with Some p => p | None => false end) /\ ov' = po_override o \/
     b' = None /\ p' = false /\ ov' = false) /\
    created (setting_of io ld o c') k v b' p' ov' (assoc k (ac_defs a)).
Proof. exact process_def_created. Qed.
Print Assumptions C48_created.

(** "b" is written before the prefix "p" it uses; [@protected] then misses "p", which is defined
    while "b" is being defined. *)
Definition p_def : cdef tdef := MkDef None None None None None (Some true) None None None
  [("b", NSome (TExpanded (MkTExp (Some (NSome (TIdTerm "p:b"))) (Some (NSome (TTyKeyword TKId))) None None None None None None None None None None)));
   ("p", NSome (TSimple "http://p/"))].
Example C48_example :
  exists c d q, process_full sample_iops no_loader 5 (ctx_new None) (LOne (CEDef p_def)) None popts_default = Ok c /\
    assoc "b" (ac_defs c) = Some d /\ nd_value d = iri_term "http://p/b" /\ nd_typ d = Some TyId /\ nd_protected d = true /\
    assoc "p" (ac_defs c) = Some q /\ nd_value q = iri_term "http://p/" /\ nd_prefix q = true /\ nd_protected q = false.
Proof. eexists. eexists. eexists. vm_compute. repeat split. Qed.

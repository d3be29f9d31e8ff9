(** C78 and following: references, contexts outside of the document, base IRIs, and the round trip
    through the application programming interface. *)
From Coq Require Import Permutation Lia.
From Verif Require Import Prelude Json Str Keyword Enums LangTag LangString Container Stack ContextSyntax Ctx Inverse Process
  IriSpec Object ObjectEq ObjectJson Compare Relabel Flatten FlattenSpec PropFlatten Rdf Sound CompactIri Expand ExpandValue ExpandFuel ExpandOk BaseFree Laws Compact RoundTrip OrigFree
  Samples PropSyntax PropExpand PropCompactIri PropTrip PropCompact PropLaws PropLaws2 Processor ProcessorProofs PropProcessor.

Definition with_base (b : option string) (o : jopts) : jopts :=
  MkJOpts b (jo_arrays o) (jo_relative o) (jo_expand_context o) (jo_ordered o) (jo_mode o) (jo_direction o) (jo_generalized o) (jo_invalid o) (jo_vocab o) (jo_allow_undefined o).
Definition with_relative (r : bool) (o : jopts) : jopts :=
  MkJOpts (jo_base o) (jo_arrays o) r (jo_expand_context o) (jo_ordered o) (jo_mode o) (jo_direction o) (jo_generalized o) (jo_invalid o) (jo_vocab o) (jo_allow_undefined o).

(** ** C75, continued *)

(** With repeated keys, a document may not even be compared with itself. *)
Theorem C75_repeated_keys_refuted :
  let j := JArr [JObj [("http://x/p", JStr "u"); ("http://x/p", JStr "v")]] in
  ex_compare j j = Err APanic /\
  exists x, api_expand sample_iops sample_hash sample_hash no_docs 20 40 jopts_default (api_doc j) = Ok [x].
Proof. cbv zeta. split; [vm_compute; reflexivity|]. eexists. vm_compute. reflexivity. Qed.
Print Assumptions C75_repeated_keys_refuted.

(** ** C78 *)

(** The document that a server gives for [u]: with its own URL, that may not be [u]. *)
Definition served (dl : dloader) (u : string) (d : rdoc json) : Prop := dl u = Some d.
(** The document at [u] is a JSON object with one entry [@context], which is the context [l]. *)
Definition serves_context (io : iops) (dl : dloader) (u : string) (l : lcontext) : Prop :=
  exists d es1 j es2, dl u = Some d /\ rd_document d = JObj (es1 ++ ("@context", j) :: es2) /\
    Forall (fun e => fst e <> "@context") (es1 ++ es2) /\ context_of_json (iri_ref_ok io) j = Ok l.

(** Documents given by their IRIs are those that the loader finds, in every operation. *)
Theorem C78_documents : forall io fin rnd rel dl pf n o u d,
  (served dl u d ->
    (ref_expand io fin rnd dl pf n o (RefIri u) = api_expand io fin rnd dl pf n o d) /\
    (forall x, ref_compact io fin rnd rel dl pf n o x (RefIri u) = api_compact io fin rnd rel dl pf n o x d) /\
    (forall u' e, served dl u' e -> ref_compare io fin rnd dl pf n o (RefIri u) (RefIri u') = api_compare io fin rnd dl pf n o d e) /\
    (forall e, ref_compare io fin rnd dl pf n o (RefIri u) (RefLoaded e) = api_compare io fin rnd dl pf n o d e) /\
    (forall e, ref_compare io fin rnd dl pf n o (RefLoaded e) (RefIri u) = api_compare io fin rnd dl pf n o e d)) /\
  (dl u = None ->
    ref_expand io fin rnd dl pf n o (RefIri u) = Err ALoading /\
    (forall x, ref_compact io fin rnd rel dl pf n o x (RefIri u) = Err ALoading) /\
    (forall r, ref_compare io fin rnd dl pf n o (RefIri u) r = Err ALoading) /\
    (forall e, ref_compare io fin rnd dl pf n o (RefLoaded e) (RefIri u) = Err ALoading)).
Proof.
  intros io fin rnd rel dl pf n o u d. unfold served, ref_expand, ref_compact, ref_compare, load_doc. split; intros ->; cbn [bind].
  - split; [reflexivity|]. split; [reflexivity|]. split; [intros u' e ->; reflexivity|]. split; reflexivity.
  - repeat split.
Qed.
Print Assumptions C78_documents.

Lemma serves_loaded io dl u l : serves_context io dl u l -> load_context io dl (RefIri u) = Ok l.
Proof.
  intros (d & es1 & j & es2 & E & D & F & J). unfold load_context, context_loader. rewrite E, D. unfold into_ld_context.
  assert (G : get_unique "@context" (es1 ++ ("@context", j) :: es2) = Ok (Some j)).
  { unfold get_unique. assert (X : forall es, Forall (fun e : string * json => fst e <> "@context") es -> forall es', get_all "@context" (es ++ es') = get_all "@context" es').
    { induction 1 as [|[k v] es N _ IH]; intros es'; [reflexivity|]. unfold get_all. cbn [app filter fst]. cbn [fst] in N. destruct (streq_spec k "@context") as [->|_]; [contradiction N; reflexivity|apply IH]. }
    apply Forall_app in F. destruct F as [F1 F2]. rewrite (X _ F1). assert (Y : get_all "@context" es2 = []) by (rewrite <- (app_nil_r es2), (X _ F2); reflexivity).
    unfold get_all in *. cbn [filter fst]. rewrite streq_refl. cbn [map snd]. rewrite Y. reflexivity. }
  rewrite G, J. reflexivity.
Qed.
(** Contexts given by the IRIs of documents that contain them, whatever else these documents
    contain, are used as if they were given directly. *)
Theorem C78_contexts : forall io fin rnd rel dl pf n o u l x y, serves_context io dl u l ->
  (forall d, api_expand io fin rnd dl pf n (with_expand_context (RefIri u) o) d = api_expand io fin rnd dl pf n (with_expand_context (RefLoaded (MkRdoc x y l)) o) d) /\
  (forall d, api_compact io fin rnd rel dl pf n o (RefIri u) d = api_compact io fin rnd rel dl pf n o (RefLoaded (MkRdoc x y l)) d) /\
  (forall pg pn po gen d, api_flatten io fin rnd rel dl pf n pg pn po gen o (Some (RefIri u)) d =
                          api_flatten io fin rnd rel dl pf n pg pn po gen o (Some (RefLoaded (MkRdoc x y l))) d).
Proof.
  intros io fin rnd rel dl pf n o u l x y S. apply serves_loaded in S.
  assert (C : forall o url doc, compact_expanded io rel dl pf n o url (RefIri u) doc = compact_expanded io rel dl pf n o url (RefLoaded (MkRdoc x y l)) doc).
  { intros o' url doc. unfold compact_expanded. rewrite S. reflexivity. }
  split; [|split].
  - intros d. unfold api_expand, initial_context. cbn [jo_expand_context with_expand_context]. rewrite S. reflexivity.
  - intros d. unfold api_compact. destruct (api_expand _ _ _ _ _ _ _ d); [|reflexivity]. apply C.
  - intros pg pn po gen d. unfold api_flatten. destruct (api_expand _ _ _ _ _ _ _ d) as [doc|]; [|reflexivity]. cbn [bind].
    destruct (map_err AFlatten _) as [out|]; [|reflexivity]. apply C.
Qed.
Print Assumptions C78_contexts.

(** A context that cannot be loaded, or that the document does not contain, is an error. *)
Theorem C78_failures : forall io fin rnd rel dl pf n o u,
  dl u = None \/ (exists d, dl u = Some d /\ match rd_document d with JObj m => ~ In "@context" (map fst m) | _ => True end) ->
  (forall d, api_expand io fin rnd dl pf n (with_expand_context (RefIri u) o) d = Err AContextLoading) /\
  (forall url doc, compact_expanded io rel dl pf n o url (RefIri u) doc = Err AContextLoading) /\
  (forall d, rd_context_url d = Some u -> exists e, api_expand io fin rnd dl pf n o d = Err e) /\
  (forall base c, resolve_iri io u base = Some u ->
     process_full io (context_loader io dl) (S pf) c (LOne (CEIri u)) base (jo_popts o) =
       Err (match dl u with None => EContextLoadingFailed | Some _ => EContextExtractionFailed end)).
Proof.
  intros io fin rnd rel dl pf n o u H.
  assert (L : context_loader io dl u = match dl u with None => LdFail | Some _ => LdNoContext end).
  { unfold context_loader. destruct H as [->|(d & -> & X)]; [reflexivity|]. unfold into_ld_context. destruct (rd_document d); try reflexivity. rewrite (get_none _ _ X). reflexivity. }
  assert (S : load_context io dl (RefIri u) = Err AContextLoading) by (unfold load_context; rewrite L; destruct (dl u); reflexivity).
  split; [|split; [|split]].
  - intros d. unfold api_expand, initial_context. cbn [jo_expand_context with_expand_context]. rewrite S. reflexivity.
  - intros url doc. unfold compact_expanded. rewrite S. reflexivity.
  - intros d E. unfold api_expand, initial_context. rewrite E, S. cbn [bind].
    match goal with |- exists e, bind (bind ?x _) _ = _ => destruct x as [c|e]; [exists AContextLoading|exists e]; reflexivity end.
  - intros base c R. unfold process_full, process_context. cbn [engine e_process]. unfold process_body. cbn [propagate_of bind entries_of process_entries po_propagate jo_popts negb andb].
    unfold process_iri. rewrite R. destruct (ps_push ps_new u) as [pushed rs] eqn:P. assert (pushed = true) as -> by (cbn in P; congruence).
    rewrite L. destruct (dl u); reflexivity.
Qed.
Print Assumptions C78_failures.

(** Where documents are. *)
Definition docs (l : list (string * rdoc json)) : dloader := fun u => assoc u l.
Definition api_ex (dl : dloader) (o : jopts) (d : rdoc json) : result (list iobj) aerr := api_expand sample_iops sample_hash sample_hash dl 20 40 o d.
Definition context_doc (es : jobject) : rdoc json := MkRdoc None None (JObj [("note", JStr "a context"); ("@context", JObj es)]).
Definition node_q (q : string) : list iobj := [(None, ONode (MkNode None None None None [(IIri q, [str_obj "v"])] None))].

Example C78_example :
  let dl := docs [("http://c/", context_doc [("q", JStr "http://x/q")]); ("http://d/", MkRdoc (Some "http://e/") None (JObj [("q", JStr "v"); ("@id", JStr "s")]))] in
  (exists l, serves_context sample_iops dl "http://c/" l) /\
  ref_expand sample_iops sample_hash sample_hash dl 20 40 (with_expand_context (RefIri "http://c/") jopts_default) (RefIri "http://d/") =
    Ok [(None, ONode (MkNode (Some (IIri "http://e/s")) None None None [(IIri "http://x/q", [str_obj "v"])] None))] /\
  ref_expand sample_iops sample_hash sample_hash dl 20 40 jopts_default (RefIri "http://f/") = Err ALoading.
Proof.
  cbv zeta. split; [|split; vm_compute; reflexivity].
  exists (match context_of_json (iri_ref_ok sample_iops) (JObj [("q", JStr "http://x/q")]) with Ok l => l | Err _ => LOne CENull end).
  exists (context_doc [("q", JStr "http://x/q")]), [("note", JStr "a context")], (JObj [("q", JStr "http://x/q")]), [].
  split; [reflexivity|]. split; [reflexivity|]. split; [repeat constructor; discriminate|vm_compute; reflexivity].
Qed.

(** ** C79 *)

(** Entries that are those of a node object, in [c] and in [c1]. *)
Definition node_entries_in (io : iops) (ld : loader) (pf : nat) (o : xopts) (base : option string) (c c1 : actx) (es : jobject) : Prop :=
  Forall (fun e => fst e <> "@context" /\ (exists t, xkey io o c (fst e) = Ok t) /\ (exists t, xkey io o c1 (fst e) = Ok t)) es /\
  lacks io ld pf o base [KList; KSet; KValue] c1 None es.

Lemma process_to_xprocess io dl pf o c l b c1 : process_full io (context_loader io dl) pf c l b (jo_popts o) = Ok c1 ->
  xprocess io (context_loader io dl) pf c l b (popts_of (jo_xopts o)) = Ok c1 /\ aprocess io dl pf o c l b = Ok c1.
Proof. intros H. unfold xprocess, aprocess. change (popts_of (jo_xopts o)) with (jo_popts o). rewrite H. split; reflexivity. Qed.

(** The option expandContext is short for a context embedded in the node object that is expanded,
    provided that the base IRIs against which the two are processed give the same context. *)
Theorem C79_expand_context : forall io fin rnd dl pf n o x y u es1 lc l es2 c1,
  let own := match jo_base o with Some b => Some b | None => u end in
  let outer := match u with Some u => Some u | None => jo_base o end in
  jo_expand_context o = None -> context_of_json (iri_ref_ok io) lc = Ok l -> ac_prev c1 = None ->
  process_full io (context_loader io dl) pf (ctx_new own) l own (jo_popts o) = Ok c1 ->
  process_full io (context_loader io dl) pf (ctx_new own) l outer (jo_popts o) = Ok c1 ->
  node_entries_in io (context_loader io dl) pf (jo_xopts o) outer (ctx_new own) c1 (es1 ++ es2) ->
  api_expand io fin rnd dl pf (S n) (with_expand_context (RefLoaded (MkRdoc x y l)) o) (MkRdoc u None (JObj (es1 ++ es2))) =
  api_expand io fin rnd dl pf (S n) o (MkRdoc u None (JObj (es1 ++ ("@context", lc) :: es2))).
Proof.
  intros io fin rnd dl pf n o x y u es1 lc l es2 c1 own outer NE CJ PV P1 P2 [F L].
  apply process_to_xprocess in P1. apply process_to_xprocess in P2. destruct P1 as [_ P1]. destruct P2 as [P2 _].
  unfold api_expand, initial_context. cbn [jo_expand_context with_expand_context rd_url rd_context_url rd_document load_context bind jo_base]. rewrite NE. cbn [bind].
  change (or_else (jo_base o) u) with own. change (or_else u (jo_base o)) with outer. change (ac_orig (ctx_new own)) with own.
  change (aprocess io dl pf (with_expand_context (RefLoaded (MkRdoc x y l)) o) (ctx_new own) l own) with (aprocess io dl pf o (ctx_new own) l own). rewrite P1. cbn [bind].
  change (jo_xopts (with_expand_context _ o)) with (jo_xopts o). f_equal. symmetry.
  refine (proj2 (C72_contexts io (context_loader io dl) fin rnd pf (jo_xopts o) outer (ctx_new own) None false es1 lc l es2 c1 _ PV _ _ CJ P2 F L) eq_refl eq_refl n).
  - reflexivity.
  - discriminate.
  - discriminate.
Qed.
Print Assumptions C79_expand_context.

(** The context that the server gives for the document is short for a context embedded in it: the
    same context, if processed against the base IRI of the document it gives the same context, or a
    reference to it. *)
Theorem C79_context_url : forall io fin rnd dl pf n o u cu l es1 lc l' es2 c1,
  let own := match jo_base o with Some b => Some b | None => u end in
  let outer := match u with Some u => Some u | None => jo_base o end in
  jo_expand_context o = None -> serves_context io dl cu l -> context_of_json (iri_ref_ok io) lc = Ok l' -> ac_prev c1 = None ->
  process_full io (context_loader io dl) pf (ctx_new own) l (Some cu) (jo_popts o) = Ok c1 ->
  process_full io (context_loader io dl) pf (ctx_new own) l' outer (jo_popts o) = Ok c1 ->
  node_entries_in io (context_loader io dl) pf (jo_xopts o) outer (ctx_new own) c1 (es1 ++ es2) ->
  api_expand io fin rnd dl pf (S n) o (MkRdoc u (Some cu) (JObj (es1 ++ es2))) =
  api_expand io fin rnd dl pf (S n) o (MkRdoc u None (JObj (es1 ++ ("@context", lc) :: es2))).
Proof.
  intros io fin rnd dl pf n o u cu l es1 lc l' es2 c1 own outer NE SC CJ PV P1 P2 [F L]. apply serves_loaded in SC.
  apply process_to_xprocess in P1. apply process_to_xprocess in P2. destruct P1 as [_ P1]. destruct P2 as [P2 _].
  unfold api_expand, initial_context. cbn [rd_url rd_context_url rd_document]. rewrite NE, SC. cbn [bind].
  change (or_else (jo_base o) u) with own. change (or_else u (jo_base o)) with outer. rewrite P1. cbn [bind]. f_equal. symmetry.
  refine (proj2 (C72_contexts io (context_loader io dl) fin rnd pf (jo_xopts o) outer (ctx_new own) None false es1 lc l' es2 c1 _ PV _ _ CJ P2 F L) eq_refl eq_refl n).
  - reflexivity.
  - discriminate.
  - discriminate.
Qed.
Print Assumptions C79_context_url.

(** The option expandContext, given by an IRI, is not short for a reference to this IRI: relative
    references of the context are resolved against the base IRI of the document, instead of the IRI
    of the context. *)
Definition c79_docs : dloader :=
  docs [("http://c/", MkRdoc (Some "http://c/") None (JObj [("@context", JArr [JStr "more"])]));
        ("http://c/more", context_doc [("q", JStr "http://x/q")])].
Theorem C79_expand_context_iri_refuted :
  let doc es := MkRdoc (Some "http://d/") None (JObj (es ++ [("q", JStr "v")])) in
  api_ex c79_docs jopts_default (doc [("@context", JStr "http://c/")]) = Ok (node_q "http://x/q") /\
  api_ex c79_docs jopts_default (MkRdoc (Some "http://d/") (Some "http://c/") (JObj [("q", JStr "v")])) = Ok (node_q "http://x/q") /\
  api_ex c79_docs (with_expand_context (RefIri "http://c/") jopts_default) (doc []) = Err (AContextProcessing EContextLoadingFailed).
Proof. cbv zeta. repeat split; vm_compute; reflexivity. Qed.
Print Assumptions C79_expand_context_iri_refuted.
Definition c79_context : actx := match process_full sample_iops (context_loader sample_iops c79_docs) 20 (ctx_new (Some "http://d/")) c72_local (Some "http://d/") (jo_popts jopts_default) with Ok c => c | Err _ => ctx_new None end.
Example C79_example :
  let plain := JObj [("q", JStr "v"); ("@id", JStr "s")] in
  let result := Ok [(None, ONode (MkNode (Some (IIri "http://d/s")) None None None [(IIri "http://a/q", [(None, OVal (VLang (MkLS "v" (Some "en") None)))])] None))] in
  api_ex c79_docs (with_expand_context (RefLoaded (MkRdoc None None c72_local)) jopts_default) (MkRdoc (Some "http://d/") None plain) =
    api_ex c79_docs jopts_default (MkRdoc (Some "http://d/") None (JObj [("q", JStr "v"); ("@context", c72_json); ("@id", JStr "s")])) /\
  api_ex c79_docs (with_expand_context (RefLoaded (MkRdoc None None c72_local)) jopts_default) (MkRdoc (Some "http://d/") None plain) = result /\
  api_ex c79_docs jopts_default (MkRdoc (Some "http://d/") (Some "http://c/") (JObj [("q", JStr "v")])) = Ok (node_q "http://x/q").
Proof.
  cbv zeta. split; [|split; vm_compute; reflexivity].
  refine (C79_expand_context sample_iops sample_hash sample_hash c79_docs 20 39 jopts_default None None (Some "http://d/") [("q", JStr "v")] c72_json c72_local [("@id", JStr "s")] c79_context eq_refl _ _ _ _ _).
  - vm_compute; reflexivity.
  - vm_compute; reflexivity.
  - vm_compute; reflexivity.
  - vm_compute; reflexivity.
  - split; [repeat (apply Forall_cons || apply Forall_nil); (split; [discriminate|split; eexists; vm_compute; reflexivity])|].
    apply lacks_plain; [vm_compute; reflexivity|discriminate|reflexivity|]. cbn [In app]. intros e I.
    destruct I as [<-|[<-|[]]]; (eexists; split; [vm_compute; reflexivity|cbn [In]; intros ? K; repeat (destruct K as [<-|K]; [discriminate|]); destruct K]).
Qed.

(** ** C80 *)

(** For a document without embedded contexts, the base option stands for the URL of the document,
    and wins over it. *)
Theorem C80_base : forall io fin rnd dl pf n o u cu b j, contextless j ->
  api_expand io fin rnd dl pf n (with_base (Some b) o) (MkRdoc u cu j) = api_expand io fin rnd dl pf n (with_base None o) (MkRdoc (Some b) cu j).
Proof.
  intros io fin rnd dl pf n o u cu b j C. unfold api_expand, initial_context. cbn [rd_url rd_context_url rd_document jo_base with_base or_else jo_expand_context].
  change (jo_xopts (with_base (Some b) o)) with (jo_xopts (with_base None o)).
  match goal with |- bind ?x _ = bind ?x' _ => change x with x'; destruct x' as [c|e]; [|reflexivity] end. cbn [bind]. f_equal. apply base_free, C.
Qed.
Print Assumptions C80_base.
(** The same holds of all documents without a URL. *)
Theorem C80_no_url : forall io fin rnd rel dl pf n o cu b j,
  api_expand io fin rnd dl pf n (with_base (Some b) o) (MkRdoc None cu j) = api_expand io fin rnd dl pf n (with_base None o) (MkRdoc (Some b) cu j) /\
  (forall r l, load_context io dl r = Ok l -> (forall c, process_full io (context_loader io dl) pf (ctx_new None) l (Some b) (jo_popts o) = Ok c -> ac_base c = None) ->
    api_compact io fin rnd rel dl pf n (with_base (Some b) o) r (MkRdoc None cu j) = api_compact io fin rnd rel dl pf n (with_relative true (with_base None o)) r (MkRdoc (Some b) cu j)).
Proof.
  intros io fin rnd rel dl pf n o cu b j. split; [reflexivity|]. intros r l E H. unfold api_compact. cbn [rd_url].
  change (api_expand io fin rnd dl pf n (unordered (with_relative true (with_base None o))) (MkRdoc (Some b) cu j)) with (api_expand io fin rnd dl pf n (unordered (with_base (Some b) o)) (MkRdoc None cu j)).
  destruct (api_expand io fin rnd dl pf n _ _) as [doc|e]; [|reflexivity]. cbn [bind]. unfold compact_expanded. rewrite E. cbn [bind].
  unfold compaction_context. cbn [jo_base with_base with_relative or_else jo_relative].
  change (aprocess io dl pf (with_relative true (with_base None o))) with (aprocess io dl pf o). change (aprocess io dl pf (with_base (Some b) o)) with (aprocess io dl pf o).
  destruct (aprocess io dl pf o (ctx_new None) l (Some b)) as [c|e] eqn:P; [|reflexivity]. cbn [bind].
  assert (B : ac_base c = None). { apply H. unfold aprocess in P. destruct (process_full _ _ _ _ _ _ _); [injection P as ->; reflexivity|discriminate]. }
  rewrite B. reflexivity.
Qed.
Print Assumptions C80_no_url.

(** Compaction without a base option makes IRIs relative to the URL of the document, unless the
    context has a base IRI or the option compactToRelative is off: with it off, the output does not
    depend on the URL, if the context does not. *)
Theorem C80_compact_url : forall io rel dl pf n o r l u v doc c, jo_base o = None -> load_context io dl r = Ok l ->
  process_full io (context_loader io dl) pf (ctx_new None) l u (jo_popts o) = Ok c -> process_full io (context_loader io dl) pf (ctx_new None) l v (jo_popts o) = Ok c ->
  jo_relative o = false \/ ac_base c <> None ->
  compact_expanded io rel dl pf n o u r doc = compact_expanded io rel dl pf n o v r doc.
Proof.
  intros io rel dl pf n o r l u v doc c B E P1 P2 H. unfold compact_expanded, compaction_context, aprocess. rewrite E, B. cbn [bind].
  assert (O : forall w : option string, or_else w None = w) by (intros []; reflexivity). rewrite !O, P1, P2. cbn [map_err bind].
  destruct H as [->|H]; [reflexivity|]. destruct (ac_base c); [|contradiction]. destruct (jo_relative o); reflexivity.
Qed.
Print Assumptions C80_compact_url.
(** And a base option makes it independent of the URL and of the base IRI of the context. *)
Theorem C80_compact_base : forall io rel dl pf n o r l u v doc c d, load_context io dl r = Ok l ->
  process_full io (context_loader io dl) pf (ctx_new None) l (match u with Some u => Some u | None => jo_base o end) (jo_popts o) = Ok c ->
  process_full io (context_loader io dl) pf (ctx_new None) l v (jo_popts o) = Ok d -> ac_base d = None -> set_base_iri c None = d ->
  jo_base o = v -> v <> None ->
  compact_expanded io rel dl pf n o u r doc = compact_expanded io rel dl pf n (with_relative true (with_base None o)) v r doc.
Proof.
  intros io rel dl pf n o r l u v doc c d E P1 P2 B S V NV. unfold compact_expanded, compaction_context, aprocess. rewrite E. cbn [bind jo_base with_base with_relative jo_relative andb].
  change (jo_popts (with_relative true (with_base None o))) with (jo_popts o). change (or_else u (jo_base o)) with (match u with Some u => Some u | None => jo_base o end).
  assert (O : or_else v None = v) by (destruct v; reflexivity). rewrite O, P1, P2, V. cbn [map_err bind]. rewrite B. cbn [is_some negb].
  destruct v as [b|]; [|contradiction]. subst d. reflexivity.
Qed.
Print Assumptions C80_compact_base.

(** Embedded contexts are resolved against the URL of the document, not the base option. *)
Theorem C80_embedded_refuted :
  let dl := docs [("http://d/c", context_doc [("q", JStr "http://x/q")]); ("http://b/c", context_doc [("q", JStr "http://y/q")])] in
  let j := JObj [("@context", JStr "c"); ("q", JStr "v")] in
  api_ex dl (with_base (Some "http://b/") jopts_default) (MkRdoc (Some "http://d/") None j) = Ok (node_q "http://x/q") /\
  api_ex dl jopts_default (MkRdoc (Some "http://b/") None j) = Ok (node_q "http://y/q").
Proof. cbv zeta. split; vm_compute; reflexivity. Qed.
Print Assumptions C80_embedded_refuted.
(** A context with a relative base IRI can be embedded in a document, but not be used to compact
    it. *)
Definition api_compact_ex (dl : dloader) (o : jopts) (r : dref lcontext) (d : rdoc json) : result json aerr :=
  api_compact sample_iops sample_hash sample_hash sample_rel dl 20 40 o r d.
Definition local (j : json) : dref lcontext :=
  RefLoaded (MkRdoc None None (match context_of_json (iri_ref_ok sample_iops) j with Ok l => l | Err _ => LOne CENull end)).
Theorem C80_relative_base_refuted :
  let ctx := JObj [("@base", JStr "sub/")] in
  let d := MkRdoc (Some "http://d/") None (JObj [("@context", ctx); ("@id", JStr "s"); ("http://x/q", JStr "v")]) in
  api_ex no_docs jopts_default d = Ok [(None, ONode (MkNode (Some (IIri "http://d/sub/s")) None None None [(IIri "http://x/q", [str_obj "v"])] None))] /\
  api_compact_ex no_docs jopts_default (local ctx) d = Err (AContextProcessing EInvalidBaseIri).
Proof. cbv zeta. split; vm_compute; reflexivity. Qed.
Print Assumptions C80_relative_base_refuted.
Example C80_example :
  let j := JObj [("@id", JStr "s"); ("http://x/q", JStr "v")] in
  let node i := Ok [(None, ONode (MkNode (Some (IIri i)) None None None [(IIri "http://x/q", [str_obj "v"])] None))] in
  contextless j /\
  api_ex no_docs (with_base (Some "http://b/") jopts_default) (MkRdoc (Some "http://d/") None j) = node "http://b/s" /\
  api_ex no_docs jopts_default (MkRdoc (Some "http://d/") None j) = node "http://d/s" /\
  let out b r := api_compact_ex no_docs (with_relative r (with_base b jopts_default)) (local (JObj [])) (MkRdoc (Some "http://d/") None j) in
  out None true = Ok (JObj [("@id", JStr "s"); ("http://x/q", JStr "v")]) /\
  out None false = Ok (JObj [("@id", JStr "http://d/s"); ("http://x/q", JStr "v")]) /\
  out (Some "http://b/") true = Ok (JObj [("@id", JStr "s"); ("http://x/q", JStr "v")]).
Proof. cbv zeta. split; [repeat (constructor; cbn; try intuition discriminate)|]. repeat split; vm_compute; reflexivity. Qed.

(** ** C81 *)

(** A document whose expansion is kept, compacted, then read at the same address: its expansion is
    the same.  The context [c1] is the one that the embedded context gives when the compacted
    document is read; it is also the one that is used to compact, but for the base IRI with which
    contexts are created. *)
Theorem C81_round_trip : forall io fin rnd rel dl pf n o r u cu j l c1 b doc jv,
  let own := match jo_base o with Some b => Some b | None => u end in
  let outer := match u with Some u => Some u | None => jo_base o end in
  id_laws io -> jo_vocab o = AKeep -> load_context io dl r = Ok l ->
  compaction_context io dl pf o u l = Ok (with_orig b c1) -> simple_context c1 ->
  reads_context io (context_loader io dl) pf (jo_xopts o) outer c1 (ctx_new own) (context_to_json l) ->
  api_expand io fin rnd dl pf n (unordered o) (MkRdoc u cu j) = Ok doc ->
  Forall (fun x => kept io rel (jo_mode o) c1 x /\ full_node x) doc -> (forall ix g, doc <> [(ix, ONode (MkNode None None (Some g) None [] None))]) ->
  api_compact io fin rnd rel dl pf n o r (MkRdoc u cu j) = Ok jv -> json_size jv < n -> jo_expand_context o = None ->
  exists doc', api_expand io fin rnd dl pf n o (MkRdoc u None jv) = Ok doc' /\ Forall2 same_i doc doc'.
Proof.
  intros io fin rnd rel dl pf n o r u cu j l c1 b doc jv own outer L VK EL EC SC RC ED F NU EJ LN NE.
  destruct (api_expand_wf _ _ _ _ _ _ _ _ _ L ED) as [W D].
  unfold api_compact in EJ. rewrite ED in EJ. cbn [bind rd_url] in EJ. unfold compact_expanded in EJ. rewrite EL in EJ. cbn [bind] in EJ. rewrite EC in EJ. cbn [bind] in EJ.
  match type of EJ with map_err _ ?t = _ => destruct t as [jv'|e] eqn:X; [|discriminate] end. injection EJ as ->.
  rewrite compact_orig in X.
  2:{ apply SC. }
  2:{ intros ap d Pd. apply (sd_context d). exact (prop_simple c1 SC ap d Pd). }
  destruct (C61_round_trip io (context_loader io dl) fin rnd pf (jo_xopts o) outer rel (jo_copts o) n (ctx_new own) c1 (context_to_json l) doc jv (dl_iri io L) VK SC RC) as (doc' & N & S & E); try assumption.
  { rewrite Forall_forall in *. intros x I. destruct (F x I) as [A B]. split; [exact A|]. split; [exact (W x I)|exact B]. }
  exists doc'. split; [|exact S]. unfold api_expand, initial_context. cbn [rd_url rd_context_url rd_document]. rewrite NE. cbn [bind].
  change (or_else (jo_base o) u) with own. change (or_else u (jo_base o)) with outer.
  specialize (E (Nat.max N n) (Nat.le_max_l _ _)). unfold expand in *. rewrite (expand_stable _ _ _ _ _ _ _ n) in E by (exact LN || apply Nat.le_max_r). rewrite E. reflexivity.
Qed.
Print Assumptions C81_round_trip.

(** A base option wins over the base IRI of the context when IRIs are made relative, but not when
    they are read. *)
Theorem C81_base_refuted :
  let ctx := JObj [("@base", JStr "http://c/")] in
  let o := with_base (Some "http://b/") jopts_default in
  let node i := Ok [(None, ONode (MkNode (Some (IIri i)) None None None [(IIri "http://x/q", [str_obj "v"])] None))] in
  let out := JObj [("@context", ctx); ("@id", JStr "s"); ("http://x/q", JStr "v")] in
  let d := api_doc (JObj [("@id", JStr "s"); ("http://x/q", JStr "v")]) in
  api_ex no_docs o d = node "http://b/s" /\ api_compact_ex no_docs o (local ctx) d = Ok out /\ api_ex no_docs o (api_doc out) = node "http://c/s".
Proof. cbv zeta. repeat split; vm_compute; reflexivity. Qed.
Print Assumptions C81_base_refuted.
(** A context that removes the base IRI does not prevent IRIs from being made relative to the URL
    of the document, and then they cannot be read. *)
Theorem C81_null_base_refuted :
  let ctx := JObj [("@base", JNull)] in
  let doc j := MkRdoc (Some "http://d/") None j in
  let node i := Ok [(None, ONode (MkNode (Some i) None None None [(IIri "http://x/q", [str_obj "v"])] None))] in
  let out := JObj [("@context", ctx); ("@id", JStr "s"); ("http://x/q", JStr "v")] in
  let d := doc (JObj [("@id", JStr "s"); ("http://x/q", JStr "v")]) in
  api_ex no_docs jopts_default d = node (IIri "http://d/s") /\ api_compact_ex no_docs jopts_default (local ctx) d = Ok out /\
  api_ex no_docs jopts_default (doc out) = node (IInvalid "s").
Proof. cbv zeta. repeat split; vm_compute; reflexivity. Qed.
Print Assumptions C81_null_base_refuted.
Definition c81_json : json := JObj [("q", JStr "http://x/q")].
Definition c81_local : lcontext := match context_of_json (iri_ref_ok sample_iops) c81_json with Ok l => l | Err _ => LOne CENull end.
Definition c81_context : actx := MkCtx (Some "http://d/") (Some "http://d/") None None None None [("q", ndef_of "http://x/q" false false)] None.
Lemma c81_terms k d : assoc k (ac_defs c81_context) = Some d -> k = "q" /\ d = ndef_of "http://x/q" false false.
Proof. cbn. destruct (streq_spec k "q") as [->|_]; [|discriminate]. intros [= <-]. split; reflexivity. Qed.
Lemma c81_simple : simple_context c81_context.
Proof.
  split.
  - repeat constructor; cbn; intuition discriminate.
  - reflexivity.
  - intros k d A. apply c81_terms in A. destruct A as [-> ->]. split; try reflexivity; discriminate.
  - intros []; reflexivity.
  - intros kw. split; [|intros m x V; discriminate V|]; intros t d; [intros A V|intros t' x A P]; apply c81_terms in A; destruct A as [-> ->]; discriminate.
  - intros k d kw A V _. apply c81_terms in A. destruct A as [-> ->]. discriminate V.
Qed.
Definition c81_doc : list iobj := [(None, ONode (MkNode (Some (IIri "http://d/s")) None None None [(IIri "http://x/q", [str_obj "v"])] None))].
Lemma c81_kept : Forall (fun x => kept sample_iops sample_rel JsonLd11 c81_context x /\ full_node x) c81_doc.
Proof.
  constructor; [|constructor]. split; [|eexists; split; reflexivity]. constructor. constructor.
  - intros x [= <-]. split; [reflexivity|]. split; [split|].
    + intros p d t x A P. apply c81_terms in A. destruct A as [-> ->]. discriminate P.
    + intros d k A. apply c81_terms in A. destruct A as [A _]. discriminate A.
    + intros b [= <-] _. cbv zeta. split; [reflexivity|]. split; [|repeat split; vm_compute; reflexivity].
      intros d k A. apply c81_terms in A. destruct A as [A _]. vm_compute in A. discriminate A.
    + intros (k & d & A & V). apply c81_terms in A. destruct A as [-> ->]. discriminate V.
  - discriminate.
  - constructor.
  - constructor.
  - reflexivity.
  - constructor.
  - constructor; [|constructor]. split; [split; [|reflexivity]|split].
    + split; [reflexivity|]. split; [intros k d A _; apply c81_terms in A; destruct A as [-> ->]; reflexivity|intros d A; discriminate A|intros m x V; discriminate V|].
      intros p d t x A P. apply c81_terms in A. destruct A as [-> ->]. discriminate P.
    + split; intros k d A V C; apply c81_terms in A; destruct A as [-> ->]; discriminate C.
    + constructor; [|constructor]. constructor. split; discriminate.
  - discriminate.
  - constructor.
  - intros _ E. discriminate E.
Qed.
Example C81_example :
  let d j := MkRdoc (Some "http://d/") None j in
  let j := JObj [("http://x/q", JArr [JStr "v"]); ("@id", JStr "s")] in
  let jv := JObj [("@context", c81_json); ("@id", JStr "s"); ("q", JStr "v")] in
  api_compact_ex no_docs jopts_default (local c81_json) (d j) = Ok jv /\
  exists doc', api_ex no_docs jopts_default (d jv) = Ok doc' /\ Forall2 same_i c81_doc doc'.
Proof.
  cbv zeta. split; [vm_compute; reflexivity|].
  refine (C81_round_trip sample_iops sample_hash sample_hash sample_rel no_docs 20 40 jopts_default (local c81_json) (Some "http://d/") None (JObj [("http://x/q", JArr [JStr "v"]); ("@id", JStr "s")]) c81_local c81_context None c81_doc _
    sample_id_laws eq_refl _ _ c81_simple _ _ c81_kept _ _ _ eq_refl).
  - vm_compute; reflexivity.
  - vm_compute; reflexivity.
  - split; [reflexivity|]. exists c81_local. split; vm_compute; reflexivity.
  - vm_compute; reflexivity.
  - discriminate.
  - vm_compute; reflexivity.
  - vm_compute; lia.
Qed.

(** The policies of expansion: C93. *)
From Verif Require Import Prelude Json Str Keyword Enums LangTag LangString Container Stack ContextSyntax Ctx Process
  Object ObjectEq ObjectJson CompactIri ProcessRel Expand ExpandOk Samples PropObject PropCompactIri PropExpand Policy PolicyNames.

(** ** C93 *)

(** A policy that rejects only ever refuses: what expands under stricter policies expands to the same objects under
    looser ones. *)
Theorem C93_stricter : forall io ld fin rnd pf o o' base n c doc l, stricter o o' ->
  expand io ld fin rnd pf o base n c doc = Ok l -> expand io ld fin rnd pf o' base n c doc = Ok l.
Proof. intros io ld fin rnd pf o o' base n c doc l S. exact (expand_refines _ _ _ _ _ _ _ _ S n c doc l). Qed.
Print Assumptions C93_stricter.

(** Unless invalid identifiers are kept, no property, reverse property or type is one, at any depth, if
    no context that is reached has index properties or type maps. *)
Theorem C93_valid : forall io ld fin rnd pf o base n c doc l, xo_invalid o <> AKeep ->
  (forall c' t d, reached io ld pf base doc c c' -> get_normal c' t = Some d -> nd_index d = None /\ c_contains (nd_container d) CKType = false) ->
  expand io ld fin rnd pf o base n c doc = Ok l -> Forall (fun x => named valid (snd x)) l.
Proof. intros io ld fin rnd pf o base n c doc l P C. exact (expand_names _ _ _ _ _ _ _ _ _ P C n l). Qed.
Print Assumptions C93_valid.

(** If undefined terms are not allowed, each key of a node object that is expanded to an identifier is expanded
    to one with a colon; here for an object without context, types, set or value. *)
Lemma fold_each {A B X} (f : A -> B -> result A X) l : forall a a', fold_r f a l = Ok a' -> forall x, In x l -> exists b b', f b x = Ok b'.
Proof.
  induction l as [|y l IH]; cbn; intros a a' H x I; [contradiction|]. destruct (f a y) as [b|] eqn:E; [|discriminate]. cbn in H.
  destruct I as [->|I]; [eauto|exact (IH _ _ H x I)].
Qed.
Lemma flat_each {A B X} (f : A -> result (list B) X) l : forall r, flat_r f l = Ok r -> forall x, In x l -> exists ys, f x = Ok ys /\ incl ys r.
Proof.
  induction l as [|y l IH]; cbn; intros r H x I; [contradiction|]. apply bind_ok in H. destruct H as (ys & E & H). apply bind_ok in H. destruct H as (zs & E' & H). injection H as <-.
  destruct I as [->|I]; [exists ys; split; [exact E|apply incl_appl, incl_refl]|]. destruct (IH _ E' x I) as (us & Xu & Y). exists us. split; [exact Xu|apply incl_appr, Y].
Qed.
Lemma no_last k es : Forall (fun e : xentry => snd (fst e) <> TmKw k) es -> last_entry k es = None.
Proof.
  unfold last_entry. induction 1 as [|e es N F IH]; cbn; [reflexivity|]. destruct (snd (fst e)) as [| |k']; try exact IH.
  destruct (keyword_eqb k' k) eqn:Q; [|exact IH]. destruct N. f_equal. destruct k', k; try discriminate Q; reflexivity.
Qed.
Lemma no_context (m : jobject) : (forall e, In e m -> fst e <> "@context") -> get_unique "@context" m = Ok None.
Proof.
  unfold get_unique. intros H. replace (get_all "@context" m) with (@nil json); [reflexivity|]. unfold get_all.
  induction m as [|[k v] m IH]; cbn in *; [reflexivity|]. unfold streq at 1. destruct (String.eqb_spec k "@context") as [E|_]; [destruct (H (k, v)); [auto|exact E]|]. apply IH. intros e I. apply H. auto.
Qed.
Lemma node_keys : forall io ld fin rnd pf o base n c m l, ac_prev c = None ->
  (forall e, In e m -> fst e <> "@context" /\ forall k, xiri io c (fst e) false (Some (xo_vocab o)) = Ok (Some (TmKw k)) -> ~ In k [KType; KSet; KValue]) ->
  expand io ld fin rnd pf o base n c (JObj m) = Ok l ->
  forall e p, In e m -> xiri io c (fst e) false (Some (xo_vocab o)) = Ok (Some (TmId p)) ->
  exists rec n0 n1, property_entry io ld fin rnd pf o rec c (fst e) p (snd e) n0 = Ok n1.
Proof.
  intros io ld fin rnd pf o base n c m l Pv K H e p I X. unfold expand in H. apply bind_ok in H. destruct H as (x & H & _).
  destruct n as [|n]; [discriminate|]. cbn [expand_element element_body] in H. unfold expand_map in H. apply bind_ok in H. destruct H as (tsc & E1 & H).
  assert (T : tsc = c).
  { unfold element_context in E1. apply bind_ok in E1. destruct E1 as ([hv hi] & _ & E1). rewrite Pv in E1. cbn [bind prop_def] in E1.
    rewrite (no_context m (fun e I => proj1 (K e I))) in E1. cbn in E1. injection E1 as <-. reflexivity. }
  subst tsc. apply bind_ok in H. destruct H as (ts & E2 & H).
  assert (T : ts = []).
  { unfold type_entries in E2. apply bind_ok in E2. destruct E2 as (r & E2 & E3). replace r with (@nil (string * json)) in E3; [injection E3 as <-; reflexivity|].
    symmetry. clear - K E2. assert (F : forall e, In e r -> False).
    { intros e I. pose proof (flat_forall _ (fun _ => False) _ _ E2) as F. rewrite Forall_forall in F. refine (F _ e I). clear - K. intros e ys I E. apply bind_ok in E. destruct E as (t & E & Y). injection Y as <-.
      unfold xkey, map_err in E. destruct (xiri io c (fst e) false (Some (xo_vocab o))) as [t'|] eqn:Q; [|discriminate]. injection E as ->.
      destruct t as [[| |k]|]; try constructor. destruct k; try constructor; try constructor. exact (proj2 (K e I) KType Q (or_introl eq_refl)). }
    destruct r as [|e r]; [reflexivity|]. destruct (F e (or_introl eq_refl)). }
  subst ts. cbn [type_scoped fold_r bind] in H. apply bind_ok in H. destruct H as (it & _ & H). apply bind_ok in H. destruct H as (es & E3 & H).
  assert (N : forall k, In k [KType; KSet; KValue] -> Forall (fun e : xentry => snd (fst e) <> TmKw k) es).
  { intros k Ik. refine (flat_forall _ _ _ _ E3 _). intros e0 ys I0 E. apply bind_ok in E. destruct E as (t & E & Y). injection Y as <-. destruct t as [t|]; [|constructor].
    constructor; [|constructor]. cbn. intros ->. unfold xkey, map_err in E. destruct (xiri io c (fst e0) false (Some (xo_vocab o))) as [t'|] eqn:Q; [|discriminate]. injection E as ->.
    exact (proj2 (K e0 I0) k Q Ik). }
  cbn [is_some andb] in H. rewrite (no_last KSet es) in H by (apply N; cbn; auto). rewrite (no_last KValue es) in H by (apply N; cbn; auto).
  apply bind_ok in H. destruct H as (r & E4 & _). unfold expand_node in E4. apply bind_ok in E4. destruct E4 as ([r0 hv] & E4 & _).
  destruct (flat_each _ _ _ E3 e I) as (ys & E5 & J). unfold xkey, map_err in E5. rewrite X in E5. cbn in E5. injection E5 as <-.
  destruct n as [|n]; [discriminate|]. cbn [node_entries] in E4. destruct (fold_each _ _ _ _ E4 _ (J _ (or_introl eq_refl))) as (b & b' & E6). cbn [node_entry] in E6.
  apply bind_ok in E6. destruct E6 as (q & E6 & _). eauto.
Qed.
Theorem C93_undefined : forall io ld fin rnd pf o base n c m l, xo_allow_undefined o = false -> ac_prev c = None ->
  (forall e, In e m -> fst e <> "@context" /\ forall k, xiri io c (fst e) false (Some (xo_vocab o)) = Ok (Some (TmKw k)) -> ~ In k [KType; KSet; KValue]) ->
  expand io ld fin rnd pf o base n c (JObj m) = Ok l ->
  forall e p, In e m -> xiri io c (fst e) false (Some (xo_vocab o)) = Ok (Some (TmId p)) -> contains_char ":" (id_str p) = true.
Proof.
  intros io ld fin rnd pf o base n c m l U Pv K H e p I X. destruct (node_keys _ _ _ _ _ _ _ _ _ _ _ Pv K H e p I X) as (rec & n0 & n1 & E).
  unfold property_entry, id_has_colon in E. destruct (contains_char ":" (id_str p)); [reflexivity|]. apply bind_ok in E. destruct E as (b0 & _ & E). rewrite U in E. discriminate E.
Qed.
Print Assumptions C93_undefined.
(** If invalid identifiers are rejected, none is the expansion of a key, whether or not it would be dropped. *)
Theorem C93_rejected : forall io ld fin rnd pf o base n c m l, xo_invalid o = AReject -> ac_prev c = None ->
  (forall e, In e m -> fst e <> "@context" /\ forall k, xiri io c (fst e) false (Some (xo_vocab o)) = Ok (Some (TmKw k)) -> ~ In k [KType; KSet; KValue]) ->
  expand io ld fin rnd pf o base n c (JObj m) = Ok l ->
  forall e p, In e m -> xiri io c (fst e) false (Some (xo_vocab o)) = Ok (Some (TmId p)) -> forall s, p <> IInvalid s.
Proof.
  intros io ld fin rnd pf o base n c m l U Pv K H e p I X s ->. destruct (node_keys _ _ _ _ _ _ _ _ _ _ _ Pv K H e _ I X) as (rec & n0 & n1 & E).
  unfold property_entry in E. destruct (id_has_colon (IInvalid s)); unfold invalid_policy in E; rewrite U in E; discriminate E.
Qed.
Print Assumptions C93_rejected.

(** If the use of the vocabulary is rejected, each key of an object is a keyword, looks like one, is defined or has
    a colon: in the context around the object, even if the object has one of its own. *)
Theorem C93_vocab : forall io ld fin rnd pf o base n c m l v, xo_vocab o = AReject -> ac_vocab c = Some (TmId v) ->
  expand io ld fin rnd pf o base n c (JObj m) = Ok l ->
  forall e, In e m -> (exists k, fst e = kw_str k) \/ is_keyword_like (fst e) = true \/ get_value c (fst e) <> None \/ contains_char ":" (fst e) = true.
Proof.
  intros io ld fin rnd pf o base n c m l v U V H e I. unfold expand in H. apply bind_ok in H. destruct H as (x & H & _).
  destruct n as [|n]; [discriminate|]. cbn [expand_element element_body] in H. unfold expand_map in H. apply bind_ok in H. destruct H as (tsc & E1 & _).
  unfold element_context in E1. apply bind_ok in E1. destruct E1 as ([hv hi] & E1 & _). unfold preliminary in E1.
  destruct (fold_each _ _ _ _ E1 e I) as (b & b' & E). apply bind_ok in E. destruct E as (t & E & _). unfold xkey, map_err, xiri in E. rewrite U in E.
  unfold xp_of_str in E. destruct (kw_of_str (fst e)) as [k|] eqn:K; [left; exists k; apply kw_of_str_sound, K|]. right.
  destruct (is_keyword_like (fst e)) eqn:Q; [auto|]. right. cbn in E. rewrite Q in E. unfold expand_defined in E.
  destruct (get_value c (fst e)) as [w|] eqn:G; [left; discriminate|]. right. destruct (contains_char ":" (fst e)) eqn:C; [reflexivity|].
  assert (D : colon_inside (fst e) = false).
  { destruct (colon_inside (fst e)) eqn:D; [|reflexivity]. unfold colon_inside in D. unfold contains_char in C. destruct (find_char ":" (fst e)); discriminate. }
  rewrite D in E. unfold expand_tail in E. rewrite V in E. discriminate E.
Qed.
Print Assumptions C93_vocab.

Definition policy_expand (i v : action) (u : bool) (c : actx) (doc : json) : result (list iobj) xerr :=
  expand sample_iops no_loader sample_hash sample_hash 20 (MkXOpts JsonLd11 i v u false) None 20 c doc.

(** Type maps are not checked: the type is invalid even where invalid identifiers are to be rejected, although it
    is rejected as an entry of the node. *)
Definition c93_node (p : list (id * list iobj)) : list iobj := [(None, ONode (MkNode None None None None p None))].
Theorem C93_type_map_refuted :
  let ctx := JObj [("m", JObj [("@id", JStr "http://a/m"); ("@container", JStr "@type")])] in
  policy_expand AReject AKeep true (ctx_new None) (JObj [("@context", ctx); ("m", JObj [("a type", JObj [("@id", JStr "http://a/x")])])])
  = Ok (c93_node [(IIri "http://a/m", [(None, ONode (MkNode (Some (IIri "http://a/x")) (Some [IInvalid "a type"]) None None [] None))])]) /\
  policy_expand AReject AKeep true (ctx_new None) (JObj [("@context", ctx); ("http://a/m", JObj [("@type", JStr "a type"); ("@id", JStr "http://a/x")])])
  = Err XInvalidTypeValue.
Proof. split; vm_compute; reflexivity. Qed.
Print Assumptions C93_type_map_refuted.
(** Nor are index properties. *)
Theorem C93_index_refuted : policy_expand AReject AKeep true (ctx_new None) (c39_doc (JObj [("@vocab", JNull)])) = Ok (c39_result (IInvalid "type")).
Proof. vm_compute. reflexivity. Qed.
Print Assumptions C93_index_refuted.

(** Keys are checked in the context around the object: a term that the object defines itself is rejected where the
    vocabulary is not to be used, although nothing needs the vocabulary. *)
Definition c93_local : json :=
  JObj [("@context", JObj [("@vocab", JStr "http://v/"); ("p", JStr "http://a/p")]);
        ("p", JObj [("@context", JObj [("t", JStr "http://a/t")]); ("t", JStr "x")])].
Theorem C93_vocab_refuted :
  policy_expand AKeep ADrop true (ctx_new None) c93_local = policy_expand AKeep AKeep true (ctx_new None) c93_local /\
  policy_expand AKeep AKeep true (ctx_new None) c93_local =
    Ok (c93_node [(IIri "http://a/p", [(None, ONode (MkNode None None None None [(IIri "http://a/t", [(None, OVal (VLit (LStr "x") None))])] None))])]) /\
  policy_expand AKeep AReject true (ctx_new None) c93_local = Err XForbiddenVocab.
Proof. repeat split; vm_compute; reflexivity. Qed.
Print Assumptions C93_vocab_refuted.

(** A document with a term that is not defined, one that needs the vocabulary and an invalid property: what the
    policies make of it. *)
Definition c93_ctx : json := JObj [("name", JStr "http://a/name")].
Definition c93_doc (more : list (string * json)) : json := JObj (("@context", c93_ctx) :: ("name", JStr "n") :: more).
Definition c93_name : id * list iobj := (IIri "http://a/name", [(None, OVal (VLit (LStr "n") None))]).
Definition c93_bad : id * list iobj := (IInvalid "a: b", [(None, OVal (VLit (LStr "x") None))]).
Example C93_example :
  (* undefined terms *)
  policy_expand AKeep AKeep true (ctx_new None) (c93_doc [("other", JStr "x")]) = Ok (c93_node [c93_name]) /\
  policy_expand AKeep AKeep false (ctx_new None) (c93_doc [("other", JStr "x")]) = Err (XKeyExpansionFailed "other") /\
  policy_expand AKeep AKeep false (ctx_new None) (c93_doc []) = Ok (c93_node [c93_name]) /\
  (* invalid properties *)
  policy_expand AKeep AKeep true (ctx_new None) (c93_doc [("a: b", JStr "x")]) = Ok (c93_node [c93_name; c93_bad]) /\
  policy_expand ADrop AKeep true (ctx_new None) (c93_doc [("a: b", JStr "x")]) = Ok (c93_node [c93_name]) /\
  policy_expand AReject AKeep true (ctx_new None) (c93_doc [("a: b", JStr "x")]) = Err (XKeyExpansionFailed "a: b") /\
  stricter (MkXOpts JsonLd11 AReject AKeep false false) xopts_default /\
  ~ named valid (snd (None : option string, ONode (MkNode None None None None [c93_name; c93_bad] None))) /\
  named valid (snd (None : option string, ONode (MkNode None None None None [c93_name] None))).
Proof.
  repeat split; try (vm_compute; reflexivity).
  - left. reflexivity.
  - right. reflexivity.
  - intros H. inversion H as [|? N|]; subst. inversion N; subst.
    match goal with P : Forall _ [c93_name; c93_bad] |- _ => inversion P as [|? ? _ P']; subst; inversion P' as [|? ? [V _] _]; subst; exact (V _ eq_refl) end.
  - constructor. constructor; try constructor; [split|constructor]; [intros s; discriminate|]. repeat constructor.
Qed.

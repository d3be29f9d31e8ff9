(** Contexts of absolute and compact IRIs are accepted: C108. *)
From Verif Require Import Prelude Str Keyword Enums LangTag Container Stack ContextSyntax Ctx Process Cycles CompactIriRead Samples Flat.

(** ** C108 *)

(** What the active context must be like: none of the terms to define is protected, and no value is itself a term. *)
Definition ready (a : actx) (l : list (string * nullable tdef)) : Prop :=
  (forall k v d, assoc k l = Some v -> get_normal a k = Some d -> nd_protected d = false) /\
  (forall k v s, assoc k l = Some v -> text v = Some s -> get_normal a s = None).

(** A definition whose terms have neither colon nor slash and are mapped to absolute IRIs, or to compact IRIs over such terms of
    the definition, possibly with a type [@id] or [@vocab], a language, a direction and a container, is accepted, in every mode
    and with every policy. Each term gets the IRI it stands for and what else its entry says ([described]), and nothing else
    changes. *)
Theorem C108_accepted : forall io ld n a l b o, flat io l -> ready a l ->
  exists c, process_full io ld (4 + n) a (LOne (CEDef (def_of l))) b o = Ok c /\
    (forall k v s i d, assoc k l = Some v -> text v = Some s -> means io l s i -> described v i d -> get_normal c k = Some d) /\
    (forall k, assoc k l = None -> get_normal c k = get_normal a k) /\
    ac_orig c = ac_orig a /\ ac_base c = ac_base a /\ ac_vocab c = ac_vocab a /\ ac_lang c = ac_lang a /\ ac_dir c = ac_dir a /\ ac_type c = ac_type a /\
    (po_propagate o = true -> ac_prev c = ac_prev a) /\ (po_propagate o = false -> ac_prev c = match ac_prev a with Some p => Some p | None => Some a end).
Proof.
  intros io ld n a l b o F [NP NV]. destruct (process_flat io ld a l F NP NV n b o) as (c & E & T & O & R). exists c. split; [exact E|]. split; [exact T|]. split; [exact O|].
  unfold rest_of in R. destruct (po_propagate o), (ac_prev a) eqn:PA; cbn [negb andb] in R; injection R as -> -> -> -> -> -> ->; repeat split; try discriminate; try (intros _; congruence).
Qed.
Print Assumptions C108_accepted.

(** Processing the same context again, or another one with the same entries, gives the same definitions. *)
Theorem C108_again : forall io ld n a l l' b o, flat io l -> ready a l -> (forall k, assoc k l' = assoc k l) ->
  exists c c', process_full io ld (4 + n) a (LOne (CEDef (def_of l))) b o = Ok c /\ process_full io ld (4 + n) c (LOne (CEDef (def_of l'))) b o = Ok c' /\
    forall k, get_normal c' k = get_normal c k.
Proof.
  intros io ld n a l l' b o F R SA. destruct (C108_accepted io ld n a l b o F R) as (c & E & T & O & _).
  assert (ME : forall s i, means io l s i <-> means io l' s i).
  { intros s i. split; intros [s' A|p x s' N U C S K B P A D I]; try (apply means_iri, A); eapply means_prefixed; eauto; [rewrite SA|rewrite <- SA]; exact P. }
  assert (F' : flat io l').
  { intros k v A. rewrite SA in A. destruct (F k v A) as (N & C & S & s & i & d & V & M & D). repeat split; auto. exists s, i, d. split; [exact V|]. split; [apply ME, M|exact D]. }
  assert (R' : ready c l').
  { split.
    - intros k v d A G. rewrite SA in A. destruct (F k v A) as (_ & _ & _ & s & i & d' & TX & M & D). rewrite (T k v s i d' A TX M D) in G. injection G as <-.
      destruct D; reflexivity.
    - intros k v s A TX. rewrite SA in A. rewrite O; [exact (proj2 R k v s A TX)|]. destruct (assoc s l) as [w|] eqn:W; [|reflexivity]. exfalso.
      destruct (F s w W) as (_ & C & _). destruct (F k _ A) as (_ & _ & _ & s' & i & d & V & M & _). rewrite TX in V. injection V as <-.
      destruct (means_colon _ _ _ _ M) as (p & x & -> & _). rewrite contains_colon in C. discriminate C. }
  destruct (C108_accepted io ld n c l' b o F' R') as (c' & E' & T' & O' & _). exists c, c'. split; [exact E|]. split; [exact E'|].
  intros k. destruct (assoc k l) as [v|] eqn:A.
  - destruct (F k v A) as (_ & _ & _ & s & i & d & TX & M & D). rewrite (T k v s i d A TX M D). apply T' with v s i; [rewrite SA; exact A|exact TX|apply ME, M|exact D].
  - apply O'. rewrite SA. exact A.
Qed.
Print Assumptions C108_again.

(** In the context obtained, each term expands to the IRI it stands for, and a compact IRI over it to this IRI followed by the
    suffix. *)
Theorem C108_expansion : forall io ld n a l b o c, flat io l -> ready a l -> process_full io ld (4 + n) a (LOne (CEDef (def_of l))) b o = Ok c ->
  forall k v s i dr, assoc k l = Some v -> text v = Some s -> means io l s i -> is_keyword_like k = false ->
  (forall act, expand_iri_simple io c (NSome (XStr k)) dr (Some act) = Ok (Some (TmId (IIri i)))) /\
  (forall x vo, v = NSome (TSimple s) -> delimited i = true -> k <> "_" -> starts_with "//" x = false -> iri_ref_ok io (k +++ ":" +++ x) = true -> blank_ok io (k +++ ":" +++ x) = false ->
     iri_ok io (i +++ x) = true -> get_normal a (k +++ ":" +++ x) = None ->
     expand_iri_simple io c (NSome (XStr (k +++ ":" +++ x))) dr vo = Ok (Some (TmId (IIri (i +++ x))))).
Proof.
  intros io ld n a l b o c F R E k v s i dr A TX M KW. destruct (C108_accepted io ld n a l b o F R) as (c' & E' & T & O & _). rewrite E in E'. injection E' as <-.
  destruct (F k _ A) as (KE & KC & _ & s' & i' & d & TX' & M' & D'). rewrite TX in TX'. injection TX' as <-. rewrite (means_fun _ _ _ _ _ M' M) in D'.
  pose proof (T k v s i d A TX M D') as G. split.
  - intros act. unfold expand_iri_simple. rewrite KW. unfold expand_defined, get_value. destruct (streq_spec k "@type") as [->|_]; [discriminate KW|]. rewrite G. destruct D'; reflexivity.
  - intros x vo SV D U S RO B IO NG. unfold expand_iri_simple. rewrite colon_not_keyword.
    assert (NL : assoc (k +++ ":" +++ x) l = None).
    { destruct (assoc (k +++ ":" +++ x) l) as [w|] eqn:W; [|reflexivity]. destruct (F _ _ W) as (_ & C & _). rewrite contains_colon in C. discriminate C. }
    assert (X : expand_defined c (k +++ ":" +++ x) vo = None).
    { unfold expand_defined, get_value. destruct (streq_spec (k +++ ":" +++ x) "@type") as [Y|_]; [exfalso; pose proof (contains_colon k x) as C; rewrite Y in C; discriminate C|].
      rewrite (O _ NL), NG. reflexivity. }
    rewrite X, (colon_find k x KC KE), B. destruct (streq_spec (k +++ ":" +++ x) "_:") as [EQ|_].
    { exfalso. assert (Y : split_once ":" "_:" = Some (k, x)) by (rewrite <- EQ; apply colon_split, KC). cbn in Y. injection Y as <- <-. apply U. reflexivity. }
    unfold compact_iri_of. rewrite (colon_split k x KC), S, RO. destruct (streq_spec k "_") as [Y|_]; [contradiction|]. cbn [negb andb].
    unfold expand_prefixed. rewrite G. clear G. subst v. inversion D'. unfold ndef_of. cbn [nd_prefix nd_value nd_set_protected nd_set_prefix nd_set_value ndef_default iri_term]. rewrite D.
    unfold id_of_string. cbn [term_str id_str]. rewrite IO. reflexivity.
Qed.
Print Assumptions C108_expansion.

(** A prefix, and terms that use it before its definition, one of them with a type, a language that does not count, and a
    container. *)
Definition c108_knows : nullable tdef :=
  NSome (TExpanded (MkTExp (Some (NSome (TIdTerm "ex:knows"))) (Some (NSome (TTyKeyword TKId))) None None None (Some (NSome "en")) None (Some (NSome (SOne CKSet))) None None None None)).
Definition c108_terms : list (string * nullable tdef) := [("name", NSome (TSimple "ex:name")); ("knows", c108_knows); ("ex", NSome (TSimple "http://ex/"))].
Definition c108_knows_def : ndef := MkNDef (iri_term "http://ex/knows") false false false None None CSet None None None None (Some TyId).
Example C108_example :
  flat sample_iops c108_terms /\ ready (ctx_of [("name", ndef_of "http://old/" false false)]) c108_terms /\
  process_full sample_iops no_loader 4 (ctx_of [("name", ndef_of "http://old/" false false)]) (lc_of c108_terms) None popts_default
  = Ok (ctx_of [("knows", c108_knows_def); ("name", ndef_of "http://ex/name" false false); ("ex", ndef_of "http://ex/" true false)]).
Proof.
  assert (A : absolute sample_iops "http://ex/") by (apply (absolute_i sample_iops "http" "//ex/"); [discriminate|reflexivity..]).
  assert (G : forall k v, assoc k c108_terms = Some v -> k = "name" /\ v = NSome (TSimple "ex:name") \/ k = "knows" /\ v = c108_knows \/ k = "ex" /\ v = NSome (TSimple "http://ex/")).
  { intros k v H. cbn in H. destruct (streq_spec k "name") as [->|_]; [injection H as <-; auto|]. destruct (streq_spec k "knows") as [->|_]; [injection H as <-; auto|].
    destruct (streq_spec k "ex") as [->|_]; [injection H as <-; auto|discriminate H]. }
  assert (MP : forall x, x = "name" \/ x = "knows" -> means sample_iops c108_terms ("ex" +++ ":" +++ x) ("http://ex/" +++ x)).
  { intros x X. apply (means_prefixed sample_iops c108_terms "ex" x "http://ex/"); try reflexivity; try discriminate; try exact A; destruct X as [-> | ->]; reflexivity. }
  split; [|split; [split|vm_compute; reflexivity]].
  - intros k v H. destruct (G k v H) as [[-> ->]|[[-> ->]|[-> ->]]]; (split; [discriminate|]); (split; [reflexivity|]); (split; [reflexivity|]); eexists; eexists; eexists; (split; [reflexivity|]).
    + split; [apply (MP "name"); auto|constructor].
    + split; [apply (MP "knows"); auto|]. constructor; [right; left; auto|right; right; left; auto].
    + split; [apply means_iri, A|constructor].
  - intros k v d H D. cbn in D. destruct (G k v H) as [[-> _]|[[-> _]|[-> _]]]; cbn in D; [injection D as <-; reflexivity|discriminate D..].
  - intros k v s H TX. destruct (G k _ H) as [[_ ->]|[[_ ->]|[_ ->]]]; injection TX as <-; reflexivity.
Qed.

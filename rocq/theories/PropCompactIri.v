(** Properties of IRI compaction: C18, C19, C57, C58, C60. *)
From Coq Require Import Permutation.
From Verif Require Import Prelude Json Str Keyword Enums LangTag LangString Container Stack ContextSyntax Ctx Inverse Object Process
  ProcessRel Cycles IriSpec CompactIri CompactIriProofs CompactIriRead CompactIriTerm Samples.

(** A way to make an IRI relative: remove the base. *)
Definition sample_rel (s b : string) : string :=
  match strip_prefix b s with Some x => if contains_char ":" x then s else x | None => s end.
(** The context that processing a definition gives. *)
Definition defined_by (vocab : option (nullable string)) (base : option string) (l : list (string * nullable tdef)) (c : actx) : Prop :=
  process_full sample_iops no_loader 9 (ctx_new base)
    (LOne (CEDef (MkDef None None None None None None None None vocab l))) None popts_default = Ok c.
Lemma sample_laws : iri_laws sample_iops.
Proof.
  assert (L : forall a p, is_lower a = false -> all_chars is_lower p = true -> contains_char a p = false).
  { intros a p H. induction p as [|b p IH]; [reflexivity|]. cbn [all_chars]. intros F. apply andb_true_iff in F. destruct F as [F1 F2].
    unfold contains_char. cbn [find_char]. destruct (Ascii.eqb_spec b a) as [->|_]; [congruence|].
    specialize (IH F2). unfold contains_char in IH. destruct (find_char a p); [discriminate|reflexivity]. }
  split; intros s H; cbn in H; unfold sample_iri in H; destruct (split_once ":" s) as [[p x]|] eqn:E; try discriminate H; apply split_once_sound in E; destruct E as [-> E].
  - apply andb_true_iff in H. destruct H as [H _]. apply andb_true_iff in H. destruct H as [H1 H2]. exists p, x. split; [reflexivity|].
    split; [intros ->; discriminate H1|]. split; [exact E|]. split; apply L; auto.
  - apply andb_true_iff in H. destruct H as [H _]. apply andb_true_iff in H. destruct H as [_ H]. cbn [blank_ok sample_iops].
    destruct (strip_prefix "_:" (p +++ String ":" x)) as [y|] eqn:Y; [|reflexivity]. apply strip_prefix_spec in Y. destruct p as [|a p]; [discriminate|].
    cbn in Y. injection Y as -> Y. discriminate H.
Qed.

(** ** C18 *)

(** The compacted IRI expands back, whatever the value and the processing mode, if the IRI is not
    disturbed by the context.  Each of the conditions is needed, see the theorems below. *)
Theorem C18_partial : forall io rel c m s value rev k docrel, iri_laws io -> NoDup (map fst (ac_defs c)) ->
  iri_ok io s = true -> undisturbed io c s ->
  compact_iri_full rel c m (TmId (IIri s)) value true rev = Ok (Some k) ->
  expand_iri_simple io c (NSome (xp_of_str k)) docrel (Some AKeep) = Ok (Some (TmId (IIri s))).
Proof. intros io rel c m s value rev k docrel LW HN HI U H. eapply read_vocab; eassumption. Qed.
Print Assumptions C18_partial.

Definition vocab_v : option (nullable string) := Some (NSome "http://v/").
(** What follows the vocabulary mapping is returned although it reads as an IRI, *)
Theorem C18_refuted : exists c, defined_by vocab_v None [] c /\
  compact_iri sample_rel c JsonLd11 (TmId (IIri "http://v/a:b")) true false = Ok (Some "a:b") /\
  expand_iri_simple sample_iops c (NSome (xp_of_str "a:b")) false (Some AKeep) = Ok (Some (TmId (IIri "a:b"))).
Proof. eexists. split; [vm_compute; reflexivity|]. split; vm_compute; reflexivity. Qed.
Print Assumptions C18_refuted.
(** or as a keyword. *)
Theorem C18_keyword_refuted : exists c, defined_by vocab_v None [] c /\
  compact_iri sample_rel c JsonLd11 (TmId (IIri "http://v/@type")) true false = Ok (Some "@type") /\
  expand_iri_simple sample_iops c (NSome (xp_of_str "@type")) false (Some AKeep) = Ok (Some (TmKw KType)).
Proof. eexists. split; [vm_compute; reflexivity|]. split; vm_compute; reflexivity. Qed.
Print Assumptions C18_keyword_refuted.
(** A compact IRI is returned although it reads as an absolute IRI. *)
Theorem C18_slashes_refuted : exists c, defined_by None None [("p", NSome (TSimple "x:"))] c /\
  compact_iri sample_rel c JsonLd11 (TmId (IIri "x://y/")) true false = Ok (Some "p://y/") /\
  expand_iri_simple sample_iops c (NSome (xp_of_str "p://y/")) false (Some AKeep) = Ok (Some (TmId (IIri "p://y/"))).
Proof. eexists. split; [vm_compute; reflexivity|]. split; vm_compute; reflexivity. Qed.
Print Assumptions C18_slashes_refuted.
(** The IRI is returned as it is although it is a term with no mapping. *)
Theorem C18_null_refuted : exists c, defined_by None None [("http://a/b", NNull)] c /\
  compact_iri sample_rel c JsonLd11 (TmId (IIri "http://a/b")) true false = Ok (Some "http://a/b") /\
  expand_iri_simple sample_iops c (NSome (xp_of_str "http://a/b")) false (Some AKeep) = Ok (Some TmNull).
Proof. eexists. split; [vm_compute; reflexivity|]. split; vm_compute; reflexivity. Qed.
Print Assumptions C18_null_refuted.

(** A term, a suffix of the vocabulary mapping, a compact IRI, and the IRI itself. *)
Example C18_example : exists c, defined_by vocab_v None [("name", NSome (TSimple "http://s/name")); ("p", NSome (TSimple "http://p/"))] c /\
  compact_iri sample_rel c JsonLd11 (TmId (IIri "http://s/name")) true false = Ok (Some "name") /\
  compact_iri sample_rel c JsonLd11 (TmId (IIri "http://v/x")) true false = Ok (Some "x") /\
  compact_iri sample_rel c JsonLd11 (TmId (IIri "http://p/x")) true false = Ok (Some "p:x") /\
  compact_iri sample_rel c JsonLd11 (TmId (IIri "http://q/x")) true false = Ok (Some "http://q/x") /\
  undisturbed sample_iops c "http://p/x".
Proof.
  eexists. split; [vm_compute; reflexivity|]. repeat (split; [vm_compute; reflexivity|]). split.
  - intros k d A V. cbn in A. destruct (streq_spec k "p") as [->|_]; [reflexivity|]. destruct (streq_spec k "name") as [->|_]; [reflexivity|discriminate].
  - intros d A. discriminate A.
  - intros m x V E. cbn in V. injection V as <-. cbn in E. discriminate E.
  - intros p d t x A _ V E. cbn in A. destruct (streq_spec p "p") as [->|_].
    + injection A as <-. injection V as <-. cbn in E. injection E as <-. intros _ _. unfold reads_as_prefix.
      split; [discriminate|]. split; [discriminate|]. split; [reflexivity|]. split; [discriminate|]. split; reflexivity.
    + destruct (streq_spec p "name") as [->|_]; [|discriminate]. injection A as <-. injection V as <-. cbn in E. discriminate E.
Qed.

(** ** C19 *)

(** The choice is the same for all the orders of the definitions exactly when one of the compact
    IRIs available is at most as long as the others and precedes them. *)
Theorem C19_exactly_partial : forall rel c m var, NoDup (map fst (ac_defs c)) -> var <> TmNull ->
  (decided c var true <->
   forall l, Permutation (ac_defs c) l -> compact_iri rel (with_defs c l) m var false false = compact_iri rel c m var false false).
Proof.
  intros rel c m var HN NN. split.
  - intros D l HP. apply (perm_compact rel c l HN HP m var None false false D). intros ix n i H. discriminate.
  - intros H. apply same_decided; [exact HN|]. intros l HP. specialize (H l HP).
    assert (E : forall c', compact_iri rel c' m var false false = compact_tail rel c' var true false) by (intros c'; destruct var; [congruence|reflexivity|reflexivity]).
    rewrite !E in H. unfold compact_tail in H.
    destruct (streq_spec (by_prefixes (with_defs c l) var true) "") as [E1|E1], (streq_spec (by_prefixes c var true) "") as [E2|E2]; cbn [negb] in H; try congruence.
    + exfalso. destruct (by_prefixes_unbeaten _ _ _ E2) as [U _]. rewrite by_prefixes_none in E1. eapply E1. apply (perm_offered c l HN HP). exact U.
    + exfalso. destruct (by_prefixes_unbeaten _ _ _ E1) as [U _]. rewrite by_prefixes_none in E2. eapply E2. apply (perm_offered c l HN HP) in U. exact U.
Qed.
Print Assumptions C19_exactly_partial.
(** It is then the shortest one, and the first one among those of this length. *)
Theorem C19_shortest_partial : forall rel c m var k0, offered c var true k0 ->
  (forall k, offered c var true k -> k = k0 \/ beats k0 k) -> var <> TmNull ->
  compact_iri rel c m var false false = Ok (Some k0) /\ forall k, offered c var true k -> before k0 k.
Proof.
  intros rel c m var k0 H0 H NN. split.
  - assert (E : compact_iri rel c m var false false = compact_tail rel c var true false) by (destruct var; [congruence|reflexivity|reflexivity]).
    rewrite E. unfold compact_tail. assert (N : by_prefixes c var true <> "") by (intros X; rewrite by_prefixes_none in X; exact (X _ H0)).
    assert (EQ : by_prefixes c var true = k0).
    { apply (decided_unique c var true (or_intror (ex_intro _ k0 (conj H0 H)))); [apply by_prefixes_unbeaten, N|].
      split; [exact H0|]. intros k' Hk B. destruct (H _ Hk) as [->|B']; [exact (beats_irrefl _ B)|exact (beats_irrefl _ (beats_trans _ _ _ B B'))]. }
    rewrite EQ in *. destruct (streq_spec k0 "") as [X|_]; [contradiction|reflexivity].
  - intros k Hk. destruct (H k Hk) as [->|B]; [right; auto|apply beats_before, B].
Qed.
Print Assumptions C19_shortest_partial.
(** In vocabulary mode and with a value, terms and the vocabulary mapping included. *)
Theorem C19_order_partial : forall rel c l m var value vocab rev, NoDup (map fst (ac_defs c)) -> Permutation (ac_defs c) l ->
  decided c var (match value with None => true | Some _ => false end) ->
  (forall ix n i, value = Some (ix, ONode n) -> n_id n = Some i -> decided c (TmId i) true) ->
  compact_iri_full rel (with_defs c l) m var value vocab rev = compact_iri_full rel c m var value vocab rev.
Proof. intros rel c l m var value vocab rev HN HP D DI. apply perm_compact; auto. destruct value; exact D. Qed.
Print Assumptions C19_order_partial.
(** Otherwise, exactly those that no other beats can be chosen. *)
Theorem C19_possible_partial : forall rel c m var k0 k, NoDup (map fst (ac_defs c)) -> var <> TmNull -> offered c var true k0 ->
  ((exists l, Permutation (ac_defs c) l /\ compact_iri rel (with_defs c l) m var false false = Ok (Some k)) <-> unbeaten c var true k).
Proof.
  intros rel c m var k0 k HN NN H0.
  assert (E : forall c', compact_iri rel c' m var false false = compact_tail rel c' var true false) by (intros c'; destruct var; [congruence|reflexivity|reflexivity]).
  split.
  - intros (l & HP & H). rewrite E in H. apply tail_cases in H. destruct H as [H|[H _]]; [apply (perm_unbeaten c l HN HP), H|].
    exfalso. apply (H k0), (perm_offered c l HN HP), H0.
  - intros U. destruct (unbeaten_chosen c var true k HN U) as (l & HP & B). exists l. split; [exact HP|]. rewrite E. unfold compact_tail. rewrite B.
    destruct (streq_spec k "") as [X|_]; [|reflexivity]. destruct U as [U _]. destruct (offered_not_empty _ _ _ _ U X).
Qed.
Print Assumptions C19_possible_partial.

(** Two prefixes for the same IRI: the shorter one is chosen in one order, the longer one in the
    other order. *)
Theorem C19_refuted : exists c l, defined_by None None [("b", NSome (TSimple "http://x/")); ("aa", NSome (TSimple "http://x/"))] c /\
  Permutation (ac_defs c) l /\
  compact_iri sample_rel (with_defs c l) JsonLd11 (TmId (IIri "http://x/y")) true false = Ok (Some "b:y") /\
  compact_iri sample_rel c JsonLd11 (TmId (IIri "http://x/y")) true false = Ok (Some "aa:y").
Proof.
  eexists. eexists. split; [vm_compute; reflexivity|]. split; [apply perm_swap|]. split; vm_compute; reflexivity.
Qed.
Print Assumptions C19_refuted.

Example C19_example :
  let c := ctx_of [("b", ndef_of "http://x/" true false); ("a", ndef_of "http://x/y/" true false); ("aaa", ndef_of "http://x/y/" true false);
                   ("c", ndef_of "http://x/y/" false false)] in
  compact_iri sample_rel c JsonLd11 (TmId (IIri "http://x/y/z")) true false = Ok (Some "a:z") /\
  offered c (TmId (IIri "http://x/y/z")) true "a:z" /\ offered c (TmId (IIri "http://x/y/z")) true "aaa:z" /\
  decided c (TmId (IIri "http://x/y/z")) true.
Proof.
  cbv zeta. split; [vm_compute; reflexivity|].
  assert (O : forall k, offered (ctx_of [("b", ndef_of "http://x/" true false); ("a", ndef_of "http://x/y/" true false); ("aaa", ndef_of "http://x/y/" true false);
                   ("c", ndef_of "http://x/y/" false false)]) (TmId (IIri "http://x/y/z")) true k <-> k = "b:y/z" \/ k = "a:z" \/ k = "aaa:z").
  { intros k. split.
    - intros (p & d & t & x & [I|[I|[I|[I|[]]]]] & P & V & E & N & -> & _); injection I as <- <-; try discriminate P; injection V as <-; cbn in E; injection E as <-; auto.
    - intros [E|[E|E]]; subst k.
      + exists "b", (ndef_of "http://x/" true false), (TmId (IIri "http://x/")), "y/z". split; [left; reflexivity|]. repeat (split; [try reflexivity; discriminate|]). left. reflexivity.
      + exists "a", (ndef_of "http://x/y/" true false), (TmId (IIri "http://x/y/")), "z". split; [right; left; reflexivity|]. repeat (split; [try reflexivity; discriminate|]). left. reflexivity.
      + exists "aaa", (ndef_of "http://x/y/" true false), (TmId (IIri "http://x/y/")), "z". split; [right; right; left; reflexivity|]. repeat (split; [try reflexivity; discriminate|]). left. reflexivity. }
  split; [apply O; auto|]. split; [apply O; auto|]. right. exists "a:z". split; [apply O; auto|].
  intros k Hk. apply O in Hk. destruct Hk as [E|[E|E]]; subst k; [right|left; reflexivity|right]; (split; [cbn; lia|reflexivity]).
Qed.

(** ** C57 *)

(** A node identifier, compacted relatively to the base of the context, expands back. *)
Theorem C57_partial : forall io rel c m s value rev k, iri_laws io -> NoDup (map fst (ac_defs c)) ->
  iri_ok io s = true -> undisturbed_id io rel c s ->
  compact_iri_full rel c m (TmId (IIri s)) value false rev = Ok (Some k) ->
  expand_iri_simple io c (NSome (xp_of_str k)) true None = Ok (Some (TmId (IIri s))).
Proof. intros io rel c m s value rev k LW HN HI U H. eapply read_docrel; eassumption. Qed.
Print Assumptions C57_partial.
(** A relative reference that is a keyword is returned, although the ones that only look like
    keywords are protected with [./]. *)
Theorem C57_refuted : exists c, defined_by None (Some "http://b/") [] c /\
  resolve sample_iops "http://b/" (sample_rel "http://b/@type" "http://b/") = "http://b/@type" /\
  compact_iri sample_rel c JsonLd11 (TmId (IIri "http://b/@type")) false false = Ok (Some "@type") /\
  expand_iri_simple sample_iops c (NSome (xp_of_str "@type")) true None = Ok (Some (TmKw KType)).
Proof. eexists. split; [vm_compute; reflexivity|]. repeat split; vm_compute; reflexivity. Qed.
Print Assumptions C57_refuted.
(** So is one that is an alias of a keyword. *)
Theorem C57_alias_refuted : exists c, defined_by None (Some "http://b/") [("type", NSome (TSimple "@type"))] c /\
  resolve sample_iops "http://b/" (sample_rel "http://b/type" "http://b/") = "http://b/type" /\
  compact_iri sample_rel c JsonLd11 (TmId (IIri "http://b/type")) false false = Ok (Some "type") /\
  expand_iri_simple sample_iops c (NSome (xp_of_str "type")) true None = Ok (Some (TmKw KType)).
Proof. eexists. split; [vm_compute; reflexivity|]. repeat split; vm_compute; reflexivity. Qed.
Print Assumptions C57_alias_refuted.
Example C57_example : exists c, defined_by vocab_v (Some "http://b/") [("p", NSome (TSimple "http://p/"))] c /\
  compact_iri sample_rel c JsonLd11 (TmId (IIri "http://b/x")) false false = Ok (Some "x") /\
  compact_iri sample_rel c JsonLd11 (TmId (IIri "http://b/@foo")) false false = Ok (Some "./@foo") /\
  compact_iri sample_rel c JsonLd11 (TmId (IIri "http://p/x")) false false = Ok (Some "p:x") /\
  compact_iri sample_rel c JsonLd11 (TmId (IIri "http://v/x")) false false = Ok (Some "http://v/x") /\
  undisturbed_id sample_iops sample_rel c "http://b/x".
Proof.
  eexists. split; [vm_compute; reflexivity|]. repeat (split; [vm_compute; reflexivity|]). split.
  - intros p d t x A _ V E. cbn in A. destruct (streq_spec p "p") as [->|_]; [|discriminate]. injection A as <-. injection V as <-. cbn in E. discriminate E.
  - intros d k A. discriminate A.
  - intros b B _. injection B as <-. split; [reflexivity|]. split; [intros d k A; discriminate A|]. split; [reflexivity|]. split; reflexivity.
Qed.

(** ** C58 *)
(** The IRI starts with a term followed by a colon. *)
Definition starts_with_term (c : actx) (t : term) : Prop := exists s, t = TmId (IIri s) /\ get_value c (scheme_of s) <> None.
Lemma tail_total rel c var nv vocab : (exists k, compact_tail rel c var nv vocab = Ok (Some k)) \/
  compact_tail rel c var nv vocab = Err IEConfused /\ starts_with_term c var.
Proof.
  unfold compact_tail. destruct (streq (by_prefixes c var nv) ""); cbn [negb]; [|left; eauto].
  destruct (term_as_iri var) as [s|] eqn:E; [|left; eauto].
  destruct (get_value c (scheme_of s)) eqn:G; cbn [is_some].
  - right. split; [reflexivity|]. exists s. split; [|congruence]. destruct var as [|[]|]; try discriminate E. injection E as ->. reflexivity.
  - left. destruct (if vocab then None else ac_base c); eauto.
Qed.
Lemma body_total rel av c m var value vocab rev : var <> TmNull ->
  (exists k, compact_body rel av c m var value vocab rev = Ok (Some k)) \/
  (compact_body rel av c m var value vocab rev = Err IEConfused /\ starts_with_term c var) \/
  exists ix n i e, value = Some (ix, ONode n) /\ n_id n = Some i /\ av i = Err e /\ compact_body rel av c m var value vocab rev = Err e.
Proof.
  intros NN. unfold compact_body.
  assert (TL : (exists k, match (if vocab then by_vocab c var else None) with Some k => Ok (Some k) | None => compact_tail rel c var (negb (is_some value)) vocab end = Ok (Some k)) \/
     match (if vocab then by_vocab c var else None) with Some k => Ok (Some k) | None => compact_tail rel c var (negb (is_some value)) vocab end = Err IEConfused /\ starts_with_term c var).
  { destruct (if vocab then by_vocab c var else None); [left; eauto|apply tail_total]. }
  assert (SE : (exists q, selection_of av c value rev = Ok q) \/ exists ix n i e, value = Some (ix, ONode n) /\ n_id n = Some i /\ av i = Err e /\ selection_of av c value rev = Err e).
  { unfold selection_of. destruct (snd (fst (prefer c value rev))) as [[t|t]|]; [|left; destruct value as [[ix [v|n|[|y ys]]]|]; eauto..].
    destruct value as [[ix [v|n|[|y ys]]]|]; try (left; destruct t as [| |[]]; cbn; eauto; fail).
    cbn [o_id]. destruct (n_id n) as [i|] eqn:Ei; [|left; destruct t as [| |[]]; cbn; eauto].
    destruct t as [| |[]]; cbn [bind]; try (left; eauto; fail);
      (destruct (av i) as [b|e] eqn:Ea; cbn [bind]; [left; eauto|right; exists ix, n, i, e; auto]). }
  destruct var as [|i|k]; [congruence| |].
  all: destruct vocab; [|cbn [bind]; destruct TL as [TL|TL]; auto].
  all: destruct (get_by term_eqb _ (inverse_of c)) as [d|]; [|cbn [bind]; destruct TL as [TL|TL]; auto].
  all: destruct SE as [(q & ->)|(ix & n & j & e & E1 & E2 & E3 & E4)]; [|rewrite E4; right; right; exists ix, n, j, e; auto].
  all: cbn [bind]; destruct (d_select d (containers c m value rev) q); [left; eauto|destruct TL as [TL|TL]; auto].
Qed.
(** Compaction gives a string, or fails because the scheme of the IRI, or that of the identifier
    of the value, is a term.  It never panics. *)
Theorem C58_partial : forall rel c m var value vocab rev, var <> TmNull ->
  (exists k, compact_iri_full rel c m var value vocab rev = Ok (Some k)) \/
  (compact_iri_full rel c m var value vocab rev = Err IEConfused /\
   (starts_with_term c var \/ exists ix n i, value = Some (ix, ONode n) /\ n_id n = Some i /\ starts_with_term c (TmId i))).
Proof.
  intros rel c m var value vocab rev NN. unfold compact_iri_full.
  destruct (body_total rel (as_vocab rel c m) c m var value vocab rev NN) as [H|[[H1 H2]|(ix & n & i & e & -> & Ei & Ea & H)]]; [auto|auto|].
  right. rewrite H. unfold as_vocab, compact_iri in Ea.
  destruct (body_total rel (fun _ => Ok false) c m (TmId i) None true false) as [[k Hk]|[[Hk Hs]|(ix' & n' & i' & e' & X & _)]]; [discriminate| | |discriminate X].
  - rewrite Hk in Ea. discriminate Ea.
  - rewrite Hk in Ea. injection Ea as <-. split; [reflexivity|]. right. exists ix, n, i. auto.
Qed.
Print Assumptions C58_partial.
(** The failure concerns IRIs with an authority, and terms that are not prefixes, although these
    are never read as compact IRIs. *)
Theorem C58_refuted : exists c, defined_by None None [("http", NSome (TSimple "http://x/y"))] c /\
  (exists d, get_normal c "http" = Some d /\ nd_prefix d = false) /\
  compact_iri sample_rel c JsonLd11 (TmId (IIri "http://z/")) true false = Err IEConfused /\
  expand_iri_simple sample_iops c (NSome (xp_of_str "http://z/")) false (Some AKeep) = Ok (Some (TmId (IIri "http://z/"))).
Proof. eexists. split; [vm_compute; reflexivity|]. split; [eexists; split; vm_compute; reflexivity|]. split; vm_compute; reflexivity. Qed.
Print Assumptions C58_refuted.
Example C58_example : exists c, defined_by None None [("tag", NSome (TSimple "http://x/tag#"))] c /\
  compact_iri sample_rel c JsonLd11 (TmId (IIri "tag:z")) true false = Err IEConfused /\
  starts_with_term c (TmId (IIri "tag:z")) /\
  expand_iri_simple sample_iops c (NSome (xp_of_str "tag:z")) false (Some AKeep) = Ok (Some (TmId (IIri "http://x/tag#z"))).
Proof.
  eexists. split; [vm_compute; reflexivity|]. split; [vm_compute; reflexivity|]. split; [|vm_compute; reflexivity].
  exists "tag:z". split; [reflexivity|]. vm_compute. discriminate.
Qed.

(** ** C60 *)

(** A term for the property, other than the IRI of the property, suits the value. *)
Theorem C60_suits_partial : forall rel c m var v k, tags_ok (snd v) ->
  compact_iri_full rel c m var (Some v) true false = Ok (Some k) -> get_value c k = Some (Some var) -> k <> term_str var ->
  exists d, In (k, d) (ac_defs c) /\ nd_value d = Some var /\ suits m d v.
Proof. exact chosen_suits. Qed.
Print Assumptions C60_suits_partial.
(** It is the first one in the order of preference of the IRI compaction algorithm. *)
Theorem C60_preferred_partial : forall rel c m var v rev k, tags_ok (snd v) ->
  compact_iri_full rel c m var (Some v) true rev = Ok (Some k) -> get_value c k = Some (Some var) -> k <> term_str var ->
  exists cs qs, preferred_containers m v rev cs /\ preferred_requests (as_term rel c m) v rev qs /\ selected c var cs qs k.
Proof. exact chosen_preferred. Qed.
Print Assumptions C60_preferred_partial.

Definition te_of (i : string) (t : option (nullable ttype)) (l : option (nullable string)) (cn : option (nullable scontainer)) : nullable tdef :=
  NSome (TExpanded (MkTExp (Some (NSome (TIdTerm i))) t None None None l None cn None None None None)).

(** The IRI of the property is returned although it is itself a term that does not suit: here it
    is the term of a list, so that the value is read back as a list; *)
Theorem C60_refuted : exists c d, defined_by None None [("http://a/p", te_of "http://a/p" None None (Some (NSome (SOne CKList))))] c /\
  compact_iri_full sample_rel c JsonLd11 (TmId (IIri "http://a/p")) (Some (None, OVal (VLit (LStr "x") None))) true false = Ok (Some "http://a/p") /\
  ac_defs c = [("http://a/p", d)] /\ nd_value d = Some (TmId (IIri "http://a/p")) /\ ~ suits JsonLd11 d (None, OVal (VLit (LStr "x") None)).
Proof.
  eexists. eexists. split; [vm_compute; reflexivity|]. split; [vm_compute; reflexivity|]. split; [reflexivity|]. split; [reflexivity|].
  intros [_ H _ _ _]. destruct H as [_ [l H]]. discriminate H.
Qed.
Print Assumptions C60_refuted.
(** here it is the term of a typed value. *)
Theorem C60_type_refuted : exists c d, defined_by None None [("http://a/p", te_of "http://a/p" (Some (NSome (TTyTerm "http://t/"))) None None)] c /\
  compact_iri_full sample_rel c JsonLd11 (TmId (IIri "http://a/p")) (Some (None, OVal (VLit (LStr "x") None))) true false = Ok (Some "http://a/p") /\
  ac_defs c = [("http://a/p", d)] /\ nd_value d = Some (TmId (IIri "http://a/p")) /\ ~ suits JsonLd11 d (None, OVal (VLit (LStr "x") None)).
Proof.
  eexists. eexists. split; [vm_compute; reflexivity|]. split; [vm_compute; reflexivity|]. split; [reflexivity|]. split; [reflexivity|].
  intros [_ _ H _ _]. destruct (H _ eq_refl) as [X|X]; [discriminate X|]. inversion X as [|? ? Y]. destruct Y.
Qed.
Print Assumptions C60_type_refuted.

Definition c60_terms : list (string * nullable tdef) :=
  [("plain", te_of "http://a/p" None None None); ("fr", te_of "http://a/p" None (Some (NSome "fr")) None);
   ("date", te_of "http://a/p" (Some (NSome (TTyTerm "http://t/"))) None None); ("list", te_of "http://a/p" None None (Some (NSome (SOne CKList))));
   ("langs", te_of "http://a/p" None None (Some (NSome (SOne CKLanguage))))].
Definition c60_french : iobj := (None, OVal (VLang (MkLS "x" (Some "FR") None))).
Example C60_example : exists c, defined_by None None c60_terms c /\
  (forall v k, In (v, k) [((None, OVal (VLit (LStr "x") None)), "plain"); ((None, OVal (VLit (LStr "x") (Some "http://t/"))), "date");
     ((None, OVal (VLit (LStr "x") (Some "http://u/"))), "plain"); (c60_french, "langs"); ((Some "i", snd c60_french), "plain");
     ((None, OList [c60_french]), "list"); ((None, OList [(None, ONode (node_new None))]), "list")] ->
   tags_ok (snd v) /\ compact_iri_full sample_rel c JsonLd11 (TmId (IIri "http://a/p")) (Some v) true false = Ok (Some k)).
Proof.
  eexists. split; [vm_compute; reflexivity|]. intros v k I.
  repeat (destruct I as [I|I]; [injection I as <- <-; split; [apply Forall_forall; intros o [<-|[]] s E; try discriminate E; injection E as <-; left; discriminate|vm_compute; reflexivity]|]). destruct I.
Qed.

(** Reading back compacted IRIs. *)
From Verif Require Import Prelude Json Str Keyword Enums LangTag LangString Container Stack ContextSyntax Ctx Inverse Object Process
  ProcessRel Cycles IriSpec CompactIri CompactIriProofs.

(** What is assumed of the external functions: an IRI has a scheme (of letters, digits and the
    characters [+], [-] and [.]), and is not a blank node identifier. *)
Record iri_laws (io : iops) : Prop := {
  il_scheme : forall s, iri_ok io s = true -> exists p x, s = p +++ ":" +++ x /\ p <> "" /\
    contains_char ":" p = false /\ contains_char "_" p = false /\ contains_char "@" p = false;
  il_blank : forall s, iri_ok io s = true -> blank_ok io s = false
}.

(** The prefix [p] can be used with what follows: the compact IRI is read as one. *)
Definition reads_as_prefix (io : iops) (p x : string) : Prop :=
  p <> "" /\ p <> "_" /\ contains_char ":" p = false /\ (forall y, x <> "//" +++ y) /\
  iri_ref_ok io (p +++ ":" +++ x) = true /\ blank_ok io (p +++ ":" +++ x) = false.

(** The IRI [s] is not disturbed by the context [c]:
    - the terms for [s] do not look like keywords;
    - if [s] is itself a term, it is one for [s];
    - what follows the vocabulary mapping in [s] has no colon and does not look like a keyword;
    - the compact IRIs for [s] are read as compact IRIs. *)
Record undisturbed (io : iops) (c : actx) (s : string) : Prop := {
  ud_terms : forall k d, assoc k (ac_defs c) = Some d -> nd_value d = Some (TmId (IIri s)) -> is_keyword_like k = false;
  ud_self : forall d, assoc s (ac_defs c) = Some d -> nd_value d = Some (TmId (IIri s));
  ud_vocab : forall m x, ac_vocab c = Some m -> s = term_str m +++ x -> x <> "" ->
    (exists i, m = TmId i) /\ contains_char ":" x = false /\ is_keyword_like x = false;
  ud_prefix : forall p d t x, assoc p (ac_defs c) = Some d -> nd_prefix d = true -> nd_value d = Some t ->
    s = term_str t +++ x -> x <> "" -> assoc (p +++ ":" +++ x) (ac_defs c) = None -> reads_as_prefix io p x
}.

Lemma not_keyword s : is_keyword_like s = false -> kw_of_str s = None.
Proof.
  intros H. destruct (kw_of_str s) as [k|] eqn:E; [|reflexivity]. pose proof (kk_of_str_key _ H) as X. unfold kk_of_str in X. rewrite E in X. discriminate.
Qed.
Lemma expansion_expand io c dr vo s t : is_keyword_like s = false -> expansion io c dr vo (NSome (XStr s)) (OTerm t) ->
  expand_iri_simple io c (NSome (xp_of_str s)) dr vo = Ok (Some t).
Proof.
  intros K H. unfold xp_of_str. rewrite (not_keyword _ K). apply expansion_iff in H. unfold outcome_of in H.
  destruct (expand_iri_simple _ _ _ _ _) as [[t'|]|[]]; try discriminate H. injection H as ->. reflexivity.
Qed.
Lemma colon_not_keyword p x : is_keyword_like (p +++ ":" +++ x) = false.
Proof.
  destruct (is_keyword_like (p +++ ":" +++ x)) eqn:E; [|reflexivity]. exfalso. apply is_keyword_like_iff in E. destruct E as (a & r & E & F).
  assert (L : forall y, contains_char ":" y = true -> Forall is_letter (list_ascii_of_string y) -> False).
  { induction y as [|b y IH]; [discriminate|]. cbn [list_ascii_of_string]. intros C G. inversion G as [|? ? G1 G2]; subst.
    unfold contains_char in C. cbn [find_char] in C. destruct (Ascii.eqb_spec b ":") as [->|N].
    - apply is_alpha_letter in G1. discriminate G1.
    - apply IH; [|exact G2]. unfold contains_char. destruct (find_char ":" y); [reflexivity|discriminate]. }
  apply (L (String a r)); [|exact F]. assert (C : contains_char ":" (p +++ ":" +++ x) = true) by (rewrite contains_char_app; apply orb_true_r).
  rewrite E in C. unfold contains_char in *. cbn [find_char] in *. destruct (Ascii.eqb a ":"); [reflexivity|]. destruct (find_char ":" r); [reflexivity|discriminate].
Qed.

(** The IRI [s], as the identifier of a node, is not disturbed by the context:
    - the compact IRIs for [s] are read as compact IRIs;
    - [s] is not an alias of a keyword;
    - the reference relative to the base is not a keyword or an alias of one, has no scheme
      unless it is [s], and is resolved to [s]. *)
Record undisturbed_id (io : iops) (rel : string -> string -> string) (c : actx) (s : string) : Prop := {
  ui_prefix : forall p d t x, assoc p (ac_defs c) = Some d -> nd_prefix d = true -> nd_value d = Some t ->
    s = term_str t +++ x -> x <> "" -> reads_as_prefix io p x;
  ui_self : forall d k, assoc s (ac_defs c) = Some d -> nd_value d <> Some (TmKw k);
  ui_relative : forall b, ac_base c = Some b -> rel s b <> s ->
    let r := rel s b in let r' := if is_keyword_like r then "./" +++ r else r in
    kw_of_str r = None /\ (forall d k, assoc r' (ac_defs c) = Some d -> nd_value d <> Some (TmKw k)) /\
    contains_char ":" r = false /\ iri_ref_ok io r' = true /\ resolve io b r' = s
}.

Section Read.
Variables (io : iops) (rel : string -> string -> string) (c : actx) (s : string).
Hypothesis LW : iri_laws io.
Hypothesis HN : NoDup (map fst (ac_defs c)).
Hypothesis HI : iri_ok io s = true.
Notation var := (TmId (IIri s)).

Lemma read_term k d dr : assoc k (ac_defs c) = Some d -> nd_value d = Some var -> is_keyword_like k = false ->
  expand_iri_simple io c (NSome (xp_of_str k)) dr (Some AKeep) = Ok (Some var).
Proof. intros A V K. apply expansion_expand; [exact K|]. apply ex_term; [exact K|]. eapply bt_term; [discriminate|exact A|exact V]. Qed.
Lemma read_prefix p x d t dr vo : assoc p (ac_defs c) = Some d -> nd_prefix d = true -> nd_value d = Some t -> s = term_str t +++ x ->
  (forall t', ~ by_term c vo (p +++ ":" +++ x) t') -> reads_as_prefix io p x ->
  expand_iri_simple io c (NSome (xp_of_str (p +++ ":" +++ x))) dr vo = Ok (Some var).
Proof.
  intros A P V E A' (R1 & R2 & R3 & R4 & R5 & R6). apply expansion_expand; [apply colon_not_keyword|].
  apply ex_prefix; [apply colon_not_keyword|exact A'|exact R6| |].
  - intros X. pose proof (colon_split p x R3) as Y. rewrite X in Y. cbn in Y. injection Y as Y _. congruence.
  - eapply bp; try eassumption; [reflexivity|]. rewrite <- E. constructor. exact HI.
Qed.
Lemma read_absolute dr vo : (forall t', ~ by_term c vo s t') -> get_value c (scheme_of s) = None ->
  expand_iri_simple io c (NSome (xp_of_str s)) dr vo = Ok (Some var).
Proof.
  intros B G. destruct (il_scheme io LW s HI) as (p & x & E & N1 & N3 & N2 & N4).
  assert (K : is_keyword_like s = false) by (rewrite E; apply colon_not_keyword).
  apply expansion_expand; [exact K|]. apply ex_absolute; [exact K|exact B|apply (il_blank io LW), HI| | | |exact HI].
  - intros X. pose proof (colon_split p x N3) as Y. rewrite <- E, X in Y. cbn in Y. injection Y as Y _. rewrite <- Y in N2. discriminate.
  - exists p, x. auto.
  - intros i [p' x' d t i' E' C' N' N1' S R A P V Hi].
    pose proof (colon_split p x N3) as X. pose proof (colon_split p' x' C') as Y. rewrite E in E'. rewrite E' in X. rewrite X in Y. injection Y as <- <-.
    unfold scheme_of in G. rewrite E, (colon_split p x N3) in G. unfold get_value, get_normal in G. rewrite A in G.
    destruct (streq_spec p "@type") as [->|_]; [|discriminate G].
    discriminate N4.
Qed.
Theorem read_vocab m value rev k dr : undisturbed io c s -> compact_iri_full rel c m var value true rev = Ok (Some k) ->
  expand_iri_simple io c (NSome (xp_of_str k)) dr (Some AKeep) = Ok (Some var).
Proof.
  intros U H. unfold compact_iri_full in H. apply body_selected in H. destruct H as (_ & [(_ & cs & q & H)|[(_ & H)|(_ & H)]]).
  - apply select_spec in H. destruct H as (cs1 & cn & cs2 & qs1 & q' & qs2 & _ & _ & _ & _ & (d & H1 & H2 & _) & _).
    pose proof (assoc_In_nodup _ _ _ HN H1) as A. eapply read_term; [exact A|exact H2|]. eapply (ud_terms io c s U); eassumption.
  - unfold by_vocab in H. destruct (ac_vocab c) as [v|] eqn:V; [|discriminate]. destruct (strip_prefix (term_str v) (term_str var)) as [x|] eqn:E; [|discriminate].
    apply strip_prefix_spec in E. cbn [term_str id_str] in E. destruct (streq_spec x "") as [|N]; [discriminate|]. destruct (get_value c x) eqn:G; [discriminate|].
    cbn in H. injection H as <-. destruct (ud_vocab io c s U v x V E N) as ([i ->] & C & K). cbn [term_str] in E.
    apply expansion_expand; [exact K|]. apply ex_relative; [exact K| | |].
    + intros t. assert (A : assoc x (ac_defs c) = None).
      { unfold get_value, get_normal in G. destruct (streq_spec x "@type") as [->|_]; [discriminate K|]. destruct (assoc x (ac_defs c)); [discriminate|reflexivity]. }
      intros []; congruence.
    + left. intros (p & y & -> & _). rewrite contains_char_app in C. apply orb_false_iff in C. destruct C as [_ C]. discriminate C.
    + eapply rel_vocab; [reflexivity|exact V|]. rewrite <- E. constructor. exact HI.
  - apply tail_cases in H. destruct H as [[H _]|[_ (G & ->)]].
    + destruct H as (p & d & t & x & I & P & V & E & N & -> & F). apply (assoc_In_nodup _ _ _ HN) in I. cbn [term_str id_str] in E.
      destruct F as [F|(_ & d' & F & V')].
      * eapply read_prefix; try eassumption; [intros t' []; congruence|]. eapply (ud_prefix io c s U); eassumption.
      * eapply read_term; [exact F|exact V'|apply colon_not_keyword].
    + destruct (assoc s (ac_defs c)) as [d|] eqn:A.
      * eapply read_term; [exact A|apply (ud_self io c s U), A|]. destruct (il_scheme io LW s HI) as (p & x & -> & _). apply colon_not_keyword.
      * apply read_absolute; [intros t []; congruence|exact G].
Qed.
Theorem read_docrel m value rev k : undisturbed_id io rel c s -> compact_iri_full rel c m var value false rev = Ok (Some k) ->
  expand_iri_simple io c (NSome (xp_of_str k)) true None = Ok (Some var).
Proof.
  intros U H. unfold compact_iri_full in H. apply body_selected in H. destruct H as (_ & [(H & _)|[(H & _)|(_ & H)]]); try discriminate.
  assert (NS : forall t', ~ by_term c None s t').
  { intros t' X. destruct X as [d k' A V|d t' X|d X]; [exact (ui_self io rel c s U _ _ A V)|congruence..]. }
  apply tail_cases in H. destruct H as [[H _]|[_ (G & H)]].
  - destruct H as (p & d & t & x & I & P & V & E & N & -> & F). apply (assoc_In_nodup _ _ _ HN) in I. cbn [term_str id_str] in E.
    eapply read_prefix; try eassumption; [|eapply (ui_prefix io rel c s U); eassumption].
    intros t' X. destruct X as [d' k A V'|d' t' X|d' X]; [|congruence..]. destruct F as [F|(_ & d2 & F & V2)]; congruence.
  - destruct (ac_base c) as [b|] eqn:B; [|subst k; apply read_absolute; [exact NS|exact G]].
    destruct (string_dec (rel s b) s) as [E|E].
    + rewrite E in H. assert (K : is_keyword_like s = false) by (destruct (il_scheme io LW s HI) as (p & x & -> & _); apply colon_not_keyword).
      unfold disambiguate_keyword in H. rewrite K in H. subst k. apply read_absolute; [exact NS|exact G].
    + destruct (ui_relative io rel c s U b B E) as (R1 & R2 & R3 & R4 & R5).
      assert (Hk : k = if is_keyword_like (rel s b) then "./" +++ rel s b else rel s b).
      { rewrite H. unfold disambiguate_keyword. rewrite R1. destruct (is_keyword_like (rel s b)); reflexivity. }
      rewrite <- Hk in *. assert (K : is_keyword_like k = false).
      { rewrite Hk. destruct (is_keyword_like (rel s b)) eqn:K; [|exact K]. reflexivity. }
      assert (C : contains_char ":" k = false).
      { rewrite Hk. destruct (is_keyword_like (rel s b)); [|exact R3]. rewrite contains_char_app, R3. reflexivity. }
      apply expansion_expand; [exact K|]. apply ex_relative; [exact K| | |].
      * intros t' X. destruct X as [d' k' A V'|d' t' X|d' X]; [exact (R2 _ _ A V')|congruence..].
      * left. intros (p & y & -> & _). rewrite contains_char_app in C. apply orb_false_iff in C. destruct C as [_ C]. discriminate C.
      * rewrite <- R5. apply rel_base; auto.
Qed.
End Read.

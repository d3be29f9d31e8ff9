(** Specification of IRI expansion and its agreement with the model. *)
From Verif Require Import Prelude Str Keyword Enums LangTag Container Stack ContextSyntax Ctx Process ProcessRel Cycles.

(** The result of an expansion. *)
Inductive outcome : Type := OTerm (t : term) | ODropped | ORejected.
Definition outcome_of (r : result (option term) cerr) : option outcome :=
  match r with
  | Ok (Some t) => Some (OTerm t)
  | Ok None => Some ODropped
  | Err EForbiddenVocab => Some ORejected
  | Err _ => None
  end.

Section Spec.
Variable io : iops.
Variable c : actx.
Variable docrel : bool.
Variable vocab : option action.

(** [read_id s i]: [i] is the identifier denoted by [s]. *)
Inductive read_id (s : string) : id -> Prop :=
| rid_iri : iri_ok io s = true -> read_id s (IIri s)
| rid_blank : iri_ok io s = false -> blank_ok io s = true -> read_id s (IBlank s)
| rid_invalid : iri_ok io s = false -> blank_ok io s = false -> read_id s (IInvalid s).

(** The term definition of [s] decides: it is a keyword alias, or terms may be used. *)
Inductive by_term (s : string) : term -> Prop :=
| bt_keyword d k : assoc s (ac_defs c) = Some d -> nd_value d = Some (TmKw k) -> by_term s (TmKw k)
| bt_term d t : vocab <> None -> assoc s (ac_defs c) = Some d -> nd_value d = Some t -> by_term s t
| bt_null d : vocab <> None -> assoc s (ac_defs c) = Some d -> nd_value d = None -> by_term s TmNull.

(** [has_scheme s]: [s] has the form [p:x] with [p] not empty and without colon. *)
Definition has_scheme (s : string) : Prop :=
  exists p x, s = p +++ ":" +++ x /\ p <> "" /\ contains_char ":" p = false.

(** [s] is the compact IRI [p:x] and [p] is a term usable as a prefix. *)
Inductive by_prefix (s : string) : id -> Prop :=
| bp p x d t i : s = p +++ ":" +++ x -> contains_char ":" p = false -> p <> "" -> p <> "_" ->
    (forall y, x <> "//" +++ y) -> iri_ref_ok io s = true ->
    assoc p (ac_defs c) = Some d -> nd_prefix d = true -> nd_value d = Some t ->
    read_id (term_str t +++ x) i -> by_prefix s i.

Inductive relative (s : string) : outcome -> Prop :=
| rel_vocab m i : vocab = Some AKeep -> ac_vocab c = Some (TmId m) -> read_id (id_str m +++ s) i ->
    relative s (OTerm (TmId i))
| rel_drop m : vocab = Some ADrop -> ac_vocab c = Some (TmId m) -> relative s ODropped
| rel_reject m : vocab = Some AReject -> ac_vocab c = Some (TmId m) -> relative s ORejected
| rel_bad_vocab m : vocab <> None -> ac_vocab c = Some m -> (forall i, m <> TmId i) -> relative s (OTerm (TmId (IInvalid s)))
| rel_base b : (vocab = None \/ ac_vocab c = None) -> docrel = true -> iri_ref_ok io s = true ->
    ac_base c = Some b -> relative s (OTerm (TmId (IIri (resolve io b s))))
| rel_absolute : (vocab = None \/ ac_vocab c = None) -> docrel = true -> iri_ref_ok io s = true ->
    ac_base c = None -> iri_ok io s = true -> relative s (OTerm (TmId (IIri s)))
| rel_invalid : (vocab = None \/ ac_vocab c = None) ->
    (docrel = false \/ iri_ref_ok io s = false \/ ac_base c = None /\ iri_ok io s = false) ->
    relative s (OTerm (TmId (IInvalid s))).

Inductive expansion : nullable expandable -> outcome -> Prop :=
| ex_null : expansion NNull (OTerm TmNull)
| ex_keyword k : expansion (NSome (XKw k)) (OTerm (TmKw k))
| ex_keyword_like s : is_keyword_like s = true -> expansion (NSome (XStr s)) (OTerm TmNull)
| ex_term s t : is_keyword_like s = false -> by_term s t -> expansion (NSome (XStr s)) (OTerm t)
| ex_blank s : is_keyword_like s = false -> (forall t, ~ by_term s t) -> has_scheme s ->
    blank_ok io s = true -> expansion (NSome (XStr s)) (OTerm (TmId (IBlank s)))
| ex_underscore : (forall t, ~ by_term "_:" t) -> blank_ok io "_:" = false ->
    expansion (NSome (XStr "_:")) (OTerm (TmId (IInvalid "_:")))
| ex_prefix s i : is_keyword_like s = false -> (forall t, ~ by_term s t) -> blank_ok io s = false -> s <> "_:" ->
    by_prefix s i -> expansion (NSome (XStr s)) (OTerm (TmId i))
| ex_absolute s : is_keyword_like s = false -> (forall t, ~ by_term s t) -> blank_ok io s = false -> s <> "_:" ->
    has_scheme s -> (forall i, ~ by_prefix s i) -> iri_ok io s = true ->
    expansion (NSome (XStr s)) (OTerm (TmId (IIri s)))
| ex_relative s r : is_keyword_like s = false -> (forall t, ~ by_term s t) ->
    (~ has_scheme s \/ blank_ok io s = false /\ s <> "_:" /\ (forall i, ~ by_prefix s i) /\ iri_ok io s = false) ->
    relative s r -> expansion (NSome (XStr s)) r.

(** *** Correctness *)
Lemma read_id_of s : read_id s (id_of_string io s).
Proof.
  unfold id_of_string. destruct (iri_ok io s) eqn:E; [constructor; exact E|].
  destruct (blank_ok io s) eqn:F; [apply rid_blank|apply rid_invalid]; assumption.
Qed.
Lemma read_id_det s i : read_id s i -> i = id_of_string io s.
Proof. unfold id_of_string. intros []; repeat match goal with H : _ = _ |- _ => rewrite H end; reflexivity. Qed.

Lemma defined_spec s t : is_keyword_like s = false -> (expand_defined c s vocab = Some t <-> by_term s t).
Proof.
  intros K. unfold expand_defined, get_value, get_normal. destruct (streq_spec s "@type") as [->|_]; [discriminate|].
  destruct (assoc s (ac_defs c)) as [d|] eqn:A; cbn [option_map].
  2:{ split; [discriminate|]. intros []; congruence. }
  destruct (nd_value d) as [v|] eqn:V.
  - destruct v as [|i|k].
    1-2: destruct vocab eqn:Vo; [split; [intros H; injection H as <-; eapply bt_term; [congruence|exact A|exact V]|]
                                |split; [discriminate|]];
         intros H; destruct H; congruence.
    split; [intros H; injection H as <-; eapply bt_keyword; eassumption|]. intros H; destruct H; congruence.
  - destruct vocab eqn:Vo; [split; [intros H; injection H as <-; eapply bt_null; [congruence|exact A|exact V]|]
                           |split; [discriminate|]]; intros H; destruct H; congruence.
Qed.
Lemma defined_none s : is_keyword_like s = false -> (expand_defined c s vocab = None <-> forall t, ~ by_term s t).
Proof.
  intros K. split.
  - intros H t Ht. apply (defined_spec s t K) in Ht. congruence.
  - intros H. destruct (expand_defined c s vocab) as [t|] eqn:E; [|reflexivity].
    apply (defined_spec s t K) in E. exfalso. eapply H, E.
Qed.

Lemma colon_spec s : colon_inside s = true <-> has_scheme s.
Proof.
  split.
  - unfold colon_inside. intros H. assert (contains_char ":" s = true) as C.
    { unfold contains_char. destruct (find_char ":" s); [reflexivity|discriminate]. }
    destruct (split_once ":" s) as [[p x]|] eqn:E.
    + apply split_once_sound in E. destruct E as [-> E]. exists p, x. split; [reflexivity|]. split; [|exact E].
      intros ->. discriminate H.
    + apply split_once_none in E. congruence.
  - intros (p & x & -> & H1 & H2). apply colon_find; assumption.
Qed.

Definition prefixed (s : string) : option term :=
  match compact_iri_of io s with
  | Some q => expand_prefixed io c (fst q) (snd q)
  | None => None
  end.

Lemma prefix_sound s t : colon_inside s = true -> prefixed s = Some t -> exists i, t = TmId i /\ by_prefix s i.
Proof.
  intros H. apply colon_spec in H. destruct H as (p & x & E & N & C).
  unfold prefixed, compact_iri_of. rewrite E, (colon_split _ _ C), <- E.
  destruct (streq_spec p "_") as [|N1]; [discriminate|]. destruct (starts_with "//" x) eqn:S; [discriminate|].
  destruct (iri_ref_ok io s) eqn:R; [|discriminate]. cbn [negb andb fst snd].
  unfold expand_prefixed, get_normal. destruct (assoc p (ac_defs c)) as [d|] eqn:A; [|discriminate].
  destruct (nd_prefix d) eqn:P; [|discriminate]. destruct (nd_value d) as [t'|] eqn:V; [|discriminate].
  intros H. injection H as <-. eexists. split; [reflexivity|]. econstructor; try eassumption; [|apply read_id_of].
  intros y ->. assert (starts_with "//" ("//" +++ y) = true) by (apply starts_with_spec; eauto). congruence.
Qed.
Lemma prefix_complete s i : by_prefix s i -> prefixed s = Some (TmId i).
Proof.
  intros [p x d t i' E C N N1 S R A P V I]. unfold prefixed, compact_iri_of. rewrite E, (colon_split _ _ C), <- E.
  destruct (streq_spec p "_") as [|_]; [contradiction|].
  destruct (starts_with "//" x) eqn:S'.
  { apply starts_with_spec in S'. destruct S' as [y ->]. exfalso. eapply S. reflexivity. }
  rewrite R. cbn [negb andb fst snd]. unfold expand_prefixed, get_normal. rewrite A, P, V.
  apply read_id_det in I. subst. reflexivity.
Qed.
Lemma prefix_none s : colon_inside s = true -> (prefixed s = None <-> forall i, ~ by_prefix s i).
Proof.
  intros K. split.
  - intros H i Hi. apply prefix_complete in Hi. congruence.
  - intros H. destruct (prefixed s) as [t|] eqn:E; [|reflexivity].
    apply (prefix_sound s t K) in E. destruct E as (i & _ & E). exfalso. eapply H, E.
Qed.

Lemma tail_sound s : exists r, outcome_of (expand_tail io c s docrel vocab) = Some r /\ relative s r.
Proof.
  unfold expand_tail, resolve_iri.
  assert (L : (vocab = None \/ ac_vocab c = None) -> exists r,
     outcome_of (Ok (Some (if docrel && iri_ref_ok io s then
        match (match ac_base c with Some b => Some (resolve io b s) | None => if iri_ok io s then Some s else None end) with
        | Some i => TmId (IIri i) | None => TmId (IInvalid s) end else TmId (IInvalid s)))) = Some r /\ relative s r).
  { intros H. destruct docrel eqn:D, (iri_ref_ok io s) eqn:R; cbn [andb].
    - destruct (ac_base c) as [b|] eqn:B; [eexists; split; [reflexivity|eapply rel_base; eassumption]|].
      destruct (iri_ok io s) eqn:I; eexists; (split; [reflexivity|]); [apply rel_absolute|apply rel_invalid]; auto.
    - eexists. split; [reflexivity|]. apply rel_invalid; auto.
    - eexists. split; [reflexivity|]. apply rel_invalid; auto.
    - eexists. split; [reflexivity|]. apply rel_invalid; auto. }
  destruct vocab as [act|] eqn:V; [|apply L; auto].
  destruct (ac_vocab c) as [[|m|k]|] eqn:W; [| | |apply L; auto].
  - eexists. split; [reflexivity|]. eapply rel_bad_vocab; [congruence|exact W|discriminate].
  - destruct act; eexists; (split; [reflexivity|]); [eapply rel_vocab; [exact V|exact W|apply read_id_of]|eapply rel_drop; eassumption|eapply rel_reject; eassumption].
  - eexists. split; [reflexivity|]. eapply rel_bad_vocab; [congruence|exact W|discriminate].
Qed.
Lemma relative_det s r r' : relative s r -> relative s r' -> r = r'.
Proof.
  intros H H'. destruct H, H'; try congruence;
    repeat match goal with
    | H : read_id _ _ |- _ => apply read_id_det in H
    | H : _ \/ _ |- _ => destruct H
    | H : _ /\ _ |- _ => destruct H
    end; try congruence; try (exfalso; match goal with H : forall i, ?m <> TmId i |- _ => eapply H; congruence end).
Qed.

Lemma absolute_sound s : iri_ok io s = true -> outcome_of (expand_absolute io c s docrel vocab) = Some (OTerm (TmId (IIri s))).
Proof. intros H. unfold expand_absolute. rewrite H. reflexivity. Qed.

Lemma expansion_sound v : exists r, outcome_of (expand_iri_simple io c v docrel vocab) = Some r /\ expansion v r.
Proof.
  unfold expand_iri_simple. destruct v as [|[k|s]]; try (eexists; split; [reflexivity|constructor]).
  destruct (is_keyword_like s) eqn:K; [eexists; split; [reflexivity|constructor; exact K]|].
  destruct (expand_defined c s vocab) as [t|] eqn:D.
  { eexists. split; [reflexivity|]. apply ex_term; [exact K|]. apply defined_spec; assumption. }
  pose proof (proj1 (defined_none s K) D) as D2.
  destruct (colon_inside s) eqn:C.
  2:{ destruct (tail_sound s) as (r & E & R). exists r. split; [exact E|]. apply ex_relative; auto.
      left. intros H. apply colon_spec in H. congruence. }
  destruct (blank_ok io s) eqn:B.
  { eexists. split; [reflexivity|]. apply ex_blank; auto. apply colon_spec, C. }
  destruct (streq_spec s "_:") as [->|U].
  { eexists. split; [reflexivity|]. apply ex_underscore; auto. }
  change (match compact_iri_of io s with
          | Some (p, x) => match expand_prefixed io c p x with Some t => Ok (Some t) | None => expand_absolute io c s docrel vocab end
          | None => expand_absolute io c s docrel vocab end)
    with (match compact_iri_of io s with
          | Some q => let (p, x) := q in match expand_prefixed io c p x with Some t => Ok (Some t) | None => expand_absolute io c s docrel vocab end
          | None => expand_absolute io c s docrel vocab end).
  assert (E : (match compact_iri_of io s with
          | Some q => let (p, x) := q in match expand_prefixed io c p x with Some t => Ok (Some t) | None => expand_absolute io c s docrel vocab end
          | None => expand_absolute io c s docrel vocab end) =
          match prefixed s with Some t => Ok (Some t) | None => expand_absolute io c s docrel vocab end).
  { unfold prefixed. destruct (compact_iri_of io s) as [[p x]|]; reflexivity. }
  rewrite E. destruct (prefixed s) as [t|] eqn:P.
  - destruct (prefix_sound s t C P) as (i & -> & HP). eexists. split; [reflexivity|]. apply ex_prefix; auto.
  - pose proof (proj1 (prefix_none s C) P) as P2. unfold expand_absolute. destruct (iri_ok io s) eqn:I.
    + eexists. split; [reflexivity|]. apply ex_absolute; auto. apply colon_spec, C.
    + destruct (tail_sound s) as (r & E' & R). exists r. split; [exact E'|]. apply ex_relative; auto.
Qed.

Lemma by_term_det s t t' : by_term s t -> by_term s t' -> t = t'.
Proof. intros [] []; congruence. Qed.
Lemma by_prefix_det s i i' : by_prefix s i -> by_prefix s i' -> i = i'.
Proof. intros H H'. apply prefix_complete in H, H'. congruence. Qed.
Lemma by_prefix_scheme s i : by_prefix s i -> has_scheme s.
Proof. intros []. exists p, x. auto. Qed.

Lemma expansion_det v r r' : expansion v r -> expansion v r' -> r = r'.
Proof.
  assert (U : has_scheme "_:") by (exists "_", ""; repeat split; discriminate).
  assert (UK : is_keyword_like "_:" = false) by reflexivity.
  intros H H'. inversion H; subst; inversion H'; subst; try reflexivity; try congruence;
    try (exfalso; match goal with H1 : forall t, ~ by_term ?s t, H2 : by_term ?s ?t |- _ => exact (H1 t H2) end);
    try (exfalso; match goal with H1 : forall t, ~ by_prefix ?s t, H2 : by_prefix ?s ?t |- _ => exact (H1 t H2) end);
    try (f_equal; eapply by_term_det; eassumption);
    try (f_equal; f_equal; eapply by_prefix_det; eassumption);
    try (eapply relative_det; eassumption);
    try (exfalso; match goal with X : _ \/ _ |- _ => destruct X as [X|(? & ? & X & ?)]; try congruence;
           first [apply X; first [assumption | eapply by_prefix_scheme; eassumption] | eapply X; eassumption] end).
Qed.

Lemma expansion_iff v r : outcome_of (expand_iri_simple io c v docrel vocab) = Some r <-> expansion v r.
Proof.
  destruct (expansion_sound v) as (r' & E & H). split.
  - rewrite E. intros X. injection X as <-. exact H.
  - intros H'. rewrite (expansion_det _ _ _ H' H). exact E.
Qed.
End Spec.

(** ** Expansion with an empty local context *)
Definition empty_local : merged := MkMerged cdef_new None.

Lemma define_empty io ld n s k rs b p o : (forall x, dget (KKey x) (snd s) <> Some true) -> k <> "" ->
  exists s', e_define (engine io ld (S n)) s empty_local (KKey k) rs b p o = Ok s' /\ fst s' = fst s /\
    forall x, dget (KKey x) (snd s') <> Some true.
Proof.
  intros HD HK. cbn [engine e_define]. unfold define_body. destruct (dget (KKey k) (snd s)) as [[]|] eqn:G.
  - exfalso. eapply HD, G.
  - exists s. auto.
  - apply streq_false in HK. rewrite HK. cbn. eexists. split; [reflexivity|]. split; [reflexivity|].
    intros x. cbn. destruct (streq x k); [discriminate|apply HD].
Qed.

Lemma expand_empty io ld n c v dr vo rs o : v <> NSome (XStr "") ->
  match expand_iri_with io (engine io ld (S n)) (c, []) v dr vo empty_local rs o with
  | Ok (s', t) => fst s' = c /\ expand_iri_simple io c v dr vo = Ok t
  | Err e => expand_iri_simple io c v dr vo = Err e
  end.
Proof.
  intros HV. unfold expand_iri_with, expand_iri_simple. destruct v as [|[k|s]]; try (split; reflexivity).
  destruct (is_keyword_like s) eqn:K; [split; reflexivity|]. rewrite (kk_of_str_key _ K).
  destruct (define_empty io ld n (c, []) s rs None false (with_no_override o)) as (s1 & E1 & F1 & D1).
  { intros x. discriminate. }
  { intros ->. apply HV. reflexivity. }
  rewrite E1. cbn [bind]. rewrite F1. cbn [fst]. destruct (expand_defined c s vo); [split; [exact F1|reflexivity]|].
  destruct (colon_inside s) eqn:C.
  2:{ destruct (expand_tail io c s dr vo); cbn [bind]; [split; [exact F1|reflexivity]|reflexivity]. }
  destruct (blank_ok io s); [split; [exact F1|reflexivity]|].
  destruct (streq s "_:"); [split; [exact F1|reflexivity]|].
  destruct (compact_iri_of io s) as [[p x]|] eqn:Q.
  2:{ destruct (expand_absolute io c s dr vo); cbn [bind]; [split; [exact F1|reflexivity]|reflexivity]. }
  destruct (define_empty io ld n s1 p rs None false (with_no_override o)) as (s2 & E2 & F2 & _).
  { exact D1. }
  { intros ->. unfold compact_iri_of in Q. destruct (split_once ":" s) as [[a b]|] eqn:SO; [|discriminate].
    destruct (_ && _)%bool; [|discriminate]. injection Q as -> ->. apply split_once_sound in SO. destruct SO as [-> _]. discriminate C. }
  rewrite E2. cbn [bind]. rewrite F2, F1. cbn [fst].
  destruct (expand_prefixed io c p x); [split; [rewrite F2; exact F1|reflexivity]|].
  destruct (expand_absolute io c s dr vo); cbn [bind]; [split; [rewrite F2; exact F1|reflexivity]|reflexivity].
Qed.

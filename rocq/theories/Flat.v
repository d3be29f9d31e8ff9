(** Contexts whose terms are absolute IRIs, or compact IRIs over such terms. *)
From Verif Require Import Prelude Str Keyword Enums LangTag Container Stack ContextSyntax Ctx Process ProcessRel Cycles CompactIriRead Samples.

(** ** Specification *)

(** An IRI with an authority, as in [http://a/b]. *)
Inductive absolute (io : iops) : string -> Prop :=
| absolute_i p x : p <> "" -> contains_char ":" p = false -> starts_with "//" x = true ->
    iri_ok io (p +++ ":" +++ x) = true -> blank_ok io (p +++ ":" +++ x) = false -> absolute io (p +++ ":" +++ x).

(** An IRI that can be used as a prefix. *)
Definition delimited (s : string) : bool :=
  match last_char s with Some c => existsb (Ascii.eqb c) (list_ascii_of_string ":/?#[]@") | None => false end.

(** The IRI that a value stands for: itself, or the concatenation of what its prefix stands for and its suffix. *)
Inductive means (io : iops) (l : list (string * nullable tdef)) : string -> string -> Prop :=
| means_iri s : absolute io s -> means io l s s
| means_prefixed p x s : p <> "" -> p <> "_" -> contains_char ":" p = false -> starts_with "//" x = false ->
    iri_ref_ok io (p +++ ":" +++ x) = true -> blank_ok io (p +++ ":" +++ x) = false ->
    assoc p l = Some (NSome (TSimple s)) -> absolute io s -> delimited s = true -> iri_ok io (s +++ x) = true ->
    means io l (p +++ ":" +++ x) (s +++ x).

(** The value written for a term. *)
Definition text (v : nullable tdef) : option string :=
  match v with
  | NSome (TSimple s) => Some s
  | NSome (TExpanded e) => match te_id e with Some (NSome (TIdTerm s)) => Some s | _ => None end
  | NNull => None
  end.
(** Besides an identifier, a type [@id] or [@vocab], a language, a direction and a container of a single kind may be given. *)
Definition basic_type (t : option (nullable ttype)) (y : option ty) : Prop :=
  t = None /\ y = None \/ t = Some (NSome (TTyKeyword TKId)) /\ y = Some TyId \/ t = Some (NSome (TTyKeyword TKVocab)) /\ y = Some TyVocab.
Definition basic_container (t : option (nullable scontainer)) (c : container) : Prop :=
  t = None /\ c = CNone \/ t = Some (NSome (SOne CKList)) /\ c = CList \/ t = Some (NSome (SOne CKSet)) /\ c = CSet \/
  t = Some (NSome (SOne CKIndex)) /\ c = CIndex \/ t = Some (NSome (SOne CKLanguage)) /\ c = CLanguage.
(** The definition that an entry standing for [i] gives; language and direction only count without a type. *)
Inductive described : nullable tdef -> string -> ndef -> Prop :=
| described_simple s i : described (NSome (TSimple s)) i (ndef_of i (delimited i) false)
| described_expanded s ty lang dir co i y c : basic_type ty y -> basic_container co c ->
    described (NSome (TExpanded (MkTExp (Some (NSome (TIdTerm s))) ty None None None lang dir co None None None None))) i
      (MkNDef (iri_term i) false false false None None c (match ty with None => dir | Some _ => None end) None (match ty with None => lang | Some _ => None end) None y).

(** A definition of which every entry is of this kind, and whose terms have neither colon nor slash. *)
Definition flat (io : iops) (l : list (string * nullable tdef)) : Prop :=
  forall k v, assoc k l = Some v ->
    k <> "" /\ contains_char ":" k = false /\ contains_char "/" k = false /\ exists s i d, text v = Some s /\ means io l s i /\ described v i d.

(** ** Proof *)

Lemma absolute_colon io s : absolute io s -> exists p x, s = p +++ ":" +++ x /\ p <> "" /\ contains_char ":" p = false.
Proof. intros [p x A B _ _ _]. eauto. Qed.
Lemma means_colon io l s i : means io l s i -> exists p x, s = p +++ ":" +++ x /\ p <> "" /\ contains_char ":" p = false.
Proof. intros [s' A|p x s' A _ B _ _ _ _ _ _ _]; [eapply absolute_colon, A|eauto]. Qed.
Lemma contains_colon p x : contains_char ":" (p +++ ":" +++ x) = true.
Proof.
  unfold contains_char. induction p as [|c p IH]; [reflexivity|]. cbn in *. destruct (Ascii.eqb c ":"); [reflexivity|].
  destruct (find_char ":" (String.append p (String ":" x))); [reflexivity|discriminate IH].
Qed.
Lemma colon_inj p x p' x' : p +++ ":" +++ x = p' +++ ":" +++ x' -> contains_char ":" p = false -> contains_char ":" p' = false -> p = p' /\ x = x'.
Proof. intros E C C'. pose proof (colon_split p x C) as X. rewrite E, (colon_split p' x' C') in X. injection X as -> ->. auto. Qed.
Lemma absolute_slashes io s p x : absolute io s -> s = p +++ ":" +++ x -> contains_char ":" p = false -> starts_with "//" x = true.
Proof. intros [p' x' N C' S' K B] E C. destruct (colon_inj _ _ _ _ E C' C) as [-> ->]. exact S'. Qed.
Lemma means_inv io l s i : means io l s i -> absolute io s /\ i = s \/
  exists p x q, s = p +++ ":" +++ x /\ contains_char ":" p = false /\ starts_with "//" x = false /\ assoc p l = Some (NSome (TSimple q)) /\ i = q +++ x.
Proof. intros [s' A|p x s' N U C S R B P A D K]; [auto|]. right. exists p, x, s'. auto 10. Qed.
Lemma means_fun io l s i i' : means io l s i -> means io l s i' -> i = i'.
Proof.
  intros H H'. apply means_inv in H, H'. destruct H as [[A ->]|(p & x & q & E & C & S & P & ->)], H' as [[A' ->]|(p' & x' & q' & E' & C' & S' & P' & ->)].
  - reflexivity.
  - pose proof (absolute_slashes _ _ _ _ A E' C'). congruence.
  - pose proof (absolute_slashes _ _ _ _ A' E C). congruence.
  - rewrite E in E'. destruct (colon_inj _ _ _ _ E' C C') as [-> ->]. rewrite P in P'. injection P' as ->. reflexivity.
Qed.

Section Flat.
Variable io : iops.
Variable ld : loader.
Variable a : actx.
Variable l : list (string * nullable tdef).
Hypothesis F : flat io l.
(** No term of the definition is protected, and no value is itself a term. *)
Hypothesis NP : forall k v d, assoc k l = Some v -> get_normal a k = Some d -> nd_protected d = false.
Hypothesis NV : forall k v s, assoc k l = Some v -> text v = Some s -> get_normal a s = None.
Let m := MkMerged (def_of l) None.

Record inv (P : list string) (s : st) : Prop := {
  iv_pending : forall k, dget (KKey k) (snd s) = Some true -> In k P;
  iv_done : forall k w v i d, dget (KKey k) (snd s) = Some false -> assoc k l = Some w -> text w = Some v -> means io l v i -> described w i d -> get_normal (fst s) k = Some d;
  iv_same : forall k, dget (KKey k) (snd s) = None \/ assoc k l = None -> get_normal (fst s) k = get_normal a k
}.
Definition kept (d d' : dmap) : Prop := forall k, dget (KKey k) d = Some false -> dget (KKey k) d' = Some false.
Definition rest_of (c : actx) := (ac_orig c, ac_base c, ac_vocab c, ac_lang c, ac_dir c, ac_prev c, ac_type c).

Lemma key_get k : m_get m (KKey k) = option_map EvDef (assoc k l).
Proof. unfold m_get, m, or_else, def_get. cbn. destruct (assoc k l); reflexivity. Qed.
Lemma no_colon_term p x : assoc (p +++ ":" +++ x) l = None.
Proof. destruct (assoc (p +++ ":" +++ x) l) as [v|] eqn:E; [|reflexivity]. destruct (F _ _ E) as (_ & C & _). rewrite contains_colon in C. discriminate C. Qed.

(** Defining a value does nothing. *)
Lemma value_step n P c dm p x rs b pr o : inv P (c, dm) -> (forall k, In k P -> contains_char ":" k = false) ->
  exists dm', e_define (engine io ld (S n)) (c, dm) m (KKey (p +++ ":" +++ x)) rs b pr o = Ok (c, dm') /\ inv P (c, dm') /\ kept dm dm'.
Proof.
  intros V PC. set (s := p +++ ":" +++ x). cbn [engine e_define]. unfold define_body. cbn [fst snd].
  destruct (dget (KKey s) dm) as [[]|] eqn:D.
  - exfalso. pose proof (PC s (iv_pending _ _ V s D)) as X. unfold s in X. rewrite contains_colon in X. discriminate X.
  - exists dm. split; [reflexivity|]. split; [exact V|]. intros k K. exact K.
  - assert (N : streq s "" = false) by (unfold s; destruct p; reflexivity). rewrite N, key_get. unfold s at 1. rewrite no_colon_term. cbn [option_map].
    assert (G : forall k, k <> s -> dget (KKey k) (dend (KKey s) ((KKey s, true) :: dm)) = dget (KKey k) dm).
    { intros k K. cbn. destruct (streq_spec k s); [contradiction|reflexivity]. }
    exists (dend (KKey s) ((KKey s, true) :: dm)). split; [reflexivity|].
    split; [|intros k K; destruct (streq_spec k s) as [EK|NE]; [subst k; congruence|rewrite (G k NE); exact K]]. destruct V as [V1 V2 V3]. cbn [fst snd] in *. split; cbn [fst snd].
    + intros k K. destruct (streq_spec k s) as [->|NE]; [|rewrite (G k NE) in K; auto]. cbn in K. rewrite (proj2 (streq_true s s) eq_refl) in K. discriminate K.
    + intros k w v i d K A TX M DS. destruct (streq_spec k s) as [->|NE]; [unfold s in A; rewrite no_colon_term in A; discriminate A|]. rewrite (G k NE) in K. eauto.
    + intros k K. destruct (streq_spec k s) as [->|NE]; [apply V3; right; unfold s; apply no_colon_term|]. rewrite (G k NE) in K. apply V3, K.
Qed.

Lemma undefined_value P c dm p x act : inv P (c, dm) -> get_normal a (p +++ ":" +++ x) = None -> expand_defined c (p +++ ":" +++ x) act = None.
Proof.
  intros V N. unfold expand_defined, get_value. destruct (streq_spec (p +++ ":" +++ x) "@type") as [E|_].
  - exfalso. pose proof (contains_colon p x) as C. rewrite E in C. discriminate C.
  - pose proof (iv_same _ _ V (p +++ ":" +++ x) (or_intror (no_colon_term p x))) as X. cbn [fst] in X. rewrite N in X. rewrite X. reflexivity.
Qed.

Lemma expand_iri_abs n P c dm s rs o : inv P (c, dm) -> (forall k, In k P -> contains_char ":" k = false) -> absolute io s -> get_normal a s = None ->
  exists dm', expand_iri_with io (engine io ld (S n)) (c, dm) (NSome (XStr s)) false (Some (po_vocab o)) m rs o = Ok ((c, dm'), Some (TmId (IIri s))) /\ inv P (c, dm') /\ kept dm dm'.
Proof.
  intros V PC [p x NE C S' K B] NG. unfold expand_iri_with. rewrite colon_not_keyword, (kk_of_str_key _ (colon_not_keyword p x)).
  destruct (value_step n P c dm p x rs None false (with_no_override o) V PC) as (dm' & E & V' & G). rewrite E. cbn [bind fst snd].
  rewrite (undefined_value P c dm' p x _ V' NG), (colon_find p x C NE), B.
  destruct (streq_spec (p +++ ":" +++ x) "_:") as [EQ|_].
  { exfalso. assert (X : split_once ":" "_:" = Some (p, x)) by (rewrite <- EQ; apply colon_split, C). cbn in X. injection X as <- <-. discriminate S'. }
  unfold compact_iri_of. rewrite (colon_split p x C), S'. cbn [negb]. rewrite Bool.andb_false_r. cbn [andb]. unfold expand_absolute. rewrite K. cbn [bind].
  exists dm'. split; [reflexivity|]. split; [exact V'|exact G].
Qed.

(** Defining a term whose value expands to [i]. *)
Lemma normal_flat r c c1 dm dm1 k w v i d rs b o : assoc k l = Some w -> text w = Some v -> means io l v i -> described w i d -> get_normal c k = get_normal a k ->
  expand_iri_with io r (set_normal c k None, dm) (NSome (XStr v)) false (Some (po_vocab o)) m rs o = Ok ((c1, dm1), Some (TmId (IIri i))) ->
  define_normal io r (c, dm) m k rs b false o w = Ok ((set_normal c1 k (Some d), dm1), true).
Proof.
  intros A TX M DS PREV E1. destruct (F _ _ A) as (KE & KC & KS & _).
  destruct (means_colon _ _ _ _ M) as (p & x & EV & _ & _).
  assert (KW : kw_of_str v = None) by (rewrite EV; apply not_keyword, colon_not_keyword).
  assert (KL : is_keyword_like v = false) by (rewrite EV; apply colon_not_keyword).
  assert (CB : contains_between_boundaries k ":" = false) by (unfold contains_between_boundaries; unfold contains_char in KC; destruct (find_char ":" k); [discriminate KC|reflexivity]).
  assert (PR : forall d, define_protect o (get_normal c k) d = Ok d).
  { intros d'. unfold define_protect. destruct (po_override o); [reflexivity|]. rewrite PREV. destruct (get_normal a k) as [q|] eqn:Q; [|reflexivity].
    rewrite (NP k _ q A Q). reflexivity. }
  assert (VK : streq v k = false). { destruct (streq_spec v k) as [EQ|_]; [|reflexivity]. exfalso. subst v. rewrite <- EQ, contains_colon in KC. discriminate KC. }
  assert (MAP : forall sb e d', te_id e = Some (NSome (TIdTerm v)) ->
    define_mapping io r (set_normal c k None, dm) m k rs o sb e d' = Ok ((c1, dm1), Some (if sb then nd_set_prefix (nd_set_value d' (iri_term i)) (delimited i) else nd_set_value d' (iri_term i)))).
  { intros sb e d' E. unfold define_mapping. rewrite E. cbn [id_differs]. rewrite VK. cbn [negb]. unfold define_id. cbn [tid_str xp_of_tid]. rewrite KL. cbn [andb].
    unfold st in *. rewrite E1. cbn [bind fst snd id_valid negb]. rewrite CB, KC, KS. cbn [orb negb andb bind]. destruct sb; reflexivity. }
  assert (T1 : forall n e d', te_type e = Some (NSome (TTyKeyword n)) -> n = TKId \/ n = TKVocab -> define_type io r (set_normal c k None, dm) m rs o e d' = Ok ((set_normal c k None, dm), nd_set_typ d' (Some (if tkeyword_eqb n TKId then TyId else TyVocab)))).
  { intros n e d' E N. unfold define_type. rewrite E. destruct N as [-> | ->]; cbn; rewrite Bool.andb_false_r; reflexivity. }
  unfold define_normal. cbn [fst snd]. destruct DS as [s i|s ty lang dir co i y ct BT BC].
  - injection TX as ->. cbn [expanded_of te_reverse te_protected define_protected define_type te_type bind simple_term]. rewrite (MAP true); [|cbn; unfold tid_of_str; rewrite KW; reflexivity].
    cbn [bind]. unfold define_rest. cbn [define_container define_index define_context define_nest define_prefix define_propagate define_language te_container te_index te_context te_nest te_prefix te_propagate te_type te_language te_direction bind].
    rewrite PR. reflexivity.
  - injection TX as ->. cbn [expanded_of te_reverse te_protected define_protected bind simple_term].
    assert (TY : exists d2, define_type io r (set_normal c k None, dm) m rs o (MkTExp (Some (NSome (TIdTerm v))) ty None None None lang dir co None None None None) (nd_set_protected ndef_default false) = Ok ((set_normal c k None, dm), d2) /\ d2 = nd_set_typ ndef_default y).
    { destruct BT as [[-> ->]|[[-> ->]|[-> ->]]]; [eexists; split; [reflexivity|reflexivity]| |].
      - rewrite (T1 TKId); [|reflexivity|auto]. eexists. split; reflexivity.
      - rewrite (T1 TKVocab); [|reflexivity|auto]. eexists. split; reflexivity. }
    destruct TY as (d2 & -> & ->). cbn [bind]. rewrite (MAP false); [|reflexivity]. cbn [bind]. unfold define_rest.
    assert (CO : define_container o (MkTExp (Some (NSome (TIdTerm v))) ty None None None lang dir co None None None None) (nd_set_value (nd_set_typ ndef_default y) (iri_term i))
      = Ok (nd_set_container (nd_set_value (nd_set_typ ndef_default y) (iri_term i)) ct)).
    { destruct BC as [[-> ->]|[[-> ->]|[[-> ->]|[[-> ->]|[-> ->]]]]]; unfold define_container; cbn; rewrite ?Bool.andb_false_r; reflexivity. }
    rewrite CO. cbn [bind]. cbn [define_index define_context define_nest define_prefix define_propagate te_index te_context te_nest te_prefix te_propagate bind].
    rewrite PR. cbn [bind fst snd]. repeat f_equal. unfold define_language. cbn [te_type te_language te_direction]. destruct ty; [reflexivity|]. destruct lang, dir; reflexivity.
Qed.
Lemma described_fun w i d d' : described w i d -> described w i d' -> d = d'.
Proof.
  intros [s j|s ty lang dir co j y c BT BC] H; inversion H as [s' j' E|s' ty' lang' dir' co' j' y' c' BT' BC']; [reflexivity|]. subst.
  assert (y = y') by (unfold basic_type in *; intuition congruence). assert (c = c') by (unfold basic_container in *; intuition congruence). subst. reflexivity.
Qed.
Lemma define_flat n P c dm k w v i d rs b o : inv P (c, dm) -> ~ In k P -> assoc k l = Some w -> text w = Some v -> means io l v i -> described w i d ->
  (forall c dm, inv (k :: P) (c, dm) -> exists c' dm', rest_of c' = rest_of c /\
    expand_iri_with io (engine io ld n) (c, dm) (NSome (XStr v)) false (Some (po_vocab o)) m rs o = Ok ((c', dm'), Some (TmId (IIri i))) /\ inv (k :: P) (c', dm') /\ kept dm dm') ->
  exists c' dm', rest_of c' = rest_of c /\ e_define (engine io ld (S n)) (c, dm) m (KKey k) rs b false o = Ok (c', dm') /\ inv P (c', dm') /\ dget (KKey k) dm' = Some false /\ kept dm dm'.
Proof.
  intros V NI A TX M DS X. cbn [engine e_define]. unfold define_body. cbn [fst snd].
  destruct (dget (KKey k) dm) as [[]|] eqn:D; [exfalso; exact (NI (iv_pending _ _ V k D))|exists c, dm; repeat split; auto; try apply V; intros y Y; exact Y|].
  destruct (F _ _ A) as (KE & KC & KS & _). destruct (streq_spec k "") as [EQ|_]; [contradiction|]. rewrite key_get, A. cbn [option_map].
  assert (PREV : get_normal c k = get_normal a k) by (apply (iv_same _ _ V); left; exact D).
  assert (W : inv (k :: P) (set_normal c k None, (KKey k, true) :: dm)).
  { destruct V as [V1 V2 V3]. cbn [fst snd] in *. split; cbn [fst snd dget kk_eqb].
    - intros y Y. destruct (streq_spec y k) as [EY|N]; [subst y; left; reflexivity|right; auto].
    - intros y w' v' j d' Y AY TY MY DY. destruct (streq_spec y k) as [EY|N]; [subst y; discriminate Y|]. rewrite get_normal_set. destruct (streq_spec k y); [congruence|]. eauto.
    - intros y Y. rewrite get_normal_set. destruct (streq_spec y k) as [EY|N]; [subst y; destruct Y as [Y|Y]; congruence|]. destruct (streq_spec k y); [congruence|]. apply V3, Y. }
  destruct (X _ _ W) as (c1 & dm1 & R1 & E1 & W1 & KP).
  pose proof (normal_flat _ c c1 _ dm1 k w v i d rs b o A TX M DS PREV E1) as NF.
  match goal with |- context [define_normal ?a1 ?a2 ?a3 ?a4 ?a5 ?a6 ?a7 ?a8 ?a9 ?a0] => replace (define_normal a1 a2 a3 a4 a5 a6 a7 a8 a9 a0) with (@Ok (st * bool) cerr ((set_normal c1 k (Some d), dm1), true)) by (symmetry; exact NF) end. cbn [bind fst snd].
  eexists. eexists. split; [|split; [reflexivity|split; [|split]]].
  - cbn. unfold rest_of in *. cbn in *. exact R1.
  - destruct W1 as [W1 W2 W3]. cbn [fst snd] in *. split; cbn [fst snd dget dend kk_eqb].
    + intros y Y. destruct (streq_spec y k) as [EY|N]; [subst y; discriminate Y|]. destruct (W1 y Y) as [Z|Z]; [congruence|exact Z].
    + intros y w' v' j d' Y AY TY MY DY. rewrite get_normal_set. destruct (streq_spec y k) as [EY|N]; [subst y|].
      * rewrite streq_refl. rewrite A in AY. injection AY as <-. rewrite TX in TY. injection TY as <-. rewrite (means_fun _ _ _ _ _ MY M) in DY. rewrite (described_fun _ _ _ _ DY DS). reflexivity.
      * destruct (streq_spec k y); [congruence|]. eauto.
    + intros y Y. rewrite get_normal_set. destruct (streq_spec y k) as [EY|N]; [subst y; destruct Y as [Y|Y]; [discriminate Y|congruence]|]. destruct (streq_spec k y); [congruence|]. apply W3, Y.
  - cbn. rewrite streq_refl. reflexivity.
  - intros y Y. cbn [snd dget dend kk_eqb]. destruct (streq_spec y k) as [EY|N]; [reflexivity|]. apply KP. cbn [dget kk_eqb].
    destruct (streq_spec y k); [contradiction|exact Y].
Qed.

Lemma define_absolute n P c dm k w v d rs b o : inv P (c, dm) -> ~ In k P -> (forall k, In k P -> contains_char ":" k = false) -> assoc k l = Some w -> text w = Some v -> absolute io v -> described w v d ->
  exists c' dm', rest_of c' = rest_of c /\ e_define (engine io ld (S (S n))) (c, dm) m (KKey k) rs b false o = Ok (c', dm') /\ inv P (c', dm') /\ dget (KKey k) dm' = Some false /\ kept dm dm'.
Proof.
  intros V NI PC A TX AB DS. eapply define_flat; [exact V|exact NI|exact A|exact TX|apply means_iri, AB|exact DS|]. intros c1 dm1 V1.
  destruct (expand_iri_abs n (k :: P) c1 dm1 v rs o V1) as (dm2 & E & V2 & K).
  - intros y [Y|Y]; [subst y; destruct (F _ _ A) as (_ & C & _); exact C|auto].
  - exact AB.
  - exact (NV _ _ _ A TX).
  - exists c1, dm2. auto.
Qed.

Lemma define_term n c dm k v rs b o : inv [] (c, dm) -> assoc k l = Some v ->
  exists c' dm', rest_of c' = rest_of c /\ e_define (engine io ld (S (S (S n)))) (c, dm) m (KKey k) rs b false o = Ok (c', dm') /\ inv [] (c', dm') /\ dget (KKey k) dm' = Some false /\ kept dm dm'.
Proof.
  intros V A. destruct (F _ _ A) as (KE & KC & KS & s & i & d & TX & M & DS). destruct M as [s AB|p x s N U C S' R B AP AB D IO].
  - apply define_absolute with v s d; auto. intros y [].
  - eapply define_flat; [exact V|intros []|exact A|exact TX|eapply means_prefixed; eassumption|exact DS|]. intros c1 dm1 V1.
    assert (PC : forall y, In y [k] -> contains_char ":" y = false) by (intros y [Y|[]]; subst y; exact KC).
    assert (PK : p <> k). { intros ->. rewrite A in AP. injection AP as ->. injection TX as ->. pose proof (absolute_slashes _ _ _ _ AB eq_refl C). congruence. }
    unfold expand_iri_with. rewrite colon_not_keyword, (kk_of_str_key _ (colon_not_keyword p x)).
    destruct (value_step (S n) [k] c1 dm1 p x rs None false (with_no_override o) V1 PC) as (dm2 & E & V2 & G). rewrite E. cbn [bind fst snd].
    rewrite (undefined_value [k] c1 dm2 p x _ V2 (NV _ _ _ A TX)), (colon_find p x C N), B.
    destruct (streq_spec (p +++ ":" +++ x) "_:") as [EQ|_].
    { exfalso. assert (X : split_once ":" "_:" = Some (p, x)) by (rewrite <- EQ; apply colon_split, C). cbn in X. injection X as <- <-. apply U. reflexivity. }
    unfold compact_iri_of. rewrite (colon_split p x C), S', R. destruct (streq_spec p "_") as [Y|_]; [contradiction|]. cbn [negb andb].
    destruct (define_absolute n [k] c1 dm2 p (NSome (TSimple s)) s (ndef_of s (delimited s) false) rs None (with_no_override o) V2) as (c3 & dm3 & R3 & E3 & V3 & D3 & K3);
      [intros [Y|[]]; congruence|exact PC|exact AP|reflexivity|exact AB|constructor|].
    rewrite E3. cbn [bind fst snd]. unfold expand_prefixed.
    pose proof (iv_done _ _ V3 p _ s s _ D3 AP eq_refl (means_iri io l s AB) (described_simple s s)) as X. cbn [fst] in X. rewrite X.
    unfold ndef_of. cbn [nd_prefix nd_value nd_set_protected nd_set_prefix nd_set_value ndef_default iri_term]. rewrite D. cbn [bind term_str id_str].
    unfold id_of_string. rewrite IO. exists c3, dm3. split; [exact R3|]. split; [reflexivity|]. split; [exact V3|]. intros y Y. apply K3, G, Y.
Qed.

Lemma define_terms n rs b o : forall ks c dm, inv [] (c, dm) -> (forall k, In k ks -> assoc k l <> None) ->
  exists c' dm', rest_of c' = rest_of c /\ define_keys (engine io ld (S (S (S n)))) ks (c, dm) m rs b false o = Ok (c', dm') /\ inv [] (c', dm') /\
    (forall k, In k ks -> dget (KKey k) dm' = Some false) /\ kept dm dm'.
Proof.
  induction ks as [|k ks IH]; intros c dm V H.
  - exists c, dm. split; [reflexivity|]. split; [reflexivity|]. split; [exact V|]. split; [intros k []|intros y Y; exact Y].
  - destruct (assoc k l) as [v|] eqn:A; [|exfalso; exact (H k (or_introl eq_refl) A)].
    destruct (define_term n c dm k v rs b o V A) as (c1 & dm1 & R1 & E1 & V1 & D1 & K1).
    destruct (IH c1 dm1 V1) as (c2 & dm2 & R2 & E2 & V2 & D2 & K2); [intros y Y; apply H; right; exact Y|].
    exists c2, dm2. split; [congruence|]. cbn [define_keys]. unfold st in *. rewrite E1. cbn [bind]. split; [exact E2|]. split; [exact V2|].
    split; [|intros y Y; apply K2, K1, Y]. intros y [Y|Y]; [subst y; apply K2, D1|apply D2, Y].
Qed.

Lemma process_flat n b o : exists c, process_full io ld (S (S (S (S n)))) a (LOne (CEDef (def_of l))) b o = Ok c /\
  (forall k v s i d, assoc k l = Some v -> text v = Some s -> means io l s i -> described v i d -> get_normal c k = Some d) /\
  (forall k, assoc k l = None -> get_normal c k = get_normal a k) /\
  rest_of c = rest_of (if (negb (po_propagate o) && match ac_prev a with None => true | Some _ => false end)%bool then set_previous a a else a).
Proof.
  unfold process_full, process_context. remember (S (S (S n))) as N3 eqn:EN. cbn [engine e_process]. unfold process_body. cbn [propagate_of def_of cd_propagate bind entries_of process_entries].
  set (c0 := if (negb _ && _)%bool then _ else _). assert (I0 : inv [] (c0, [])).
  { split; cbn [fst snd]; [discriminate|discriminate|]. intros k _. unfold c0. destruct (_ && _)%bool; reflexivity. }
  unfold process_def. cbn [cd_version def_of import_of cd_import bind]. unfold process_merged, process_base, process_vocab, process_direction, process_language, m_field.
  cbn [def_of m_base m_imported or_else cd_base cd_vocab cd_direction cd_language bind]. destruct (ps_is_empty ps_new); cbn [bind].
  all: unfold define_all, m_field; cbn [def_of m_base m_imported or_else cd_type cd_protected bind m_keys cd_bindings app]; subst N3.
  all: destruct (define_terms n ps_new b o (map fst l) c0 [] I0) as (c & dm & R & E & V & D & _); [intros k K X; apply in_map_iff in K; destruct K as ([k' v] & <- & K);
    cbn in X; clear - K X; induction l as [|[z w] t IH]; [destruct K|cbn in X; destruct (streq_spec k' z) as [|NZ]; [discriminate X|]; destruct K as [K|K]; [congruence|auto]]|].
  all: match goal with |- context [define_keys ?r ?ks ?s0 ?m0 ?rs0 ?b0 ?p0 ?o0] => replace (define_keys r ks s0 m0 rs0 b0 p0 o0) with (@Ok st cerr (c, dm)) by (symmetry; exact E) end; cbn [bind fst]; exists c; split; [reflexivity|]; split; [|split; [|exact R]].
  all: try (intros k K; apply (iv_same _ _ V); right; exact K).
  all: intros k v s i d A TX M DS; apply (iv_done _ _ V k v s i d); auto; apply D.
  all: clear - A; induction l as [|[z w] t IH]; [discriminate A|]; cbn in A; destruct (streq_spec k z) as [->|NZ]; [left; reflexivity|right; auto].
Qed.
End Flat.

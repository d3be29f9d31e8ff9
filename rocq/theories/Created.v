(** What a processed context definition records for its terms, stated in the resulting
    context. *)
From Verif Require Import Prelude Str Keyword Enums LangTag Container Stack ContextSyntax Ctx Process ProcessRel
  Protected IriSpec Frame.

(** ** Specification *)

(** [c0] is the context [c] without the definition of [k]. *)
Definition without (k : string) (c c0 : actx) : Prop :=
  ac_base c0 = ac_base c /\ ac_vocab c0 = ac_vocab c /\ assoc k (ac_defs c0) = None /\
  forall j, j <> k -> assoc j (ac_defs c0) = assoc j (ac_defs c).

(** The options that matter. *)
Record setting : Type := MkSetting {
  st_io : iops;
  st_ctx : actx;           (* the resulting context *)
  st_10 : Prop;            (* processing mode 1.0 *)
  st_act : action;         (* what to do with vocabulary-relative IRIs *)
  st_ok : lcontext -> Prop (* the local contexts that can be processed *)
}.
Section Spec.
Variable S : setting.
Let io := st_io S.
Let c := st_ctx S.

(** [v] is what [x] expands to in the context [c]. *)
Definition maps_in (c : actx) (x : nullable expandable) (v : option term) : Prop :=
  expansion io c false (Some (st_act S)) x (match v with Some t => OTerm t | None => ODropped end).

(** The mapping of a term [k] without [@id], in [c]. *)
Inductive own_term (k : string) : term -> Prop :=
| own_blank : blank_ok io k = true -> own_term k (TmId (IBlank k))
| own_iri : blank_ok io k = false -> iri_ref_ok io k = true -> iri_ok io k = true -> own_term k (TmId (IIri k))
| own_path i c0 : blank_ok io k = false -> iri_ref_ok io k = true -> iri_ok io k = false -> contains_char "/" k = true ->
    without k c c0 -> maps_in c0 (NSome (XStr k)) (Some (TmId (IIri i))) -> own_term k (TmId (IIri i))
| own_vocab v : blank_ok io k = false ->
    (iri_ref_ok io k = false \/ iri_ok io k = false /\ contains_char "/" k = false) ->
    ac_vocab c = Some (TmId (IIri v)) -> iri_ok io (v +++ k) = true -> own_term k (TmId (IIri (v +++ k))).
(** [k] is written [p:x] and may be a compact IRI. *)
Definition written (k p x : string) : Prop :=
  k = p +++ ":" +++ x /\ contains_char ":" p = false /\ p <> "_" /\ (forall y, x <> "//" +++ y) /\ iri_ref_ok io k = true.
Inductive own_mapped (k : string) : term -> Prop :=
| own_prefix p x d i : written k p x -> assoc p (ac_defs c) = Some d ->
    i = match nd_value d with Some (TmId (IIri j)) => j | _ => "" end ->
    iri_ok io (i +++ x) = true -> own_mapped k (TmId (IIri (i +++ x)))
| own_no_prefix t : (forall p x, written k p x -> p <> "@type" -> assoc p (ac_defs c) = None) -> own_term k t -> own_mapped k t
| own_type_prefix x t : written k "@type" x -> own_mapped k t.

(** The IRI mapping of [k] for the value [i] of [@id]. *)
Inductive id_mapped (k : string) : option (nullable tid) -> option term -> Prop :=
| im_null : id_mapped k (Some NNull) None
| im_id i v : i <> TIdTerm k -> maps_in c (NSome (xp_of_tid i)) v -> v <> Some (TmKw KContext) ->
    (forall s, v <> Some (TmId (IInvalid s))) ->
    (contains_between_boundaries k ":" = true \/ contains_char "/" k = true ->
     exists c0, without k c c0 /\ maps_in c0 (NSome (XStr k)) v) ->
    id_mapped k (Some (NSome i)) v
| im_own i t : i = None \/ i = Some (NSome (TIdTerm k)) -> own_mapped k t -> id_mapped k i (Some t).

(** The type mapping. *)
Inductive type_mapped : option (nullable ttype) -> option ty -> Prop :=
| tm_none : type_mapped None None
| tm_dropped t : maps_in c (match t with NNull => NNull | NSome t => NSome (xp_of_ttype t) end) None ->
    type_mapped (Some t) None
| tm_some t x y : maps_in c (match t with NNull => NNull | NSome t => NSome (xp_of_ttype t) end) (Some x) ->
    (st_10 S -> x <> TmKw KJson /\ x <> TmKw KNone) ->
    match y with TyId => x = TmKw KId | TyJson => x = TmKw KJson | TyNone => x = TmKw KNone
               | TyVocab => x = TmKw KVocab | TyIri i => x = TmId (IIri i) end ->
    type_mapped (Some t) (Some y).

(** The definition [d] of the term [k] for the value [v], where [b] is the URL of the context,
    [p] the default of [@protected] and [prev] a previous protected definition. *)
Record created_normal (k : string) (v : nullable tdef) (b : option string) (p : bool) (prev : bool) (d : ndef) : Prop := {
  cr_value : id_mapped k (te_id (expanded_of v)) (nd_value d);
  cr_type : exists ty, type_mapped (te_type (expanded_of v)) ty /\
      (nd_typ d = ty /\ (c_contains (nd_container d) CKType = true -> ty = Some TyId \/ ty = Some TyVocab) \/
       ty = None /\ c_contains (nd_container d) CKType = true /\ nd_typ d = Some TyId);
  cr_reverse : nd_reverse d = false;
  cr_container : match te_container (expanded_of v) with
                 | Some x => c_from_syntax x = Some (nd_container d)
                 | None => nd_container d = CNone
                 end;
  cr_container10 : st_10 S -> forall x, te_container (expanded_of v) = Some x ->
      x = NSome (SOne CKIndex) \/ x = NSome (SOne CKLanguage) \/ x = NSome (SOne CKList) \/ x = NSome (SOne CKSet);
  cr_index : nd_index d = te_index (expanded_of v) /\
      (forall i, nd_index d = Some i -> c_contains (nd_container d) CKIndex = true /\ ~ st_10 S);
  cr_context : nd_context d = te_context (expanded_of v) /\
      nd_base_url d = match te_context (expanded_of v) with Some _ => b | None => None end /\
      (st_10 S -> te_context (expanded_of v) = None) /\
      (forall lc, te_context (expanded_of v) = Some lc -> st_ok S lc);
  cr_language : nd_language d = match te_type (expanded_of v) with Some _ => None | None => te_language (expanded_of v) end;
  cr_direction : nd_direction d = match te_type (expanded_of v) with Some _ => None | None => te_direction (expanded_of v) end;
  cr_nest : nd_nest d = te_nest (expanded_of v) /\ (st_10 S -> nd_nest d = None);
  cr_prefix : match te_prefix (expanded_of v) with
              | Some p => ~ st_10 S /\ contains_char ":" k = false /\ contains_char "/" k = false /\ nd_prefix d = p /\
                          (p = true -> exists t, nd_value d = Some t /\ forall kw, t <> TmKw kw)
              | None => nd_prefix d = true <->
                        (forall e, v <> NSome (TExpanded e)) /\ te_id (expanded_of v) <> Some (NSome (TIdTerm k)) /\
                        contains_char ":" k = false /\ contains_char "/" k = false /\
                        exists i, nd_value d = Some (TmId i) /\
                          match i with
                          | IBlank _ => True
                          | IIri s => exists q x, s = q +++ String x "" /\ In x (list_ascii_of_string ":/?#[]@")
                          | IInvalid _ => False
                          end
              end;
  cr_propagate : te_propagate (expanded_of v) = None;
  cr_protected : nd_protected d = (prev || match te_protected (expanded_of v) with Some q => q | None => p end)%bool /\
                 (st_10 S -> te_protected (expanded_of v) = None)
}.
(** The definition of a reverse property. *)
Record created_reverse (k : string) (e : texp lcontext) (rev : string) (p : bool) (d : ndef) : Prop := {
  rv_id : te_id e = None;
  rv_nest : te_nest e = None;
  rv_value : exists i, nd_value d = Some (TmId i) /\ (forall s, i <> IInvalid s) /\
      maps_in c (NSome (xp_of_str rev)) (Some (TmId i));
  rv_type : type_mapped (te_type e) (nd_typ d);
  rv_container : match te_container e with
                 | Some (NSome x) => c_from_syntax (NSome x) = Some (nd_container d) /\
                                     (nd_container d = CSet \/ nd_container d = CIndex)
                 | _ => nd_container d = CNone
                 end;
  rv_protected : nd_protected d = (match te_protected e with Some q => q | None => p end) /\
                 (st_10 S -> te_protected e = None);
  rv_others : nd_reverse d = true /\ nd_prefix d = false /\ nd_base_url d = None /\ nd_context d = None /\
      nd_direction d = None /\ nd_index d = None /\ nd_language d = None /\ nd_nest d = None
}.

(** [@id] or [@reverse] has the form of a keyword without being one: the term is ignored. *)
Definition ignored_term (e : texp lcontext) (k : string) : Prop :=
  match te_reverse e with
  | Some rev => is_keyword_like rev = true
  | None => exists s, te_id e = Some (NSome (TIdTerm s)) /\ s <> k /\ is_keyword_like s = true
  end.

(** The state of the term [k] whose entry is [v], [prev] being its previous definition. *)
Definition created (k : string) (v : nullable tdef) (b : option string) (p : bool) (ov : bool) (prev : option ndef) : Prop :=
  let e := expanded_of v in
  (ignored_term e k /\ assoc k (ac_defs c) = None) \/
  (~ ignored_term e k /\ exists d, assoc k (ac_defs c) = Some d /\
    match te_reverse e with
    | Some rev => created_reverse k e rev p d
    | None => created_normal k v b p (negb ov && match prev with Some q => nd_protected q | None => false end) d
    end).
End Spec.

(** ** Terms being defined are not changed by the definition of others *)
Definition started (s : st) (k : string) : Prop := dget (KKey k) (snd s) <> None.

Definition ext (s s' : st) : Prop :=
  forall k, started s k -> get_normal (fst s') k = get_normal (fst s) k /\
                       dget (KKey k) (snd s') = dget (KKey k) (snd s).
Definition srel (s s' : st) : Prop := same_settings (fst s) (fst s') /\ ext s s'.
Lemma srel_started s s' k : srel s s' -> started s k -> started s' k.
Proof. unfold started. intros [_ H] HS. destruct (H k HS) as [_ E]. congruence. Qed.

Lemma srel_refl s : srel s s.
Proof. split; [unfold same_settings; auto 10|]. intros k H. split; reflexivity. Qed.
Lemma ext_trans a b c : ext a b -> ext b c -> ext a c.
Proof.
  intros A2 B2 k H. destruct (A2 k H) as [E H']. destruct (B2 k) as [E' H'']; [|split; congruence].
  unfold started in *. congruence.
Qed.
Lemma srel_trans a b c : srel a b -> srel b c -> srel a c.
Proof.
  intros [A1 A2] [B1 B2]. split; [unfold same_settings in *; intuition congruence|].
  eapply ext_trans; eassumption.
Qed.

Section Srel.
Variable io : iops.
Variable ld : loader.
Variable m : merged.

Lemma define_started n k0 : forall s k rs b p o s', e_define (engine io ld n) s m k rs b p o = Ok s' ->
  started s k0 -> get_normal (fst s') k0 = get_normal (fst s) k0 /\ dget (KKey k0) (snd s') = dget (KKey k0) (snd s).
Proof.
  induction n as [|n IH]; intros s k rs b p o s' H; [discriminate|]. cbn in H.
  destruct (kk_eqb_spec k (KKey k0)) as [->|NK].
  - unfold define_body in H. intros HS. unfold started in HS.
    destruct (dget (KKey k0) (snd s)) as [[]|] eqn:G; [discriminate| |congruence].
    injection H as <-. split; congruence.
  - revert H. pose (R := fun s s' => started s k0 -> get_normal (fst s') k0 = get_normal (fst s) k0 /\ dget (KKey k0) (snd s') = dget (KKey k0) (snd s)).
    intros H. refine (define_rel_body io R m _ _ (fun k => k <> KKey k0) _ _ _ (engine io ld n) rs o _ _ s k b p s' NK H); unfold R, started; cbn [fst snd].
    + auto.
    + intros x y z F G Hx. destruct (F Hx) as [E1 H1]. destruct G as [E2 H2]; [congruence|]. split; congruence.
    + intros c d k' N G X. split; [reflexivity|]. rewrite dget_cons. destruct (kk_eqb_spec (KKey k0) k'); congruence.
    + intros x k' N X. split; [reflexivity|]. rewrite dget_dend. destruct (kk_eqb_spec (KKey k0) k'); congruence.
    + intros c d k' v N _ X. split; [|reflexivity]. rewrite get_normal_set.
      destruct (streq_spec k' k0); [congruence|reflexivity].
    + intros c d t c' E X. unfold define_type_term in E. destruct (is_10 o); [discriminate|]. injection E as <-. split; reflexivity.
    + intros x k' x' E. eapply IH, E.
Qed.

Lemma define_srel n s k rs b p o s' : e_define (engine io ld n) s m k rs b p o = Ok s' -> srel s s'.
Proof. intros H. split; [eapply define_settings, H|]. intros k0. eapply define_started, H. Qed.

Lemma normal_started n s k0 k rs b p o v s2 ended :
  define_normal io (engine io ld n) s m k rs b p o v = Ok (s2, ended) -> started s k0 -> started s2 k0.
Proof.
  intros E S0.
  pose (R := fun s s' => started s k0 -> started s' k0).
  assert (D : forall s k s', e_define (engine io ld n) s m (KKey k) rs None false (with_no_override o) = Ok s' -> R s s').
  { intros x k' x' E'. unfold R, started. intros HX. destruct (define_started _ k0 _ _ _ _ _ _ _ E' HX). congruence. }
  assert (Rr : forall s, R s s) by (unfold R; auto). assert (Rt : forall a b c, R a b -> R b c -> R a c) by (unfold R; auto).
  unfold define_normal in E. apply bind_ok in E. destruct E as (d & _ & E).
  apply bind_ok in E. destruct E as ([s3 d3] & E3 & E).
  apply (rel_type io _ R m rs Rr Rt o D) in E3. specialize (E3 S0).
  destruct (te_reverse (expanded_of v)) as [rev|].
  - unfold define_reverse in E. destruct (_ || _)%bool; [discriminate|].
    destruct (is_keyword_like rev); [injection E as <- _; exact E3|].
    apply bind_ok in E. destruct E as ([s4 t] & E4 & E).
    apply (rel_expand io _ R m rs Rr Rt o D) in E4.
    destruct t as [[]|]; try discriminate. destruct (id_valid i); [|discriminate].
    apply bind_ok in E. destruct E as (d5 & _ & E). injection E as <- _. apply E4, E3.
  - apply bind_ok in E. destruct E as ([s4 d4] & E4 & E).
    apply (rel_mapping io _ R m rs Rr Rt o D k) in E4.
    2:{ intros x. unfold R, started. cbn [snd]. rewrite dget_dend. destruct (kk_eqb_spec (KKey k0) (KKey k)); congruence. }
    destruct d4 as [d4|]; [|injection E as <- _; apply E4, E3].
    apply bind_ok in E. destruct E as (s5 & E5 & E). injection E as <- _.
    apply rest_state in E5. destruct E5 as (d5 & _ & ->). apply E4, E3.
Qed.

(** The term itself is marked afterwards, and was not pending before. *)
Lemma define_self n s k rs b p o s' : e_define (engine io ld n) s m (KKey k) rs b p o = Ok s' ->
  started s' k /\ dget (KKey k) (snd s) <> Some true.
Proof.
  destruct n as [|n]; [discriminate|]. cbn. unfold define_body. intros H. unfold started.
  destruct (dget (KKey k) (snd s)) as [[]|] eqn:G; [discriminate| |].
  - injection H as <-. split; congruence.
  - split; [|discriminate]. destruct (streq k ""); [discriminate|].
    destruct (m_get m (KKey k)) as [[t|v|]|].
    + apply bind_ok in H. destruct H as (c & _ & H). injection H as <-. cbn [snd]. rewrite dget_dend, kk_eqb_refl. discriminate.
    + apply bind_ok in H. destruct H as ([s2 ended] & E & H).
      assert (started s2 k) as S2.
      { eapply normal_started; [exact E|]. unfold started. cbn [snd]. rewrite dget_cons, kk_eqb_refl. discriminate. }
      destruct ended; injection H as <-; [|exact S2]. cbn [snd]. rewrite dget_dend, kk_eqb_refl. discriminate.
    + discriminate.
    + injection H as <-. cbn [snd]. rewrite dget_dend, kk_eqb_refl. discriminate.
Qed.

Lemma expand_srel n s v dr vo rs o s' t : expand_iri_with io (engine io ld n) s v dr vo m rs o = Ok (s', t) -> srel s s'.
Proof. apply (rel_expand io _ srel m rs srel_refl srel_trans o). intros x k x'. apply define_srel. Qed.

(** ** The expansion made during the processing is the expansion in any later context *)

(** Mentioning the term [j] in the state [s] is an error: it is pending, or it is an undefined
    compact IRI whose prefix is pending. *)
Definition blocked (s : st) (j : string) : Prop :=
  dget (KKey j) (snd s) = Some true \/
  (started s j /\ get_normal (fst s) j = None /\ colon_inside j = true /\ blank_ok io j = false /\ j <> "_:" /\
   exists p x, compact_iri_of io j = Some (p, x) /\ dget (KKey p) (snd s) = Some true).

Lemma blocked_ext s s' j : ext s s' -> blocked s j -> blocked s' j.
Proof.
  intros H [B|(B1 & B2 & B3 & B4 & B5 & p & x & B6 & B7)].
  - left. destruct (H j) as [_ E]; [unfold started; congruence|]. congruence.
  - right. destruct (H j B1) as [E1 E2]. destruct (H p) as [_ E3]; [unfold started; congruence|].
    split; [unfold started in *; congruence|]. split; [congruence|]. repeat split; auto. exists p, x. split; [exact B6|congruence].
Qed.

Lemma prefix_not_blocked s p x k : compact_iri_of io k = Some (p, x) -> dget (KKey p) (snd s) <> Some true -> ~ blocked s p.
Proof.
  intros C N [B|(_ & _ & B & _)]; [contradiction|]. unfold compact_iri_of in C.
  destruct (split_once ":" k) as [[a b]|] eqn:SO; [|discriminate]. destruct (_ && _)%bool; [|discriminate]. injection C as -> ->.
  apply split_once_sound in SO. destruct SO as [_ SO]. unfold colon_inside in B. unfold contains_char in SO.
  destruct (find_char ":" p); discriminate.
Qed.

Definition agrees (s s' : st) (c : actx) : Prop :=
  same_settings (fst s') c /\
  forall k, started s' k -> ~ blocked s k -> get_normal c k = get_normal (fst s') k.

Lemma tail_agree c c' s dr vo : ac_base c = ac_base c' -> ac_vocab c = ac_vocab c' ->
  expand_tail io c s dr vo = expand_tail io c' s dr vo.
Proof. intros E F. unfold expand_tail. rewrite E, F. reflexivity. Qed.
Lemma absolute_agree c c' s dr vo : ac_base c = ac_base c' -> ac_vocab c = ac_vocab c' ->
  expand_absolute io c s dr vo = expand_absolute io c' s dr vo.
Proof. intros E F. unfold expand_absolute. rewrite (tail_agree c c') by assumption. reflexivity. Qed.
Lemma defined_agree c c' s vo : s <> "@type" -> get_normal c s = get_normal c' s -> expand_defined c s vo = expand_defined c' s vo.
Proof. intros N E. unfold expand_defined, get_value. apply streq_false in N. rewrite N, E. reflexivity. Qed.
Lemma prefixed_agree c c' p x : get_normal c p = get_normal c' p -> expand_prefixed io c p x = expand_prefixed io c' p x.
Proof. intros E. unfold expand_prefixed. rewrite E. reflexivity. Qed.

Lemma expand_agree n s v dr vo rs o s' t c :
  expand_iri_with io (engine io ld n) s v dr vo m rs o = Ok (s', t) -> agrees s s' c ->
  expand_iri_simple io c v dr vo = Ok t.
Proof.
  intros H [HS HA]. unfold expand_iri_with in H. unfold expand_iri_simple.
  destruct v as [|[k|x]]; try (injection H as _ <-; reflexivity).
  destruct (is_keyword_like x) eqn:K; [injection H as _ <-; reflexivity|].
  rewrite (kk_of_str_key _ K) in H. apply bind_ok in H. destruct H as (s1 & E1 & H).
  assert (x <> "@type") as NT by (intros ->; discriminate K).
  pose proof (define_self _ _ _ _ _ _ _ _ E1) as [D1 P1]. apply define_srel in E1.
  assert (NB : ~ blocked s x).
  { intros [B|(B1 & B2 & B3 & B4 & B5 & p & y & B6 & B7)]; [contradiction|].
    destruct E1 as [_ E1]. destruct (E1 x B1) as [G1 _]. destruct (E1 p) as [_ G2]; [unfold started; congruence|].
    unfold expand_defined, get_value in H. apply streq_false in NT. rewrite NT, G1, B2 in H. cbn [option_map] in H.
    apply streq_false in B5. rewrite B3, B4, B5, B6 in H.
    apply bind_ok in H. destruct H as (s2 & E2 & _). apply define_self in E2. destruct E2 as [_ E2]. congruence. }
  assert (X : srel s1 s' -> expand_defined c x vo = expand_defined (fst s1) x vo).
  { intros SR. apply defined_agree; [exact NT|]. pose proof (srel_started _ _ x SR D1) as S1. destruct SR as [_ SR].
    destruct (SR x D1) as [G _]. rewrite <- G. apply HA; assumption. }
  assert (T : expand_tail io c x dr vo = expand_tail io (fst s') x dr vo /\ expand_absolute io c x dr vo = expand_absolute io (fst s') x dr vo).
  { split; [apply tail_agree|apply absolute_agree]; unfold same_settings in HS; intuition congruence. }
  destruct T as [T1 T2].
  destruct (expand_defined (fst s1) x vo) as [t'|] eqn:ED.
  { injection H as <- <-. rewrite X by apply srel_refl. reflexivity. }
  destruct (colon_inside x).
  2:{ apply bind_ok in H. destruct H as (t' & E & H). injection H as <- <-. rewrite X by apply srel_refl. rewrite T1. exact E. }
  destruct (blank_ok io x); [injection H as <- <-; rewrite X by apply srel_refl; reflexivity|].
  destruct (streq x "_:"); [injection H as <- <-; rewrite X by apply srel_refl; reflexivity|].
  destruct (compact_iri_of io x) as [[p y]|] eqn:CI.
  2:{ apply bind_ok in H. destruct H as (t' & E & H). injection H as <- <-. rewrite X by apply srel_refl. rewrite T2. exact E. }
  apply bind_ok in H. destruct H as (s2 & E2 & H).
  pose proof (define_self _ _ _ _ _ _ _ _ E2) as [D2 P2]. apply define_srel in E2.
  assert (s2 = s') as ->.
  { destruct (expand_prefixed io (fst s2) p y); [injection H as <- _; reflexivity|].
    apply bind_ok in H. destruct H as (t' & E & H). injection H as <- _. reflexivity. }
  rewrite (X E2). rewrite (prefixed_agree c (fst s')).
  2:{ apply HA; [exact D2|]. eapply prefix_not_blocked; [exact CI|]. intros G. apply P2. destruct E1 as [_ E1].
      destruct (E1 p); [unfold started; congruence|congruence]. }
  destruct (expand_prefixed io (fst s') p y); [injection H as <-; reflexivity|].
  apply bind_ok in H. destruct H as (t' & E & H). injection H as <-. rewrite T2. exact E.
Qed.
End Srel.

(** ** The entries other than the mapping *)
Lemma last_char_spec s x : last_char s = Some x <-> exists q, s = q +++ String x "".
Proof.
  split.
  - induction s as [|a s IH]; [discriminate|]. cbn [last_char]. destruct s as [|b s].
    + intros H. injection H as ->. exists "". reflexivity.
    + intros H. destruct (IH H) as [q ->]. exists (String a q). reflexivity.
  - intros [q ->]. apply last_char_app.
Qed.
Lemma gen_delim_spec t : is_gen_delim_or_blank t = true <-> exists i, t = TmId i /\
  match i with
  | IBlank _ => True
  | IIri s => exists q x, s = q +++ String x "" /\ In x (list_ascii_of_string ":/?#[]@")
  | IInvalid _ => False
  end.
Proof.
  unfold is_gen_delim_or_blank. split.
  - destruct t as [|[s|s|s]|]; try discriminate; intros H; eexists; (split; [reflexivity|]); [|exact I].
    destruct (last_char s) as [x|] eqn:L; [|discriminate]. apply last_char_spec in L. destruct L as [q ->].
    exists q, x. split; [reflexivity|]. unfold is_gen_delim in H. apply existsb_exists in H. destruct H as (y & Hy & E).
    apply Ascii.eqb_eq in E. subst y. exact Hy.
  - intros (i & -> & H). destruct i as [s|s|s]; [|reflexivity|contradiction].
    destruct H as (q & x & -> & H). rewrite last_char_app. unfold is_gen_delim. apply existsb_exists.
    exists x. split; [exact H|apply Ascii.eqb_refl].
Qed.

Lemma container_spec o e d d1 : define_container o e d = Ok d1 ->
  nd_value d1 = nd_value d /\ nd_prefix d1 = nd_prefix d /\ nd_protected d1 = nd_protected d /\ nd_reverse d1 = nd_reverse d /\
  nd_base_url d1 = nd_base_url d /\ nd_context d1 = nd_context d /\ nd_direction d1 = nd_direction d /\
  nd_index d1 = nd_index d /\ nd_language d1 = nd_language d /\ nd_nest d1 = nd_nest d /\
  match te_container e with Some x => c_from_syntax x = Some (nd_container d1) | None => nd_container d1 = nd_container d end /\
  (is_10 o = true -> forall x, te_container e = Some x ->
      x = NSome (SOne CKIndex) \/ x = NSome (SOne CKLanguage) \/ x = NSome (SOne CKList) \/ x = NSome (SOne CKSet)) /\
  (te_container e = None /\ nd_typ d1 = nd_typ d \/
   te_container e <> None /\
   (nd_typ d1 = nd_typ d /\ (c_contains (nd_container d1) CKType = true -> nd_typ d = Some TyId \/ nd_typ d = Some TyVocab) \/
   nd_typ d = None /\ c_contains (nd_container d1) CKType = true /\ nd_typ d1 = Some TyId)).
Proof.
  unfold define_container. destruct (te_container e) as [x|].
  2:{ intros H. injection H as <-. repeat split; try discriminate. left. split; reflexivity. }
  destruct (is_10 o && _)%bool eqn:T; [discriminate|].
  destruct (c_from_syntax x) as [c|] eqn:C; [|discriminate].
  assert (X : is_10 o = true -> forall y, Some x = Some y ->
      y = NSome (SOne CKIndex) \/ y = NSome (SOne CKLanguage) \/ y = NSome (SOne CKList) \/ y = NSome (SOne CKSet)).
  { intros E y Y. injection Y as <-. rewrite E in T. destruct x as [|[[]|]]; try discriminate T; auto. }
  destruct (c_contains c CKType) eqn:CT.
  - cbn [nd_typ nd_set_container]. destruct (nd_typ d) as [[]|] eqn:Ty; try discriminate; intros H; injection H as <-; cbn; repeat split; auto;
      right; (split; [discriminate|]); auto.
  - intros H. injection H as <-. cbn. repeat split; auto. right. split; [discriminate|]. left. split; [reflexivity|]. congruence.
Qed.

Lemma index_spec io c o e d d1 : define_index io c o e d = Ok d1 ->
  d1 = match te_index e with Some i => nd_set_index d (Some i) | None => d end /\
  (te_index e <> None -> c_contains (nd_container d) CKIndex = true /\ is_10 o = false).
Proof.
  unfold define_index. destruct (te_index e) as [i|]; [|intros H; injection H as <-; split; [reflexivity|congruence]].
  destruct (c_contains (nd_container d) CKIndex) eqn:C; [|discriminate]. destruct (is_10 o) eqn:T; [discriminate|]. cbn [negb orb].
  intros H. apply bind_ok in H. destruct H as (t & _ & H). destruct t as [[|[]|]|]; try discriminate.
  injection H as <-. auto.
Qed.
Lemma context_spec r c rs b o e d d1 : define_context r c rs b o e d = Ok d1 ->
  d1 = match te_context e with Some lc => nd_set_context d lc b | None => d end /\ (is_10 o = true -> te_context e = None) /\
  (forall lc, te_context e = Some lc -> exists c1, e_process r c lc rs b (with_override o) = Ok c1).
Proof.
  unfold define_context. destruct (te_context e) as [lc|]; [|intros H; injection H as <-; repeat split; auto; discriminate].
  destruct (is_10 o); [discriminate|]. destruct (e_process r c lc rs b (with_override o)) as [c1|[]] eqn:E; try discriminate.
  intros H. injection H as <-. split; [reflexivity|]. split; [discriminate|]. intros lc' X. injection X as <-. eauto.
Qed.
Lemma nest_spec o e d d1 : define_nest o e d = Ok d1 ->
  d1 = match te_nest e with Some n => nd_set_nest d (Some n) | None => d end /\ (is_10 o = true -> te_nest e = None).
Proof.
  unfold define_nest. destruct (te_nest e); [|intros H; injection H as <-; auto].
  destruct (is_10 o); [discriminate|]. intros H. injection H as <-. split; [reflexivity|discriminate].
Qed.
Lemma prefix_spec k o e d d1 : define_prefix k o e d = Ok d1 ->
  match te_prefix e with
  | None => d1 = d
  | Some p => d1 = nd_set_prefix d p /\ is_10 o = false /\ contains_char ":" k = false /\ contains_char "/" k = false /\
      (p = true -> exists t, nd_value d = Some t /\ forall kw, t <> TmKw kw)
  end.
Proof.
  unfold define_prefix. destruct (te_prefix e) as [p|]; [|intros H; injection H as <-; reflexivity].
  destruct (contains_char ":" k); [discriminate|]. destruct (contains_char "/" k); [discriminate|].
  destruct (is_10 o); [discriminate|]. cbn [orb]. destruct p.
  - destruct (nd_value d) as [t|]; [|discriminate]. destruct (term_is_kw t) eqn:K; [discriminate|].
    intros H. injection H as <-. repeat split. intros _. exists t. split; [reflexivity|]. intros kw ->. discriminate K.
  - intros H. injection H as <-. repeat split. discriminate.
Qed.
Lemma protect_spec o prev d d1 : define_protect o prev d = Ok d1 ->
  d1 = nd_set_protected d ((negb (po_override o) && match prev with Some q => nd_protected q | None => false end) || nd_protected d).
Proof.
  unfold define_protect. destruct (po_override o); [intros H; injection H as <-; destruct d; reflexivity|].
  destruct prev as [q|]; [|intros H; injection H as <-; destruct d; reflexivity]. cbn [negb andb].
  destruct (nd_protected q); [|intros H; injection H as <-; destruct d; reflexivity].
  destruct (modulo_protected_eqb d q); [|discriminate]. intros H. injection H as <-. reflexivity.
Qed.

Lemma rest_spec io r s0 k rs b o e prev d s1 : define_rest io r s0 k rs b o e prev d = Ok s1 ->
  nd_base_url d = None -> nd_context d = None -> nd_container d = CNone -> nd_direction d = None ->
  nd_index d = None -> nd_language d = None -> nd_nest d = None ->
  exists d1, s1 = (set_normal (fst s0) k (Some d1), snd s0) /\
  nd_value d1 = nd_value d /\ nd_reverse d1 = nd_reverse d /\
  match te_container e with Some x => c_from_syntax x = Some (nd_container d1) | None => nd_container d1 = CNone end /\
  (is_10 o = true -> forall x, te_container e = Some x ->
      x = NSome (SOne CKIndex) \/ x = NSome (SOne CKLanguage) \/ x = NSome (SOne CKList) \/ x = NSome (SOne CKSet)) /\
  (nd_typ d1 = nd_typ d /\ (c_contains (nd_container d1) CKType = true -> nd_typ d = Some TyId \/ nd_typ d = Some TyVocab) \/
   nd_typ d = None /\ c_contains (nd_container d1) CKType = true /\ nd_typ d1 = Some TyId) /\
  (nd_index d1 = te_index e /\ (forall i, nd_index d1 = Some i -> c_contains (nd_container d1) CKIndex = true /\ is_10 o = false)) /\
  (nd_context d1 = te_context e /\
      nd_base_url d1 = match te_context e with Some _ => b | None => None end /\ (is_10 o = true -> te_context e = None) /\
      (forall lc, te_context e = Some lc -> exists c1 c2, e_process r c2 lc rs b (with_override o) = Ok c1)) /\
  nd_language d1 = match te_type e with Some _ => None | None => te_language e end /\
  nd_direction d1 = match te_type e with Some _ => None | None => te_direction e end /\
  (nd_nest d1 = te_nest e /\ (is_10 o = true -> nd_nest d1 = None)) /\
  match te_prefix e with
  | Some p => is_10 o = false /\ contains_char ":" k = false /\ contains_char "/" k = false /\ nd_prefix d1 = p /\
              (p = true -> exists t, nd_value d1 = Some t /\ forall kw, t <> TmKw kw)
  | None => nd_prefix d1 = nd_prefix d
  end /\
  te_propagate e = None /\
  nd_protected d1 = ((negb (po_override o) && match prev with Some q => nd_protected q | None => false end) || nd_protected d)%bool.
Proof.
  intros H B C1 C2 D I L N. unfold define_rest in H.
  apply bind_ok in H. destruct H as (d1 & E1 & H). apply bind_ok in H. destruct H as (d2 & E2 & H).
  apply bind_ok in H. destruct H as (d3 & E3 & H). apply bind_ok in H. destruct H as (d4 & E4 & H).
  apply bind_ok in H. destruct H as (d5 & E5 & H). apply bind_ok in H. destruct H as (d6 & E6 & H).
  apply bind_ok in H. destruct H as (d7 & E7 & H). injection H as <-.
  apply container_spec in E1. apply index_spec in E2. apply context_spec in E3. apply nest_spec in E4.
  apply prefix_spec in E5. apply protect_spec in E7.
  unfold define_propagate in E6. destruct (te_propagate e) as [|] eqn:PG; [discriminate|]. injection E6 as <-.
  destruct E1 as (A1 & A2 & A3 & A4 & A5 & A6 & A7 & A8 & A9 & A10 & A11 & A12 & A13).
  destruct E2 as [-> E2]. destruct E3 as (-> & E3 & E3'). destruct E4 as [E4 E4'].
  rewrite B in A5. rewrite C1 in A6. rewrite C2 in A11. rewrite D in A7. rewrite I in A8. rewrite L in A9. rewrite N in A10.
  assert (X1 : nd_container d4 = nd_container d1 /\ nd_value d4 = nd_value d /\ nd_reverse d4 = nd_reverse d /\ nd_typ d4 = nd_typ d1 /\
    nd_prefix d4 = nd_prefix d /\ nd_protected d4 = nd_protected d /\
    nd_index d4 = te_index e /\ nd_context d4 = te_context e /\
    nd_base_url d4 = match te_context e with Some _ => b | None => None end /\
    nd_nest d4 = te_nest e /\
    nd_language d4 = match te_type e with Some _ => None | None => te_language e end /\
    nd_direction d4 = match te_type e with Some _ => None | None => te_direction e end).
  { rewrite E4. unfold define_language.
    destruct (te_nest e), (te_type e), (te_language e), (te_direction e), (te_index e), (te_context e); cbn; auto 20. }
  destruct X1 as (Y1 & Y2 & Y3 & Y4 & Y5 & Y6 & Y7 & Y8 & Y9 & Y10 & Y11 & Y12). clear E4.
  assert (X2 : nd_container d5 = nd_container d4 /\ nd_value d5 = nd_value d4 /\ nd_reverse d5 = nd_reverse d4 /\ nd_typ d5 = nd_typ d4 /\
     nd_protected d5 = nd_protected d4 /\ nd_index d5 = nd_index d4 /\ nd_context d5 = nd_context d4 /\ nd_base_url d5 = nd_base_url d4 /\
     nd_nest d5 = nd_nest d4 /\ nd_language d5 = nd_language d4 /\ nd_direction d5 = nd_direction d4).
  { destruct (te_prefix e); [destruct E5 as [-> _]|subst d5]; cbn; auto 20. }
  destruct X2 as (Z1 & Z2 & Z3 & Z4 & Z5 & Z6 & Z7 & Z8 & Z9 & Z10 & Z11).
  assert (C7 : nd_container d7 = nd_container d1) by (rewrite E7; cbn; congruence).
  exists d7. split; [reflexivity|].
  assert (T7 : nd_typ d7 = nd_typ d1) by (rewrite E7; cbn; congruence).
  rewrite C7, T7. rewrite E7.
  cbn [nd_value nd_reverse nd_typ nd_index nd_context nd_base_url nd_language nd_direction nd_nest nd_prefix nd_protected nd_set_protected].
  split; [congruence|]. split; [congruence|]. split; [exact A11|]. split; [exact A12|].
  split.
  { destruct A13 as [[A A']|[_ A]]; [|exact A]. left. split; [exact A'|]. rewrite A in A11. rewrite A11. discriminate. }
  split. { split; [congruence|]. intros i Hi. apply E2. congruence. }
  split. { split; [congruence|]. split; [congruence|]. split; [exact E3|]. intros lc X. destruct (E3' lc X) as [c1 X']. eauto. }
  split; [congruence|]. split; [congruence|]. split. { split; [congruence|]. intros T. rewrite <- (E4' T). congruence. }
  split. { destruct (te_prefix e) as [p|].
    - destruct E5 as (-> & T & K1 & K2 & V). cbn. auto.
    - subst d5. congruence. }
  split; [reflexivity|]. congruence.
Qed.

(** ** States and later contexts *)

(** [c] comes after the state [s], reached from the state [a] in which the definition of [k]
    began: the terms on which [k] can depend have in [c] the same definition as in [s]. *)
Definition stable (io : iops) (a : st) (k : string) (s : st) (c : actx) : Prop :=
  same_settings (fst s) c /\
  forall j, started s j -> j = k \/ ~ blocked io a j -> get_normal c j = get_normal (fst s) j.

(** As [srel] but without control of the term [k0] (whose definition is in progress). *)
Definition srelx (k0 : string) (s s' : st) : Prop :=
  same_settings (fst s) (fst s') /\
  forall k, k <> k0 -> started s k -> get_normal (fst s') k = get_normal (fst s) k /\
                       dget (KKey k) (snd s') = dget (KKey k) (snd s).
Lemma srelx_srel k0 s s' : srel s s' -> srelx k0 s s'.
Proof. intros [A B]. split; auto. Qed.
Lemma srelx_trans k0 a b c : srelx k0 a b -> srelx k0 b c -> srelx k0 a c.
Proof.
  intros [A1 A2] [B1 B2]. split; [unfold same_settings in *; intuition congruence|].
  intros k N H. destruct (A2 k N H) as [E H']. destruct (B2 k N) as [E' H'']; [|split; congruence].
  unfold started in *. congruence.
Qed.
Lemma srelx_set k0 c d v : srelx k0 (c, d) (set_normal c k0 v, d).
Proof.
  split; [unfold same_settings; auto 10|]. intros k N _. split; [|reflexivity]. cbn [fst].
  rewrite get_normal_set. destruct (streq_spec k0 k); [congruence|reflexivity].
Qed.
Lemma srelx_end k0 c d : srelx k0 (c, d) (c, dend (KKey k0) d).
Proof.
  split; [unfold same_settings; auto 10|]. intros k N _. split; [reflexivity|]. cbn [snd].
  rewrite dget_dend. destruct (kk_eqb_spec (KKey k) (KKey k0)); congruence.
Qed.

Lemma agrees_from io a k0 s s1 s2 c : srelx k0 s1 s2 -> stable io a k0 s2 c -> dget (KKey k0) (snd s) = Some true ->
  ext a s -> agrees io s s1 c.
Proof.
  intros [A1 A2] [B1 B2] G EX. split; [unfold same_settings in *; intuition congruence|].
  intros k HK NP. assert (k <> k0) as N by (intros ->; apply NP; left; exact G).
  destruct (A2 k N HK) as [E D]. rewrite <- E. apply B2; [unfold started in *; congruence|].
  right. intros B. apply NP. eapply blocked_ext; eassumption.
Qed.
Lemma agrees_without io a k0 s s1 s2 c : srelx k0 s1 s2 -> stable io a k0 s2 c -> get_normal (fst s1) k0 = None ->
  (forall j, j <> k0 -> blocked io a j -> blocked io s j) ->
  agrees io s s1 (set_normal c k0 None).
Proof.
  intros [A1 A2] [B1 B2] G EX. split; [unfold same_settings in *; cbn; intuition congruence|].
  intros k HK NP. rewrite get_normal_set. destruct (streq_spec k0 k) as [<-|N]; [congruence|].
  destruct (A2 k) as [E D]; [congruence|exact HK|]. rewrite <- E. apply B2; [unfold started in *; congruence|].
  right. intros B. apply NP. apply EX; [congruence|exact B].
Qed.

Lemma without_set k c : without k c (set_normal c k None).
Proof.
  split; [reflexivity|]. split; [reflexivity|]. split.
  - pose proof (get_normal_set c k None k) as E. rewrite streq_refl in E. exact E.
  - intros j N. pose proof (get_normal_set c k None j) as E. unfold get_normal in E. rewrite E.
    destruct (streq_spec k j); [congruence|reflexivity].
Qed.

Lemma simple_maps (S : setting) c x v : expand_iri_simple (st_io S) c x false (Some (st_act S)) = Ok v -> maps_in S c x v.
Proof. intros H. unfold maps_in. apply expansion_iff. rewrite H. destruct v; reflexivity. Qed.

Lemma written_spec io k p x S : st_io S = io -> (compact_iri_of io k = Some (p, x) <-> written S k p x).
Proof.
  intros <-. unfold written, compact_iri_of. split.
  - destruct (split_once ":" k) as [[p' x']|] eqn:SO; [|discriminate].
    destruct (streq_spec p' "_"); [discriminate|]. destruct (starts_with "//" x') eqn:SW; [discriminate|].
    destruct (iri_ref_ok (st_io S) k) eqn:R; [|discriminate]. intros H. injection H as -> ->.
    apply split_once_sound in SO. destruct SO as [E C]. repeat split; auto.
    intros y ->. assert (starts_with "//" ("//" +++ y) = true) by (apply starts_with_spec; eauto). congruence.
  - intros (E & C & N & X & R). rewrite R, E, (Cycles.colon_split _ _ C).
    destruct (streq_spec p "_"); [contradiction|]. destruct (starts_with "//" x) eqn:SW; [|reflexivity].
    apply starts_with_spec in SW. destruct SW as [y ->]. exfalso. eapply X. reflexivity.
Qed.

Lemma simple_agree io c c' x dr vo : ac_base c = ac_base c' -> ac_vocab c = ac_vocab c' -> x <> "@type" ->
  get_normal c x = get_normal c' x ->
  (forall p y, compact_iri_of io x = Some (p, y) -> get_normal c p = get_normal c' p) ->
  expand_iri_simple io c (NSome (XStr x)) dr vo = expand_iri_simple io c' (NSome (XStr x)) dr vo.
Proof.
  intros B V N G P. unfold expand_iri_simple. destruct (is_keyword_like x); [reflexivity|].
  rewrite (defined_agree c c' x vo N G). destruct (expand_defined c' x vo); [reflexivity|].
  rewrite (tail_agree io c c'), (absolute_agree io c c') by assumption.
  destruct (colon_inside x); [|reflexivity]. destruct (blank_ok io x); [reflexivity|]. destruct (streq x "_:"); [reflexivity|].
  destruct (compact_iri_of io x) as [[p y]|] eqn:C; [|reflexivity].
  rewrite (prefixed_agree io c c' p y) by (eapply P; reflexivity). reflexivity.
Qed.

Section Main.
Variable io : iops.
Variable ld : loader.
Variable m : merged.

(** The setting of the specification for the options [o] and the resulting context [c]. *)
Definition setting_of (o : popts) (c : actx) : setting := MkSetting io c (is_10 o = true) (po_vocab o)
  (fun lc => exists n a rs b o' c', po_override o' = true /\ process_context io ld n a lc rs b o' = Ok c').

Lemma own_spec k o c cs : own_mapping io cs k o = Ok c -> forall c', ac_base cs = ac_base c' -> ac_vocab cs = ac_vocab c' ->
  get_normal cs k = None -> (forall p y, compact_iri_of io k = Some (p, y) -> get_normal c' p = get_normal cs p) ->
  own_term (setting_of o c') k c.
Proof.
  unfold own_mapping. intros H c' B V G P.
  assert (DM : forall H0 : blank_ok io k = false, (iri_ref_ok io k = false \/ iri_ok io k = false /\ contains_char "/" k = false) ->
     default_mapping io cs k = Ok c -> own_term (setting_of o c') k c).
  { clear H. intros H0 H1 H. unfold default_mapping in H. destruct (ac_vocab cs) as [[|[v|v|v]|]|] eqn:VC; try discriminate.
    destruct (iri_ok io (v +++ k)) eqn:IO; [|discriminate]. injection H as <-. apply own_vocab; auto. }
  destruct (blank_ok io k) eqn:BL; [injection H as <-; apply own_blank; exact BL|].
  destruct (iri_ref_ok io k) eqn:IR; [|apply DM; auto].
  destruct (iri_ok io k) eqn:IO; [injection H as <-; apply own_iri; assumption|].
  destruct (contains_char "/" k) eqn:SL; [|apply DM; auto].
  apply bind_ok in H. destruct H as (t & E & H). destruct t as [[|[i|i|i]|]|]; try discriminate. injection H as <-.
  apply (own_path _ k i (set_normal c' k None)); auto.
  - apply without_set.
  - apply simple_maps. cbn [st_io st_act setting_of]. rewrite <- E. apply simple_agree; try assumption; try (cbn; congruence).
    + intros ->. vm_compute in SL. discriminate SL.
    + rewrite get_normal_set, streq_refl. symmetry. exact G.
    + intros p y C. rewrite get_normal_set. destruct (streq_spec k p) as [<-|_]; [|eapply P, C].
      apply (written_spec io k k y (setting_of o c') eq_refl) in C. destruct C as (X & C & _). exfalso.
      apply (f_equal String.length) in X. rewrite !app_length_str in X. cbn in X. lia.
Qed.

Lemma no_id_spec a n s k rs o s1 t : define_no_id io (engine io ld n) s m k rs o = Ok (s1, t) ->
  dget (KKey k) (snd s) = Some true -> get_normal (fst s) k = None -> ext a s ->
  srel s s1 /\ forall s2 c, srelx k s1 s2 -> stable io a k s2 c -> own_mapped (setting_of o c) k t.
Proof.
  intros H G N EX. unfold define_no_id in H.
  assert (X : forall s2 c, stable io a k s2 c -> srelx k s1 s2 -> ac_base (fst s1) = ac_base c /\ ac_vocab (fst s1) = ac_vocab c).
  { intros s2 c [A _] [B _]. unfold same_settings in *. intuition congruence. }
  destruct (compact_iri_of io k) as [[p x]|] eqn:C.
  - pose proof (proj1 (written_spec io k p x (setting_of o (ctx_new None)) eq_refl) C) as W.
    apply bind_ok in H. destruct H as (s3 & E & H).
    pose proof (define_self io ld m _ _ _ _ _ _ _ _ E) as [D P]. apply define_srel in E.
    assert (p <> k) as NP by congruence.
    assert (s3 = s1) as ->.
    { destruct (get_value (fst s3) p); [destruct (iri_ok io _); [|discriminate]; injection H as <- _; reflexivity|].
      apply bind_ok in H. destruct H as (t' & _ & H). injection H as <- _. reflexivity. }
    split; [exact E|]. intros s2 c RX ST. destruct (X s2 c ST RX) as [XB XV].
    assert (get_normal c p = get_normal (fst s1) p) as GP.
    { destruct RX as [_ RX]. destruct (RX p NP D) as [Ep Dp]. rewrite <- Ep. apply ST; [unfold started in *; congruence|].
      right. intros B. apply (blocked_ext io a s p EX) in B. revert B. eapply prefix_not_blocked; eassumption. }
    destruct (streq_spec p "@type") as [->|NT].
    { apply own_type_prefix with (x := x). exact W. }
    unfold get_value in H. apply streq_false in NT. rewrite NT in H. unfold get_normal in H at 1. fold (get_normal (fst s1) p) in H.
    rewrite <- GP in H. destruct (get_normal c p) as [dp|] eqn:Gp; cbn [option_map] in H.
    + destruct (iri_ok io _) eqn:IO in H; [|discriminate]. injection H as <-.
      eapply own_prefix; [exact W|exact Gp| |].
      * destruct (nd_value dp) as [[|[]|]|]; reflexivity.
      * revert IO. destruct (nd_value dp) as [[|[]|]|]; auto.
    + apply bind_ok in H. destruct H as (t' & E' & H). injection H as <-. apply own_no_prefix.
      * intros p' x' W' _. apply (written_spec io k p' x' (setting_of o c) eq_refl) in W'. rewrite C in W'. injection W' as <- <-. exact Gp.
      * eapply own_spec; [exact E'|exact XB|exact XV| |].
        -- destruct E as [_ E]. destruct (E k) as [-> _]; [unfold started; congruence|exact N].
        -- intros p' y C'. rewrite C in C'. injection C' as <- <-. congruence.
  - apply bind_ok in H. destruct H as (t' & E' & H). injection H as <- <-. split; [apply srel_refl|].
    intros s2 c RX ST. destruct (X s2 c ST RX) as [XB XV]. apply own_no_prefix.
    + intros p' x' W' _. apply (written_spec io k p' x' (setting_of o c) eq_refl) in W'. congruence.
    + eapply own_spec; [exact E'|exact XB|exact XV|exact N|]. intros p' y C'. congruence.
Qed.

Lemma type_spec a n s rs o e d s1 d1 k : define_type io (engine io ld n) s m rs o e d = Ok (s1, d1) ->
  nd_typ d = None -> dget (KKey k) (snd s) = Some true -> ext a s ->
  srel s s1 /\ (exists ty, d1 = nd_set_typ d ty) /\
  forall s2 c, srelx k s1 s2 -> stable io a k s2 c -> type_mapped (setting_of o c) (te_type e) (nd_typ d1).
Proof.
  intros H N G EX. unfold define_type in H. destruct (te_type e) as [t|].
  2:{ injection H as <- <-. split; [apply srel_refl|]. split; [exists None; destruct d; cbn in N; subst; reflexivity|].
      intros. rewrite N. apply tm_none. }
  apply bind_ok in H. destruct H as ([s3 v] & E & H).
  pose proof (expand_srel _ _ _ _ _ _ _ _ _ _ _ _ E) as SR.
  assert (M : forall s2 c, srelx k s3 s2 -> stable io a k s2 c -> maps_in (setting_of o c) c
             (match t with NNull => NNull | NSome t => NSome (xp_of_ttype t) end) v).
  { intros s2 c RX ST. apply simple_maps. cbn [st_io st_act setting_of]. eapply expand_agree; [exact E|]. eapply agrees_from; eassumption. }
  destruct v as [v|].
  2:{ injection H as <- <-. split; [exact SR|]. split; [exists None; destruct d; cbn in N; subst; reflexivity|].
      intros. rewrite N. apply tm_dropped. eapply M; eassumption. }
  destruct (is_10 o && _)%bool eqn:T; [discriminate|]. destruct (ty_of_term v) as [y|] eqn:Y; [|discriminate].
  injection H as <- <-. split; [exact SR|]. split; [eauto|]. intros s2 c RX ST. cbn [nd_typ nd_set_typ].
  apply (tm_some _ t v y); [eapply M; eassumption| |].
  - cbn. intros X. rewrite X in T. cbn in T. split; intros ->; discriminate T.
  - destruct v as [|[]|[]]; try discriminate Y; injection Y as <-; reflexivity.
Qed.

Lemma mapping_spec a n s k rs o b e d s1 d1 : define_mapping io (engine io ld n) s m k rs o b e d = Ok (s1, d1) ->
  dget (KKey k) (snd s) = Some true -> get_normal (fst s) k = None -> nd_value d = None -> nd_prefix d = false -> ext a s -> dget (KKey k) (snd a) = Some true ->
  srelx k s s1 /\
  match d1 with
  | None => exists x, te_id e = Some (NSome (TIdTerm x)) /\ x <> k /\ is_keyword_like x = true /\ s1 = s
  | Some d1 =>
    (exists v p, d1 = nd_set_prefix (nd_set_value d v) p /\
      (p = true <-> b = true /\ te_id e <> None /\ te_id e <> Some (NSome (TIdTerm k)) /\
                    contains_char ":" k = false /\ contains_char "/" k = false /\
                    exists t, v = Some t /\ is_gen_delim_or_blank t = true)) /\
    (forall x, te_id e = Some (NSome (TIdTerm x)) -> x <> k -> is_keyword_like x = false) /\
    forall s2 c, srelx k s1 s2 -> stable io a k s2 c -> id_mapped (setting_of o c) k (te_id e) (nd_value d1)
  end.
Proof.
  intros H G N NV NP EX GA. unfold define_mapping in H.
  assert (OWN : forall i, (do (s1, t) <- define_no_id io (engine io ld n) s m k rs o; Ok (s1, Some (nd_set_value d (Some t)))) = Ok (s1, d1) ->
     i = None \/ i = Some (NSome (TIdTerm k)) -> te_id e = i ->
     srelx k s s1 /\ match d1 with
     | None => exists x, te_id e = Some (NSome (TIdTerm x)) /\ x <> k /\ is_keyword_like x = true /\ s1 = s
     | Some d1 => (exists v p, d1 = nd_set_prefix (nd_set_value d v) p /\
      (p = true <-> b = true /\ te_id e <> None /\ te_id e <> Some (NSome (TIdTerm k)) /\
                    contains_char ":" k = false /\ contains_char "/" k = false /\
                    exists t, v = Some t /\ is_gen_delim_or_blank t = true)) /\
       (forall x, te_id e = Some (NSome (TIdTerm x)) -> x <> k -> is_keyword_like x = false) /\
       forall s2 c, srelx k s1 s2 -> stable io a k s2 c -> id_mapped (setting_of o c) k (te_id e) (nd_value d1) end).
  { clear H. intros i H HI TI. apply bind_ok in H. destruct H as ([s3 t] & E & H). injection H as <- <-.
    apply (no_id_spec a) in E; [|exact G|exact N|exact EX]. destruct E as [SR M]. split; [apply srelx_srel, SR|]. split.
    - exists (Some t), false. split; [destruct d; cbn in *; subst; reflexivity|].
      split; [discriminate|]. intros (_ & A & B & _). destruct HI; congruence.
    - split; [intros x Hx; destruct HI; congruence|].
      intros s2 c RX ST. rewrite TI. cbn [nd_value nd_set_value]. apply im_own; [exact HI|]. eapply M; eassumption. }
  destruct (te_id e) as [i|] eqn:TI; [|apply (OWN None); auto].
  destruct (id_differs i k) eqn:DI.
  2:{ apply (OWN (Some i)); auto. destruct i as [|[|x]]; try discriminate DI. right. cbn in DI.
      destruct (streq_spec x k) as [->|]; [reflexivity|discriminate]. }
  destruct i as [|i].
  { injection H as <- <-. split; [apply srelx_srel, srel_refl|]. split.
    - exists None, false. split; [destruct d; cbn in *; subst; reflexivity|].
      split; [discriminate|]. intros (_ & _ & _ & _ & _ & t & X & _). discriminate.
    - split; [discriminate|]. intros. rewrite NV. apply im_null. }
  clear OWN. unfold define_id in H.
  assert (NK : i <> TIdTerm k). { intros ->. cbn in DI. rewrite streq_refl in DI. discriminate. }
  destruct (_ && negb _)%bool eqn:KL in H.
  { injection H as <- <-. split; [apply srelx_srel, srel_refl|]. apply andb_prop in KL. destruct KL as [KL NKw].
    destruct i as [kw|x]; [discriminate NKw|]. exists x. repeat split; auto. congruence. }
  assert (KL' : forall x, Some (NSome i) = Some (NSome (TIdTerm x)) -> x <> k -> is_keyword_like x = false).
  { intros x X _. injection X as ->. cbn [tid_str negb] in KL. rewrite andb_true_r in KL. exact KL. }
  apply bind_ok in H. destruct H as ([s3 v] & E & H).
  pose proof (expand_srel _ _ _ _ _ _ _ _ _ _ _ _ E) as SR.
  destruct (match v with Some (TmKw KContext) => true | _ => false end) eqn:V1; [discriminate|].
  destruct (match v with Some (TmId p) => negb (id_valid p) | _ => false end) eqn:V2; [discriminate|].
  apply bind_ok in H. destruct H as (s4 & EC & H).
  assert (s4 = s1) as ->.
  { destruct (_ && b)%bool; [destruct v; [|discriminate]|]; injection H as <- _; reflexivity. }
  assert (CK : srelx k s3 s1 /\ forall s2 c, srelx k s1 s2 -> stable io a k s2 c ->
     (contains_between_boundaries k ":" = true \/ contains_char "/" k = true ->
      exists c0, without k c c0 /\ maps_in (setting_of o c) c0 (NSome (XStr k)) v)).
  { destruct (_ || _)%bool eqn:CB in EC.
    - apply bind_ok in EC. destruct EC as ([s5 t] & E5 & EC).
      destruct (opt_eqb_spec _ term_eqb_spec v t) as [<-|]; [|discriminate]. injection EC as ->.
      pose proof (expand_srel _ _ _ _ _ _ _ _ _ _ _ _ E5) as SR5. split.
      + eapply srelx_trans; [|apply srelx_srel, SR5]. destruct s3. apply srelx_end.
      + intros s2 c RX ST _. exists (set_normal c k None). split; [apply without_set|]. apply simple_maps. cbn [st_io st_act setting_of].
        assert (N5 : get_normal (fst s1) k = None).
        { destruct SR5 as [_ SR5]. destruct (SR5 k) as [-> _].
          { unfold started. cbn [snd]. rewrite dget_dend, kk_eqb_refl. discriminate. }
          cbn [fst]. destruct SR as [_ SR]. destruct (SR k) as [-> _]; [unfold started; congruence|exact N]. }
        destruct (contains_char ":" k) eqn:CC.
        * eapply expand_agree; [exact E5|]. eapply agrees_without; [exact RX|exact ST|exact N5|].
          intros j NJ B. apply (blocked_ext io a s3 j) in B; [|eapply ext_trans; [exact EX|apply SR]].
          destruct B as [B|(B1 & B2 & B3 & B4 & B5 & p & x & B6 & B7)]; [left|right]; unfold started; cbn [fst snd]; rewrite dget_dend.
          { destruct (kk_eqb_spec (KKey j) (KKey k)); [congruence|exact B]. }
          split; [destruct (kk_eqb_spec (KKey j) (KKey k)); [congruence|exact B1]|]. repeat split; auto.
          exists p, x. split; [exact B6|]. rewrite dget_dend. destruct (kk_eqb_spec (KKey p) (KKey k)) as [X|_]; [|exact B7].
          injection X as ->. apply (written_spec io j k x (setting_of o c) eq_refl) in B6. destruct B6 as (_ & B6 & _). congruence.
        * rewrite <- (simple_agree io (fst s1)).
          { eapply expand_agree; [exact E5|]. split; [unfold same_settings; auto 10|auto]. }
          { destruct RX as [RX _]. destruct ST as [ST _]. unfold same_settings in *. cbn. intuition congruence. }
          { destruct RX as [RX _]. destruct ST as [ST _]. unfold same_settings in *. cbn. intuition congruence. }
          { intros ->. vm_compute in CB. discriminate CB. }
          { rewrite get_normal_set, streq_refl. exact N5. }
          { intros p x C. apply (written_spec io k p x (setting_of o c) eq_refl) in C. destruct C as (-> & _).
            rewrite contains_char_app in CC. change (contains_char ":" (":" +++ x)) with true in CC. rewrite orb_true_r in CC. discriminate. }
    - injection EC as ->. split; [apply srelx_srel, srel_refl|].
      intros s2 c _ _ [X|X]; rewrite X in CB; [discriminate|]. rewrite orb_true_r in CB. discriminate. }
  destruct CK as [SX CK]. split; [eapply srelx_trans; [apply srelx_srel, SR|exact SX]|].
  assert (ID : forall s2 c, srelx k s1 s2 -> stable io a k s2 c -> id_mapped (setting_of o c) k (Some (NSome i)) v).
  { intros s2 c RX ST. apply im_id; [exact NK| | | |eapply CK; eassumption].
    - apply simple_maps. cbn [st_io st_act setting_of]. eapply expand_agree; [exact E|]. eapply agrees_from; [eapply srelx_trans; [exact SX|exact RX]|exact ST|exact G|exact EX].
    - intros ->. discriminate V1.
    - intros x ->. discriminate V2. }
  destruct (_ && b)%bool eqn:PB in H.
  - destruct v as [t|]; [|discriminate]. injection H as <-. apply andb_prop in PB. destruct PB as [PB Hb].
    apply andb_prop in PB. destruct PB as [P1 P2]. apply negb_true_iff in P1. apply negb_true_iff in P2. split.
    + exists (Some t), (is_gen_delim_or_blank t). split; [reflexivity|]. split.
      * intros X. repeat split; auto; try congruence. exists t. auto.
      * intros (_ & _ & _ & _ & _ & t' & T & X). injection T as <-. exact X.
    + split; [exact KL'|]. intros s2 c RX ST. eapply ID; eassumption.
  - injection H as <-. split.
    + exists v, false. split; [destruct d; cbn in *; subst; reflexivity|]. split; [discriminate|].
      intros (B & _ & _ & C1 & C2 & _). subst b. rewrite C1, C2 in PB. discriminate PB.
    + split; [exact KL'|]. intros s2 c RX ST. cbn [nd_value nd_set_value]. eapply ID; eassumption.
Qed.

(** ** The definition of one term *)
Lemma normal_created n s k rs b p o v s1 ended :
  define_normal io (engine io ld n) s m k rs b p o v = Ok (s1, ended) -> dget (KKey k) (snd s) = Some true ->
  forall a c, ext a (set_normal (fst s) k None, snd s) -> dget (KKey k) (snd a) = Some true -> stable io a k s1 c -> created (setting_of o c) k v b p (po_override o) (get_normal (fst s) k).
Proof.
  intros H G a c EX GA' ST. unfold define_normal in H. change (set_normal (fst s) k None, snd s) with ((fun c => (set_normal c k None, snd s)) (fst s)) in EX.
  set (sa := (set_normal (fst s) k None, snd s)) in *. change (ext a sa) in EX.
  assert (GA : dget (KKey k) (snd sa) = Some true) by exact G.
  assert (NA : get_normal (fst sa) k = None) by (unfold sa; cbn [fst]; rewrite get_normal_set, streq_refl; reflexivity).
  apply bind_ok in H. destruct H as (d0 & E0 & H). apply bind_ok in H. destruct H as ([s2 d2] & E2 & H).
  assert (P0 : d0 = nd_set_protected ndef_default (match te_protected (expanded_of v) with Some q => q | None => p end) /\
               (is_10 o = true -> te_protected (expanded_of v) = None)).
  { unfold define_protected in E0. destruct (te_protected (expanded_of v)); [destruct (is_10 o); [discriminate|]|];
      injection E0 as <-; split; auto; discriminate. }
  destruct P0 as [P0 P10].
  pose proof (type_spec a _ _ _ _ _ _ _ _ k E2) as T. rewrite P0 in T. specialize (T eq_refl GA EX).
  destruct T as (SR2 & (ty & D2) & T).
  assert (G2 : dget (KKey k) (snd s2) = Some true /\ get_normal (fst s2) k = None).
  { destruct SR2 as [_ SR2]. destruct (SR2 k) as [-> ->]; [unfold started; congruence|]. auto. }
  destruct G2 as [G2 N2]. assert (EX2 : ext a s2) by (eapply ext_trans; [exact EX|apply SR2]). unfold created. cbn zeta.
  destruct (te_reverse (expanded_of v)) as [rev|] eqn:RV.
  - unfold define_reverse in H.
    destruct (te_id (expanded_of v)) as [|] eqn:TI; [discriminate|]. destruct (te_nest (expanded_of v)) as [|] eqn:TN; [discriminate|].
    cbn [orb] in H. unfold ignored_term. rewrite RV. destruct (is_keyword_like rev) eqn:KL.
    { injection H as <- _. left. split; [reflexivity|]. destruct ST as [_ ST]. change (get_normal c k = None). rewrite ST; [exact N2|unfold started; congruence|auto]. }
    right. split; [discriminate|].
    apply bind_ok in H. destruct H as ([s3 t] & E3 & H). destruct t as [[|i|]|]; try discriminate.
    destruct (id_valid i) eqn:IV; [|discriminate].
    apply bind_ok in H. destruct H as (d3 & E4 & H). injection H as <- _.
    pose proof (expand_srel _ _ _ _ _ _ _ _ _ _ _ _ E3) as SR3.
    assert (SX : srelx k s3 (set_normal (fst s3) k (Some (nd_set_reverse d3 true)), snd s3)) by (destruct s3; apply srelx_set).
    exists (nd_set_reverse d3 true). split.
    { destruct ST as [_ ST]. change (get_normal c k = Some (nd_set_reverse d3 true)). rewrite ST; cbn [fst].
      - rewrite get_normal_set, streq_refl. reflexivity.
      - unfold started. cbn [snd]. destruct SR3 as [_ SR3]. destruct (SR3 k) as [_ ->]; [unfold started; congruence|]. congruence.
      - left. reflexivity. }
    specialize (T _ c (srelx_trans _ _ _ _ (srelx_srel k _ _ SR3) SX) ST).
    assert (X : nd_value d3 = Some (TmId i) /\ nd_typ d3 = nd_typ d2 /\ nd_protected d3 = nd_protected d2 /\ nd_prefix d3 = nd_prefix d2 /\
       nd_base_url d3 = nd_base_url d2 /\ nd_context d3 = nd_context d2 /\ nd_direction d3 = nd_direction d2 /\ nd_index d3 = nd_index d2 /\
       nd_language d3 = nd_language d2 /\ nd_nest d3 = nd_nest d2 /\
       match te_container (expanded_of v) with
       | Some (NSome x) => c_from_syntax (NSome x) = Some (nd_container d3) /\ (nd_container d3 = CSet \/ nd_container d3 = CIndex)
       | _ => nd_container d3 = nd_container d2 end).
    { unfold reverse_container in E4. destruct (te_container (expanded_of v)) as [[|x]|]; try (injection E4 as <-; cbn; auto 20).
      destruct (c_from_syntax (NSome x)) as [[]|]; try discriminate; injection E4 as <-; cbn; auto 20. }
    rewrite D2 in X. cbn in X. destruct X as (X1 & X2 & X3 & X4 & X5 & X6 & X7 & X8 & X9 & X10 & X11).
    constructor; cbn [nd_value nd_typ nd_container nd_protected nd_reverse nd_prefix nd_base_url nd_context nd_direction nd_index nd_language nd_nest nd_set_reverse st_10 setting_of st_ctx]; auto.
    + exists i. split; [exact X1|]. split; [intros x ->; discriminate IV|]. apply simple_maps. cbn [st_io st_act setting_of].
      eapply expand_agree; [exact E3|]. eapply agrees_from; eassumption.
    + rewrite X2. rewrite D2 in T. exact T.
    + auto 10.
  - apply bind_ok in H. destruct H as ([s3 d3] & E3 & H).
    assert (S3 : started s3 k).
    { pose (R := fun s s' => started s k -> started s' k).
      apply (rel_mapping io _ R m rs) with (k := k) in E3; unfold R; auto.
      - apply E3. unfold started. congruence.
      - intros x k' x' E'. apply define_srel in E'. intros HX. eapply srel_started; eassumption.
      - intros x. unfold started. cbn [snd]. rewrite dget_dend. destruct (kk_eqb (KKey k) (KKey k)); congruence. }
    apply (mapping_spec a) in E3; [|exact G2|exact N2|rewrite D2; reflexivity|rewrite D2; reflexivity|exact EX2|exact GA'].
    destruct E3 as [SX3 M]. unfold ignored_term. rewrite RV. destruct d3 as [d3|].
    2:{ injection H as <- _. left. destruct M as (x & M1 & M2 & M3 & ->). split; [eauto|].
        destruct ST as [_ ST]. change (get_normal c k = None). rewrite ST; [exact N2|unfold started; congruence|auto]. }
    destruct M as [(w & q & D3 & PX) [NI M]]. right. split.
    { intros (x & X1 & X2 & X3). rewrite (NI x X1 X2) in X3. discriminate. }
    apply bind_ok in H. destruct H as (s4 & E4 & H). injection H as <- _.
    apply rest_spec in E4; try (rewrite D3, D2; reflexivity).
    destruct E4 as (d4 & -> & R1 & R2 & R3 & R4 & R5 & R6 & R7 & R8 & R9 & R10 & R11 & R12 & R13).
    assert (SX : srelx k s3 (set_normal (fst s3) k (Some d4), snd s3)) by (destruct s3; apply srelx_set).
    exists d4. split.
    { destruct ST as [_ ST]. change (get_normal c k = Some d4). rewrite ST; cbn [fst].
      - rewrite get_normal_set, streq_refl. reflexivity.
      - exact S3.
      - left. reflexivity. }
    specialize (T _ c (srelx_trans _ _ _ _ SX3 SX) ST). specialize (M _ c SX ST).
    assert (V3 : nd_value d3 = w) by (rewrite D3; reflexivity).
    constructor; cbn [st_10 setting_of st_ctx st_ok]; auto.
    + rewrite R1. exact M.
    + exists (nd_typ d2). split; [exact T|]. rewrite D3 in R5. cbn in R5. exact R5.
    + rewrite R2, D3, D2. reflexivity.
    + destruct R6 as [R6 R6']. split; [exact R6|]. intros i Hi. destruct (R6' i Hi). split; [assumption|]. congruence.
    + destruct R7 as (A & B & C & D). repeat split; auto. intros lc X. destruct (D lc X) as (c1 & c2 & D').
      exists n, c2, rs, b, (with_override o), c1. split; [reflexivity|exact D'].
    + destruct (te_prefix (expanded_of v)) as [pf|].
      * destruct R11 as (A & B & C & D & F). repeat split; auto. congruence.
      * rewrite R11, D3. cbn [nd_prefix nd_set_prefix]. rewrite PX. rewrite R1, V3. split.
        -- intros (A1 & A2 & A3 & A4 & A5 & t & A6 & A7). apply gen_delim_spec in A7. destruct A7 as (i & -> & A7).
           repeat split; auto; [|exists i; auto]. intros e ->. discriminate A1.
        -- intros (A1 & A3 & A4 & A5 & i & A6 & A7). repeat split; auto.
           ++ destruct v as [|[|]]; try reflexivity. exfalso. eapply A1. reflexivity.
           ++ destruct v as [|[|]]; try discriminate. exfalso. eapply A1. reflexivity.
           ++ exists (TmId i). split; [exact A6|]. apply gen_delim_spec. exists i. auto.
    + rewrite R13, D3, D2. cbn [nd_protected nd_set_prefix nd_set_value nd_set_typ nd_set_protected]. split; [reflexivity|exact P10].
Qed.


(** ** All the terms of a definition *)
Section Key.
Variable k0 : string.
Variable v0 : nullable tdef.
Hypothesis M0 : m_get m (KKey k0) = Some (EvDef v0).
Variable prev : option ndef.
Variable F : option string -> bool -> bool -> Prop.   (* the possible parameters *)
Variable o0 : popts.

Definition same_opts (o : popts) : Prop := is_10 o = is_10 o0 /\ po_vocab o = po_vocab o0.
(** The definition of [k0] began in [a] and is complete in [s]. *)
Definition done_at (a s : st) : Prop :=
  forall c, stable io a k0 s c -> exists b p ov, F b p ov /\ created (setting_of o0 c) k0 v0 b p ov prev.
Definition unstarted (s : st) : Prop := dget (KKey k0) (snd s) = None /\ get_normal (fst s) k0 = prev.
Definition trel (s s' : st) : Prop :=
  srel s s' /\ (unstarted s -> unstarted s' \/
    exists a, ext s a /\ dget (KKey k0) (snd a) = Some true /\ done_at a s').
(** The same for the definition of [k]. *)
Definition crel (k : string) (s s' : st) : Prop :=
  srel s s' /\ (unstarted s -> unstarted s' \/
    exists a, ext s a /\ dget (KKey k0) (snd a) = Some true /\
      (contains_char ":" k = false -> dget (KKey k) (snd a) = Some true) /\ done_at a s').

Lemma crel_trel k s s' : crel k s s' -> trel s s'.
Proof. intros [A B]. split; [exact A|]. intros H. destruct (B H) as [|(a & X1 & X2 & _ & X3)]; [auto|]. right. eauto 10. Qed.
Lemma trel_refl s : trel s s.
Proof. split; [apply srel_refl|auto]. Qed.
Lemma done_srel a s s' : ext s s' -> same_settings (fst s) (fst s') -> done_at a s -> done_at a s'.
Proof.
  intros HE HS D c [ST1 ST2]. apply D. split; [unfold same_settings in *; intuition congruence|].
  intros j Hj X. destruct (HE j Hj) as [E1 E2]. rewrite <- E1. apply ST2; [unfold started in *; congruence|exact X].
Qed.
Lemma trel_trans a b c : trel a b -> trel b c -> trel a c.
Proof.
  intros [A1 A2] [B1 B2]. split; [eapply srel_trans; eassumption|]. intros H.
  destruct (A2 H) as [H'|(x & X1 & X2 & X3)].
  - destruct (B2 H') as [|(x & X1 & X2 & X3)]; [auto|]. right. exists x. split; [|auto]. eapply ext_trans; [apply A1|exact X1].
  - right. exists x. split; [exact X1|]. split; [exact X2|]. eapply done_srel; [apply B1|apply B1|exact X3].
Qed.

(** The definition of [k] in progress, begun from [s]. *)
Definition late (k : string) (s s' : st) : Prop :=
  unstarted s' \/ exists a, ext s a /\ dget (KKey k0) (snd a) = Some true /\ blocked io a k /\
    (contains_char ":" k = false -> dget (KKey k) (snd a) = Some true) /\ done_at a s'.

Lemma late_srelx k s x y : k <> k0 -> late k s x -> srelx k x y ->
  (unstarted x -> unstarted y) -> late k s y.
Proof.
  intros N [U|(a & X1 & X2 & X3 & X4 & X5)] [S1 S2] HU; [left; auto|]. right. exists a. split; [exact X1|]. split; [exact X2|]. split; [exact X3|]. split; [exact X4|].
  intros c [ST1 ST2]. apply X5. split; [unfold same_settings in *; intuition congruence|].
  intros j Hj X. assert (j <> k) as NJ by (intros ->; destruct X; [congruence|contradiction]).
  destruct (S2 j NJ Hj) as [E1 E2]. rewrite <- E1. apply ST2; [unfold started in *; congruence|exact X].
Qed.
Lemma late_trel k s x y : k <> k0 -> ext s x -> dget (KKey k) (snd x) = Some true -> late k s x -> trel x y -> late k s y.
Proof.
  intros N EX P L [S1 S2]. destruct L as [U|(a & X1 & X2 & X3 & X4 & X5)].
  - destruct (S2 U) as [U'|(a & X1 & X2 & X3)]; [left; exact U'|]. right. exists a.
    assert (dget (KKey k) (snd a) = Some true) as PA.
    { destruct (X1 k) as [_ E]; [unfold started; congruence|congruence]. }
    split; [eapply ext_trans; eassumption|]. split; [exact X2|]. split; [left; exact PA|]. split; [intros; exact PA|exact X3].
  - right. exists a. split; [exact X1|]. split; [exact X2|]. split; [exact X3|]. split; [exact X4|].
    eapply done_srel; [apply S1|apply S1|exact X5].
Qed.

Lemma unstarted_set k c d v : k <> k0 -> unstarted (c, d) -> unstarted (set_normal c k v, d).
Proof.
  intros N [A B]. split; [exact A|]. cbn [fst]. rewrite get_normal_set. destruct (streq_spec k k0); [congruence|exact B].
Qed.
Lemma unstarted_end k s : k <> k0 -> unstarted s -> unstarted (fst s, dend (KKey k) (snd s)).
Proof.
  intros N [A B]. split; [|exact B]. cbn [snd]. rewrite dget_dend. destruct (kk_eqb_spec (KKey k0) (KKey k)); congruence.
Qed.

(** The expansion of the term [k] itself after its mapping. *)
Lemma check_expand n k s rs o dr vo s1 t :
  expand_iri_with io (engine io ld n) s (NSome (XStr k)) dr vo m rs o = Ok (s1, t) ->
  dget (KKey k) (snd s) = Some false -> get_normal (fst s) k = None ->
  s1 = s \/ exists p x, compact_iri_of io k = Some (p, x) /\ colon_inside k = true /\ blank_ok io k = false /\ k <> "_:" /\
    e_define (engine io ld n) s m (KKey p) rs None false (with_no_override o) = Ok s1.
Proof.
  intros H G N. unfold expand_iri_with in H. destruct (is_keyword_like k) eqn:K; [injection H as <- _; auto|].
  rewrite (kk_of_str_key _ K) in H. apply bind_ok in H. destruct H as (s2 & E & H).
  assert (s2 = s) as ->.
  { destruct n as [|n]; [discriminate|]. cbn in E. unfold define_body in E. rewrite G in E. injection E as <-. reflexivity. }
  destruct (expand_defined (fst s) k vo); [injection H as <- _; auto|].
  destruct (colon_inside k).
  2:{ apply bind_ok in H. destruct H as (t' & _ & H). injection H as <- _. auto. }
  destruct (blank_ok io k) eqn:B; [injection H as <- _; auto|].
  destruct (streq_spec k "_:") as [|NU]; [injection H as <- _; auto|].
  destruct (compact_iri_of io k) as [[p x]|] eqn:C.
  2:{ apply bind_ok in H. destruct H as (t' & _ & H). injection H as <- _. auto. }
  right. exists p, x. apply bind_ok in H. destruct H as (s2 & E2 & H). repeat split; auto.
  destruct (expand_prefixed io (fst s2) p x); [injection H as <- _; exact E2|].
  apply bind_ok in H. destruct H as (t' & _ & H). injection H as <- _. exact E2.
Qed.

Hypothesis Fnext : F None false false.

Lemma define_trel n : forall s k rs b p o s', same_opts o -> F b p (po_override o) ->
  e_define (engine io ld n) s m (KKey k) rs b p o = Ok s' -> crel k s s'.
Proof.
  induction n as [|n IH]; intros s k rs b p o s' HO HF H; [discriminate|].
  pose proof (define_srel io ld m _ _ _ _ _ _ _ _ H) as SR. split; [exact SR|]. intros U.
  destruct (streq_spec k k0) as [->|NK].
  - right. destruct U as [G N]. cbn in H. unfold define_body in H. rewrite G in H.
    destruct (streq k0 ""); [discriminate|]. rewrite M0 in H.
    apply bind_ok in H. destruct H as ([s2 ended] & E & H). set (sb := (fst s, (KKey k0, true) :: snd s)) in *.
    assert (Gb : dget (KKey k0) (snd sb) = Some true) by (unfold sb; cbn [snd]; rewrite dget_cons, kk_eqb_refl; reflexivity).
    exists (set_normal (fst sb) k0 None, snd sb). split; [|split; [exact Gb|split; [intros _; exact Gb|]]].
    { intros j Hj. assert (j <> k0) as NJ by (intros ->; apply Hj, G). cbn [fst snd sb]. rewrite get_normal_set, dget_cons.
      destruct (streq_spec k0 j); [congruence|]. destruct (kk_eqb_spec (KKey j) (KKey k0)); [congruence|]. auto. }
    intros c ST. exists b, p, (po_override o). split; [exact HF|].
    assert (ST2 : stable io (set_normal (fst sb) k0 None, snd sb) k0 s2 c).
    { destruct ended; injection H as <-; [|exact ST]. destruct ST as [Y1 Y2]. split; [exact Y1|].
      intros j Hj X. apply Y2; [|exact X]. unfold started. cbn [snd]. rewrite dget_dend. destruct (kk_eqb (KKey j) (KKey k0)); [discriminate|exact Hj]. }
    assert (X : setting_of o c = setting_of o0 c) by (unfold setting_of; destruct HO as [-> ->]; reflexivity).
    rewrite <- X, <- N. eapply (normal_created n sb) with (a := (set_normal (fst sb) k0 None, snd sb)); [exact E|exact Gb| |exact Gb|exact ST2]. intros j Hj. auto.
  - enough (late k s s') as [L|(a & X1 & X2 & X3 & X4 & X5)] by (auto || (right; eauto 10)).
    cbn in H. unfold define_body in H.
    destruct (dget (KKey k) (snd s)) as [[]|] eqn:G; [discriminate|injection H as <-; left; exact U|].
    destruct (streq k ""); [discriminate|]. set (sb := (fst s, (KKey k, true) :: snd s)) in *.
    assert (Ub : unstarted sb).
    { destruct U as [U1 U2]. split; [|exact U2]. cbn [snd sb]. rewrite dget_cons. destruct (kk_eqb_spec (KKey k0) (KKey k)); congruence. }
    destruct (m_get m (KKey k)) as [[t|v|]|] eqn:MG.
    + exfalso. unfold m_get, def_get, or_else in MG.
      destruct (assoc k (cd_bindings (m_base m))); [discriminate|]. cbn in MG. destruct (m_imported m) as [i|]; [|discriminate].
      destruct (assoc k (cd_bindings i)); discriminate.
    + apply bind_ok in H. destruct H as ([s5 ended] & E & H).
      enough (late k s s5) as L.
      { destruct ended; injection H as <-; [|exact L]. eapply late_srelx; [exact NK|exact L|destruct s5; apply srelx_end|apply unstarted_end, NK]. }
      unfold define_normal in E. set (sa := (set_normal (fst sb) k None, snd sb)) in *.
      assert (EA : ext s sa).
      { intros j Hj. assert (j <> k) as NJ by (intros ->; apply Hj, G). unfold sa, sb. cbn [fst snd]. rewrite get_normal_set, dget_cons.
        destruct (streq_spec k j); [congruence|]. destruct (kk_eqb_spec (KKey j) (KKey k)); [congruence|]. auto. }
      assert (GA : dget (KKey k) (snd sa) = Some true) by (unfold sa, sb; cbn [snd]; rewrite dget_cons, kk_eqb_refl; reflexivity).
      assert (NA : get_normal (fst sa) k = None) by (unfold sa; cbn [fst]; rewrite get_normal_set, streq_refl; reflexivity).
      assert (LA : late k s sa) by (left; apply (unstarted_set k (fst sb) (snd sb)); [exact NK|exact Ub]).
      assert (D : forall s k s', e_define (engine io ld n) s m (KKey k) rs None false (with_no_override o) = Ok s' -> trel s s').
      { intros x k' x' E'. apply (crel_trel k'). eapply IH; [| |exact E']; [exact HO|exact Fnext]. }
      assert (NX : forall x, srel sa x -> ext s x /\ dget (KKey k) (snd x) = Some true /\ get_normal (fst x) k = None).
      { intros x [_ X]. split; [eapply ext_trans; eassumption|]. destruct (X k) as [Z1 Z2]; [|rewrite Z1, Z2; auto]. intros Z. discriminate (eq_trans (eq_sym GA) Z). }
      apply bind_ok in E. destruct E as (d & _ & E). apply bind_ok in E. destruct E as ([s3 d3] & E3 & E).
      apply (rel_type io _ trel m rs trel_refl trel_trans o D) in E3.
      assert (L3 : late k s s3) by (eapply late_trel; eassumption).
      assert (S3 : srel sa s3) by apply E3. destruct (NX s3 S3) as (X3 & G3 & N3).
      destruct (te_reverse (expanded_of v)) as [rev|].
      * unfold define_reverse in E. destruct (_ || _)%bool; [discriminate|].
        destruct (is_keyword_like rev); [injection E as <- _; exact L3|].
        apply bind_ok in E. destruct E as ([s4 t] & E4 & E).
        apply (rel_expand io _ trel m rs trel_refl trel_trans o D) in E4.
        destruct t as [[]|]; try discriminate. destruct (id_valid i); [|discriminate].
        apply bind_ok in E. destruct E as (d5 & _ & E). injection E as <- _.
        eapply late_srelx; [exact NK| |destruct s4; apply srelx_set|destruct s4; apply unstarted_set, NK].
        eapply late_trel; [exact NK|exact X3|exact G3|exact L3|exact E4].
      * apply bind_ok in E. destruct E as ([s4 d4] & E4 & E).
        enough (late k s s4) as L4.
        { destruct d4 as [d4|]; [|injection E as <- _; exact L4].
          apply bind_ok in E. destruct E as (s6 & E6 & E). injection E as <- _.
          apply rest_state in E6. destruct E6 as (d5 & _ & ->).
          eapply late_srelx; [exact NK|exact L4|destruct s4; apply srelx_set|destruct s4; apply unstarted_set, NK]. }
        clear E. unfold define_mapping in E4.
        assert (NOID : forall q, (do (s1, t) <- define_no_id io (engine io ld n) s3 m k rs o; q s1 t) = Ok (s4, d4) ->
          (forall s1 t, q s1 t = Ok (s4, d4) -> s1 = s4) -> late k s s4).
        { clear E4. intros q E4 Hq. apply bind_ok in E4. destruct E4 as ([s6 t] & E4 & E5). apply Hq in E5. subst s6.
          apply (rel_no_id io _ trel m rs trel_refl o D) in E4. eapply late_trel; [exact NK|exact X3|exact G3|exact L3|exact E4]. }
        destruct (te_id (expanded_of v)) as [i|]; [|eapply NOID; [exact E4|]; cbn; congruence].
        destruct (id_differs i k); [|eapply NOID; [exact E4|]; cbn; congruence].
        destruct i as [|i]; [injection E4 as <- _; exact L3|]. clear NOID. unfold define_id in E4.
        destruct (_ && _)%bool in E4; [injection E4 as <- _; exact L3|].
        apply bind_ok in E4. destruct E4 as ([s6 w] & E6 & E4).
        apply (rel_expand io _ trel m rs trel_refl trel_trans o D) in E6.
        assert (L6 : late k s s6) by (eapply late_trel; [exact NK|exact X3|exact G3|exact L3|exact E6]).
        assert (S6 : srel sa s6) by (eapply srel_trans; [exact S3|apply E6]). destruct (NX s6 S6) as (X6 & G6 & N6).
        destruct (match w with Some (TmKw KContext) => true | _ => false end); [discriminate|].
        destruct (match w with Some (TmId p) => negb (id_valid p) | _ => false end); [discriminate|].
        apply bind_ok in E4. destruct E4 as (s7 & EC & E4).
        assert (s7 = s4) as ->.
        { destruct (_ && simple_term v)%bool; [destruct w; [|discriminate]|]; injection E4 as <- _; reflexivity. }
        destruct (_ || _)%bool in EC; [|injection EC as <-; exact L6].
        apply bind_ok in EC. destruct EC as ([s8 t] & E8 & EC).
        destruct (opt_eqb term_eqb w t); [|discriminate]. injection EC as ->.
        assert (LC : late k s (fst s6, dend (KKey k) (snd s6))).
        { eapply late_srelx; [exact NK|exact L6|destruct s6; apply srelx_end|apply unstarted_end, NK]. }
        pose proof (expand_srel _ _ _ _ _ _ _ _ _ _ _ _ E8) as SR8.
        apply check_expand in E8; [|cbn [snd]; rewrite dget_dend, kk_eqb_refl; reflexivity|exact N6].
        destruct E8 as [->|(q & x & C1 & C2 & C3 & C4 & E8)]; [exact LC|].
        apply IH in E8; [|exact HO|exact Fnext]. destruct E8 as [S8 E8].
        destruct LC as [UC|(a & Y1 & Y2 & Y3 & Y4 & Y5)].
        2:{ right. exists a. split; [exact Y1|]. split; [exact Y2|]. split; [exact Y3|]. split; [exact Y4|]. eapply done_srel; [apply S8|apply S8|exact Y5]. }
        destruct (E8 UC) as [U8|(a & Y1 & Y2 & Y3 & Y4)]; [left; exact U8|]. right. exists a.
        assert (XC : ext s (fst s6, dend (KKey k) (snd s6))).
        { intros j Hj. assert (j <> k) as NJ by (intros ->; apply Hj, G). destruct (X6 j Hj) as [Z1 Z2]. cbn [fst snd].
          rewrite dget_dend. destruct (kk_eqb_spec (KKey j) (KKey k)); [congruence|]. auto. }
        pose proof (proj1 (written_spec io k q x (setting_of o (ctx_new None)) eq_refl) C1) as (W1 & W2 & _).
        destruct (Y1 k) as [Z1 Z2]; [unfold started; cbn [snd]; rewrite dget_dend, kk_eqb_refl; discriminate|]. cbn [fst snd] in Z1, Z2.
        rewrite dget_dend, kk_eqb_refl in Z2.
        split; [eapply ext_trans; eassumption|]. split; [exact Y2|]. split; [|split; [|exact Y4]].
        -- right. split; [unfold started; congruence|]. split; [congruence|]. repeat split; auto. exists q, x. split; [exact C1|]. apply Y3, W2.
        -- intros CC. rewrite W1, contains_char_app in CC. change (contains_char ":" (":" +++ x)) with true in CC.
           rewrite orb_true_r in CC. discriminate.
    + discriminate.
    + injection H as <-. left. destruct U as [U1 U2]. split; [|exact U2]. cbn [snd]. unfold sb. cbn [snd].
      rewrite dget_dend, dget_cons. destruct (kk_eqb_spec (KKey k0) (KKey k)); congruence.
Qed.
End Key.
End Main.

Lemma define_all_created io ld m n c rs b o c' k v :
  define_all (engine io ld n) c m rs b o = Ok c' -> In k (m_keys m) -> m_get m (KKey k) = Some (EvDef v) ->
  exists b' p' ov', (b' = b /\ p' = (match m_field cd_protected m with Some p => p | None => false end) /\ ov' = po_override o \/
                     b' = None /\ p' = false /\ ov' = false) /\
    created (setting_of io ld o c') k v b' p' ov' (get_normal c k).
Proof.
  unfold define_all. set (pr := match m_field cd_protected m with Some p => p | None => false end).
  intros H HI HM. apply bind_ok in H. destruct H as (s1 & E1 & H). apply bind_ok in H. destruct H as (s2 & E2 & H). injection H as <-.
  pose (F := fun b' p' ov' => b' = b /\ p' = pr /\ ov' = po_override o \/ b' = None /\ p' = false /\ ov' = false).
  assert (U1 : unstarted k (get_normal c k) s1).
  { destruct (m_field cd_type m) as [t|]; [|injection E1 as <-; split; reflexivity].
    destruct n as [|n]; [discriminate|]. cbn in E1. unfold define_body in E1. cbn [dget snd fst] in E1.
    destruct (m_get m (KKeyword KType)) as [[t'|v'|]|].
    - apply bind_ok in E1. destruct E1 as (c2 & E1 & H). injection H as <-. unfold define_type_term in E1.
      destruct (is_10 o); [discriminate|]. injection E1 as <-. split; reflexivity.
    - discriminate.
    - discriminate.
    - injection E1 as <-. split; reflexivity. }
  assert (D : forall s k' s', e_define (engine io ld n) s m (KKey k') rs b pr o = Ok s' ->
    crel io ld k v (get_normal c k) F o k' s s').
  { intros s k' s' E. eapply (define_trel io ld m k v HM); [| | |exact E].
    - right. auto.
    - split; reflexivity.
    - left. auto. }
  enough (X : (exists a, ext s1 a /\ done_at io ld k v (get_normal c k) F o a s2)).
  { destruct X as (a & _ & DA). destruct (DA (fst s2)) as (b' & p' & ov' & HF & CR); [|exists b', p', ov'; split; [exact HF|exact CR]].
    split; [unfold same_settings; auto 10|auto]. }
  clear HM E1. revert s1 U1 E2 HI. generalize (m_keys m) as ks. induction ks as [|k1 ks IH]; intros s1 U1 E2 HI; [destruct HI|].
  cbn [define_keys] in E2. apply bind_ok in E2. destruct E2 as (s3 & E3 & E2).
  pose proof (define_self io ld m _ _ _ _ _ _ _ _ E3) as [ST3 _]. apply D in E3. destruct E3 as [S3 E3].
  assert (SR2 : srel s3 s2).
  { eapply (keys_rel io ld srel); [apply srel_refl|apply srel_trans| |exact E2]. intros x k' x' E'. eapply define_srel, E'. }
  destruct (E3 U1) as [U3|(a & X1 & X2 & _ & X3)].
  - destruct HI as [->|HI]; [destruct U3 as [U3 _]; exfalso; apply ST3, U3|].
    destruct (IH s3 U3 E2 HI) as (a & X1 & X2). exists a. split; [|exact X2]. eapply ext_trans; [apply S3|exact X1].
  - exists a. split; [exact X1|]. eapply done_srel; [apply SR2|apply SR2|exact X3].
Qed.

Lemma process_def_created io ld n a d rs b o c' k v :
  process_context io ld n a (LOne (CEDef d)) rs b o = Ok c' -> cd_import d = None ->
  assoc k (cd_bindings d) = Some v ->
  exists b' p' ov', (b' = b /\ p' = (match cd_protected d with Some p => p | None => false end) /\ ov' = po_override o \/
                     b' = None /\ p' = false /\ ov' = false) /\
    created (setting_of io ld o c') k v b' p' ov' (assoc k (ac_defs a)).
Proof.
  intros H HI HK. unfold process_context in H. destruct n as [|n]; [discriminate|]. cbn [engine e_process] in H.
  unfold process_body in H. apply bind_ok in H. destruct H as (o' & EO & H).
  assert (is_10 o' = is_10 o /\ po_vocab o' = po_vocab o /\ po_override o' = po_override o) as (O1 & O2 & O3).
  { cbn in EO. destruct (cd_propagate d); [destruct (is_10 o) eqn:T; [discriminate|]|]; injection EO as <-; auto. }
  cbn [entries_of process_entries] in H.
  set (c0 := if (negb (po_propagate o') && _)%bool then _ else a) in H.
  assert (D0 : ac_defs c0 = ac_defs a) by (unfold c0; destruct (_ && _)%bool; reflexivity). clearbody c0.
  apply bind_ok in H. destruct H as ([c1 r1] & E & H). injection H as ->.
  apply bind_ok in E. destruct E as (c2 & E & H). injection H as -> _. unfold process_def in E.
  destruct (match cd_version d with Some _ => _ | None => _ end); [discriminate|].
  unfold import_of in E. rewrite HI in E. cbn [bind] in E.
  unfold process_merged in E. apply bind_ok in E. destruct E as (c3 & E1 & E). apply bind_ok in E. destruct E as (c4 & E2 & E).
  apply bind_ok in E. destruct E as (c5 & E3 & E). apply base_defs in E1. apply vocab_defs in E2. apply direction_defs in E3.
  apply (define_all_created io ld _ n c5 rs b o' c' k v) in E.
  - destruct E as (b' & p' & ov' & X & CR). exists b', p', ov'. unfold m_field in X. cbn [m_base m_imported or_else] in X.
    replace (or_else (cd_protected d) None) with (cd_protected d) in X by (destruct (cd_protected d); reflexivity).
    rewrite O3 in X. split; [exact X|].
    replace (setting_of io ld o c') with (setting_of io ld o' c') by (unfold setting_of; congruence).
    replace (assoc k (ac_defs a)) with (get_normal c5 k); [exact CR|]. unfold get_normal. f_equal. intuition congruence.
  - cbn. clear - HK. induction (cd_bindings d) as [|[x w] l IH]; [discriminate|]. cbn in HK |- *.
    destruct (streq_spec k x) as [->|]; [left; reflexivity|right; apply IH, HK].
  - unfold m_get, def_get. cbn [m_base m_imported or_else]. rewrite HK. reflexivity.
Qed.

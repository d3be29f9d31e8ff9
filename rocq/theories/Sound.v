(** The identifiers held by active contexts, and those given by IRI expansion, are what their
    text reads as. *)
From Verif Require Import Prelude Str Keyword Enums LangTag Container Stack ContextSyntax Ctx Process ProcessRel Frame IriSpec Cycles
  Object ObjectEq ObjectJson ObjectJsonProofs CompactIri CompactIriRead.

(** The laws of the syntax checks and of reference resolution: those of IRIs, blank node
    identifiers start with "_:", and resolution gives an IRI. *)
Record id_laws (io : iops) : Prop := {
  dl_iri : iri_laws io;
  dl_blank : forall s, blank_ok io s = true -> exists x, s = "_:" +++ x;
  dl_resolve : forall b r, iri_ok io (resolve io b r) = true
}.

(** The identifiers of a definition. *)
Record sound_def (io : iops) (d : ndef) : Prop := {
  sn_value : forall i, nd_value d = Some (TmId i) -> readable io i;
  sn_type : forall s, nd_typ d = Some (TyIri s) -> iri_ok io s = true
}.
(** Those of a context and of its previous contexts. *)
Inductive sound (io : iops) : actx -> Prop :=
| Sound c :
    (forall k d, assoc k (ac_defs c) = Some d -> sound_def io d) ->
    (forall i, ac_vocab c = Some (TmId i) -> readable io i) ->
    (forall p, ac_prev c = Some p -> sound io p) -> sound io c.

Section Sound.
Variable io : iops.
Hypothesis L : id_laws io.
Notation readable := (readable io).
Notation sound_def := (sound_def io).
Notation sound := (sound io).

Lemma iri_readable s : iri_ok io s = true -> readable (IIri s).
Proof. intros H. unfold ObjectJson.readable, id_of_string. cbn. rewrite H. reflexivity. Qed.
Lemma readable_iri s : readable (IIri s) -> iri_ok io s = true.
Proof. unfold ObjectJson.readable, id_of_string. cbn. destruct (iri_ok io s); [reflexivity|]. destruct (blank_ok io s); discriminate. Qed.
Lemma blank_readable s : blank_ok io s = true -> readable (IBlank s).
Proof.
  intros H. unfold ObjectJson.readable, id_of_string. cbn. destruct (iri_ok io s) eqn:E; [|rewrite H; reflexivity].
  rewrite (il_blank _ (dl_iri _ L) _ E) in H. discriminate.
Qed.
Lemma invalid_readable s : iri_ok io s = false -> blank_ok io s = false -> readable (IInvalid s).
Proof. intros H B. unfold ObjectJson.readable, id_of_string. cbn. rewrite H, B. reflexivity. Qed.
Lemma iri_colon s : iri_ok io s = true -> colon_inside s = true.
Proof. intros H. destruct (il_scheme _ (dl_iri _ L) _ H) as (p & x & -> & N & C & _). apply colon_find; assumption. Qed.
Lemma blank_colon s : blank_ok io s = true -> colon_inside s = true.
Proof. intros H. destruct (dl_blank _ L _ H) as (x & ->). reflexivity. Qed.
Lemma no_colon_readable s : colon_inside s = false -> readable (IInvalid s).
Proof.
  intros H. apply invalid_readable.
  - destruct (iri_ok io s) eqn:E; [|reflexivity]. rewrite (iri_colon _ E) in H. discriminate.
  - destruct (blank_ok io s) eqn:E; [|reflexivity]. rewrite (blank_colon _ E) in H. discriminate.
Qed.
Lemma keyword_readable k : readable (IInvalid (kw_str k)).
Proof. apply no_colon_readable. destruct k; reflexivity. Qed.
Lemma underscore_readable : blank_ok io "_:" = false -> readable (IInvalid "_:").
Proof.
  intros B. apply invalid_readable; [|exact B]. destruct (iri_ok io "_:") eqn:E; [|reflexivity].
  destruct (il_scheme _ (dl_iri _ L) _ E) as (p & x & P & N & C & U & _). destruct p as [|a p]; [congruence|].
  cbn in P. injection P as <- P. discriminate U.
Qed.

Lemma sound_get c k d : sound c -> get_normal c k = Some d -> sound_def d.
Proof. intros [? H _ _]. apply H. Qed.
Lemma sound_value c k i : sound c -> get_value c k = Some (Some (TmId i)) -> readable i.
Proof.
  intros S. unfold get_value. destruct (streq k "@type"); [destruct (ac_type c); discriminate|].
  destruct (get_normal c k) as [d|] eqn:G; [|discriminate]. cbn. intros E. injection E as E. apply (sn_value _ _ (sound_get _ _ _ S G) _ E).
Qed.

Lemma resolve_ok s b u : resolve_iri io s b = Some u -> iri_ok io u = true.
Proof.
  unfold resolve_iri. destruct b as [b|].
  - intros E. injection E as <-. apply (dl_resolve _ L).
  - destruct (iri_ok io s) eqn:O; [|discriminate]. intros E. injection E as <-. exact O.
Qed.
Lemma tail_sound c s dr vo i : sound c -> readable (IInvalid s) -> expand_tail io c s dr vo = Ok (Some (TmId i)) -> readable i.
Proof.
  intros S R H. unfold expand_tail in H.
  assert (X : Ok (Some (if dr && iri_ref_ok io s
      then match resolve_iri io s (ac_base c) with Some i0 => TmId (IIri i0) | None => TmId (IInvalid s) end
      else TmId (IInvalid s))) = Ok (Some (TmId i)) :> result _ cerr -> readable i).
  { destruct (dr && iri_ref_ok io s); [|intros E; injection E as <-; exact R].
    destruct (resolve_iri io s (ac_base c)) as [u|] eqn:U; intros E; injection E as <-; [|exact R]. apply iri_readable, (resolve_ok _ _ _ U). }
  destruct vo as [a|]; [|exact (X H)]. destruct (ac_vocab c) as [[|m|k]|]; [| | |exact (X H)].
  - injection H as <-. exact R.
  - destruct a; try discriminate. injection H as <-. apply read_readable.
  - injection H as <-. exact R.
Qed.
Lemma absolute_sound c s dr vo i : sound c -> blank_ok io s = false -> expand_absolute io c s dr vo = Ok (Some (TmId i)) -> readable i.
Proof.
  intros S B H. unfold expand_absolute in H. destruct (iri_ok io s) eqn:E; [injection H as <-; apply iri_readable, E|].
  eapply tail_sound; [exact S| |exact H]. apply invalid_readable; assumption.
Qed.
Lemma defined_sound c s vo i : sound c -> expand_defined c s vo = Some (TmId i) -> readable i.
Proof.
  intros S. unfold expand_defined. destruct (get_value c s) as [[t|]|] eqn:G; [| |discriminate].
  - destruct t as [|j|k]; try (destruct vo; discriminate). destruct vo; [|discriminate]. intros E. injection E as <-.
    exact (sound_value _ _ _ S G).
  - destruct vo; discriminate.
Qed.
Lemma prefixed_sound c p x i : expand_prefixed io c p x = Some (TmId i) -> readable i.
Proof.
  unfold expand_prefixed. destruct (get_normal c p) as [d|]; [|discriminate]. destruct (nd_prefix d); [|discriminate].
  destruct (nd_value d); [|discriminate]. intros E. injection E as <-. apply read_readable.
Qed.
Lemma prefixed_id c p x t : expand_prefixed io c p x = Some t -> exists i, t = TmId i.
Proof.
  unfold expand_prefixed. destruct (get_normal c p) as [d|]; [|discriminate]. destruct (nd_prefix d); [|discriminate].
  destruct (nd_value d); [|discriminate]. intros E. injection E as <-. eauto.
Qed.

(** IRI expansion gives readable identifiers. *)
Lemma expand_sound c v dr vo i : sound c -> expand_iri_simple io c v dr vo = Ok (Some (TmId i)) -> readable i.
Proof.
  intros S. unfold expand_iri_simple. destruct v as [|[k|s]]; try discriminate. destruct (is_keyword_like s); [discriminate|].
  destruct (expand_defined c s vo) as [t|] eqn:D; [intros E; injection E as ->; exact (defined_sound _ _ _ _ S D)|].
  destruct (colon_inside s) eqn:C.
  - destruct (blank_ok io s) eqn:B; [intros E; injection E as <-; apply blank_readable, B|].
    destruct (streq_spec s "_:") as [->|N]; [intros E; injection E as <-; apply underscore_readable, B|].
    destruct (compact_iri_of io s) as [[p x]|]; [|apply absolute_sound; assumption].
    destruct (expand_prefixed io c p x) as [t|] eqn:P; [intros E; injection E as ->; exact (prefixed_sound _ _ _ _ P)|apply absolute_sound; assumption].
  - apply tail_sound; [exact S|apply no_colon_readable, C].
Qed.

(** ** Context processing *)

Lemma sound_new b : sound (ctx_new b).
Proof. constructor; discriminate. Qed.
Lemma sound_previous c p : sound c -> sound p -> sound (set_previous c p).
Proof. intros [? D V P] S. constructor; [exact D|exact V|]. cbn. intros q E. injection E as <-. exact S. Qed.
Lemma sound_set c k d : sound c -> (forall x, d = Some x -> sound_def x) -> sound (set_normal c k d).
Proof.
  intros [? D V P] X. constructor; [|exact V|exact P]. cbn [ac_defs set_normal]. intros k' d'. rewrite assoc_mset.
  destruct (streq k k'); [intros E; apply X, E|apply D].
Qed.
Lemma sound_same c c' : sound c -> ac_defs c' = ac_defs c -> ac_vocab c' = ac_vocab c -> ac_prev c' = ac_prev c -> sound c'.
Proof. intros [? D V P] E1 E2 E3. constructor; rewrite ?E1, ?E2, ?E3; assumption. Qed.
Lemma default_sound p : sound_def (nd_set_protected ndef_default p).
Proof. split; discriminate. Qed.

Section Define.
Variable r : eng.
Variable m : merged.
Variable rs : pstack.
Variable o : popts.
Hypothesis IH : forall s k b p o s', sound (fst s) -> e_define r s m k rs b p o = Ok s' -> sound (fst s').

Lemma with_sound s0 v dr vo s1 t : sound (fst s0) -> expand_iri_with io r s0 v dr vo m rs o = Ok (s1, t) ->
  sound (fst s1) /\ forall i, t = Some (TmId i) -> readable i.
Proof.
  intros S. unfold expand_iri_with. destruct v as [|[k|s]]; try (intros H; injection H as <- <-; split; [exact S|discriminate]).
  destruct (is_keyword_like s); [intros H; injection H as <- <-; split; [exact S|discriminate]|].
  intros H. apply bind_ok in H. destruct H as (s2 & E & H). apply (IH _ _ _ _ _ _ S) in E.
  destruct (expand_defined (fst s2) s vo) as [u|] eqn:D.
  { injection H as <- <-. split; [exact E|]. intros i X. injection X as ->. exact (defined_sound _ _ _ _ E D). }
  destruct (colon_inside s) eqn:C.
  - destruct (blank_ok io s) eqn:B; [injection H as <- <-; split; [exact E|]; intros i X; injection X as <-; apply blank_readable, B|].
    destruct (streq_spec s "_:") as [->|N]; [injection H as <- <-; split; [exact E|]; intros i X; injection X as <-; apply underscore_readable, B|].
    destruct (compact_iri_of io s) as [[p x]|].
    + apply bind_ok in H. destruct H as (s3 & E3 & H). apply (IH _ _ _ _ _ _ E) in E3.
      destruct (expand_prefixed io (fst s3) p x) as [u|] eqn:P.
      * injection H as <- <-. split; [exact E3|]. intros i X. injection X as ->. exact (prefixed_sound _ _ _ _ P).
      * apply bind_ok in H. destruct H as (u & A & H). injection H as <- <-. split; [exact E3|]. intros i ->. exact (absolute_sound _ _ _ _ _ E3 B A).
    + apply bind_ok in H. destruct H as (u & A & H). injection H as <- <-. split; [exact E|]. intros i ->. exact (absolute_sound _ _ _ _ _ E B A).
  - apply bind_ok in H. destruct H as (u & A & H). injection H as <- <-. split; [exact E|]. intros i ->. exact (tail_sound _ _ _ _ _ E (no_colon_readable _ C) A).
Qed.

Lemma type_sound s0 e d s1 d1 : sound (fst s0) -> sound_def d -> define_type io r s0 m rs o e d = Ok (s1, d1) -> sound (fst s1) /\ sound_def d1.
Proof.
  intros S D. unfold define_type. destruct (te_type e) as [t|]; [|intros H; injection H as <- <-; auto].
  intros H. apply bind_ok in H. destruct H as ([s2 u] & E & H). destruct (with_sound _ _ _ _ _ _ S E) as [S2 R].
  destruct u as [u|]; [|injection H as <- <-; auto]. destruct (_ && _)%bool; [discriminate|]. destruct (ty_of_term u) as [y|] eqn:Y; [|discriminate].
  injection H as <- <-. split; [exact S2|]. split; [exact (sn_value _ _ D)|]. cbn. intros s X. injection X as ->.
  destruct u as [|[x|x|x]|[]]; cbn in Y; try discriminate. injection Y as ->. apply readable_iri, R. reflexivity.
Qed.
Lemma own_sound c k t : sound c -> own_mapping io c k o = Ok t -> forall i, t = TmId i -> readable i.
Proof.
  intros S H i ->. unfold own_mapping in H.
  assert (X : default_mapping io c k = Ok (TmId i) -> readable i).
  { unfold default_mapping. destruct (ac_vocab c) as [[|[v|v|v]|]|]; try discriminate. destruct (iri_ok io (v +++ k)) eqn:O; [|discriminate].
    intros E. injection E as <-. apply iri_readable, O. }
  destruct (blank_ok io k) eqn:B; [injection H as <-; apply blank_readable, B|]. destruct (iri_ref_ok io k); [|exact (X H)].
  destruct (iri_ok io k) eqn:O; [injection H as <-; apply iri_readable, O|]. destruct (contains_char "/" k); [|exact (X H)].
  apply bind_ok in H. destruct H as (t & E & H). destruct t as [[|[u|u|u]|]|]; try discriminate. injection H as <-. exact (expand_sound _ _ _ _ _ S E).
Qed.
Lemma no_id_sound s0 k s1 t : sound (fst s0) -> define_no_id io r s0 m k rs o = Ok (s1, t) -> sound (fst s1) /\ forall i, t = TmId i -> readable i.
Proof.
  intros S. unfold define_no_id. destruct (compact_iri_of io k) as [[p x]|]; intros H.
  - apply bind_ok in H. destruct H as (s2 & E & H). apply (IH _ _ _ _ _ _ S) in E. destruct (get_value (fst s2) p) as [v|].
    + destruct (iri_ok io _) eqn:O; [|discriminate]. injection H as <- <-. split; [exact E|]. intros i X. injection X as <-. apply iri_readable, O.
    + apply bind_ok in H. destruct H as (t' & Et & H). injection H as <- <-. split; [exact E|]. exact (own_sound _ _ _ E Et).
  - apply bind_ok in H. destruct H as (t' & Et & H). injection H as <- <-. split; [exact S|]. exact (own_sound _ _ _ S Et).
Qed.
Lemma set_value_sound d t : sound_def d -> (forall i, t = Some (TmId i) -> readable i) -> sound_def (nd_set_value d t).
Proof. intros D R. split; [exact R|exact (sn_type _ _ D)]. Qed.
Lemma id_sound s0 k b i d s1 d1 : sound (fst s0) -> sound_def d -> define_id io r s0 m k rs o b i d = Ok (s1, d1) ->
  sound (fst s1) /\ forall x, d1 = Some x -> sound_def x.
Proof.
  intros S D. unfold define_id. destruct (_ && _)%bool; [intros H; injection H as <- <-; split; [exact S|discriminate]|].
  intros H. apply bind_ok in H. destruct H as ([s2 v] & E & H). destruct (with_sound _ _ _ _ _ _ S E) as [S2 R].
  destruct (match v with Some (TmKw KContext) => true | _ => false end); [discriminate|].
  destruct (match v with Some (TmId p) => negb (id_valid p) | _ => false end); [discriminate|].
  apply bind_ok in H. destruct H as (s3 & E3 & H).
  assert (S3 : sound (fst s3)).
  { destruct (_ || _)%bool in E3; [|injection E3 as <-; exact S2]. apply bind_ok in E3. destruct E3 as ([s4 u] & E4 & E3).
    destruct (opt_eqb term_eqb v u); [|discriminate]. injection E3 as <-. exact (proj1 (with_sound (fst s2, _) _ _ _ _ _ S2 E4)). }
  pose proof (set_value_sound d v D R) as Dv.
  destruct (_ && _ && _)%bool; [destruct v; [|discriminate]|]; injection H as <- <-; (split; [exact S3|]); intros x X; injection X as <-;
    [split; [exact (sn_value _ _ Dv)|exact (sn_type _ _ Dv)]|exact Dv].
Qed.
Lemma mapping_sound s0 k b e d s1 d1 : sound (fst s0) -> sound_def d -> define_mapping io r s0 m k rs o b e d = Ok (s1, d1) ->
  sound (fst s1) /\ forall x, d1 = Some x -> sound_def x.
Proof.
  intros S D. unfold define_mapping. intros H.
  assert (N : forall s1 d1, (do (s1, t) <- define_no_id io r s0 m k rs o ; Ok (s1, Some (nd_set_value d (Some t)))) = Ok (s1, d1) ->
    sound (fst s1) /\ forall x, d1 = Some x -> sound_def x).
  { clear H. intros s1' d1' H. apply bind_ok in H. destruct H as ([s2 t] & E & H). injection H as <- <-.
    destruct (no_id_sound _ _ _ _ S E) as [S2 R]. split; [exact S2|]. intros x X. injection X as <-. apply set_value_sound; [exact D|].
    intros i X. injection X as ->. apply R. reflexivity. }
  destruct (te_id e) as [i|]; [|exact (N _ _ H)]. destruct (id_differs i k); [|exact (N _ _ H)].
  destruct i as [|i]; [|exact (id_sound _ _ _ _ _ _ _ S D H)]. injection H as <- <-. split; [exact S|]. intros x X. injection X as <-. exact D.
Qed.

(** The entries that touch neither the IRI mapping nor the type mapping, except that
    [@container] may add a type mapping. *)
Definition like (d d' : ndef) : Prop := nd_value d' = nd_value d /\ (nd_typ d' = nd_typ d \/ nd_typ d' = Some TyId).
Lemma like_sound d d' : like d d' -> sound_def d -> sound_def d'.
Proof.
  intros [V T] D. split; rewrite ?V; [exact (sn_value _ _ D)|]. destruct T as [->| ->]; [exact (sn_type _ _ D)|discriminate].
Qed.
Lemma like_trans a b c : like a b -> like b c -> like a c.
Proof. intros [V1 T1] [V2 T2]. split; [congruence|]. destruct T2 as [->| ->]; auto. Qed.
Lemma like_refl d : like d d. Proof. split; auto. Qed.
Ltac same := match goal with H : Ok _ = Ok _ |- _ => injection H as <-; split; cbn; auto end.

Lemma rest_sound s0 k b e prev d s1 : sound (fst s0) -> sound_def d -> define_rest io r s0 k rs b o e prev d = Ok s1 -> sound (fst s1).
Proof.
  intros S D H. unfold define_rest in H.
  apply bind_ok in H. destruct H as (d1 & E1 & H). apply bind_ok in H. destruct H as (d2 & E2 & H).
  apply bind_ok in H. destruct H as (d3 & E3 & H). apply bind_ok in H. destruct H as (d4 & E4 & H).
  apply bind_ok in H. destruct H as (d5 & E5 & H). apply bind_ok in H. destruct H as (d6 & E6 & H).
  apply bind_ok in H. destruct H as (d7 & E7 & H). injection H as <-.
  assert (X1 : like d d1).
  { unfold define_container in E1. destruct (te_container e) as [c|]; [|same]. destruct (_ && _)%bool; [discriminate|].
    destruct (c_from_syntax c) as [cc|]; [|discriminate]. destruct (c_contains cc CKType); [|same]. cbn in E1.
    destruct (nd_typ d) as [[]|] eqn:T; try discriminate; same. }
  assert (X2 : like d1 d2).
  { unfold define_index in E2. destruct (te_index e) as [i|]; [|same]. destruct (_ || _)%bool; [discriminate|].
    apply bind_ok in E2. destruct E2 as (t & _ & E2). destruct t as [[|[]|]|]; try discriminate; same. }
  assert (X3 : like d2 d3).
  { unfold define_context in E3. destruct (te_context e) as [lc|]; [|same]. destruct (is_10 o); [discriminate|].
    destruct (e_process _ _ _ _ _ _) as [|[]]; try discriminate; same. }
  assert (X4 : like d3 d4).
  { unfold define_nest, define_language in E4. destruct (te_type e), (te_language e), (te_direction e), (te_nest e); cbn in E4; try (destruct (is_10 o); [discriminate|]); same. }
  assert (X5 : like d4 d5).
  { unfold define_prefix in E5. destruct (te_prefix e) as [[]|]; [| |same]; destruct (_ || _)%bool; try discriminate; [|same].
    destruct (nd_value d4) as [t|] eqn:V; [|discriminate]. destruct (term_is_kw t); [discriminate|]. same. }
  assert (X6 : like d5 d6) by (unfold define_propagate in E6; destruct (te_propagate e); [discriminate|same]).
  assert (X7 : like d6 d7).
  { unfold define_protect in E7. destruct (po_override o); [same|]. destruct prev as [p|]; [|same]. destruct (nd_protected p); [|same].
    destruct (modulo_protected_eqb d6 p); [same|discriminate]. }
  apply sound_set; [exact S|]. intros x X. injection X as <-. refine (like_sound d d7 _ D).
  eauto 10 using like_trans.
Qed.

Lemma normal_sound s0 k b p v s1 ended : sound (fst s0) -> define_normal io r s0 m k rs b p o v = Ok (s1, ended) -> sound (fst s1).
Proof.
  intros S H. unfold define_normal in H. cbn zeta in H. apply bind_ok in H. destruct H as (d & E & H).
  assert (D : sound_def d).
  { unfold define_protected in E. destruct (te_protected (expanded_of v)); [destruct (is_10 o); [discriminate|]|]; injection E as <-; apply default_sound. }
  apply bind_ok in H. destruct H as ([s2 d2] & E2 & H).
  destruct (type_sound (set_normal (fst s0) k None, snd s0) _ _ _ _ (sound_set _ k None S ltac:(discriminate)) D E2) as [S2 D2]. clear E2.
  destruct (te_reverse (expanded_of v)) as [rev|].
  - unfold define_reverse in H. destruct (_ || _)%bool; [discriminate|]. destruct (is_keyword_like rev); [injection H as <- _; exact S2|].
    apply bind_ok in H. destruct H as ([s3 t] & E3 & H). destruct (with_sound _ _ _ _ _ _ S2 E3) as [S3 R]. destruct t as [[|i|]|]; try discriminate.
    destruct (id_valid i); [|discriminate]. apply bind_ok in H. destruct H as (d4 & E4 & H). injection H as <- _. apply sound_set; [exact S3|].
    intros x X. injection X as <-. refine (like_sound (nd_set_value d2 (Some (TmId i))) _ _ (set_value_sound _ _ D2 R)).
    unfold reverse_container in E4. destruct (te_container (expanded_of v)) as [[|c]|]; [| |]; try (injection E4 as <-; split; cbn; auto).
    destruct (c_from_syntax (NSome c)) as [[]|]; try discriminate; injection E4 as <-; split; cbn; auto.
  - apply bind_ok in H. destruct H as ([s3 d3] & E3 & H). destruct (mapping_sound _ _ _ _ _ _ _ S2 D2 E3) as [S3 D3].
    destruct d3 as [d3|]; [|injection H as <- _; exact S3]. apply bind_ok in H. destruct H as (s4 & E4 & H). injection H as <- _.
    exact (rest_sound _ _ _ _ _ _ _ S3 (D3 _ eq_refl) E4).
Qed.
End Define.

Lemma define_sound ld m n : forall rs s k b p o s', sound (fst s) -> e_define (engine io ld n) s m k rs b p o = Ok s' -> sound (fst s').
Proof.
  induction n as [|n IH]; intros rs s k b p o s' S H; [discriminate|]. cbn in H. unfold define_body in H.
  destruct (dget k (snd s)) as [[]|]; [discriminate|injection H as <-; exact S|]. cbn zeta in H.
  destruct (match k with KKey s => streq s "" | KKeyword _ => false end); [discriminate|].
  destruct (m_get m k) as [[t|v|]|]; [| |discriminate|injection H as <-; exact S].
  - apply bind_ok in H. destruct H as (c & E & H). injection H as <-. unfold define_type_term in E. destruct (is_10 o); [discriminate|].
    injection E as <-. refine (sound_same _ _ S _ _ _); reflexivity.
  - destruct k as [k|]; [|discriminate]. apply bind_ok in H. destruct H as ([s2 ended] & E & H).
    pose proof (normal_sound (engine io ld n) m rs o (IH rs) (fst s, _) _ _ _ _ _ _ S E) as S2. injection H as <-. destruct ended; exact S2.
Qed.

Lemma merged_sound ld n c m rs b o c' : process_merged io (engine io ld n) c m rs b o = Ok c' -> sound c -> sound c'.
Proof.
  intros H S. unfold process_merged in H. apply bind_ok in H. destruct H as (c1 & E1 & H). apply bind_ok in H. destruct H as (c2 & E2 & H).
  apply bind_ok in H. destruct H as (c3 & E3 & H).
  assert (S1 : sound c1).
  { pose proof (process_base_spec _ _ _ _ _ E1) as (_ & V & _ & _ & P & _). apply base_defs in E1. refine (sound_same _ _ S _ V P). symmetry. apply E1. }
  assert (S2 : sound c2).
  { unfold process_vocab in E2. destruct (m_field cd_vocab m) as [[|v]|]; [| |injection E2 as <-; exact S1].
    - injection E2 as <-. destruct S1 as [? D V P]. constructor; [exact D|discriminate|exact P].
    - apply bind_ok in E2. destruct E2 as (t & E & E2). destruct t as [[|i|]|]; try discriminate. injection E2 as <-.
      pose proof (expand_sound _ _ _ _ _ S1 E) as R. destruct S1 as [? D V P]. constructor; [exact D| |exact P]. cbn. intros j X. injection X as <-. exact R. }
  assert (S3 : sound c3).
  { pose proof (process_direction_spec _ _ _ _ E3) as (_ & _ & V & P & _). apply direction_defs in E3. refine (sound_same _ _ S2 _ V P). symmetry. apply E3. }
  unfold define_all in H. apply bind_ok in H. destruct H as (s1 & E4 & H). apply bind_ok in H. destruct H as (s2 & E5 & H). injection H as <-.
  assert (S4 : sound (fst s1)).
  { destruct (m_field cd_type m); [|injection E4 as <-; exact S3]. exact (define_sound _ _ _ _ (c3, []) _ _ _ _ _ S3 E4). }
  revert E5 S4. apply (keys_rel io ld (fun s s' => sound (fst s) -> sound (fst s'))); auto.
  intros s k s' E S5. exact (define_sound _ _ _ _ _ _ _ _ _ _ S5 E).
Qed.

Theorem process_sound ld n a lc rs b o c' : process_context io ld n a lc rs b o = Ok c' -> sound a -> sound c'.
Proof.
  intros H. refine (entry_process io ld sound (fun _ => True) (fun _ => True) _ _ _ _ _ n a lc rs b o c' I _ H); auto.
  - intros; apply sound_previous; assumption.
  - intros a' c o' c1 _ E Sa Sc. unfold process_null in E. destruct (_ && _)%bool; [discriminate|]. injection E as <-.
    destruct (po_propagate o'); [apply sound_new|apply sound_previous; [apply sound_new|exact Sc]].
  - intros n0 c m rs0 b0 o0 c1 _ _ _. apply merged_sound.
  - intros u lc' _ e _. exact I.
  - intros e _. exact I.
Qed.
Lemma full_sound ld n a lc b o c' : process_full io ld n a lc b o = Ok c' -> sound a -> sound c'.
Proof. apply process_sound. Qed.
End Sound.

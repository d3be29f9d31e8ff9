(** Absence of the two errors that are not JSON-LD errors: running out of fuel
    (non-termination) and panicking. *)
From Verif Require Import Prelude Str Keyword Enums LangTag Container Stack ContextSyntax Ctx Process ProcessRel.

(** The set of terms whose definition has begun only grows. *)
Definition grows (d d' : dmap) : Prop := forall k, dget k d <> None -> dget k d' <> None.

Lemma grows_refl d : grows d d.
Proof. intros k H. exact H. Qed.
Lemma grows_trans a b c : grows a b -> grows b c -> grows a c.
Proof. unfold grows. auto. Qed.
Lemma grows_cons k b d : grows d ((k, b) :: d).
Proof. intros k' H. cbn. destruct (kk_eqb k' k); [discriminate|exact H]. Qed.

Lemma define_grows io ld n s m k rs b p o s' :
  e_define (engine io ld n) s m k rs b p o = Ok s' -> grows (snd s) (snd s').
Proof.
  apply (define_rel io ld (fun s s' => grows (snd s) (snd s')) m); cbn [fst snd].
  - intros. apply grows_refl.
  - intros. eapply grows_trans; eassumption.
  - intros. apply grows_cons.
  - intros. apply grows_cons.
  - intros. apply grows_refl.
  - intros. apply grows_refl.
Qed.

(** [None] is only produced when vocabulary mappings are dropped. *)
Lemma tail_some io c s dr act t : act <> ADrop -> expand_tail io c s dr (Some act) = Ok t -> t <> None.
Proof.
  intros N. unfold expand_tail. destruct (ac_vocab c) as [[]|]; try (intros H; injection H as <-; discriminate).
  destruct act; try discriminate; [|contradiction]. intros H; injection H as <-; discriminate.
Qed.
Lemma absolute_some io c s dr act t : act <> ADrop -> expand_absolute io c s dr (Some act) = Ok t -> t <> None.
Proof.
  intros N. unfold expand_absolute. destruct (iri_ok io s); [intros H; injection H as <-; discriminate|].
  apply tail_some, N.
Qed.
Lemma expand_some io r s0 v dr act m rs o s1 t : act <> ADrop ->
  expand_iri_with io r s0 v dr (Some act) m rs o = Ok (s1, t) -> t <> None.
Proof.
  intros N. unfold expand_iri_with. destruct v as [|[k|s]]; try (intros H; injection H as <- <-; discriminate).
  destruct (is_keyword_like s); [intros H; injection H as <- <-; discriminate|].
  intros H. apply bind_ok in H. destruct H as (s2 & _ & H).
  destruct (expand_defined (fst s2) s (Some act)); [injection H as <- <-; discriminate|].
  destruct (colon_inside s).
  2:{ apply bind_ok in H. destruct H as (t' & E & H). injection H as <- <-. eapply tail_some; eassumption. }
  destruct (blank_ok io s); [injection H as <- <-; discriminate|].
  destruct (streq s "_:"); [injection H as <- <-; discriminate|].
  destruct (compact_iri_of io s) as [[p x]|].
  2:{ apply bind_ok in H. destruct H as (t' & E & H). injection H as <- <-. eapply absolute_some; eassumption. }
  apply bind_ok in H. destruct H as (s3 & _ & H).
  destruct (expand_prefixed io (fst s3) p x); [injection H as <- <-; discriminate|].
  apply bind_ok in H. destruct H as (t' & E & H). injection H as <- <-. eapply absolute_some; eassumption.
Qed.

Section NoErr.
Variable io : iops.
Variable e0 : cerr.
Hypothesis He : e0 = EFuel \/ e0 = EPanic.

Ltac no := intros X; injection X as X; rewrite <- X in He; destruct He as [He'|He']; discriminate He'.
Ltac easy_err := first [discriminate | no].

Lemma tail_noerr c s dr vo : expand_tail io c s dr vo <> Err e0.
Proof.
  unfold expand_tail. destruct vo as [act|]; [|easy_err].
  destruct (ac_vocab c) as [[]|]; try easy_err. destruct act; easy_err.
Qed.
Lemma absolute_noerr c s dr vo : expand_absolute io c s dr vo <> Err e0.
Proof. unfold expand_absolute. destruct (iri_ok io s); [easy_err|apply tail_noerr]. Qed.
Lemma simple_noerr c v dr vo : expand_iri_simple io c v dr vo <> Err e0.
Proof.
  unfold expand_iri_simple. destruct v as [|[k|s]]; try easy_err.
  destruct (is_keyword_like s); [easy_err|]. destruct (expand_defined c s vo); [easy_err|].
  destruct (colon_inside s); [|apply tail_noerr]. destruct (blank_ok io s); [easy_err|].
  destruct (streq s "_:"); [easy_err|]. destruct (compact_iri_of io s) as [[p x]|]; [|apply absolute_noerr].
  destruct (expand_prefixed io c p x); [easy_err|apply absolute_noerr].
Qed.
Lemma bind_noerr {A B} (x : result A cerr) (f : A -> result B cerr) :
  x <> Err e0 -> (forall a, x = Ok a -> f a <> Err e0) -> bind x f <> Err e0.
Proof. intros Hx Hf. destruct x as [a|e]; cbn; [apply Hf; reflexivity|congruence]. Qed.

Variable r : eng.
Variable m : merged.
Variable rs : pstack.
Variable o : popts.
Variable Pre : dmap -> Prop.
Hypothesis PreG : forall d d', grows d d' -> Pre d -> Pre d'.
Hypothesis Rdef : forall s k s',
  e_define r s m (KKey k) rs None false (with_no_override o) = Ok s' -> grows (snd s) (snd s').
Hypothesis Hdef : forall s k, Pre (snd s) ->
  e_define r s m (KKey k) rs None false (with_no_override o) <> Err e0.

Definition gst (s s' : st) : Prop := grows (snd s) (snd s').
Lemma gst_refl s : gst s s. Proof. apply grows_refl. Qed.
Lemma gst_trans a b c : gst a b -> gst b c -> gst a c. Proof. apply grows_trans. Qed.
Lemma gst_end k s : gst s (fst s, dend (KKey k) (snd s)). Proof. apply grows_cons. Qed.

Lemma expand_noerr s0 v dr vo : Pre (snd s0) -> expand_iri_with io r s0 v dr vo m rs o <> Err e0.
Proof.
  intros HP. unfold expand_iri_with. destruct v as [|[k|s]]; try easy_err.
  destruct (is_keyword_like s) eqn:K; [easy_err|]. rewrite (kk_of_str_key _ K).
  apply bind_noerr; [apply Hdef, HP|]. intros s1 E1. apply Rdef in E1.
  destruct (expand_defined (fst s1) s vo); [easy_err|].
  destruct (colon_inside s); [|apply bind_noerr; [apply tail_noerr|easy_err]].
  destruct (blank_ok io s); [easy_err|]. destruct (streq s "_:"); [easy_err|].
  destruct (compact_iri_of io s) as [[p x]|]; [|apply bind_noerr; [apply absolute_noerr|easy_err]].
  apply bind_noerr; [apply Hdef; eapply PreG; eassumption|]. intros s2 _.
  destruct (expand_prefixed io (fst s2) p x); [easy_err|]. apply bind_noerr; [apply absolute_noerr|easy_err].
Qed.

Lemma type_noerr s0 e d : Pre (snd s0) -> define_type io r s0 m rs o e d <> Err e0.
Proof.
  intros HP. unfold define_type. destruct (te_type e); [|easy_err].
  apply bind_noerr; [apply expand_noerr, HP|]. intros [s1 t] _. destruct t as [t|]; [|easy_err].
  destruct (_ && _)%bool; [easy_err|]. destruct (ty_of_term t); easy_err.
Qed.

Lemma reverse_noerr s0 k e d rev : Pre (snd s0) -> define_reverse io r s0 m k rs o e d rev <> Err e0.
Proof.
  intros HP. unfold define_reverse. destruct (_ || _)%bool; [easy_err|]. destruct (is_keyword_like rev); [easy_err|].
  apply bind_noerr; [apply expand_noerr, HP|]. intros [s1 t] _. destruct t as [[]|]; try easy_err.
  destruct (id_valid i); [|easy_err]. apply bind_noerr; [|easy_err].
  unfold reverse_container. destruct (te_container e) as [[]|]; try easy_err.
  destruct (c_from_syntax (NSome a)) as [[]|]; easy_err.
Qed.

Lemma id_noerr s0 k b i d : Pre (snd s0) -> (e0 = EPanic -> po_vocab o <> ADrop) ->
  define_id io r s0 m k rs o b i d <> Err e0.
Proof.
  intros HP HA. unfold define_id. destruct (_ && negb _)%bool; [easy_err|].
  apply bind_noerr; [apply expand_noerr, HP|]. intros [s1 v] E1.
  pose proof (rel_expand io r gst m rs gst_refl gst_trans o Rdef _ _ _ _ _ _ E1) as G1.
  destruct (match v with Some (TmKw KContext) => true | _ => false end); [easy_err|].
  destruct (match v with Some (TmId p) => negb (id_valid p) | _ => false end); [easy_err|].
  apply bind_noerr.
  - destruct (_ || _)%bool; [|easy_err]. apply bind_noerr.
    + apply expand_noerr. cbn. eapply PreG; [|exact HP]. eapply grows_trans; [exact G1|apply grows_cons].
    + intros [s2 t] _. destruct (opt_eqb term_eqb v t); easy_err.
  - intros s2 _. destruct (_ && b)%bool; [|easy_err]. destruct v as [v|]; [easy_err|].
    intros X. injection X as X. symmetry in X. apply (expand_some _ _ _ _ _ _ _ _ _ _ _ (HA X)) in E1. contradiction.
Qed.

Lemma own_noerr c k : own_mapping io c k o <> Err e0.
Proof.
  unfold own_mapping. destruct (blank_ok io k); [easy_err|].
  assert (default_mapping io c k <> Err e0) as D.
  { unfold default_mapping. destruct (ac_vocab c) as [[|[]|]|]; try easy_err. destruct (iri_ok io _); easy_err. }
  destruct (iri_ref_ok io k); [|exact D]. destruct (iri_ok io k); [easy_err|].
  destruct (contains_char "/" k); [|exact D].
  apply bind_noerr; [apply simple_noerr|]. intros t _. destruct t as [[|[]|]|]; easy_err.
Qed.

Lemma no_id_noerr s0 k : Pre (snd s0) -> define_no_id io r s0 m k rs o <> Err e0.
Proof.
  intros HP. unfold define_no_id. destruct (compact_iri_of io k) as [[p x]|].
  - apply bind_noerr; [apply Hdef, HP|]. intros s1 _. destruct (get_value (fst s1) p).
    + destruct (iri_ok io _); easy_err.
    + apply bind_noerr; [apply own_noerr|easy_err].
  - apply bind_noerr; [apply own_noerr|easy_err].
Qed.

Lemma mapping_noerr s0 k b e d : Pre (snd s0) -> (e0 = EPanic -> po_vocab o <> ADrop) ->
  define_mapping io r s0 m k rs o b e d <> Err e0.
Proof.
  intros HP HA. unfold define_mapping.
  assert (N : (do (s1, t) <- define_no_id io r s0 m k rs o ; Ok (s1, Some (nd_set_value d (Some t)))) <> Err e0).
  { apply bind_noerr; [apply no_id_noerr, HP|]. intros [? ?] _. easy_err. }
  destruct (te_id e) as [i|]; [|exact N]. destruct (id_differs i k); [|exact N].
  destruct i; [easy_err|apply id_noerr; assumption].
Qed.

Lemma container_noerr e d : define_container o e d <> Err e0.
Proof.
  unfold define_container. destruct (te_container e) as [c|]; [|easy_err].
  destruct (_ && _)%bool; [easy_err|]. destruct (c_from_syntax c) as [c'|]; [|easy_err].
  destruct (c_contains c' CKType); [|easy_err].
  destruct (nd_typ (nd_set_container d c')) as [[]|]; easy_err.
Qed.

Lemma rest_noerr s0 k b e prev d :
  (forall lc, te_context e = Some lc -> e_process r (fst s0) lc rs b (with_override o) <> Err e0) ->
  (e0 = EPanic -> te_prefix e = Some true -> nd_value d <> None) ->
  define_rest io r s0 k rs b o e prev d <> Err e0.
Proof.
  intros HC HV. unfold define_rest.
  apply bind_noerr; [apply container_noerr|]. intros d1 E1.
  apply bind_noerr.
  { unfold define_index. destruct (te_index e); [|easy_err]. destruct (_ || _)%bool; [easy_err|].
    apply bind_noerr; [apply simple_noerr|]. intros t _. destruct t as [[|[]|]|]; easy_err. }
  intros d2 E2. apply bind_noerr.
  { unfold define_context. destruct (te_context e) as [lc|]; [|easy_err]. destruct (is_10 o); [easy_err|].
    specialize (HC lc eq_refl). destruct (e_process r (fst s0) lc rs b (with_override o)) as [|[]]; try easy_err; congruence. }
  intros d3 E3. apply bind_noerr.
  { unfold define_nest. destruct (te_nest e); [destruct (is_10 o)|]; easy_err. }
  intros d4 E4. apply bind_noerr.
  { unfold define_prefix. destruct (te_prefix e) as [p|] eqn:P; [|easy_err].
    destruct (_ || is_10 o)%bool; [easy_err|]. destruct p; [|easy_err].
    destruct (nd_value d4) as [t|] eqn:V; [destruct (term_is_kw t); easy_err|].
    intros X. injection X as X. symmetry in X. apply (HV X eq_refl).
    assert (V4 : nd_value d4 = nd_value (define_language e d3)).
    { unfold define_nest in E4. destruct (te_nest e); [destruct (is_10 o); [discriminate|]|]; injection E4 as <-; reflexivity. }
    assert (V3 : nd_value (define_language e d3) = nd_value d3).
    { unfold define_language. destruct (te_type e), (te_language e), (te_direction e); reflexivity. }
    assert (V2 : nd_value d3 = nd_value d2).
    { unfold define_context in E3. destruct (te_context e) as [lc|]; [|injection E3 as <-; reflexivity].
      destruct (is_10 o); [discriminate|]. destruct (e_process r (fst s0) lc rs b (with_override o)) as [|[]]; try discriminate.
      injection E3 as <-. reflexivity. }
    assert (V1 : nd_value d2 = nd_value d1).
    { unfold define_index in E2. destruct (te_index e); [|injection E2 as <-; reflexivity].
      destruct (_ || _)%bool; [discriminate|]. apply bind_ok in E2. destruct E2 as (t & _ & E2).
      destruct t as [[|[]|]|]; try discriminate. injection E2 as <-. reflexivity. }
    assert (V0 : nd_value d1 = nd_value d).
    { unfold define_container in E1. destruct (te_container e) as [c|]; [|injection E1 as <-; reflexivity].
      destruct (_ && _)%bool; [discriminate|]. destruct (c_from_syntax c) as [c'|]; [|discriminate].
      destruct (c_contains c' CKType); [|injection E1 as <-; reflexivity].
      destruct (nd_typ (nd_set_container d c')) as [[]|]; try discriminate; injection E1 as <-; reflexivity. }
    congruence. }
  intros d5 _. apply bind_noerr.
  { unfold define_propagate. destruct (te_propagate e); easy_err. }
  intros d6 _. apply bind_noerr; [|easy_err].
  unfold define_protect. destruct (po_override o); [easy_err|]. destruct prev as [p|]; [|easy_err].
  destruct (nd_protected p); [|easy_err]. destruct (modulo_protected_eqb d6 p); easy_err.
Qed.

(** The entry of the term satisfies what is needed: its scoped context does not fail with
    [e0], and [@prefix: true] comes with an IRI mapping. *)
Lemma define_body_noerr s0 k b p :
  (dget k (snd s0) = None -> m_get m k <> None -> Pre ((k, true) :: snd s0)) ->
  (e0 = EPanic -> po_vocab o <> ADrop) ->
  (forall v c lc, m_get m k = Some (EvDef v) -> te_context (expanded_of v) = Some lc ->
     e_process r c lc rs b (with_override o) <> Err e0) ->
  (forall v, e0 = EPanic -> m_get m k = Some (EvDef v) -> te_prefix (expanded_of v) = Some true ->
     te_id (expanded_of v) <> Some NNull) ->
  define_body io r s0 m k rs b p o <> Err e0.
Proof.
  intros HP HA HC HN. unfold define_body. destruct s0 as [c dm]. cbn [fst snd] in *.
  destruct (dget k dm) as [[]|]; [easy_err|easy_err|].
  destruct (match k with KKey s => streq s "" | KKeyword _ => false end); [easy_err|].
  destruct (m_get m k) as [[t|v|]|] eqn:M; try easy_err.
  - apply bind_noerr; [|easy_err]. unfold define_type_term. destruct (is_10 o); easy_err.
  - assert (exists x, k = KKey x) as [x ->].
    { destruct k as [x|k]; [eauto|]. exfalso. unfold m_get, or_else in M.
      destruct (m_imported m) as [i|]; destruct k; cbn in M;
        repeat match type of M with context [option_map _ ?x] => destruct x; cbn in M end; discriminate. }
    assert (HP' : Pre ((KKey x, true) :: dm)) by (apply HP; [reflexivity|discriminate]).
    apply bind_noerr; [|intros [? []] _; easy_err].
    unfold define_normal. cbn [fst snd]. apply bind_noerr.
    { unfold define_protected. destruct (te_protected (expanded_of v)); [destruct (is_10 o)|]; easy_err. }
    intros d _. apply bind_noerr; [apply type_noerr; exact HP'|]. intros [s1 d1] E1.
    pose proof (rel_type io r gst m rs gst_refl gst_trans o Rdef _ _ _ _ _ E1) as G1.
    assert (HP1 : Pre (snd s1)) by (eapply PreG; [exact G1|exact HP']).
    destruct (te_reverse (expanded_of v)) as [rev|]; [apply reverse_noerr; exact HP1|].
    apply bind_noerr; [apply mapping_noerr; assumption|]. intros [s2 d2] E2.
    destruct d2 as [d2|]; [|easy_err].
    apply bind_noerr; [|easy_err]. apply rest_noerr.
    + intros lc Hlc. eapply HC; [reflexivity|exact Hlc].
    + intros X Hp. specialize (HN v X eq_refl Hp). specialize (HA X). unfold define_mapping in E2.
      assert (N : forall d' , (do (s1, t) <- define_no_id io r s1 m x rs o ; Ok (s1, Some (nd_set_value d1 (Some t)))) = Ok (s2, Some d') -> nd_value d' <> None).
      { intros d' H. apply bind_ok in H. destruct H as ([? ?] & _ & H). injection H as _ <-. discriminate. }
      destruct (te_id (expanded_of v)) as [i|]; [|eapply N; exact E2].
      destruct (id_differs i x); [|eapply N; exact E2].
      destruct i as [|i]; [congruence|]. unfold define_id in E2.
      destruct (_ && negb _)%bool; [discriminate|]. apply bind_ok in E2. destruct E2 as ([s3 w] & E3 & E2).
      apply (expand_some _ _ _ _ _ _ _ _ _ _ _ HA) in E3.
      destruct (match w with Some (TmKw KContext) => true | _ => false end); [discriminate|].
      destruct (match w with Some (TmId p) => negb (id_valid p) | _ => false end); [discriminate|].
      apply bind_ok in E2. destruct E2 as (s4 & _ & E2).
      destruct (_ && simple_term v)%bool.
      * destruct w; [|discriminate]. injection E2 as _ <-. discriminate.
      * injection E2 as _ <-. exact E3.
Qed.
End NoErr.

(** The causes of the errors of context processing. *)
From Verif Require Import Prelude Str Keyword Enums LangTag Container Stack ContextSyntax Ctx Process ProcessRel Cyclic.

(** ** Specification *)

(** A field of a definition or of the one it imports. *)
Definition has {A} (f : cdef tdef -> option A) (d : cdef tdef) (i : option (cdef tdef)) : Prop :=
  f d <> None \/ exists i', i = Some i' /\ f i' <> None.
(** Its value, that of the definition itself being preferred. *)
Definition says {A} (f : cdef tdef -> option A) (d : cdef tdef) (i : option (cdef tdef)) (v : A) : Prop :=
  f d = Some v \/ f d = None /\ exists i', i = Some i' /\ f i' = Some v.
(** Some term has an entry of this kind. *)
Definition some_entry (d : cdef tdef) (i : option (cdef tdef)) (P : string -> texp lcontext -> Prop) : Prop :=
  exists k v, entry_in d i k v /\ P k (expanded_of v).

(** What must be found in a definition [d] that imports [i], read at the address [b], for processing it with these options to
    end with each error. *)
Definition cause (io : iops) (ld : loader) (mo : mode) (act : action) (b : option string) (d : cdef tdef) (i : option (cdef tdef)) (e : cerr) : Prop :=
  match e with
  | EProcessingModeConflict => mo = JsonLd10 /\ cd_version d <> None
  | EInvalidContextEntry =>
      cd_import d <> None /\ (mo = JsonLd10 \/ exists u i', ld u = LdContext (LOne (CEDef i')) /\ cd_import i' <> None) \/
      mo = JsonLd10 /\ has cd_direction d i
  | EInvalidImportValue => b = None /\ exists u, cd_import d = Some u /\ iri_ok io u = false
  | EContextLoadingFailed => cd_import d <> None /\ exists u, ld u = LdFail
  | EContextExtractionFailed => cd_import d <> None /\ exists u, ld u = LdNoContext
  | EInvalidRemoteContext => cd_import d <> None /\ exists u lc, ld u = LdContext lc /\ forall i', lc <> LOne (CEDef i')
  | EInvalidBaseIri => exists u, says cd_base d i (NSome u) /\ iri_ok io u = false
  | EInvalidVocabMapping => exists u, says cd_vocab d i (NSome u)
  | EForbiddenVocab => act = AReject
  | EKeywordRedefinition => mo = JsonLd10 /\ has cd_type d i
  | EInvalidTermDefinition =>
      (exists v, entry_in d i "" v) \/ (exists k, uses d i k "") \/
      some_entry d i (fun k e => mo = JsonLd10 /\ (te_protected e <> None \/ te_context e <> None \/ te_nest e <> None) \/
        te_index e <> None \/ te_prefix e <> None \/ te_propagate e <> None)
  | EInvalidTypeMapping => some_entry d i (fun k e => te_type e <> None)
  | EInvalidReverseProperty => some_entry d i (fun k e => te_reverse e <> None /\ (te_id e <> None \/ te_nest e <> None \/ te_container e <> None))
  | EInvalidIriMapping => some_entry d i (fun k e => te_reverse e <> None \/ te_id e <> Some NNull)
  | EInvalidKeywordAlias => some_entry d i (fun k e => te_reverse e = None /\ exists x, te_id e = Some (NSome x) /\ x <> TIdTerm k)
  | EInvalidContainerMapping => some_entry d i (fun k e => te_reverse e = None /\ te_container e <> None)
  | EInvalidScopedContext => mo = JsonLd11 /\ some_entry d i (fun k e => te_reverse e = None /\ te_context e <> None)
  | EProtectedTermRedefinition => some_entry d i (fun k e => te_reverse e = None)
  | ECyclicIriMapping => has_cycle d i \/ exists k, skipped d i k
  | EPanic => act = ADrop \/ some_entry d i (fun k e => te_prefix e = Some true \/ mo = JsonLd11 /\ te_context e <> None)
  | EFuel => True
  | EInvalidContextNullification | ELoadingDocumentFailed => False
  end.

(** Where the cause is found: in the local context, or in one that is loaded. *)
Inductive blame (io : iops) (ld : loader) (o : popts) (lc : lcontext) (b : option string) (e : cerr) : Prop :=
| blame_own d i : In (CEDef d) (entries_of lc) -> imported ld d i -> cause io ld (po_mode o) (po_vocab o) b d i e -> blame io ld o lc b e
| blame_loaded u lc' d i : ld u = LdContext lc' -> In (CEDef d) (entries_of lc') -> imported ld d i ->
    cause io ld (po_mode o) (po_vocab o) (Some u) d i e -> blame io ld o lc b e
| blame_null : e = EInvalidContextNullification -> po_override o = false -> In CENull (entries_of lc) -> blame io ld o lc b e
| blame_null_loaded u lc' : e = EInvalidContextNullification -> ld u = LdContext lc' -> In CENull (entries_of lc') -> blame io ld o lc b e
| blame_reference r : e = ELoadingDocumentFailed -> b = None -> In (CEIri r) (entries_of lc) -> iri_ok io r = false -> blame io ld o lc b e
| blame_failed u : e = EContextLoadingFailed -> ld u = LdFail -> blame io ld o lc b e
| blame_extraction u : e = EContextExtractionFailed -> ld u = LdNoContext -> blame io ld o lc b e
| blame_propagate d : e = EInvalidContextEntry -> po_mode o = JsonLd10 ->
    (lc = LOne (CEDef d) \/ exists u, ld u = LdContext (LOne (CEDef d))) -> cd_propagate d <> None -> blame io ld o lc b e
| blame_fuel : e = EFuel -> blame io ld o lc b e.

(** ** Proof *)

Definition bl {A} (B : cerr -> Prop) (r : result A cerr) : Prop := match r with Ok _ => True | Err e => B e end.
Lemma bl_bind {A C} B (x : result A cerr) (f : A -> result C cerr) : bl B x -> (forall a, x = Ok a -> bl B (f a)) -> bl B (bind x f).
Proof. intros X H. destruct x as [a|e]; [apply H; reflexivity|exact X]. Qed.

Section Blame.
Variable io : iops.
Variable ld : loader.
Variables (mo : mode) (act : action) (b0 : option string).
Variable m : merged.
Notation d0 := (m_base m).
Notation i0 := (m_imported m).
(** Cycles are dealt with in [Cyclic.v]. *)
Definition B (e : cerr) : Prop := e <> ECyclicIriMapping -> cause io ld mo act b0 d0 i0 e.

Lemma is10 o : po_mode o = mo -> is_10 o = true -> mo = JsonLd10.
Proof. unfold is_10. intros <-. destruct (po_mode o); [reflexivity|discriminate]. Qed.
Lemma is11 o : po_mode o = mo -> is_10 o = false -> mo = JsonLd11.
Proof. unfold is_10. intros <-. destruct (po_mode o); [discriminate|reflexivity]. Qed.

Lemma bl_tail c s dr vo : (vo = None \/ vo = Some act) -> bl B (expand_tail io c s dr vo).
Proof. intros V. unfold expand_tail. destruct V as [->| ->]; [exact I|]. destruct (ac_vocab c) as [[|i|k]|]; try exact I. destruct act eqn:A; [exact I|exact I|]. intros _. exact A. Qed.
Lemma bl_absolute c s dr vo : (vo = None \/ vo = Some act) -> bl B (expand_absolute io c s dr vo).
Proof. intros V. unfold expand_absolute. destruct (iri_ok io s); [exact I|apply bl_tail, V]. Qed.
Lemma bl_simple c v dr vo : (vo = None \/ vo = Some act) -> bl B (expand_iri_simple io c v dr vo).
Proof.
  intros V. unfold expand_iri_simple. destruct v as [|[k|s]]; try exact I. destruct (is_keyword_like s); [exact I|].
  destruct (expand_defined c s vo); [exact I|]. destruct (colon_inside s); [|apply bl_tail, V]. destruct (blank_ok io s); [exact I|].
  destruct (streq s "_:"); [exact I|]. destruct (compact_iri_of io s) as [[p x]|]; [|apply bl_absolute, V].
  destruct (expand_prefixed io c p x); [exact I|apply bl_absolute, V].
Qed.

Lemma none_drop (r : eng) s0 v dr rs o s1 : expand_iri_with io r s0 v dr (Some act) m rs o = Ok (s1, None) -> act = ADrop.
Proof.
  assert (T : forall c s, expand_tail io c s dr (Some act) = Ok None -> act = ADrop).
  { intros c s H. unfold expand_tail in H. destruct (ac_vocab c) as [[|i|k]|]; try discriminate H. destruct act; try discriminate H. reflexivity. }
  assert (A : forall c s, expand_absolute io c s dr (Some act) = Ok None -> act = ADrop).
  { intros c s H. unfold expand_absolute in H. destruct (iri_ok io s); [discriminate H|]. eapply T, H. }
  unfold expand_iri_with. intros H. destruct v as [|[k|s]]; try discriminate H. destruct (is_keyword_like s); [discriminate H|].
  apply bind_ok in H. destruct H as (s2 & _ & H). destruct (expand_defined (fst s2) s (Some act)); [discriminate H|].
  destruct (colon_inside s); [|apply bind_ok in H; destruct H as (t & E & H); injection H as _ ->; eapply T, E].
  destruct (blank_ok io s); [discriminate H|]. destruct (streq s "_:"); [discriminate H|].
  destruct (compact_iri_of io s) as [[p x]|]; [|apply bind_ok in H; destruct H as (t & E & H); injection H as _ ->; eapply A, E].
  apply bind_ok in H. destruct H as (s3 & _ & H). destruct (expand_prefixed io (fst s3) p x); [discriminate H|].
  apply bind_ok in H. destruct H as (t & E & H). injection H as _ ->. eapply A, E.
Qed.

Definition empty_used : Prop := (exists v, entry_in d0 i0 "" v) \/ exists k, uses d0 i0 k "".
Notation opts o := (po_mode o = mo /\ po_vocab o = act).

Section Step.
Variable r : eng.
Hypothesis IH : forall s k rs b p o, opts o -> (k = "" -> empty_used) -> bl B (e_define r s m (KKey k) rs b p o).

Lemma bl_expand s0 v dr vo rs o : opts o -> (vo = None \/ vo = Some act) -> (forall s, v = NSome (XStr s) -> names s "" -> empty_used) ->
  bl B (expand_iri_with io r s0 v dr vo m rs o).
Proof.
  intros O V H. unfold expand_iri_with. destruct v as [|[k|s]]; try exact I. specialize (H s eq_refl).
  destruct (is_keyword_like s) eqn:K; [exact I|]. rewrite (kk_of_str_key _ K).
  apply bl_bind; [apply IH; [exact O|]; intros ->; apply H; split; auto|]. intros s1 _. destruct (expand_defined (fst s1) s vo); [exact I|].
  destruct (colon_inside s); [|apply bl_bind; [apply bl_tail, V|intros; exact I]]. destruct (blank_ok io s); [exact I|]. destruct (streq s "_:"); [exact I|].
  destruct (compact_iri_of io s) as [[p x]|] eqn:C; [|apply bl_bind; [apply bl_absolute, V|intros; exact I]].
  apply bl_bind; [apply IH; [exact O|]; intros ->; apply H; split; [exact K|right; eapply compact_written, C]|]. intros s2 _.
  destruct (expand_prefixed io (fst s2) p x); [exact I|]. apply bl_bind; [apply bl_absolute, V|intros; exact I].
Qed.

Variables (k : string) (v : nullable tdef).
Hypothesis HM : entry_in d0 i0 k v.
Notation e := (expanded_of v).
Lemma some (P : string -> texp lcontext -> Prop) : P k e -> some_entry d0 i0 P.
Proof. intros H. exists k, v. auto. Qed.
Ltac one := intros _; apply some; cbn beta.

Lemma bl_type s0 rs o d : opts o -> bl B (define_type io r s0 m rs o e d).
Proof.
  intros O. unfold define_type. destruct (te_type e) as [t|] eqn:E; [|exact I].
  apply bl_bind.
  - apply bl_expand; [exact O|right; f_equal; apply O|]. intros s X N. right. exists k. destruct t as [|[|s']]; try discriminate X. injection X as ->. eapply uses_type; eassumption.
  - intros [s1 t1] _. destruct t1 as [t1|]; [|exact I]. destruct (_ && _)%bool; [one; rewrite E; discriminate|]. destruct (ty_of_term t1); [exact I|one; rewrite E; discriminate].
Qed.
Lemma bl_reverse s0 rs o d rev : opts o -> te_reverse e = Some rev -> bl B (define_reverse io r s0 m k rs o e d rev).
Proof.
  intros O R. unfold define_reverse.
  destruct (te_id e) as [x|] eqn:Ei; cbn [orb]; [one; rewrite R, Ei; split; [discriminate|left; discriminate]|].
  destruct (te_nest e) as [x|] eqn:En; [one; rewrite R, En; split; [discriminate|right; left; discriminate]|].
  destruct (is_keyword_like rev); [exact I|]. apply bl_bind.
  - apply bl_expand; [exact O|right; f_equal; apply O|]. intros s X N. right. exists k. unfold xp_of_str in X. destruct (kw_of_str rev); [discriminate X|]. injection X as <-. eapply uses_reverse; eassumption.
  - intros [s1 t] _. destruct t as [[|j|]|]; try (one; left; rewrite R; discriminate). destruct (id_valid j); [|one; left; rewrite R; discriminate].
    apply bl_bind; [|intros; exact I]. unfold reverse_container. destruct (te_container e) as [[|c]|] eqn:Ec; try exact I.
    destruct (c_from_syntax (NSome c)) as [[]|]; try exact I; one; rewrite R, Ec; (split; [discriminate|right; right; discriminate]).
Qed.
Lemma bl_default c : te_reverse e <> None \/ te_id e <> Some NNull -> bl B (default_mapping io c k).
Proof. intros N. unfold default_mapping. destruct (ac_vocab c) as [[|[u|u|u]|]|]; try (one; exact N). destruct (iri_ok io _); [exact I|one; exact N]. Qed.
Lemma bl_no_id s0 rs o : opts o -> te_reverse e = None -> te_id e <> Some NNull -> bl B (define_no_id io r s0 m k rs o).
Proof.
  intros O R N.
  assert (W : forall c, bl B (own_mapping io c k o)).
  { intros c. unfold own_mapping. destruct (blank_ok io k); [exact I|]. destruct (iri_ref_ok io k); [|apply bl_default; auto]. destruct (iri_ok io k); [exact I|].
    destruct (contains_char "/" k); [|apply bl_default; auto]. apply bl_bind; [apply bl_simple; right; f_equal; apply O|]. intros t _.
    destruct t as [[|[u|u|u]|]|]; try exact I; one; auto. }
  unfold define_no_id. destruct (compact_iri_of io k) as [[p x]|] eqn:C; [|apply bl_bind; [apply W|intros; exact I]].
  apply bl_bind.
  - apply IH; [exact O|]. intros ->. right. exists k. eapply uses_own; [exact HM|exact R|exact N|eapply compact_written, C].
  - intros s1 _. destruct (get_value (fst s1) p); [|apply bl_bind; [apply W|intros; exact I]]. destruct (iri_ok io _); [exact I|one; auto].
Qed.
Lemma bl_id s0 rs o b i d : opts o -> te_reverse e = None -> te_id e = Some (NSome i) -> id_differs (NSome i) k = true -> bl B (define_id io r s0 m k rs o b i d).
Proof.
  intros O R E D. unfold define_id. destruct (_ && _)%bool; [exact I|].
  assert (NE : i <> TIdTerm k) by (intros ->; cbn in D; rewrite streq_refl in D; discriminate D).
  apply bl_bind.
  - apply bl_expand; [exact O|right; f_equal; apply O|]. intros s X N. right. exists k. destruct i as [kw|s']; [discriminate X|]. injection X as ->.
    eapply uses_id; [exact HM|exact R|exact E| |exact N]. intros ->. apply NE. reflexivity.
  - intros [s1 t] ET. destruct (match t with Some (TmKw KContext) => true | _ => false end); [one; split; [exact R|]; exists i; auto|].
    destruct (match t with Some (TmId p) => negb (id_valid p) | _ => false end); [one; right; rewrite E; discriminate|].
    apply bl_bind.
    + destruct (contains_between_boundaries k ":" || contains_char "/" k)%bool; [|exact I]. apply bl_bind.
      * apply bl_expand; [exact O|right; f_equal; apply O|]. intros s X N. injection X as <-. destruct N as [_ [->|N]]; [left; exists v; exact HM|].
        right. exists k. eapply uses_own; [exact HM|exact R|rewrite E; discriminate|exact N].
      * intros [s2 t2] _. destruct (opt_eqb term_eqb t t2); [exact I|one; right; rewrite E; discriminate].
    + intros s2 _. destruct (_ && b)%bool; [|exact I]. destruct t; [exact I|]. intros _. left. rewrite (proj2 O) in ET. eapply none_drop, ET.
Qed.
Lemma bl_mapping s0 rs o b d : opts o -> te_reverse e = None -> bl B (define_mapping io r s0 m k rs o b e d).
Proof.
  intros O R. unfold define_mapping.
  assert (N : te_id e <> Some NNull -> bl B (do (s1, t) <- define_no_id io r s0 m k rs o ; Ok (s1, Some (nd_set_value d (Some t)))))
    by (intros N; apply bl_bind; [apply bl_no_id; assumption|intros [s1 t] _; exact I]).
  destruct (te_id e) as [i|] eqn:E; [|apply N; discriminate]. destruct (id_differs i k) eqn:D.
  - destruct i as [|i]; [exact I|]. apply bl_id; assumption.
  - apply N. intros X. injection X as ->. discriminate D.
Qed.

(** A type mapping is only there if the entry gives one. *)
Lemma type_typ s0 rs o d s1 d1 : define_type io r s0 m rs o e d = Ok (s1, d1) -> nd_typ d = None -> nd_typ d1 <> None -> te_type e <> None.
Proof. unfold define_type. destruct (te_type e); [discriminate|]. intros H. injection H as _ <-. congruence. Qed.
Lemma mapping_typ s0 rs o b d s1 d1 : define_mapping io r s0 m k rs o b e d = Ok (s1, Some d1) -> nd_typ d1 = nd_typ d.
Proof.
  unfold define_mapping. intros H.
  assert (N : (do (s2, t) <- define_no_id io r s0 m k rs o ; Ok (s2, Some (nd_set_value d (Some t)))) = Ok (s1, Some d1) -> nd_typ d1 = nd_typ d).
  { clear H. intros H. apply bind_ok in H. destruct H as ([s2 t] & _ & H). injection H as _ <-. reflexivity. }
  destruct (te_id e) as [i|]; [|exact (N H)]. destruct (id_differs i k); [|exact (N H)]. destruct i as [|i]; [injection H as _ <-; reflexivity|].
  unfold define_id in H. destruct (_ && _)%bool; [discriminate H|]. apply bind_ok in H. destruct H as ([s2 t] & _ & H).
  destruct (match t with Some (TmKw KContext) => true | _ => false end); [discriminate H|].
  destruct (match t with Some (TmId p) => negb (id_valid p) | _ => false end); [discriminate H|]. apply bind_ok in H. destruct H as (s3 & _ & H).
  destruct (_ && b)%bool; [destruct t; [|discriminate H]|]; injection H as _ <-; reflexivity.
Qed.

Lemma bl_rest s0 rs b o prev d : opts o -> te_reverse e = None -> (nd_typ d <> None -> te_type e <> None) -> bl B (define_rest io r s0 k rs b o e prev d).
Proof.
  intros O R T. unfold define_rest. apply bl_bind.
  { unfold define_container. destruct (te_container e) as [c|] eqn:C; [|exact I].
    assert (CC : te_reverse e = None /\ te_container e <> None) by (rewrite C; split; [exact R|discriminate]).
    destruct (_ && _)%bool; [one; exact CC|].
    destruct (c_from_syntax c) as [c'|]; [|one; exact CC]. cbn zeta. destruct (c_contains c' CKType); [|exact I].
    cbn [nd_typ nd_set_container]. destruct (nd_typ d) as [[]|] eqn:E; try exact I; one; apply T; discriminate. }
  intros d1 _. apply bl_bind.
  { unfold define_index. destruct (te_index e) as [x|] eqn:X; [|exact I].
    assert (NI : te_index e <> None) by (rewrite X; discriminate).
    destruct (_ || _)%bool; [intros _; right; right; apply some; auto|].
    apply bl_bind; [apply bl_simple; right; f_equal; apply O|]. intros t _. destruct t as [[|[u|u|u]|]|]; try exact I; intros _; right; right; apply some; auto. }
  intros d2 _. apply bl_bind.
  { unfold define_context. destruct (te_context e) as [lc|] eqn:X; [|exact I].
    assert (NC : te_context e <> None) by (rewrite X; discriminate).
    destruct (is_10 o) eqn:T10; [intros _; right; right; apply some; left; split; [eapply is10; [apply O|exact T10]|auto]|].
    assert (T11 : mo = JsonLd11) by (eapply is11; [apply O|exact T10]).
    destruct (e_process r _ _ _ _ _) as [c|[]]; try exact I; try (intros _; exact I); intros _;
      first [split; [exact T11|]; apply some; split; assumption|right; apply some; right; split; assumption]. }
  intros d3 _. apply bl_bind.
  { unfold define_nest. destruct (te_nest e) as [x|] eqn:X; [|exact I]. destruct (is_10 o) eqn:T10; [|exact I].
    intros _. right. right. apply some. left. split; [eapply is10; [apply O|exact T10]|]. right. right. rewrite X. discriminate. }
  intros d4 _. apply bl_bind.
  { unfold define_prefix. destruct (te_prefix e) as [p|] eqn:X; [|exact I]. assert (NP : te_prefix e <> None) by (rewrite X; discriminate).
    destruct (_ || _)%bool; [intros _; right; right; apply some; auto|]. destruct p; [|exact I].
    destruct (nd_value d4) as [t|]; [destruct (term_is_kw t); [intros _; right; right; apply some; auto|exact I]|]. intros _. right. apply some. left. exact X. }
  intros d5 _. apply bl_bind.
  { unfold define_propagate. destruct (te_propagate e) eqn:X; [|exact I]. intros _. right. right. apply some. right. right. right. rewrite X. discriminate. }
  intros d6 _. apply bl_bind; [|intros; exact I]. unfold define_protect. destruct (po_override o); [exact I|]. destruct prev as [p|]; [|exact I].
  destruct (nd_protected p); [|exact I]. destruct (modulo_protected_eqb d6 p); [exact I|]. one. exact R.
Qed.

Lemma bl_normal s0 rs b p o : opts o -> bl B (define_normal io r s0 m k rs b p o v).
Proof.
  intros O. unfold define_normal. apply bl_bind.
  { unfold define_protected. destruct (te_protected e) eqn:X; [|exact I]. destruct (is_10 o) eqn:T10; [|exact I].
    intros _. right. right. apply some. left. split; [eapply is10; [apply O|exact T10]|]. left. rewrite X. discriminate. }
  intros d ED. assert (TD : nd_typ d = None). { unfold define_protected in ED. destruct (te_protected e); [destruct (is_10 o); [discriminate ED|]|]; injection ED as <-; reflexivity. }
  apply bl_bind; [apply bl_type, O|]. intros [s1 d1] ET. destruct (te_reverse e) as [rev|] eqn:R; [apply bl_reverse; assumption|].
  apply bl_bind; [apply bl_mapping; assumption|]. intros [s2 [d2|]] EM; [|exact I]. apply bl_bind; [|intros; exact I]. apply bl_rest; [exact O|exact R|].
  rewrite (mapping_typ _ _ _ _ _ _ _ EM). eapply type_typ; eassumption.
Qed.
End Step.

Lemma engine_bl n : forall s k rs b p o, opts o -> (k = "" -> empty_used) -> bl B (e_define (engine io ld n) s m (KKey k) rs b p o).
Proof.
  induction n as [|n IH]; intros s k rs b p o O E; [intros _; exact I|]. cbn [engine e_define]. unfold define_body.
  destruct (dget (KKey k) (snd s)) as [[]|]; [intros X; exfalso; apply X; reflexivity|exact I|].
  destruct (streq_spec k "") as [K|_]; [intros _; destruct (E K) as [X|X]; [left; exact X|right; left; exact X]|].
  destruct (m_get m (KKey k)) as [[t|v|]|] eqn:M; try exact I.
  - exfalso. unfold m_get, or_else, def_get in M. destruct (assoc k (cd_bindings (m_base m))); [discriminate M|]. destruct (m_imported m) as [i|]; [|discriminate M].
    cbn in M. destruct (assoc k (cd_bindings i)); discriminate M.
  - apply bl_bind; [|intros [s1 x] _; exact I]. apply bl_normal; [exact IH|apply entry_get, M|exact O].
  - exfalso. unfold m_get, or_else, def_get in M. destruct (assoc k (cd_bindings (m_base m))); [discriminate M|]. destruct (m_imported m) as [i|]; [|discriminate M].
    cbn in M. destruct (assoc k (cd_bindings i)); discriminate M.
Qed.

Lemma key_assoc {A} k (l : list (string * A)) : In k (map fst l) -> exists v, assoc k l = Some v.
Proof. induction l as [|[x w] l IH]; [intros []|]. cbn. destruct (streq_spec k x) as [->|N]; [eauto|]. intros [E|E]; [congruence|auto]. Qed.
Lemma keys_entry k : In k (m_keys m) -> exists v, entry_in d0 i0 k v.
Proof.
  unfold m_keys. rewrite in_app_iff. intros [H|H].
  - destruct (m_imported m) as [i|]; [|destruct H]. apply filter_In in H. destruct H as [H N]. destruct (assoc k (cd_bindings (m_base m))) eqn:A; [discriminate N|].
    apply key_assoc in H. destruct H as [v H]. exists v. right. split; [exact A|]. eauto.
  - apply key_assoc in H. destruct H as [v H]. exists v. left. exact H.
Qed.
Lemma says_field {A} (f : cdef tdef -> option A) x : m_field f m = Some x -> says f d0 i0 x.
Proof.
  unfold m_field, or_else, says. destruct (f (m_base m)) eqn:E; [intros H; left; exact H|]. destruct (m_imported m) as [i|]; [|discriminate].
  intros H. right. split; [reflexivity|]. exists i. auto.
Qed.
Lemma has_field {A} (f : cdef tdef -> option A) x : m_field f m = Some x -> has f d0 i0.
Proof.
  unfold m_field, or_else, has. destruct (f (m_base m)) eqn:E; [intros _; left; discriminate|]. destruct (m_imported m) as [i|]; [|discriminate].
  intros H. right. exists i. split; [reflexivity|]. congruence.
Qed.
Lemma all_bl n c rs b o : opts o -> bl B (define_all (engine io ld n) c m rs b o).
Proof.
  intros O. unfold define_all. apply bl_bind.
  - destruct (m_field cd_type m) as [t|] eqn:F; [|exact I]. destruct n as [|n]; [intros _; exact I|]. cbn [engine e_define]. unfold define_body. cbn [snd dget fst].
    destruct (m_get m (KKeyword KType)) as [[u|v|]|] eqn:M; try exact I.
    + apply bl_bind; [|intros; exact I]. unfold define_type_term. destruct (is_10 o) eqn:T10; [|exact I]. intros _. split; [eapply is10; [apply O|exact T10]|eapply has_field, F].
    + exfalso. unfold m_get, or_else, def_get in M. destruct (cd_type (m_base m)); [discriminate M|]. destruct (m_imported m) as [i|]; [|discriminate M]. cbn in M. destruct (cd_type i); discriminate M.
    + exfalso. unfold m_get, or_else, def_get in M. destruct (cd_type (m_base m)); [discriminate M|]. destruct (m_imported m) as [i|]; [|discriminate M]. cbn in M. destruct (cd_type i); discriminate M.
  - intros s1 _. apply bl_bind; [|intros; exact I].
    assert (L : forall ks, (forall k, In k ks -> In k (m_keys m)) -> forall s p, bl B (define_keys (engine io ld n) ks s m rs b p o)).
    { induction ks as [|k ks IHk]; intros S s p; [exact I|]. cbn [define_keys]. apply bl_bind.
      - apply engine_bl; [exact O|]. intros ->. left. apply keys_entry, S. left. reflexivity.
      - intros s2 _. apply IHk. intros k' H. apply S. right. exact H. }
    apply L. auto.
Qed.

Lemma merged_bl n c rs b o : opts o -> bl B (process_merged io (engine io ld n) c m rs b o).
Proof.
  intros O. unfold process_merged. apply bl_bind.
  { unfold process_base. destruct (ps_is_empty rs); [|exact I]. destruct (m_field cd_base m) as [[|u]|] eqn:F; try exact I. destruct (iri_ok io u) eqn:IO; [exact I|].
    destruct (resolve_iri io u (ac_base c)); [exact I|]. intros _. exists u. split; [apply says_field, F|exact IO]. }
  intros c1 _. apply bl_bind.
  { unfold process_vocab. destruct (m_field cd_vocab m) as [[|u]|] eqn:F; try exact I. apply bl_bind; [apply bl_simple; right; f_equal; apply O|].
    intros t _. destruct t as [[|j|]|]; try exact I; intros _; exists u; apply says_field, F. }
  intros c2 _. apply bl_bind.
  { unfold process_direction. destruct (m_field cd_direction m) as [u|] eqn:F; [|exact I]. destruct (is_10 o) eqn:T10; [|exact I].
    intros _. right. split; [eapply is10; [apply O|exact T10]|eapply has_field, F]. }
  intros c3 _. apply all_bl, O.
Qed.
End Blame.

Section Process.
Variable io : iops.
Variable ld : loader.

Lemma def_blame n c d rs b o e : process_def io ld (engine io ld n) c d rs b o = Err e ->
  exists i, imported ld d i /\ cause io ld (po_mode o) (po_vocab o) b d i e.
Proof.
  intros H. assert (NI : imported ld d None) by (intros i' X; discriminate X).
  destruct (match e with ECyclicIriMapping => true | _ => false end) eqn:CY.
  { destruct e; try discriminate CY. apply def_faulty in H. exact H. }
  assert (NC : e <> ECyclicIriMapping) by (intros ->; discriminate CY). clear CY.
  unfold process_def in H. destruct (cd_version d) as [ve|] eqn:V.
  - destruct (is_10 o) eqn:T10.
    + injection H as <-. exists None. split; [exact NI|]. cbn. rewrite V. split; [|discriminate]. unfold is_10 in T10. destruct (po_mode o); [reflexivity|discriminate T10].
    + apply bind_err in H. destruct H as [H|(i & E & H)].
      * exists None. split; [exact NI|]. revert H. unfold import_of. destruct (cd_import d) as [u|] eqn:U; [|discriminate]. rewrite T10.
        destruct (resolve_iri io u b) as [u'|] eqn:RE.
        -- destruct (ld u') as [| |lc] eqn:L; [intros H; injection H as <-; cbn; rewrite U; split; [discriminate|eauto]|intros H; injection H as <-; cbn; rewrite U; split; [discriminate|eauto]|].
           destruct lc as [[|r|i0]|l]; try (intros H; injection H as <-; cbn; rewrite U; split; [discriminate|]; eexists; eexists; split; [exact L|discriminate]).
           destruct (cd_import i0) eqn:I0; [|discriminate]. intros H. injection H as <-. left. rewrite U. split; [discriminate|]. right. exists u', i0. split; [exact L|rewrite I0; discriminate].
        -- intros H. injection H as <-. cbn. unfold resolve_iri in RE. destruct b; [discriminate RE|]. split; [reflexivity|]. exists u. split; [exact U|].
           destruct (iri_ok io u); [discriminate RE|reflexivity].
      * exists i. split; [eapply import_loaded, E|]. pose proof (merged_bl io ld (po_mode o) (po_vocab o) b (MkMerged d i) n c rs b o (conj eq_refl eq_refl)) as X.
        rewrite H in X. exact (X NC).
  - apply bind_err in H. destruct H as [H|(i & E & H)].
    + exists None. split; [exact NI|]. revert H. unfold import_of. destruct (cd_import d) as [u|] eqn:U; [|discriminate].
      destruct (is_10 o) eqn:T10; [intros H; injection H as <-; left; rewrite U; split; [discriminate|]; left; unfold is_10 in T10; destruct (po_mode o); [reflexivity|discriminate T10]|].
      destruct (resolve_iri io u b) as [u'|] eqn:RE.
      * destruct (ld u') as [| |lc] eqn:L; [intros H; injection H as <-; cbn; rewrite U; split; [discriminate|eauto]|intros H; injection H as <-; cbn; rewrite U; split; [discriminate|eauto]|].
        destruct lc as [[|r|i0]|l]; try (intros H; injection H as <-; cbn; rewrite U; split; [discriminate|]; eexists; eexists; split; [exact L|discriminate]).
        destruct (cd_import i0) eqn:I0; [|discriminate]. intros H. injection H as <-. left. rewrite U. split; [discriminate|]. right. exists u', i0. split; [exact L|rewrite I0; discriminate].
      * intros H. injection H as <-. cbn. unfold resolve_iri in RE. destruct b; [discriminate RE|]. split; [reflexivity|]. exists u. split; [exact U|].
        destruct (iri_ok io u); [discriminate RE|reflexivity].
    + exists i. split; [eapply import_loaded, E|]. pose proof (merged_bl io ld (po_mode o) (po_vocab o) b (MkMerged d i) n c rs b o (conj eq_refl eq_refl)) as X.
      rewrite H in X. exact (X NC).
Qed.

Lemma process_blame n : forall a lc rs b o e, process_context io ld n a lc rs b o = Err e -> blame io ld o lc b e.
Proof.
  unfold process_context. induction n as [|n IH]; intros a lc rs b o e H; [injection H as <-; apply blame_fuel; reflexivity|]. cbn [engine e_process] in H. unfold process_body in H.
  apply bind_err in H. destruct H as [H|(o' & PO & H)].
  { unfold propagate_of in H. destruct lc as [[| |d]|]; try discriminate H. destruct (cd_propagate d) eqn:P; [|discriminate H]. destruct (is_10 o) eqn:T; [|discriminate H].
    injection H as <-. eapply blame_propagate; [reflexivity| |left; reflexivity|rewrite P; discriminate]. unfold is_10 in T. destruct (po_mode o); [reflexivity|discriminate T]. }
  assert (MV : po_mode o' = po_mode o /\ po_vocab o' = po_vocab o /\ po_override o' = po_override o).
  { unfold propagate_of in PO. destruct lc as [[| |d]|]; try (injection PO as <-; auto). destruct (cd_propagate d); [|injection PO as <-; auto].
    destruct (is_10 o); [discriminate PO|]. injection PO as <-. auto. }
  destruct MV as (MV1 & MV2 & MV3).
  assert (L : forall es, (forall x, In x es -> In x (entries_of lc)) -> forall c rs, process_entries io ld (engine io ld n) es a c rs b o' = Err e -> blame io ld o lc b e).
  { clear H. induction es as [|x es IHe]; intros S c rs' H; [discriminate H|]. cbn [process_entries] in H. apply bind_err in H.
    destruct H as [H|([c' rs''] & _ & H)]; [|eapply IHe; [intros e' E'; apply S; right; exact E'|exact H]]. assert (SX := S x (or_introl eq_refl)). destruct x as [|u|d].
    - apply bind_err in H. destruct H as [H|(c' & _ & H)]; [|discriminate H]. unfold process_null in H. rewrite MV3 in H.
      destruct (po_override o) eqn:OV; [discriminate H|]. cbn [negb andb] in H. destruct (has_protected_items c); [|discriminate H]. injection H as <-. apply blame_null; auto.
    - unfold process_iri in H. destruct (resolve_iri io u b) as [u'|] eqn:RE.
      2:{ injection H as <-. unfold resolve_iri in RE. destruct b; [discriminate RE|]. eapply blame_reference; [reflexivity|reflexivity|exact SX|]. destruct (iri_ok io u); [discriminate RE|reflexivity]. }
      destruct (ps_push rs' u') as [[] rs1]; [|discriminate H].
      destruct (ld u') as [| |lc'] eqn:E; [injection H as <-; eapply blame_failed; [reflexivity|exact E]|injection H as <-; eapply blame_extraction; [reflexivity|exact E]|].
      apply bind_err in H. destruct H as [H|(c' & _ & H)]; [|discriminate H].
      apply IH in H. destruct H as [d i A R C|u2 lc2 d i A1 A R C|A1 A2 A|u2 lc2 A1 A2 A|r A1 A2 A3 A4|u2 A1 A2|u2 A1 A2|d A1 A2 A3 A4|A1]; cbn [po_mode po_vocab po_override] in *.
      + rewrite MV1, MV2 in C. eapply blame_loaded; eassumption.
      + rewrite MV1, MV2 in C. eapply blame_loaded; eassumption.
      + eapply blame_null_loaded; eassumption.
      + eapply blame_null_loaded; eassumption.
      + discriminate A2.
      + eapply blame_failed; eassumption.
      + eapply blame_extraction; eassumption.
      + rewrite MV1 in A2. eapply blame_propagate; [exact A1|exact A2|right|exact A4]. destruct A3 as [->|A3]; [exists u'; exact E|exact A3].
      + apply blame_fuel, A1.
    - apply bind_err in H. destruct H as [H|(c' & _ & H)]; [|discriminate H]. apply def_blame in H. destruct H as (i & IM & R). rewrite MV1, MV2 in R.
      eapply blame_own; eassumption. }
  eapply (L (entries_of lc)); [auto|exact H].
Qed.
End Process.

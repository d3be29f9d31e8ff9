(** Where nothing is protected, no error is about protection. *)
From Verif Require Import Prelude Str Keyword Enums LangTag Container Stack ContextSyntax Ctx Process ProcessRel Cyclic.

(** ** Specification *)

(** Neither a definition nor what it imports marks anything as protected. *)
Record unmarked (d : cdef tdef) (i : option (cdef tdef)) : Prop := {
  um_all : forall x, x = d \/ i = Some x -> cd_protected x <> Some true;
  um_type : forall x t, x = d \/ i = Some x -> cd_type x = Some t -> dt_protected t <> Some true;
  um_terms : forall k v, entry_in d i k v -> te_protected (expanded_of v) <> Some true
}.

(** ** Proof *)

Definition np (c : actx) : Prop := Forall (fun p => nd_protected (snd p) = false) (ac_defs c) /\ ac_type c <> Some true.
Lemma np_iff c : np c <-> has_protected_items c = false.
Proof.
  unfold np, has_protected_items. rewrite Bool.orb_false_iff. split; intros [F T]; split.
  - induction F as [|x l H _ IH]; [reflexivity|]. cbn. rewrite H. exact IH.
  - destruct (ac_type c) as [[]|]; congruence.
  - induction (ac_defs c) as [|x l IH]; [constructor|]. cbn in F. apply Bool.orb_false_iff in F. destruct F as [F1 F2]. constructor; auto.
  - destruct (ac_type c) as [[]|]; congruence.
Qed.
Lemma np_get c k d : np c -> get_normal c k = Some d -> nd_protected d = false.
Proof.
  intros [F _] G. unfold get_normal in G. induction F as [|[x w] l H _ IH]; [discriminate G|]. cbn in G. destruct (streq k x); [injection G as <-; exact H|auto].
Qed.
Lemma np_set c k d : np c -> (forall x, d = Some x -> nd_protected x = false) -> np (set_normal c k d).
Proof.
  intros [F T] H. split; [|exact T]. unfold set_normal. cbn [ac_defs].
  assert (D : Forall (fun p => nd_protected (snd p) = false) (mdel k (ac_defs c))) by (unfold mdel; apply Forall_forall; intros x X; apply filter_In in X; destruct X as [X _]; revert x X; apply Forall_forall, F).
  destruct d as [x|]; cbn [mset]; [constructor; [apply H; reflexivity|exact D]|exact D].
Qed.

(** The two errors about protection. *)
Definition harmless (e : cerr) : Prop := e <> EProtectedTermRedefinition /\ e <> EInvalidContextNullification.
Definition sf {A} (f : A -> Prop) (r : result A cerr) : Prop := match r with Ok a => f a | Err e => harmless e end.
Lemma sf_bind {A C} f g (x : result A cerr) (h : A -> result C cerr) : sf f x -> (forall a, f a -> sf g (h a)) -> sf g (bind x h).
Proof. intros X H. destruct x as [a|e]; [apply H, X|exact X]. Qed.
Lemma sf_any {A} (r : result A cerr) f : sf f r -> sf (fun _ => True) r.
Proof. destruct r; cbn; auto. Qed.
Ltac hs := repeat match goal with
  | |- sf _ (bind _ _) => eapply (sf_bind (fun _ => True)); [|intros ? _]
  | |- sf _ (match ?x with _ => _ end) => destruct x
  | |- sf _ (Err _) => split; discriminate
  | |- sf _ (Ok _) => exact I
  end.

Section Safe.
Variable io : iops.
Lemma sf_tail c s dr vo : sf (fun _ => True) (expand_tail io c s dr vo).
Proof. unfold expand_tail. hs. Qed.
Lemma sf_absolute c s dr vo : sf (fun _ => True) (expand_absolute io c s dr vo).
Proof. unfold expand_absolute. destruct (iri_ok io s); [exact I|apply sf_tail]. Qed.
Lemma sf_simple c v dr vo : sf (fun _ => True) (expand_iri_simple io c v dr vo).
Proof.
  unfold expand_iri_simple. destruct v as [|[k|s]]; try exact I. destruct (is_keyword_like s); [exact I|].
  destruct (expand_defined c s vo); [exact I|]. destruct (colon_inside s); [|apply sf_tail]. destruct (blank_ok io s); [exact I|].
  destruct (streq s "_:"); [exact I|]. destruct (compact_iri_of io s) as [[p x]|]; [|apply sf_absolute].
  destruct (expand_prefixed io c p x); [exact I|apply sf_absolute].
Qed.
Lemma sf_own c k o : sf (fun _ => True) (own_mapping io c k o).
Proof.
  unfold own_mapping, default_mapping. destruct (blank_ok io k); [exact I|]. destruct (iri_ref_ok io k); [|hs]. destruct (iri_ok io k); [exact I|].
  destruct (contains_char "/" k); [|hs]. eapply sf_bind; [apply sf_simple|]. intros t _. hs.
Qed.

Section Define.
Variable ld : loader.
Variable m : merged.
Hypothesis U : unmarked (m_base m) (m_imported m).

Section Step.
Variable r : eng.
Hypothesis IH : forall s k rs o, np (fst s) -> sf (fun s => np (fst s)) (e_define r s m (KKey k) rs None false o).
Notation P1 := (fun x => np (fst (fst x))).

Lemma sf_expand s0 v dr vo rs o : np (fst s0) -> sf P1 (expand_iri_with io r s0 v dr vo m rs o).
Proof.
  intros N. unfold expand_iri_with. destruct v as [|[k|s]]; try exact N. destruct (is_keyword_like s) eqn:K; [exact N|]. rewrite (kk_of_str_key _ K).
  eapply sf_bind; [apply IH, N|]. intros s1 N1. destruct (expand_defined (fst s1) s vo); [exact N1|].
  destruct (colon_inside s); [|eapply sf_bind; [apply sf_tail|intros t _; exact N1]]. destruct (blank_ok io s); [exact N1|]. destruct (streq s "_:"); [exact N1|].
  destruct (compact_iri_of io s) as [[p x]|]; [|eapply sf_bind; [apply sf_absolute|intros t _; exact N1]].
  eapply sf_bind; [apply IH, N1|]. intros s2 N2. destruct (expand_prefixed io (fst s2) p x); [exact N2|]. eapply sf_bind; [apply sf_absolute|intros t _; exact N2].
Qed.

Definition keeps (x : st * ndef) : Prop := np (fst (fst x)) /\ nd_protected (snd x) = false.
Definition keeps_opt (x : st * option ndef) : Prop := np (fst (fst x)) /\ forall d, snd x = Some d -> nd_protected d = false.

Lemma sf_type s0 rs o e d : np (fst s0) -> nd_protected d = false -> sf keeps (define_type io r s0 m rs o e d).
Proof.
  intros N D. unfold define_type. destruct (te_type e); [|split; assumption]. eapply sf_bind; [apply sf_expand, N|]. intros [s1 t] N1.
  destruct t as [t|]; [|split; assumption]. destruct (_ && _)%bool; [split; discriminate|]. destruct (ty_of_term t); [split; assumption|split; discriminate].
Qed.
Lemma sf_reverse s0 k rs o e d rev : np (fst s0) -> nd_protected d = false -> sf P1 (define_reverse io r s0 m k rs o e d rev).
Proof.
  intros N D. unfold define_reverse. destruct (_ || _)%bool; [split; discriminate|]. destruct (is_keyword_like rev); [exact N|].
  eapply sf_bind; [apply sf_expand, N|]. intros [s1 t] N1. destruct t as [[|j|]|]; try (split; discriminate). destruct (id_valid j); [|split; discriminate].
  eapply (sf_bind (fun d => nd_protected d = false)).
  - unfold reverse_container. destruct (te_container e) as [[|c]|]; try exact D. destruct (c_from_syntax (NSome c)) as [[]|]; try exact D; split; discriminate.
  - intros d1 D1. apply np_set; [exact N1|]. intros x X. injection X as <-. exact D1.
Qed.
Lemma sf_no_id s0 k rs o : np (fst s0) -> sf P1 (define_no_id io r s0 m k rs o).
Proof.
  intros N. unfold define_no_id. destruct (compact_iri_of io k) as [[p x]|]; [|eapply sf_bind; [apply sf_own|intros t _; exact N]].
  eapply sf_bind; [apply IH, N|]. intros s1 N1. destruct (get_value (fst s1) p); [|eapply sf_bind; [apply sf_own|intros t _; exact N1]].
  destruct (iri_ok io _); [exact N1|split; discriminate].
Qed.
Lemma sf_id s0 k rs o b i d : np (fst s0) -> nd_protected d = false -> sf keeps_opt (define_id io r s0 m k rs o b i d).
Proof.
  intros N D. unfold define_id. destruct (_ && _)%bool; [split; [exact N|discriminate]|]. eapply sf_bind; [apply sf_expand, N|]. intros [s1 t] N1.
  destruct (match t with Some (TmKw KContext) => true | _ => false end); [split; discriminate|].
  destruct (match t with Some (TmId p) => negb (id_valid p) | _ => false end); [split; discriminate|]. eapply (sf_bind (fun s => np (fst s))).
  - destruct (contains_between_boundaries k ":" || contains_char "/" k)%bool; [|exact N1]. eapply sf_bind; [apply sf_expand; exact N1|]. intros [s2 t2] N2.
    destruct (opt_eqb term_eqb t t2); [exact N2|split; discriminate].
  - intros s2 N2. destruct (_ && b)%bool; [destruct t; [|split; discriminate]|]; (split; [exact N2|]; intros x X; injection X as <-; exact D).
Qed.
Lemma sf_mapping s0 k rs o b e d : np (fst s0) -> nd_protected d = false -> sf keeps_opt (define_mapping io r s0 m k rs o b e d).
Proof.
  intros N D. unfold define_mapping.
  assert (X : sf keeps_opt (do (s1, t) <- define_no_id io r s0 m k rs o ; Ok (s1, Some (nd_set_value d (Some t))))).
  { eapply sf_bind; [apply sf_no_id, N|]. intros [s1 t] N1. split; [exact N1|]. intros x X. injection X as <-. exact D. }
  destruct (te_id e) as [i|]; [|exact X]. destruct (id_differs i k); [|exact X]. destruct i as [|i]; [split; [exact N|]; intros x Y; injection Y as <-; exact D|].
  apply sf_id; assumption.
Qed.
Lemma sf_rest s0 k rs b o e prev d : np (fst s0) -> nd_protected d = false -> (forall p, prev = Some p -> nd_protected p = false) ->
  sf (fun s => np (fst s)) (define_rest io r s0 k rs b o e prev d).
Proof.
  intros N D P. unfold define_rest. set (Q := fun x => nd_protected x = false).
  apply (sf_bind Q). { unfold define_container. destruct (te_container e) as [c|]; [|exact D]. destruct (_ && _)%bool; [split; discriminate|].
    destruct (c_from_syntax c) as [c'|]; [|split; discriminate]. cbn zeta. destruct (c_contains c' CKType); [|exact D].
    destruct (nd_typ (nd_set_container d c')) as [[]|]; try exact D; split; discriminate. }
  intros d1 D1. apply (sf_bind Q). { unfold define_index. destruct (te_index e); [|exact D1]. destruct (_ || _)%bool; [split; discriminate|].
    eapply sf_bind; [apply sf_simple|]. intros t _. destruct t as [[|[u|u|u]|]|]; try exact D1; split; discriminate. }
  intros d2 D2. apply (sf_bind Q). { unfold define_context. destruct (te_context e); [|exact D2]. destruct (is_10 o); [split; discriminate|].
    destruct (e_process r _ _ _ _ _) as [c|[]]; try exact D2; split; discriminate. }
  intros d3 D3. apply (sf_bind Q).
  { assert (D3' : Q (define_language e d3)) by (unfold define_language; destruct (te_type e); [exact D3|]; destruct (te_language e), (te_direction e); exact D3).
    unfold define_nest. destruct (te_nest e); [|exact D3']. destruct (is_10 o); [split; discriminate|exact D3']. }
  intros d4 D4. apply (sf_bind Q). { unfold define_prefix. destruct (te_prefix e) as [p|]; [|exact D4]. destruct (_ || _)%bool; [split; discriminate|]. destruct p; [|exact D4].
    destruct (nd_value d4) as [t|]; [|split; discriminate]. destruct (term_is_kw t); [split; discriminate|exact D4]. }
  intros d5 D5. apply (sf_bind Q). { unfold define_propagate. destruct (te_propagate e); [split; discriminate|exact D5]. }
  intros d6 D6. apply (sf_bind Q). { unfold define_protect. destruct (po_override o); [exact D6|]. destruct prev as [p|]; [|exact D6]. rewrite (P p eq_refl). exact D6. }
  intros d7 D7. cbn [sf fst]. apply np_set; [exact N|]. intros x X. injection X as <-. exact D7.
Qed.
Lemma sf_normal s0 k rs b p o v : np (fst s0) -> p = false -> te_protected (expanded_of v) <> Some true -> sf P1 (define_normal io r s0 m k rs b p o v).
Proof.
  intros N -> T. unfold define_normal. apply (sf_bind (fun d => nd_protected d = false)).
  { unfold define_protected. destruct (te_protected (expanded_of v)) as [[]|]; [congruence| |reflexivity]. destruct (is_10 o); [split; discriminate|reflexivity]. }
  intros d D. assert (N0 : np (set_normal (fst s0) k None)) by (apply np_set; [exact N|discriminate]).
  eapply sf_bind; [apply (sf_type (set_normal (fst s0) k None, snd s0)); assumption|]. intros [s1 d1] [N1 D1]. cbn [fst snd] in *.
  destruct (te_reverse (expanded_of v)) as [rev|]; [apply sf_reverse; assumption|].
  eapply sf_bind; [apply sf_mapping; assumption|]. intros [s2 [d2|]] [N2 D2]; cbn [fst snd] in *; [|exact N2].
  eapply sf_bind; [apply sf_rest; [exact N2|apply D2; reflexivity|]|].
  - intros q Q. eapply np_get; [exact N|exact Q].
  - intros s3 N3. exact N3.
Qed.
End Step.

Lemma sf_body r s0 k rs b p o : (forall s k rs o, np (fst s) -> sf (fun s => np (fst s)) (e_define r s m (KKey k) rs None false o)) ->
  np (fst s0) -> p = false -> sf (fun s => np (fst s)) (define_body io r s0 m k rs b p o).
Proof.
  intros IH N P. unfold define_body. destruct (dget k (snd s0)) as [[]|]; [split; discriminate|exact N|].
  destruct (match k with KKey s => streq s "" | KKeyword _ => false end); [split; discriminate|]. cbn [fst snd].
  destruct (m_get m k) as [[t|v|]|] eqn:M; [|destruct k as [k|]; [|split; discriminate]|split; discriminate|exact N].
  - apply (sf_bind np); [|intros c N1; exact N1]. unfold define_type_term. destruct (is_10 o); [split; discriminate|].
    assert (DT : match dt_protected t with Some p => p | None => false end = false).
    { assert (X : exists d, (d = m_base m \/ m_imported m = Some d) /\ cd_type d = Some t).
      { destruct k as [s|kw]; [exfalso; unfold m_get, or_else, def_get in M; destruct (assoc s (cd_bindings (m_base m))); [discriminate M|]; destruct (m_imported m) as [i|];
          [|discriminate M]; cbn in M; destruct (assoc s (cd_bindings i)); discriminate M|].
        unfold m_get, or_else in M. destruct (def_get (m_base m) (KKeyword kw)) as [x|] eqn:E.
        - injection M as ->. exists (m_base m). split; [auto|]. destruct kw; cbn in E; try discriminate E; try (match type of E with option_map _ ?y = _ => destruct y; try discriminate E end).
          injection E as ->. reflexivity.
        - destruct (m_imported m) as [i|]; [|discriminate M]. exists i. split; [auto|].
          destruct kw; cbn in M; try discriminate M; try (match type of M with option_map _ ?y = _ => destruct y; try discriminate M end).
          injection M as ->. reflexivity. }
      destruct X as (d & X1 & X2). pose proof (um_type _ _ U d t X1 X2) as X. destruct (dt_protected t) as [[]|]; congruence. }
    rewrite DT. destruct N as [F T]. split; [exact F|]. cbn [ac_type set_type]. destruct (po_override o); [discriminate|]. destruct (ac_type (fst s0)) as [[]|]; congruence.
  - eapply sf_bind; [apply sf_normal; [exact IH|exact N|exact P|]|].
    + apply (um_terms _ _ U k). apply entry_get, M.
    + intros [s1 []] N1; exact N1.
Qed.
Lemma engine_sf n : forall s k rs b p o, np (fst s) -> p = false -> sf (fun s => np (fst s)) (e_define (engine io ld n) s m k rs b p o).
Proof.
  induction n as [|n IH]; intros s k rs b p o N P; [split; discriminate|]. cbn [engine e_define]. apply sf_body; auto.
Qed.
Lemma all_sf n c rs b o : np c -> sf np (define_all (engine io ld n) c m rs b o).
Proof.
  intros N. unfold define_all.
  assert (P : match m_field cd_protected m with Some p => p | None => false end = false).
  { unfold m_field, or_else. pose proof (um_all _ _ U) as X. destruct (cd_protected (m_base m)) as [[]|] eqn:E.
    - exfalso. exact (X _ (or_introl eq_refl) E).
    - reflexivity.
    - destruct (m_imported m) as [i|]; [|reflexivity]. specialize (X i (or_intror eq_refl)). destruct (cd_protected i) as [[]|]; congruence. }
  rewrite P. apply (sf_bind (fun s => np (fst s))).
  - destruct (m_field cd_type m); [apply engine_sf; [exact N|reflexivity]|exact N].
  - intros s1 N1. apply (sf_bind (fun s => np (fst s))); [|intros s2 N2; exact N2].
    revert s1 N1. induction (m_keys m) as [|k ks IHk]; intros s1 N1; [exact N1|]. cbn [define_keys].
    eapply sf_bind; [apply engine_sf; [exact N1|reflexivity]|]. intros s2 N2. apply IHk, N2.
Qed.
End Define.

Variable ld : loader.
Lemma process_sf n : forall a lc rs b o, np a -> (forall d i, at_hand ld lc d -> imported ld d i -> unmarked d i) -> sf np (process_context io ld n a lc rs b o).
Proof.
  unfold process_context. induction n as [|n IH]; intros a lc rs b o N H; [split; discriminate|]. cbn [engine e_process]. unfold process_body.
  apply (sf_bind (fun _ => True)). { unfold propagate_of. hs. }
  intros o' _. match goal with |- sf _ (process_entries _ _ _ _ _ ?x _ _ _) => assert (NC : np x) by (destruct (_ && _)%bool; exact N); generalize x NC; clear NC; intros c NC end.
  assert (L : forall es, (forall x, In x es -> In x (entries_of lc)) -> forall c rs, np c -> sf np (process_entries io ld (engine io ld n) es a c rs b o')).
  { clear c NC. induction es as [|x es IHe]; intros S c rs' NC; [exact NC|]. cbn [process_entries]. assert (SX := S x (or_introl eq_refl)).
    apply (sf_bind (fun y => np (fst y))).
    - destruct x as [|u|d].
      + apply (sf_bind np); [|intros c' X; exact X]. unfold process_null. rewrite (proj1 (np_iff c) NC), Bool.andb_false_r.
        destruct (po_propagate o'); (split; [constructor|discriminate]).
      + unfold process_iri. destruct (resolve_iri io u b) as [u'|]; [|split; discriminate]. destruct (ps_push rs' u') as [[] rs1]; [|exact NC].
        destruct (ld u') as [| |lc'] eqn:E; [split; discriminate|split; discriminate|]. apply (sf_bind np); [|intros c' X; exact X].
        apply IH; [exact NC|]. intros d i A. apply H. destruct A as [A|A]; right; [exists u', lc'; auto|exact A].
      + apply (sf_bind np); [|intros c' X; exact X]. unfold process_def. destruct (match cd_version d with Some _ => is_10 o' | None => false end); [split; discriminate|].
        destruct (import_of io ld d b o') as [i|e] eqn:EI; cbn [bind].
        2:{ revert EI. unfold import_of. destruct (cd_import d); [|discriminate]. destruct (is_10 o'); [intros X; injection X as <-; split; discriminate|].
            destruct (resolve_iri io s b); [|intros X; injection X as <-; split; discriminate].
            destruct (ld s0) as [| |[[| |i0]|]]; try (intros X; injection X as <-; split; discriminate). destruct (cd_import i0); [intros X; injection X as <-; split; discriminate|discriminate]. }
        assert (UM : unmarked (m_base (MkMerged d i)) (m_imported (MkMerged d i))) by (apply H; [left; exact SX|eapply import_loaded, EI]).
        unfold process_merged. apply (sf_bind np).
        { unfold process_base. destruct (ps_is_empty rs'); [|exact NC]. destruct (m_field cd_base _) as [[|w]|]; try exact NC. destruct (iri_ok io w); [exact NC|].
          destruct (resolve_iri io w (ac_base c)); [exact NC|split; discriminate]. }
        intros c1 N1. apply (sf_bind np).
        { unfold process_vocab. destruct (m_field cd_vocab _) as [[|w]|]; try exact N1. eapply sf_bind; [apply sf_simple|]. intros t _.
          destruct t as [[|j|]|]; try exact N1; split; discriminate. }
        intros c2 N2. apply (sf_bind np).
        { unfold process_direction, process_language. destruct (m_field cd_direction _); [destruct (is_10 o'); [split; discriminate|]|]; destruct (m_field cd_language _); exact N2. }
        intros c3 N3. apply all_sf; assumption.
    - intros [c' rs''] N'. apply IHe; [intros y Y; apply S; right; exact Y|exact N']. }
  apply L; auto.
Qed.
End Safe.

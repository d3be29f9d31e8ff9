(** Relations between the states before and after the steps of term definition. *)
From Verif Require Import Prelude Str Keyword Enums LangTag Container Stack ContextSyntax Ctx Process.

(** Inversion of [bind] in hypotheses. *)
Lemma bind_ok {A B E} (x : result A E) (f : A -> result B E) y :
  bind x f = Ok y -> exists a, x = Ok a /\ f a = Ok y.
Proof. destruct x as [a|e]; cbn; [eauto|discriminate]. Qed.
Lemma bind_err {A B E} (x : result A E) (f : A -> result B E) e :
  bind x f = Err e -> x = Err e \/ exists a, x = Ok a /\ f a = Err e.
Proof. destruct x as [a|e']; cbn; [eauto|]. intros H. left. congruence. Qed.

Lemma kk_of_str_key s : is_keyword_like s = false -> kk_of_str s = KKey s.
Proof.
  intros H. unfold kk_of_str. destruct (kw_of_str s) as [k|] eqn:E; [|reflexivity].
  apply kw_of_str_sound in E. subst s. destruct k; discriminate H.
Qed.

Lemma kk_eqb_spec a b : reflect (a = b) (kk_eqb a b).
Proof.
  destruct a as [x|x], b as [y|y]; cbn; try (constructor; discriminate).
  - destruct (streq_spec x y); constructor; congruence.
  - destruct (keyword_eqb_spec x y); constructor; congruence.
Qed.
Lemma kk_eqb_refl a : kk_eqb a a = true.
Proof. destruct (kk_eqb_spec a a); congruence. Qed.

Section Rel.
Variable io : iops.
Variable r : eng.
Variable R : st -> st -> Prop.
Variable m : merged.
Variable rs : pstack.
Hypothesis Rrefl : forall s, R s s.
Hypothesis Rtrans : forall a b c, R a b -> R b c -> R a c.
Variable o : popts.
Hypothesis Rdef : forall s k s',
  e_define r s m (KKey k) rs None false (with_no_override o) = Ok s' -> R s s'.

Lemma rel_expand s0 v dr vo s1 t : expand_iri_with io r s0 v dr vo m rs o = Ok (s1, t) -> R s0 s1.
Proof.
  unfold expand_iri_with. destruct v as [|[k|s]]; try (intros H; injection H as <- _; apply Rrefl).
  destruct (is_keyword_like s) eqn:K; [intros H; injection H as <- _; apply Rrefl|].
  rewrite (kk_of_str_key _ K). intros H.
  apply bind_ok in H. destruct H as (s2 & E & H). apply Rdef in E.
  destruct (expand_defined (fst s2) s vo); [injection H as <- _; exact E|].
  destruct (colon_inside s).
  2:{ apply bind_ok in H. destruct H as (t' & _ & H). injection H as <- _. exact E. }
  destruct (blank_ok io s); [injection H as <- _; exact E|].
  destruct (streq s "_:"); [injection H as <- _; exact E|].
  destruct (compact_iri_of io s) as [[p x]|].
  2:{ apply bind_ok in H. destruct H as (t' & _ & H). injection H as <- _. exact E. }
  apply bind_ok in H. destruct H as (s3 & E3 & H). apply Rdef in E3.
  destruct (expand_prefixed io (fst s3) p x).
  - injection H as <- _. eauto.
  - apply bind_ok in H. destruct H as (t' & _ & H). injection H as <- _. eauto.
Qed.

Lemma rel_type s0 e d s1 d1 : define_type io r s0 m rs o e d = Ok (s1, d1) -> R s0 s1.
Proof.
  unfold define_type. destruct (te_type e); [|intros H; injection H as <- _; apply Rrefl].
  intros H. apply bind_ok in H. destruct H as ([s2 t] & E & H). apply rel_expand in E.
  destruct t as [t|]; [|injection H as <- _; exact E].
  destruct (_ && _)%bool; [discriminate|]. destruct (ty_of_term t); [|discriminate].
  injection H as <- _. exact E.
Qed.

Lemma rel_no_id s0 k s1 t : define_no_id io r s0 m k rs o = Ok (s1, t) -> R s0 s1.
Proof.
  unfold define_no_id. destruct (compact_iri_of io k) as [[p x]|]; intros H.
  - apply bind_ok in H. destruct H as (s2 & E & H). apply Rdef in E.
    destruct (get_value (fst s2) p).
    + destruct (iri_ok io _); [|discriminate]. injection H as <- _. exact E.
    + apply bind_ok in H. destruct H as (t' & _ & H). injection H as <- _. exact E.
  - apply bind_ok in H. destruct H as (t' & _ & H). injection H as <- _. apply Rrefl.
Qed.

Variable k : string.
Hypothesis Rend : forall s, R s (fst s, dend (KKey k) (snd s)).

Lemma rel_id s0 b i d s1 d1 : define_id io r s0 m k rs o b i d = Ok (s1, d1) -> R s0 s1.
Proof.
  unfold define_id. destruct (_ && _)%bool; [intros H; injection H as <- _; apply Rrefl|].
  intros H. apply bind_ok in H. destruct H as ([s2 v] & E & H). apply rel_expand in E.
  destruct (match v with Some (TmKw KContext) => true | _ => false end); [discriminate|].
  destruct (match v with Some (TmId p) => negb (id_valid p) | _ => false end); [discriminate|].
  apply bind_ok in H. destruct H as (s3 & E3 & H).
  assert (R s2 s3) as R3.
  { destruct (_ || _)%bool; [|injection E3 as <-; apply Rrefl].
    apply bind_ok in E3. destruct E3 as ([s4 t] & E4 & H4). apply rel_expand in E4.
    destruct (opt_eqb term_eqb v t); [|discriminate]. injection H4 as <-. eapply Rtrans; [apply Rend|exact E4]. }
  destruct (_ && b)%bool.
  - destruct v; [|discriminate]. injection H as <- _. eauto.
  - injection H as <- _. eauto.
Qed.

Lemma rel_mapping s0 b e d s1 d1 : define_mapping io r s0 m k rs o b e d = Ok (s1, d1) -> R s0 s1.
Proof.
  unfold define_mapping. intros H.
  assert (N : forall s1 d1, (do (s1, t) <- define_no_id io r s0 m k rs o ; Ok (s1, Some (nd_set_value d (Some t)))) = Ok (s1, d1) -> R s0 s1).
  { clear H. intros s1' d1' H. apply bind_ok in H. destruct H as ([s2 t] & E & H). injection H as <- _. apply rel_no_id in E. exact E. }
  destruct (te_id e) as [i|]; [|eapply N; exact H].
  destruct (id_differs i k); [|eapply N; exact H].
  destruct i; [injection H as <- _; apply Rrefl|apply rel_id in H; exact H].
Qed.
End Rel.

(** What [define_rest] does to the state. *)
Lemma rest_state io r s0 k rs b o e prev d s1 : define_rest io r s0 k rs b o e prev d = Ok s1 ->
  exists d1, define_protect o prev d1 = Ok d1 /\ s1 = (set_normal (fst s0) k (Some d1), snd s0).
Proof.
  unfold define_rest. intros H.
  apply bind_ok in H. destruct H as (d1 & _ & H). apply bind_ok in H. destruct H as (d2 & _ & H).
  apply bind_ok in H. destruct H as (d3 & _ & H). apply bind_ok in H. destruct H as (d4 & _ & H).
  apply bind_ok in H. destruct H as (d5 & _ & H). apply bind_ok in H. destruct H as (d6 & _ & H).
  apply bind_ok in H. destruct H as (d7 & E & H). injection H as <-. exists d7. split; [|reflexivity].
  unfold define_protect in *. destruct (po_override o); [reflexivity|].
  destruct prev as [p|]; [|reflexivity]. destruct (nd_protected p); [|reflexivity].
  destruct (modulo_protected_eqb d6 p) eqn:M; [|discriminate]. injection E as <-.
  change (modulo_protected_eqb (nd_set_protected d6 true) p) with (modulo_protected_eqb d6 p).
  rewrite M. reflexivity.
Qed.

(** [define] of a term other than [k0] relates states by any relation closed under its
    elementary steps. *)
Section DefineRel.
Variable io : iops.
Variable ld : loader.
Variable R : st -> st -> Prop.
Variable m : merged.
Hypothesis Rrefl : forall s, R s s.
Hypothesis Rtrans : forall a b c, R a b -> R b c -> R a c.
Variable K : kk -> Prop.   (* keys handled *)
Hypothesis Rbegin : forall c d k, K k -> dget k d = None -> R (c, d) (c, (k, true) :: d).
Hypothesis Rend : forall s k, K k -> R s (fst s, dend k (snd s)).
Hypothesis Rset : forall c d k v, K (KKey k) -> m_get m (KKey k) <> None -> R (c, d) (set_normal c k v, d).

Lemma define_rel_body_type r rs o :
  (forall c d t c' k, K k -> m_get m k = Some (EvType t) -> define_type_term c o t = Ok c' -> R (c, d) (c', d)) ->
  (forall s k s', e_define r s m (KKey k) rs None false (with_no_override o) = Ok s' -> R s s') ->
  forall s0 k b p s1, K k -> define_body io r s0 m k rs b p o = Ok s1 -> R s0 s1.
Proof.
  intros Rtype IH s0 k b p s1 HK H. unfold define_body in H. destruct s0 as [c dm]. cbn [fst snd] in H.
  destruct (dget k dm) as [[]|] eqn:G; [discriminate|injection H as <-; apply Rrefl|].
  destruct (match k with KKey s => streq s "" | KKeyword _ => false end); [discriminate|].
  specialize (Rbegin c dm k HK G).
  destruct (m_get m k) as [[t|v|]|] eqn:M.
  - apply bind_ok in H. destruct H as (c' & E & H). injection H as <-.
    eapply Rtrans; [exact Rbegin|]. eapply Rtrans; [eapply Rtype; [exact HK|exact M|exact E]|]. apply (Rend (_, _) k HK).
  - destruct k as [k|]; [|discriminate].
    apply bind_ok in H. destruct H as ([s2 ended] & E & H).
    assert (R (c, dm) s2) as R2.
    { eapply Rtrans; [exact Rbegin|]. unfold define_normal in E. cbn [fst snd] in E.
      apply bind_ok in E. destruct E as (d & _ & E).
      apply bind_ok in E. destruct E as ([s3 d3] & E3 & E).
      assert (D : forall s k s', e_define r s m (KKey k) rs None false (with_no_override o) = Ok s' -> R s s')
        by (intros; eapply IH; eassumption).
      apply (rel_type io r R m rs Rrefl Rtrans o D) in E3.
      assert (R1 : R (c, (KKey k, true) :: dm) (set_normal c k None, (KKey k, true) :: dm))
        by (apply Rset; [exact HK|congruence]).
      eapply Rtrans; [exact R1|]. eapply Rtrans; [exact E3|].
      destruct (te_reverse (expanded_of v)) as [rev|].
      - unfold define_reverse in E. destruct (_ || _)%bool; [discriminate|].
        destruct (is_keyword_like rev); [injection E as <- _; apply Rrefl|].
        apply bind_ok in E. destruct E as ([s4 t] & E4 & E).
        apply (rel_expand io r R m rs Rrefl Rtrans o D) in E4.
        destruct t as [[]|]; try discriminate. destruct (id_valid i); [|discriminate].
        apply bind_ok in E. destruct E as (d5 & _ & E). injection E as <- _.
        eapply Rtrans; [exact E4|]. destruct s4. apply Rset; [exact HK|congruence].
      - apply bind_ok in E. destruct E as ([s4 d4] & E4 & E).
        apply (rel_mapping io r R m rs Rrefl Rtrans o D k (fun s => Rend s (KKey k) HK)) in E4.
        eapply Rtrans; [exact E4|]. destruct d4 as [d4|]; [|injection E as <- _; apply Rrefl].
        apply bind_ok in E. destruct E as (s5 & E5 & E). injection E as <- _.
        apply rest_state in E5. destruct E5 as (d5 & _ & ->). destruct s4. apply Rset; [exact HK|congruence]. }
    destruct ended; injection H as <-; [|exact R2].
    eapply Rtrans; [exact R2|]. apply (Rend s2 (KKey k) HK).
  - discriminate.
  - injection H as <-. eapply Rtrans; [exact Rbegin|]. apply (Rend (_, _) k HK).
Qed.

Lemma define_rel_body r rs o :
  (forall c d t c', define_type_term c o t = Ok c' -> R (c, d) (c', d)) ->
  (forall s k s', e_define r s m (KKey k) rs None false (with_no_override o) = Ok s' -> R s s') ->
  forall s0 k b p s1, K k -> define_body io r s0 m k rs b p o = Ok s1 -> R s0 s1.
Proof. intros Rtype. apply define_rel_body_type. intros. eapply Rtype. eassumption. Qed.
End DefineRel.

(** A relation closed under all the elementary steps holds between the states before and
    after any call of [define]. *)
Lemma define_rel io ld (R : st -> st -> Prop) m :
  (forall s, R s s) -> (forall a b c, R a b -> R b c -> R a c) ->
  (forall c d k, dget k d = None -> R (c, d) (c, (k, true) :: d)) ->
  (forall s k, R s (fst s, dend k (snd s))) ->
  (forall c d k v, m_get m (KKey k) <> None -> R (c, d) (set_normal c k v, d)) ->
  (forall c d v, R (c, d) (set_type c v, d)) ->
  forall n s k rs b p o s', e_define (engine io ld n) s m k rs b p o = Ok s' -> R s s'.
Proof.
  intros H1 H2 H3 H4 H5 H6 n. induction n as [|n IH]; intros s k rs b p o s' H; [discriminate|].
  cbn in H. eapply (define_rel_body io R m H1 H2 (fun _ => True)); eauto.
  intros c d t c' E. unfold define_type_term in E. destruct (is_10 o); [discriminate|]. injection E as <-. apply H6.
Qed.

(** Only the [@type] key changes the definition of [@type]. *)
Lemma m_get_key_not_type m k t : m_get m (KKey k) <> Some (EvType t).
Proof.
  unfold m_get, or_else, def_get. intros H.
  destruct (assoc k (cd_bindings (m_base m))); [discriminate|]. cbn [option_map] in H.
  destruct (m_imported m) as [i|]; [|discriminate]. destruct (assoc k (cd_bindings i)); discriminate.
Qed.
Lemma define_key_type io ld m n : forall s k rs b p o s',
  e_define (engine io ld n) s m (KKey k) rs b p o = Ok s' -> ac_type (fst s') = ac_type (fst s).
Proof.
  induction n as [|n IH]; intros s k rs b p o s' H; [discriminate|]. cbn in H.
  refine (define_rel_body_type io (fun s s' => ac_type (fst s') = ac_type (fst s)) m _ _ (fun k => exists s, k = KKey s) _ _ _
            (engine io ld n) rs o _ _ s (KKey k) b p s' (ex_intro _ k eq_refl) H); cbn; auto.
  - intros. congruence.
  - intros c d t c' k0 [s0 ->] M. destruct (m_get_key_not_type _ _ _ M).
  - intros. eapply IH. eassumption.
Qed.

(** [define] only changes the term definitions. *)
Definition same_settings (c c' : actx) : Prop :=
  ac_orig c = ac_orig c' /\ ac_base c = ac_base c' /\ ac_vocab c = ac_vocab c' /\
  ac_lang c = ac_lang c' /\ ac_dir c = ac_dir c' /\ ac_prev c = ac_prev c'.

Lemma define_settings io ld n s m k rs b p o s' :
  e_define (engine io ld n) s m k rs b p o = Ok s' -> same_settings (fst s) (fst s').
Proof.
  apply (define_rel io ld (fun s s' => same_settings (fst s) (fst s')) m); unfold same_settings; cbn; intros; intuition congruence.
Qed.

(** Terms that have no entry in the local context are not touched. *)
Lemma define_untouched io ld n s m k rs b p o s' k0 : m_get m (KKey k0) = None ->
  e_define (engine io ld n) s m k rs b p o = Ok s' -> get_normal (fst s') k0 = get_normal (fst s) k0.
Proof.
  intros M. apply (define_rel io ld (fun s s' => get_normal (fst s') k0 = get_normal (fst s) k0) m); cbn [fst snd]; intros; try congruence; try reflexivity.
  rewrite get_normal_set. destruct (streq_spec k1 k0) as [->|N]; [contradiction|reflexivity].
Qed.

(** [define_keys] inherits the relations of [define]. *)
Lemma keys_rel io ld (R : st -> st -> Prop) n m rs b p o ks :
  (forall s, R s s) -> (forall a b c, R a b -> R b c -> R a c) ->
  (forall s k s', e_define (engine io ld n) s m (KKey k) rs b p o = Ok s' -> R s s') ->
  forall s s', define_keys (engine io ld n) ks s m rs b p o = Ok s' -> R s s'.
Proof.
  intros H1 H2 H3. induction ks as [|k ks IH]; intros s s' H; cbn in H.
  - injection H as <-. apply H1.
  - apply bind_ok in H. destruct H as (s1 & E & H). eauto.
Qed.

(** ** Invariants of context processing *)

(** All the context definitions of a local context, resp. all those the loader can serve,
    satisfy [D] (scoped contexts excluded). *)
Definition ctx_all (D : cdef tdef -> Prop) (lc : lcontext) : Prop :=
  forall d, In (CEDef d) (entries_of lc) -> D d.
Definition load_all (ld : loader) (D : cdef tdef -> Prop) : Prop :=
  forall u lc, ld u = LdContext lc -> ctx_all D lc.

(** Predicates that only depend on the term definitions. *)
Definition on_defs (I : actx -> Prop) : Prop :=
  forall c c', ac_defs c = ac_defs c' -> ac_type c = ac_type c' -> I c -> I c'.

Lemma base_defs io c m rs c' : process_base io c m rs = Ok c' -> ac_defs c = ac_defs c' /\ ac_type c = ac_type c'.
Proof.
  unfold process_base. destruct (ps_is_empty rs); [|intros H; injection H as <-; auto].
  destruct (m_field cd_base m) as [[|i]|]; try (intros H; injection H as <-; auto).
  destruct (iri_ok io i); [intros H; injection H as <-; auto|].
  destruct (resolve_iri io i (ac_base c)); [|discriminate]. intros H; injection H as <-; auto.
Qed.
Lemma vocab_defs io c m o c' : process_vocab io c m o = Ok c' -> ac_defs c = ac_defs c' /\ ac_type c = ac_type c'.
Proof.
  unfold process_vocab. destruct (m_field cd_vocab m) as [[|i]|]; try (intros H; injection H as <-; auto).
  intros H. apply bind_ok in H. destruct H as (t & _ & H). destruct t as [[]|]; try discriminate.
  injection H as <-; auto.
Qed.
Lemma direction_defs c m o c' : process_direction (process_language c m) m o = Ok c' -> ac_defs c = ac_defs c' /\ ac_type c = ac_type c'.
Proof.
  unfold process_direction, process_language.
  destruct (m_field cd_direction m); [destruct (is_10 o); [discriminate|]|]; intros H; injection H as <-;
  destruct (m_field cd_language m); auto.
Qed.

Lemma import_def io ld d b o i : import_of io ld d b o = Ok (Some i) ->
  exists x u, cd_import d = Some x /\ resolve_iri io x b = Some u /\ ld u = LdContext (LOne (CEDef i)) /\ cd_import i = None.
Proof.
  unfold import_of. destruct (cd_import d) as [x|]; [|discriminate].
  destruct (is_10 o); [discriminate|]. destruct (resolve_iri io x b) as [u|] eqn:E; [|discriminate].
  destruct (ld u) as [| |[[]|]] eqn:L; try discriminate.
  destruct (cd_import d0) eqn:I; [discriminate|]. intros H. injection H as <-. eauto 10.
Qed.

Section ProcessInv.
Variable io : iops.
Variable ld : loader.
Variable I : actx -> Prop.
Variable D : cdef tdef -> Prop.
Variable O : popts -> Prop.
Hypothesis Idefs : on_defs I.
Hypothesis Onext : forall o, O o -> O (MkOpts (po_mode o) false true (po_vocab o)).
Hypothesis Oprop : forall o p, O o -> O (MkOpts (po_mode o) (po_override o) p (po_vocab o)).
Hypothesis Inull : forall a c o c', O o -> process_null a c o = Ok c' -> I c -> I c'.
Hypothesis Iall : forall n c m rs b o c', O o -> D (m_base m) ->
  (forall i, m_imported m = Some i -> D i) ->
  define_all (engine io ld n) c m rs b o = Ok c' -> I c -> I c'.
Hypothesis Dload : load_all ld D.

Lemma inv_def n c d rs b o c' : O o -> D d -> process_def io ld (engine io ld n) c d rs b o = Ok c' -> I c -> I c'.
Proof.
  intros HO HD H HI. unfold process_def in H.
  destruct (match cd_version d with Some _ => _ | None => _ end); [discriminate|].
  apply bind_ok in H. destruct H as (i & E & H).
  unfold process_merged in H. apply bind_ok in H. destruct H as (c1 & E1 & H).
  apply bind_ok in H. destruct H as (c2 & E2 & H). apply bind_ok in H. destruct H as (c3 & E3 & H).
  apply base_defs in E1. apply vocab_defs in E2. apply direction_defs in E3.
  apply (Iall n c3 (MkMerged d i) rs b o c' HO HD); [|exact H|].
  - cbn. intros i' ->. apply import_def in E. destruct E as (x & u & _ & _ & L & _).
    apply (Dload u _ L). left. reflexivity.
  - eapply (Idefs c); [intuition congruence|intuition congruence|exact HI].
Qed.

Lemma inv_process n : forall a lc rs b o c', O o -> ctx_all D lc ->
  e_process (engine io ld n) a lc rs b o = Ok c' -> I a -> I c'.
Proof.
  induction n as [|n IH]; intros a lc rs b o c' HO HD H HI; [discriminate|].
  cbn in H. unfold process_body in H. apply bind_ok in H. destruct H as (o' & E & H).
  assert (O o') as HO'.
  { unfold propagate_of in E. destruct lc as [[]|]; try (injection E as <-; exact HO).
    destruct (cd_propagate d); [|injection E as <-; exact HO]. destruct (is_10 o); [discriminate|].
    injection E as <-. apply Oprop, HO. }
  clear E HO. unfold ctx_all in HD. set (es := entries_of lc) in *.
  match type of H with process_entries _ _ _ _ _ ?c _ _ _ = _ => assert (I c) as HI' end.
  { destruct (_ && _)%bool; [|exact HI]. eapply Idefs; [| |exact HI]; reflexivity. }
  revert H HI'. generalize (if (negb (po_propagate o') && match ac_prev a with Some _ => false | None => true end)%bool then set_previous a a else a) as c.
  clear HI. clearbody es. revert rs. induction es as [|e es IHes]; intros rs c H HI; cbn in H.
  - injection H as <-. exact HI.
  - apply bind_ok in H. destruct H as ([c1 rs1] & E & H).
    eapply IHes; [|exact H|].
    + intros d Hd. apply HD. right. exact Hd.
    + destruct e as [|i|d].
      * apply bind_ok in E. destruct E as (c2 & E & E'). injection E' as <- _. eauto.
      * unfold process_iri in E. destruct (resolve_iri io i b) as [u|]; [|discriminate].
        destruct (ps_push rs u) as [[] rs2]; [|injection E as <- _; exact HI].
        destruct (ld u) as [| |lc'] eqn:L; try discriminate.
        apply bind_ok in E. destruct E as (c2 & E & E'). injection E' as <- _.
        eapply IH; [| |exact E|exact HI]; [apply Onext, HO'|]. intros d Hd. eapply Dload; eassumption.
      * apply bind_ok in E. destruct E as (c2 & E & E'). injection E' as <- _.
        eapply inv_def; [exact HO'| |exact E|exact HI]. apply HD. left. reflexivity.
Qed.
End ProcessInv.

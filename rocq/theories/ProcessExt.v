(** The result of term definition only depends on the entries of the local context and on the
    recursive calls actually made. *)
From Verif Require Import Prelude Str Keyword Enums LangTag Container Stack ContextSyntax Ctx Process ProcessRel Termination.

Lemma bind_ext {A B E} (x x' : result A E) (f f' : A -> result B E) :
  x = x' -> (forall a, x = Ok a -> f a = f' a) -> bind x f = bind x' f'.
Proof. intros <- H. destruct x; cbn; [apply H|]; reflexivity. Qed.

(** Two definitions of a term with the same entries, such that the difference between simple
    and expanded definitions does not matter. *)
Definition alike (k : string) (v v' : nullable tdef) : Prop :=
  expanded_of v = expanded_of v' /\
  (simple_term v = simple_term v' \/ contains_char ":" k = true \/ contains_char "/" k = true \/
   forall i, te_id (expanded_of v) <> Some (NSome i)).
Inductive same_entry (k : string) : option entry_value -> option entry_value -> Prop :=
| se_refl x : same_entry k x x
| se_def v v' : alike k v v' -> same_entry k (Some (EvDef v)) (Some (EvDef v')).

Lemma alike_id k v v' : alike k v v' ->
  simple_term v = simple_term v' \/ (negb (contains_char ":" k) && negb (contains_char "/" k))%bool = false \/
  forall i, te_id (expanded_of v') <> Some (NSome i).
Proof.
  intros [E [H|[H|[H|H]]]]; [left; exact H|right; left..|right; right; rewrite <- E; exact H].
  - rewrite H. reflexivity.
  - rewrite H. destruct (contains_char ":" k); reflexivity.
Qed.

Section Ext.
Variable io : iops.
Variables r r' : eng.
Variables m m' : merged.
Variable rs : pstack.
Hypothesis Hget : forall k, same_entry k (m_get m (KKey k)) (m_get m' (KKey k)).
Hypothesis Htype : m_get m (KKeyword KType) = m_get m' (KKeyword KType).
Hypothesis Hdef : forall s k b p o, e_define r s m (KKey k) rs b p o = e_define r' s m' (KKey k) rs b p o.
Hypothesis Hproc : forall k v lc a b o, m_get m (KKey k) = Some (EvDef v) -> te_context (expanded_of v) = Some lc ->
  e_process r a lc rs b o = e_process r' a lc rs b o.

Lemma ext_expand s0 v dr vo o :
  expand_iri_with io r s0 v dr vo m rs o = expand_iri_with io r' s0 v dr vo m' rs o.
Proof.
  unfold expand_iri_with. destruct v as [|[k|s]]; try reflexivity.
  destruct (is_keyword_like s) eqn:K; [reflexivity|]. rewrite (kk_of_str_key _ K).
  apply bind_ext; [apply Hdef|]. intros s1 _. destruct (expand_defined (fst s1) s vo); [reflexivity|].
  destruct (colon_inside s); [|reflexivity]. destruct (blank_ok io s); [reflexivity|].
  destruct (streq s "_:"); [reflexivity|]. destruct (compact_iri_of io s) as [[p x]|]; [|reflexivity].
  apply bind_ext; [apply Hdef|reflexivity].
Qed.

Lemma ext_type s0 o e d : define_type io r s0 m rs o e d = define_type io r' s0 m' rs o e d.
Proof. unfold define_type. destruct (te_type e); [|reflexivity]. rewrite ext_expand. reflexivity. Qed.
Lemma ext_reverse s0 k o e d rev : define_reverse io r s0 m k rs o e d rev = define_reverse io r' s0 m' k rs o e d rev.
Proof. unfold define_reverse. rewrite ext_expand. reflexivity. Qed.
Lemma ext_id s0 k o b i d : define_id io r s0 m k rs o b i d = define_id io r' s0 m' k rs o b i d.
Proof.
  unfold define_id. destruct (_ && negb _)%bool; [reflexivity|].
  apply bind_ext; [apply ext_expand|]. intros [s1 v] _. cbn [fst snd].
  destruct (match v with Some (TmKw KContext) => true | _ => false end); [reflexivity|].
  destruct (match v with Some (TmId p) => negb (id_valid p) | _ => false end); [reflexivity|].
  apply bind_ext; [|reflexivity]. destruct (_ || _)%bool; [|reflexivity].
  apply bind_ext; [apply ext_expand|reflexivity].
Qed.
Lemma ext_no_id s0 k o : define_no_id io r s0 m k rs o = define_no_id io r' s0 m' k rs o.
Proof.
  unfold define_no_id. destruct (compact_iri_of io k) as [[p x]|]; [|reflexivity]. rewrite Hdef. reflexivity.
Qed.
Lemma simple_irrelevant s0 k o q q' i d : (negb (contains_char ":" k) && negb (contains_char "/" k))%bool = false ->
  define_id io r s0 m k rs o q i d = define_id io r s0 m k rs o q' i d.
Proof. intros H. unfold define_id. rewrite H. reflexivity. Qed.

Lemma ext_mapping s0 k o v v' d : alike k v v' ->
  define_mapping io r s0 m k rs o (simple_term v) (expanded_of v') d =
  define_mapping io r' s0 m' k rs o (simple_term v') (expanded_of v') d.
Proof.
  intros HA. apply alike_id in HA. unfold define_mapping. rewrite ext_no_id.
  destruct (te_id (expanded_of v')) as [[|i]|] eqn:E; [reflexivity| |reflexivity].
  destruct HA as [->|[H|H]]; [rewrite ext_id; reflexivity| |exfalso; eapply H; reflexivity].
  rewrite (simple_irrelevant s0 k o _ (simple_term v') i d H), ext_id. reflexivity.
Qed.

Lemma ext_normal s0 k b p o v v' : m_get m (KKey k) = Some (EvDef v) -> alike k v v' ->
  define_normal io r s0 m k rs b p o v = define_normal io r' s0 m' k rs b p o v'.
Proof.
  intros M HA. destruct HA as [E HA']. assert (HA : alike k v v') by (split; assumption). clear HA'.
  unfold define_normal. cbn [fst snd]. rewrite E. apply bind_ext; [reflexivity|]. intros d _.
  apply bind_ext; [apply ext_type|]. intros [s1 d1] _.
  destruct (te_reverse (expanded_of v')); [apply ext_reverse|].
  apply bind_ext; [apply ext_mapping, HA|]. intros [s2 d2] _. destruct d2 as [d2|]; [|reflexivity].
  apply bind_ext; [|reflexivity]. unfold define_rest.
  apply bind_ext; [reflexivity|]. intros d3 _. apply bind_ext; [reflexivity|]. intros d4 _.
  apply bind_ext; [|reflexivity]. unfold define_context. destruct (te_context (expanded_of v')) as [lc|] eqn:C; [|reflexivity].
  destruct (is_10 o); [reflexivity|]. erewrite Hproc; [reflexivity|exact M|rewrite E; exact C].
Qed.

Lemma ext_define s0 k b p o : (forall x, k = KKeyword x -> x = KType) ->
  define_body io r s0 m k rs b p o = define_body io r' s0 m' k rs b p o.
Proof.
  intros HK. unfold define_body. destruct (dget k (snd s0)) as [[]|]; try reflexivity.
  destruct (match k with KKey s => streq s "" | KKeyword _ => false end); [reflexivity|].
  destruct k as [k|k].
  2:{ rewrite (HK k eq_refl), <- Htype. destruct (m_get m (KKeyword KType)) as [[]|]; reflexivity. }
  pose proof (Hget k) as G. destruct (m_get m (KKey k)) as [[t|v|]|] eqn:M; inversion G; subst; try reflexivity.
  - apply bind_ext; [|reflexivity]. apply ext_normal; [exact M|]. split; [reflexivity|left; reflexivity].
  - apply bind_ext; [|reflexivity]. apply ext_normal; assumption.
Qed.
End Ext.

(** ** Merged definitions with the same entries are processed alike *)

Lemma ext_engine io ld m m' rs n :
  (forall k, same_entry k (m_get m (KKey k)) (m_get m' (KKey k))) ->
  m_get m (KKeyword KType) = m_get m' (KKeyword KType) ->
  forall s k b p o, (forall x, k = KKeyword x -> x = KType) ->
  e_define (engine io ld n) s m k rs b p o = e_define (engine io ld n) s m' k rs b p o.
Proof.
  intros Hg Ht. induction n as [|n IH]; intros s k b p o HK; [reflexivity|].
  cbn [engine e_define]. apply ext_define; auto. intros. apply IH. discriminate.
Qed.

Lemma ext_merged io ld n c m m' rs b o :
  m_field cd_base m = m_field cd_base m' -> m_field cd_vocab m = m_field cd_vocab m' ->
  m_field cd_language m = m_field cd_language m' -> m_field cd_direction m = m_field cd_direction m' ->
  m_field cd_protected m = m_field cd_protected m' -> m_field cd_type m = m_field cd_type m' ->
  (forall k, same_entry k (m_get m (KKey k)) (m_get m' (KKey k))) -> m_keys m = m_keys m' ->
  process_merged io (engine io ld n) c m rs b o = process_merged io (engine io ld n) c m' rs b o.
Proof.
  intros H1 H2 H3 H4 H5 H6 H7 H8.
  assert (m_get m (KKeyword KType) = m_get m' (KKeyword KType)) as Ht.
  { unfold m_get, m_field, or_else, def_get in *.
    destruct (cd_type (m_base m)), (m_imported m) as [i|], (cd_type (m_base m')), (m_imported m') as [i'|]; cbn;
      try destruct (cd_type i); try destruct (cd_type i'); cbn; congruence. }
  unfold process_merged, process_base, process_vocab, process_language, process_direction.
  rewrite H1, H2, H3, H4. apply bind_ext; [reflexivity|]. intros c1 _.
  apply bind_ext; [reflexivity|]. intros c2 _. apply bind_ext; [reflexivity|]. intros c3 _.
  unfold define_all. rewrite H5, H6, H8. apply bind_ext.
  - destruct (m_field cd_type m'); [|reflexivity]. apply ext_engine; auto. intros x E. congruence.
  - intros s1 _. apply bind_ext; [|reflexivity]. revert s1. generalize (m_keys m') as ks.
    induction ks as [|k ks IH]; intros s; cbn [define_keys]; [reflexivity|].
    apply bind_ext; [apply ext_engine; auto; discriminate|]. intros; apply IH.
Qed.

(** ** Loading *)

(** Two loaders that agree away from the URLs of the inclusion chain give the same result,
    provided there is no [@import]: the URLs of the chain are never loaded. *)
Lemma ext_loader io ld ld' n :
  (forall u lc, ld u = LdContext lc -> import_free lc) ->
  forall a lc rs b o, import_free lc -> (forall u, ps_cycle rs u = false -> ld u = ld' u) ->
  e_process (engine io ld n) a lc rs b o = e_process (engine io ld' n) a lc rs b o.
Proof.
  intros HL.
  enough (H : (forall a lc rs b o, import_free lc -> (forall u, ps_cycle rs u = false -> ld u = ld' u) ->
               e_process (engine io ld n) a lc rs b o = e_process (engine io ld' n) a lc rs b o) /\
              (forall s d k rs b p o, (forall lc, scoped lc d -> import_free lc) ->
               (forall u, ps_cycle rs u = false -> ld u = ld' u) -> (forall x, k = KKeyword x -> x = KType) ->
               e_define (engine io ld n) s (MkMerged d None) k rs b p o = e_define (engine io ld' n) s (MkMerged d None) k rs b p o))
    by apply H.
  induction n as [|n [IHp IHd]]; [split; reflexivity|]. split.
  - intros a lc rs b o HI Hrs. cbn [engine e_process]. unfold process_body.
    apply bind_ext; [reflexivity|]. intros o' _.
    match goal with |- process_entries _ _ _ _ _ ?c _ _ _ = _ => generalize c as c1 end.
    assert (HE : forall d, In (CEDef d) (entries_of lc) -> cd_import d = None /\ forall lc', scoped lc' d -> import_free lc').
    { intros d Hd. split; [apply HI; constructor; exact Hd|]. intros lc' HS. eapply import_free_scoped; eassumption. }
    revert HE rs Hrs. induction (entries_of lc) as [|e es IHes]; intros HE rs Hrs c1; cbn [process_entries]; [reflexivity|].
    apply bind_ext.
    + destruct e as [|i|d]; [reflexivity| |].
      * unfold process_iri. destruct (resolve_iri io i b) as [u|]; [|reflexivity].
        destruct (ps_push rs u) as [[] rs2] eqn:P; [|reflexivity].
        destruct (push_cycle _ _ _ P) as [Q1 Q2]. rewrite <- (Hrs u Q1).
        destruct (ld u) as [| |lc'] eqn:Lu; try reflexivity.
        apply bind_ext; [|reflexivity]. apply IHp; [apply (HL u), Lu|].
        intros v Hv. apply Hrs. rewrite Q2 in Hv. destruct (streq u v); [discriminate|exact Hv].
      * destruct (HE d (or_introl eq_refl)) as [Hi Hs]. apply bind_ext; [|reflexivity].
        unfold process_def, import_of. rewrite Hi. cbn [bind].
        destruct (match cd_version d with Some _ => _ | None => _ end); [reflexivity|].
        unfold process_merged. apply bind_ext; [reflexivity|]. intros c2 _.
        apply bind_ext; [reflexivity|]. intros c3 _. apply bind_ext; [reflexivity|]. intros c4 _.
        unfold define_all. apply bind_ext.
        -- destruct (m_field cd_type _); [|reflexivity]. apply IHd; auto. intros x E; congruence.
        -- intros s1 _. apply bind_ext; [|reflexivity].
           revert s1. generalize (m_keys (MkMerged d None)) as ks.
           induction ks as [|k ks IHk]; intros s; cbn [define_keys]; [reflexivity|].
           apply bind_ext; [apply IHd; auto; discriminate|]. intros; apply IHk.
    + intros [c2 rs2] E. apply IHes; [intros; apply HE; right; assumption|].
      destruct e as [|i|d].
      * apply bind_ok in E. destruct E as (? & _ & E). injection E as _ <-. exact Hrs.
      * unfold process_iri in E. destruct (resolve_iri io i b) as [u|]; [|discriminate].
        destruct (ps_push rs u) as [[] rs3] eqn:P.
        -- destruct (push_cycle _ _ _ P) as [Q1 Q2].
           destruct (ld u); try discriminate. apply bind_ok in E. destruct E as (? & _ & E). injection E as _ <-.
           intros v Hv. apply Hrs. rewrite Q2 in Hv. destruct (streq u v); [discriminate|exact Hv].
        -- injection E as _ <-. unfold ps_push in P. destruct (ps_cycle rs u); [injection P as <-; exact Hrs|discriminate].
      * apply bind_ok in E. destruct E as (? & _ & E). injection E as _ <-. exact Hrs.
  - intros s d k rs b p o HS Hrs HK. cbn [engine e_define]. apply ext_define; auto using se_refl.
    + intros. apply IHd; auto. discriminate.
    + intros k1 v lc a b1 o1 M C. apply IHp; [|exact Hrs]. destruct (m_get_scoped _ _ _ _ M C) as [HS'|(i & Mi & _)]; [auto|discriminate].
Qed.

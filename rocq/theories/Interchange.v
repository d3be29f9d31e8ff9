(** Active contexts that answer alike: used for C97. *)
From Verif Require Import Prelude Str Keyword Enums LangTag Container Stack ContextSyntax Ctx Process ProcessRel Json LangString Object Expand.

(** ** Specification *)

(** Two active contexts with the same settings, the same definition for every term, each defined once, and previous
    contexts of the same kind: the order of the definitions, at every depth, is all that may differ. *)
Inductive answers_alike : actx -> actx -> Prop :=
| AnswersAlike c c' : ac_orig c = ac_orig c' -> ac_base c = ac_base c' -> ac_vocab c = ac_vocab c' -> ac_lang c = ac_lang c' ->
    ac_dir c = ac_dir c' -> ac_type c = ac_type c' -> NoDup (map fst (ac_defs c)) -> NoDup (map fst (ac_defs c')) ->
    (forall k, get_normal c k = get_normal c' k) -> prev_alike (ac_prev c) (ac_prev c') -> answers_alike c c'
with prev_alike : option actx -> option actx -> Prop :=
| PrevNone : prev_alike None None
| PrevSome p p' : answers_alike p p' -> prev_alike (Some p) (Some p').

(** Both fail with the same error, or both succeed with related results. *)
Inductive outcomes {A B E} (R : A -> B -> Prop) : result A E -> result B E -> Prop :=
| OutOk a b : R a b -> outcomes R (Ok a) (Ok b)
| OutErr e : outcomes R (Err e) (Err e).

(** ** Proof *)
Lemma outcomes_bind {A B C D E} (R : A -> B -> Prop) (S : C -> D -> Prop) (x : result A E) (y : result B E) f g :
  outcomes R x y -> (forall a b, R a b -> outcomes S (f a) (g b)) -> outcomes S (bind x f) (bind y g).
Proof. intros [a b H|e] K; cbn [bind]; [apply K, H|constructor]. Qed.
Lemma outcomes_bind_eq {A B C E} (R : A -> B -> Prop) (x : result A E) (y : result B E) (f : A -> result C E) g :
  outcomes R x y -> (forall a b, R a b -> f a = g b) -> bind x f = bind y g.
Proof. intros [a b H|e] K; cbn [bind]; [apply K, H|reflexivity]. Qed.
Lemma outcomes_same {A B C E} (S : B -> C -> Prop) (x : result A E) f g : (forall a, outcomes S (f a) (g a)) -> outcomes S (bind x f) (bind x g).
Proof. intros K. destruct x; cbn [bind]; [apply K|constructor]. Qed.
Lemma outcomes_map_err {A B E F} (R : A -> B -> Prop) (h : E -> F) x y : outcomes R x y -> outcomes R (map_err h x) (map_err h y).
Proof. intros [a b H|e]; constructor; exact H. Qed.

Section Alike.
Context {c c' : actx} (H : answers_alike c c').
Lemma al_base : ac_base c = ac_base c'. Proof. destruct H; assumption. Qed.
Lemma al_vocab : ac_vocab c = ac_vocab c'. Proof. destruct H; assumption. Qed.
Lemma al_orig : ac_orig c = ac_orig c'. Proof. destruct H; assumption. Qed.
Lemma al_lang : ac_lang c = ac_lang c'. Proof. destruct H; assumption. Qed.
Lemma al_dir : ac_dir c = ac_dir c'. Proof. destruct H; assumption. Qed.
Lemma al_type : ac_type c = ac_type c'. Proof. destruct H; assumption. Qed.
Lemma al_get k : get_normal c k = get_normal c' k. Proof. destruct H; auto. Qed.
Lemma al_prev : prev_alike (ac_prev c) (ac_prev c'). Proof. destruct H; assumption. Qed.
Lemma al_once : NoDup (map fst (ac_defs c)). Proof. destruct H; assumption. Qed.
Lemma al_once' : NoDup (map fst (ac_defs c')). Proof. destruct H; assumption. Qed.
End Alike.

Lemma mdel_once k (l : defs) : NoDup (map fst l) -> NoDup (map fst (mdel k l)).
Proof.
  unfold mdel. induction l as [|[x d] l IH]; cbn [filter map fst]; intros N; [constructor|]. inversion N as [|? ? I N']; subst.
  destruct (negb (streq k x)); cbn [map fst]; [|apply IH, N']. constructor; [|apply IH, N'].
  intros J. apply I. apply in_map_iff in J. destruct J as ([y e] & <- & J). apply filter_In in J. apply in_map_iff. exists (y, e). tauto.
Qed.
Lemma mset_once k d (l : defs) : NoDup (map fst l) -> NoDup (map fst (mset k d l)).
Proof.
  intros N. destruct d as [d|]; cbn [mset map fst]; [|apply mdel_once, N]. constructor; [|apply mdel_once, N].
  intros J. apply in_map_iff in J. destruct J as ([y e] & E & J). cbn [fst] in E. subst y. unfold mdel in J. apply filter_In in J. cbn [fst] in J.
  rewrite streq_refl in J. destruct J as [_ J]. discriminate J.
Qed.
Lemma prot_in c k d : In (k, d) (ac_defs c) -> NoDup (map fst (ac_defs c)) -> get_normal c k = Some d.
Proof.
  unfold get_normal. generalize (ac_defs c). intros l. induction l as [|[k' w] l IH]; cbn; [contradiction|]. intros [E|I] D.
  - injection E as -> ->. rewrite streq_refl. reflexivity.
  - inversion D as [|? ? N D']; subst. destruct (streq_spec k k') as [E|Q]; [subst; exfalso; apply N, (in_map fst _ _ I)|auto].
Qed.
Lemma get_in c k d : get_normal c k = Some d -> In (k, d) (ac_defs c).
Proof. unfold get_normal. induction (ac_defs c) as [|[k' w] l IH]; cbn; [discriminate|]. destruct (streq_spec k k') as [E|N]; [subst; intros [= <-]; left; reflexivity|right; auto]. Qed.
Lemma al_protected c c' : answers_alike c c' -> has_protected_items c = has_protected_items c'.
Proof.
  intros H. unfold has_protected_items. rewrite (al_type H). f_equal. apply eq_true_iff_eq. rewrite !existsb_exists.
  split; intros ([k d] & I & P).
  - exists (k, d). split; [|exact P]. apply get_in. rewrite <- (al_get H). apply prot_in; [exact I|exact (al_once H)].
  - exists (k, d). split; [|exact P]. apply get_in. rewrite (al_get H). apply prot_in; [exact I|exact (al_once' H)].
Qed.

Lemma al_set_normal c c' k d : answers_alike c c' -> answers_alike (set_normal c k d) (set_normal c' k d).
Proof.
  intros [? ? ? ? ? ? ? ? ? ? G ?]. constructor; auto; try (apply mset_once; assumption). intros x. rewrite !get_normal_set, G. reflexivity.
Qed.
Lemma al_set_type c c' t : answers_alike c c' -> answers_alike (set_type c t) (set_type c' t).
Proof. intros []. constructor; auto. Qed.
Lemma al_set_base c c' t : answers_alike c c' -> answers_alike (set_base_iri c t) (set_base_iri c' t).
Proof. intros []. constructor; auto. Qed.
Lemma al_set_vocab c c' t : answers_alike c c' -> answers_alike (set_vocabulary c t) (set_vocabulary c' t).
Proof. intros []. constructor; auto. Qed.
Lemma al_set_lang c c' t : answers_alike c c' -> answers_alike (set_default_language c t) (set_default_language c' t).
Proof. intros []. constructor; auto. Qed.
Lemma al_set_dir c c' t : answers_alike c c' -> answers_alike (set_default_direction c t) (set_default_direction c' t).
Proof. intros []. constructor; auto. Qed.
Lemma al_set_prev c c' p p' : answers_alike c c' -> answers_alike p p' -> answers_alike (set_previous c p) (set_previous c' p').
Proof. intros [] ?. constructor; auto. constructor. assumption. Qed.
Lemma al_new b : answers_alike (ctx_new b) (ctx_new b).
Proof. constructor; auto; constructor. Qed.

Lemma al_value c c' k : answers_alike c c' -> get_value c k = get_value c' k.
Proof. intros H. unfold get_value. rewrite (al_type H), (al_get H). reflexivity. Qed.
Lemma al_defined c c' s v : answers_alike c c' -> expand_defined c s v = expand_defined c' s v.
Proof. intros H. unfold expand_defined. rewrite (al_value _ _ _ H). reflexivity. Qed.
Lemma al_prefixed io c c' p x : answers_alike c c' -> expand_prefixed io c p x = expand_prefixed io c' p x.
Proof. intros H. unfold expand_prefixed. rewrite (al_get H). reflexivity. Qed.
Lemma al_tail io c c' s dr v : answers_alike c c' -> expand_tail io c s dr v = expand_tail io c' s dr v.
Proof. intros H. unfold expand_tail. rewrite (al_base H), (al_vocab H). reflexivity. Qed.
Lemma al_absolute io c c' s dr v : answers_alike c c' -> expand_absolute io c s dr v = expand_absolute io c' s dr v.
Proof. intros H. unfold expand_absolute. rewrite (al_tail _ _ _ _ _ _ H). reflexivity. Qed.
Lemma al_simple io c c' x dr v : answers_alike c c' -> expand_iri_simple io c x dr v = expand_iri_simple io c' x dr v.
Proof.
  intros H. unfold expand_iri_simple. destruct x as [|[k|s]]; try reflexivity. rewrite (al_defined _ _ _ _ H), (al_tail _ _ _ _ _ _ H), (al_absolute _ _ _ _ _ _ H).
  destruct (compact_iri_of io s) as [[p q]|]; [rewrite (al_prefixed _ _ _ _ _ H)|]; reflexivity.
Qed.

(** *** Context processing *)
Definition st_alike (s s' : st) : Prop := answers_alike (fst s) (fst s') /\ snd s = snd s'.
Definition stx_alike {X} (s s' : st * X) : Prop := st_alike (fst s) (fst s') /\ snd s = snd s'.

Section Define.
Variable io : iops.
Variable ld : loader.
Variable r : eng.
Hypothesis HP : forall c c' lc rs b o, answers_alike c c' -> outcomes answers_alike (e_process r c lc rs b o) (e_process r c' lc rs b o).
Hypothesis HD : forall s s' m k rs b p o, st_alike s s' -> outcomes st_alike (e_define r s m k rs b p o) (e_define r s' m k rs b p o).

Ltac okx := apply OutOk; split; [assumption|reflexivity].

Lemma il_expand s s' v dr vo m rs o : st_alike s s' ->
  outcomes stx_alike (expand_iri_with io r s v dr vo m rs o) (expand_iri_with io r s' v dr vo m rs o).
Proof.
  intros H. unfold expand_iri_with. destruct v as [|[k|x]]; try okx. destruct (is_keyword_like x); [okx|].
  eapply outcomes_bind; [apply HD, H|]. intros s1 s1' H1. rewrite (al_defined _ _ _ _ (proj1 H1)).
  destruct (expand_defined (fst s1') x vo); [okx|]. destruct (colon_inside x).
  - destruct (blank_ok io x); [okx|]. destruct (streq x "_:"); [okx|]. destruct (compact_iri_of io x) as [[p y]|].
    + eapply outcomes_bind; [apply HD, H1|]. intros s2 s2' H2. rewrite (al_prefixed _ _ _ _ _ (proj1 H2)), (al_absolute _ _ _ _ _ _ (proj1 H2)).
      destruct (expand_prefixed io (fst s2') p y); [okx|]. apply outcomes_same. intros a. okx.
    + rewrite (al_absolute _ _ _ _ _ _ (proj1 H1)). apply outcomes_same. intros a. okx.
  - rewrite (al_tail _ _ _ _ _ _ (proj1 H1)). apply outcomes_same. intros a. okx.
Qed.

Lemma il_type s s' m rs o e d : st_alike s s' -> outcomes stx_alike (define_type io r s m rs o e d) (define_type io r s' m rs o e d).
Proof.
  intros H. unfold define_type. destruct (te_type e); [|okx]. eapply outcomes_bind; [apply il_expand, H|]. intros [s1 t] [s1' t'] [H1 E]. cbn [fst snd] in *. subst t'.
  destruct t as [t|]; [|okx]. destruct (_ && _)%bool; [constructor|]. destruct (ty_of_term t); [okx|constructor].
Qed.
Lemma al_key s s' k d : st_alike s s' -> st_alike (set_normal (fst s) k d, snd s) (set_normal (fst s') k d, snd s').
Proof. intros [H E]. split; cbn [fst snd]; [apply al_set_normal, H|exact E]. Qed.
Lemma il_reverse s s' m k rs o e d rev : st_alike s s' ->
  outcomes stx_alike (define_reverse io r s m k rs o e d rev) (define_reverse io r s' m k rs o e d rev).
Proof.
  intros H. unfold define_reverse. destruct (_ || _)%bool; [constructor|]. destruct (is_keyword_like rev); [okx|].
  eapply outcomes_bind; [apply il_expand, H|]. intros [s1 t] [s1' t'] [H1 E]. cbn [fst snd] in *. subst t'.
  destruct t as [[|i|kw]|]; try (constructor; fail). destruct (id_valid i); [|constructor]. apply outcomes_same. intros d1. constructor. split; [apply al_key, H1|reflexivity].
Qed.
Lemma il_id s s' m k rs o b i d : st_alike s s' -> outcomes stx_alike (define_id io r s m k rs o b i d) (define_id io r s' m k rs o b i d).
Proof.
  intros H. unfold define_id. destruct (_ && _)%bool; [okx|]. eapply outcomes_bind; [apply il_expand, H|]. intros [s1 v] [s1' v'] [H1 E]. cbn [fst snd] in *. subst v'.
  destruct (match v with Some (TmKw KContext) => true | _ => false end); [constructor|].
  destruct (match v with Some (TmId p) => negb (id_valid p) | _ => false end); [constructor|].
  eapply (outcomes_bind st_alike).
  - destruct (_ || _)%bool; [|constructor; exact H1].
    assert (H1' : st_alike (fst s1, dend (KKey k) (snd s1)) (fst s1', dend (KKey k) (snd s1'))) by (destruct H1 as [? E]; split; cbn [fst snd]; [assumption|rewrite E; reflexivity]).
    eapply outcomes_bind; [apply il_expand, H1'|]. intros [s2 t] [s2' t'] [H2 E]. cbn [fst snd] in *. subst t'.
    destruct (opt_eqb term_eqb v t); constructor. exact H2.
  - intros s2 s2' H2. destruct (_ && b)%bool; [destruct v; [okx|constructor]|okx].
Qed.
Lemma al_own c c' k o : answers_alike c c' -> own_mapping io c k o = own_mapping io c' k o.
Proof. intros H. unfold own_mapping, default_mapping. rewrite (al_simple _ _ _ _ _ _ H), (al_vocab H). reflexivity. Qed.
Lemma il_no_id s s' m k rs o : st_alike s s' -> outcomes stx_alike (define_no_id io r s m k rs o) (define_no_id io r s' m k rs o).
Proof.
  intros H. unfold define_no_id. destruct (compact_iri_of io k) as [[p x]|].
  - eapply outcomes_bind; [apply HD, H|]. intros s1 s1' H1. rewrite (al_value _ _ _ (proj1 H1)), (al_own _ _ _ _ (proj1 H1)).
    destruct (get_value (fst s1') p) as [v|].
    + destruct (iri_ok io _); [okx|constructor].
    + apply outcomes_same. intros t. okx.
  - rewrite (al_own _ _ _ _ (proj1 H)). apply outcomes_same. intros t. okx.
Qed.
Lemma il_mapping s s' m k rs o b e d : st_alike s s' -> outcomes stx_alike (define_mapping io r s m k rs o b e d) (define_mapping io r s' m k rs o b e d).
Proof.
  intros H. unfold define_mapping.
  assert (N : outcomes (@stx_alike (option ndef)) (do (s1, t) <- define_no_id io r s m k rs o ; Ok (s1, Some (nd_set_value d (Some t))))
                (do (s1, t) <- define_no_id io r s' m k rs o ; Ok (s1, Some (nd_set_value d (Some t))))).
  { eapply outcomes_bind; [apply il_no_id, H|]. intros [s1 t] [s1' t'] [H1 E]. cbn [fst snd] in *. subst t'. okx. }
  destruct (te_id e) as [i|]; [|exact N]. destruct (id_differs i k); [|exact N]. destruct i; [okx|apply il_id, H].
Qed.
Lemma il_rest s s' k rs b o e prev d : st_alike s s' -> outcomes st_alike (define_rest io r s k rs b o e prev d) (define_rest io r s' k rs b o e prev d).
Proof.
  intros H. unfold define_rest. apply outcomes_same. intros d1. 
  assert (X : define_index io (fst s) o e d1 = define_index io (fst s') o e d1) by (unfold define_index; destruct (te_index e); [rewrite (al_simple _ _ _ _ _ _ (proj1 H))|]; reflexivity).
  rewrite X. apply outcomes_same. intros d2.
  assert (C : define_context r (fst s) rs b o e d2 = define_context r (fst s') rs b o e d2).
  { unfold define_context. destruct (te_context e) as [lc|]; [|reflexivity]. destruct (is_10 o); [reflexivity|].
    destruct (HP _ _ lc rs b (with_override o) (proj1 H)) as [a a' A|x]; reflexivity. }
  rewrite C. do 5 (apply outcomes_same; intros ?). constructor. apply al_key, H.
Qed.
Lemma il_normal s s' m k rs b p o v : st_alike s s' -> outcomes stx_alike (define_normal io r s m k rs b p o v) (define_normal io r s' m k rs b p o v).
Proof.
  intros H. unfold define_normal. rewrite (al_get (proj1 H)). apply outcomes_same. intros d.
  eapply outcomes_bind; [apply il_type, al_key, H|]. intros [s1 d1] [s1' d1'] [H1 E]. cbn [fst snd] in *. subst d1'.
  destruct (te_reverse _) as [rev|]; [apply il_reverse, H1|].
  eapply outcomes_bind; [apply il_mapping, H1|]. intros [s2 d2] [s2' d2'] [H2 E]. cbn [fst snd] in *. subst d2'.
  destruct d2 as [d2|]; [|okx]. eapply outcomes_bind; [apply il_rest, H2|]. intros s3 s3' H3. okx.
Qed.
Lemma il_define s s' m k rs b p o : st_alike s s' -> outcomes st_alike (define_body io r s m k rs b p o) (define_body io r s' m k rs b p o).
Proof.
  intros H. unfold define_body. rewrite <- (proj2 H). destruct (dget k (snd s)) as [[|]|]; [constructor|constructor; exact H|].
  destruct (match k with KKey x => streq x "" | KKeyword _ => false end); [constructor|].
  destruct (m_get m k) as [[t|v|]|].
  - unfold define_type_term. cbn [fst snd]. destruct (is_10 o); [constructor|]. cbn [bind]. rewrite (al_type (proj1 H)). constructor. split; cbn [fst snd]; [apply al_set_type, H|reflexivity].
  - destruct k as [x|]; [|constructor].
    assert (H0 : st_alike (fst s, (KKey x, true) :: snd s) (fst s', (KKey x, true) :: snd s)) by (split; [apply H|reflexivity]).
    eapply outcomes_bind; [apply il_normal, H0|]. intros [s1 e] [s1' e'] [H1 E]. cbn [fst snd] in *. subst e'. constructor.
    destruct e; [|exact H1]. destruct H1 as [H1 E]. split; cbn [fst snd]; [exact H1|rewrite E; reflexivity].
  - constructor.
  - constructor. split; [apply H|reflexivity].
Qed.

Lemma il_keys ks : forall s s' m rs b p o, st_alike s s' -> outcomes st_alike (define_keys r ks s m rs b p o) (define_keys r ks s' m rs b p o).
Proof. induction ks as [|k ks IH]; cbn [define_keys]; intros; [constructor; assumption|]. eapply outcomes_bind; [apply HD; eassumption|]. intros. apply IH. assumption. Qed.
Lemma il_all c c' m rs b o : answers_alike c c' -> outcomes answers_alike (define_all r c m rs b o) (define_all r c' m rs b o).
Proof.
  intros H. unfold define_all. assert (H0 : st_alike (c, []) (c', [])) by (split; [exact H|reflexivity]).
  eapply (outcomes_bind st_alike).
  - destruct (m_field cd_type m); [apply HD, H0|constructor; exact H0].
  - intros s1 s1' H1. eapply outcomes_bind; [apply il_keys, H1|]. intros s2 s2' H2. constructor. apply H2.
Qed.
Lemma il_merged c c' m rs b o : answers_alike c c' -> outcomes answers_alike (process_merged io r c m rs b o) (process_merged io r c' m rs b o).
Proof.
  intros H. unfold process_merged. eapply (outcomes_bind answers_alike).
  { unfold process_base. rewrite (al_base H). destruct (ps_is_empty rs); [|constructor; exact H]. destruct (m_field cd_base m) as [[|i]|]; [constructor; apply al_set_base, H| |constructor; exact H].
    destruct (iri_ok io i); [constructor; apply al_set_base, H|]. destruct (resolve_iri io i (ac_base c')); constructor. apply al_set_base, H. }
  clear c c' H. intros c c' H. eapply (outcomes_bind answers_alike).
  { unfold process_vocab. destruct (m_field cd_vocab m) as [[|v]|]; [constructor; apply al_set_vocab, H| |constructor; exact H]. rewrite (al_simple _ _ _ _ _ _ H).
    apply outcomes_same. intros [[|i|kw]|]; constructor. apply al_set_vocab, H. }
  clear c c' H. intros c c' H. eapply (outcomes_bind answers_alike).
  { assert (H' : answers_alike (Process.process_language c m) (Process.process_language c' m)) by (unfold Process.process_language; destruct (m_field cd_language m); [apply al_set_lang|]; exact H).
    unfold Process.process_direction. destruct (m_field cd_direction m); [|constructor; exact H']. destruct (is_10 o); constructor. apply al_set_dir, H'. }
  clear c c' H. intros c c' H. apply il_all, H.
Qed.
Definition ps_alike (s s' : actx * pstack) : Prop := answers_alike (fst s) (fst s') /\ snd s = snd s'.
Lemma il_entries es : forall a a' c c' rs b o, answers_alike a a' -> answers_alike c c' ->
  outcomes answers_alike (process_entries io ld r es a c rs b o) (process_entries io ld r es a' c' rs b o).
Proof.
  induction es as [|e es IH]; cbn [process_entries]; intros a a' c c' rs b o HA H; [constructor; exact H|].
  eapply (outcomes_bind ps_alike).
  - destruct e as [|i|d].
    + eapply (outcomes_bind answers_alike); [|intros x x' X; constructor; split; [exact X|reflexivity]].
      unfold process_null. rewrite (al_protected _ _ H), (al_orig HA). destruct (_ && _)%bool; constructor.
      destruct (po_propagate o); [apply al_new|apply al_set_prev; [apply al_new|exact H]].
    + unfold process_iri. destruct (resolve_iri io i b) as [u|]; [|constructor]. destruct (ps_push rs u) as [pushed rs1].
      destruct pushed; [|constructor; split; [exact H|reflexivity]]. destruct (ld u); try constructor.
      eapply outcomes_bind; [apply HP, H|]. intros x x' X. constructor. split; [exact X|reflexivity].
    + eapply (outcomes_bind answers_alike); [|intros x x' X; constructor; split; [exact X|reflexivity]].
      unfold process_def. destruct (match cd_version d with Some _ => is_10 o | None => false end); [constructor|]. apply outcomes_same. intros im. apply il_merged, H.
  - intros [x y] [x' y'] [X E]. cbn [fst snd] in *. subst y'. apply IH; assumption.
Qed.
Lemma il_process c c' lc rs b o : answers_alike c c' -> outcomes answers_alike (process_body io ld r c lc rs b o) (process_body io ld r c' lc rs b o).
Proof.
  intros H. unfold process_body. apply outcomes_same. intros o'. apply il_entries; [exact H|].
  pose proof (al_prev H) as P. inversion P; (destruct (negb (po_propagate o')); cbn [andb]; [|exact H]); [apply al_set_prev|]; exact H.
Qed.
End Define.

Lemma engine_alike io ld n : (forall c c' lc rs b o, answers_alike c c' -> outcomes answers_alike (e_process (engine io ld n) c lc rs b o) (e_process (engine io ld n) c' lc rs b o)) /\
  (forall s s' m k rs b p o, st_alike s s' -> outcomes st_alike (e_define (engine io ld n) s m k rs b p o) (e_define (engine io ld n) s' m k rs b p o)).
Proof.
  induction n as [|n [IP ID]]; cbn [engine e_process e_define]; split; intros; try constructor.
  - apply il_process; assumption.
  - apply il_define; assumption.
Qed.
Theorem process_alike io ld n c c' lc b o : answers_alike c c' -> outcomes answers_alike (process_full io ld n c lc b o) (process_full io ld n c' lc b o).
Proof. apply engine_alike. Qed.

(** *** Expansion *)
Lemma flat_ext {A B E} (f g : A -> result (list B) E) l : (forall x, f x = g x) -> flat_r f l = flat_r g l.
Proof. intros H. induction l as [|x l IH]; cbn [flat_r]; [reflexivity|]. rewrite H, IH. reflexivity. Qed.
Lemma fold_ext {A B E} (f g : A -> B -> result A E) l : (forall a x, f a x = g a x) -> forall a, fold_r f a l = fold_r g a l.
Proof. intros H. induction l as [|x l IH]; cbn [fold_r]; intros a; [reflexivity|]. rewrite H. destruct (g a x); cbn [bind]; [apply IH|reflexivity]. Qed.
Lemma fold_outcomes {A B C E} (R : A -> B -> Prop) (f : A -> C -> result A E) (g : B -> C -> result B E) l :
  (forall a b x, R a b -> outcomes R (f a x) (g b x)) -> forall a b, R a b -> outcomes R (fold_r f a l) (fold_r g b l).
Proof. intros H. induction l as [|x l IH]; cbn [fold_r]; intros a b K; [constructor; exact K|]. eapply outcomes_bind; [apply H, K|exact IH]. Qed.
Lemma bind_same {A B E} (x : result A E) (f g : A -> result B E) : (forall a, f a = g a) -> bind x f = bind x g.
Proof. intros H. destruct x; cbn [bind]; [apply H|reflexivity]. Qed.

Section Expansion.
Variable io : iops.
Variable ld : loader.
Variables (fin rnd : list word -> N).
Variable pf : nat.
Variable o : xopts.
Variable bu : option string.

Lemma ix_iri c c' s dr v : answers_alike c c' -> xiri io c s dr v = xiri io c' s dr v.
Proof. intros H. unfold xiri. rewrite (al_simple _ _ _ _ _ _ H). reflexivity. Qed.
Lemma ix_key c c' k : answers_alike c c' -> xkey io o c k = xkey io o c' k.
Proof. intros H. unfold xkey. rewrite (ix_iri _ _ _ _ _ H). reflexivity. Qed.
Lemma ix_def c c' ap : answers_alike c c' -> prop_def c ap = prop_def c' ap.
Proof. intros H. unfold prop_def. destruct ap; [rewrite (al_get H)|]; reflexivity. Qed.
Lemma ix_process c c' lc u po : answers_alike c c' -> outcomes answers_alike (xprocess io ld pf c lc u po) (xprocess io ld pf c' lc u po).
Proof. intros H. apply outcomes_map_err, process_alike, H. Qed.
Lemma ix_scoped c c' (d : option ndef) po : answers_alike c c' ->
  outcomes answers_alike
    (match d with Some d => match nd_context d with Some lc => xprocess io ld pf c lc (nd_base_url d) po | None => Ok c end | None => Ok c end)
    (match d with Some d => match nd_context d with Some lc => xprocess io ld pf c' lc (nd_base_url d) po | None => Ok c' end | None => Ok c' end).
Proof. intros H. destruct d as [d|]; [|constructor; exact H]. destruct (nd_context d); [apply ix_process, H|constructor; exact H]. Qed.
Lemma ix_dir c c' d : answers_alike c c' -> dir_for c d = dir_for c' d.
Proof. intros H. unfold dir_for. rewrite (al_dir H). reflexivity. Qed.
Lemma ix_lang c c' d : answers_alike c c' -> lang_for c d = lang_for c' d.
Proof. intros H. unfold lang_for. rewrite (al_lang H). reflexivity. Qed.
Lemma ix_literal c c' ap v : answers_alike c c' -> expand_literal io o c ap v = expand_literal io o c' ap v.
Proof.
  intros H. unfold expand_literal. rewrite (ix_def _ _ _ H). destruct v; rewrite ?(ix_iri _ _ _ _ _ H), ?(ix_dir _ _ _ H), ?(ix_lang _ _ _ H); reflexivity.
Qed.
Lemma ix_value it c c' es v : answers_alike c c' -> expand_value io o it c es v = expand_value io o it c' es v.
Proof.
  intros H. unfold expand_value. rewrite (fold_ext _ (value_step io o c')); [reflexivity|]. intros s [[k t] x]. unfold value_step.
  destruct t as [| |[]]; try reflexivity. destruct (as_str x); [rewrite (ix_iri _ _ _ _ _ H)|]; reflexivity.
Qed.

Section Rec.
Variable rec : actx -> option string -> json -> bool -> result expanded xerr.
Hypothesis HR : forall c c' ap j b, answers_alike c c' -> rec c ap j b = rec c' ap j b.

Lemma ix_types c c' v n : answers_alike c c' -> expand_types io o c v n = expand_types io o c' v n.
Proof. intros H. unfold expand_types. apply fold_ext. intros a x. destruct (as_str x); [rewrite (ix_iri _ _ _ _ _ H)|]; reflexivity. Qed.
Lemma ix_reverse c c' n e : answers_alike c c' -> reverse_entry io o rec c n e = reverse_entry io o rec c' n e.
Proof. intros H. destruct e as [k v]. unfold reverse_entry. rewrite (ix_key _ _ _ H), (ix_def _ _ _ H), (HR _ _ _ _ _ H). reflexivity. Qed.
Lemma ix_language_map c c' d m : answers_alike c c' -> expand_language_map io o c d m = expand_language_map io o c' d m.
Proof.
  intros H. unfold expand_language_map. rewrite (ix_dir _ _ _ H). apply flat_ext. intros e. apply flat_ext. intros []; try reflexivity. rewrite (ix_key _ _ _ H). reflexivity.
Qed.
Lemma ix_index_item c c' cont ik i x item : answers_alike c c' -> index_item io fin rnd o c cont ik i x item = index_item io fin rnd o c' cont ik i x item.
Proof.
  intros H. unfold index_item. rewrite (ix_key _ _ _ H), (ix_literal _ _ _ _ H), (ix_iri _ _ _ _ _ H). reflexivity.
Qed.
Lemma ix_index_map c c' d key m : answers_alike c c' ->
  expand_index_map io ld fin rnd pf o rec c d key m = expand_index_map io ld fin rnd pf o rec c' d key m.
Proof.
  intros H. unfold expand_index_map. apply flat_ext. intros [i v].
  set (mc := if (has_container d CKType || has_container d CKId)%bool then match ac_prev c with Some p => p | None => c end else c).
  set (mc' := if (has_container d CKType || has_container d CKId)%bool then match ac_prev c' with Some p => p | None => c' end else c').
  assert (M : answers_alike mc mc').
  { unfold mc, mc'. destruct (_ || _)%bool; [|exact H]. destruct (al_prev H); assumption. }
  clearbody mc mc'. cbv zeta. eapply (outcomes_bind_eq answers_alike).
  - destruct (has_container d CKType); [|constructor; exact M]. rewrite (ix_def _ _ _ M). apply ix_scoped, M.
  - intros a b K. rewrite (ix_key _ _ _ H). apply bind_same. intros x. rewrite (HR _ _ _ _ _ K). apply bind_same. intros ev.
    apply flat_ext. intros item. rewrite (ix_index_item _ _ _ _ _ _ _ H). reflexivity.
Qed.
Lemma ix_property c c' key v : answers_alike c c' ->
  expand_property io ld fin rnd pf o rec c key v = expand_property io ld fin rnd pf o rec c' key v.
Proof.
  intros H. unfold expand_property. rewrite (ix_def _ _ _ H), (HR _ _ _ _ _ H). destruct v; try reflexivity.
  rewrite (ix_language_map _ _ _ _ H), (ix_index_map _ _ _ _ _ H). reflexivity.
Qed.
Lemma ix_property_entry c c' key p v n : answers_alike c c' ->
  property_entry io ld fin rnd pf o rec c key p v n = property_entry io ld fin rnd pf o rec c' key p v n.
Proof. intros H. unfold property_entry. rewrite (ix_property _ _ _ _ H), (ix_def _ _ _ H). reflexivity. Qed.

Lemma ix_node_entries m ap : forall c c' tsc tsc' es s, answers_alike c c' -> answers_alike tsc tsc' ->
  node_entries io ld fin rnd pf o rec m ap tsc c es s = node_entries io ld fin rnd pf o rec m ap tsc' c' es s.
Proof.
  induction m as [|m IH]; cbn [node_entries]; intros c c' tsc tsc' es s H T; [reflexivity|]. apply fold_ext. clear s. intros s [[key t] v]. unfold node_entry.
  destruct t as [|p|k]; [reflexivity|rewrite (ix_property_entry _ _ _ _ _ _ H); reflexivity|].
  assert (K : keyword_entry io ld fin rnd pf o rec (node_entries io ld fin rnd pf o rec m ap tsc) ap c tsc s key k v
            = keyword_entry io ld fin rnd pf o rec (node_entries io ld fin rnd pf o rec m ap tsc') ap c' tsc' s key k v); [|rewrite K; reflexivity].
  unfold keyword_entry. destruct (ap_is ap KReverse); [reflexivity|]. destruct (_ && _)%bool; [reflexivity|].
  destruct k; try reflexivity.
  all: try (rewrite (HR _ _ _ _ _ H); reflexivity).
  all: try (destruct (as_str v); [rewrite (ix_iri _ _ _ _ _ H)|]; reflexivity).
  all: try (rewrite (ix_types _ _ _ _ T); reflexivity).
  - apply fold_ext. clear s. intros s w. unfold nest_entry. rewrite (ix_def _ _ _ H). eapply (outcomes_bind_eq answers_alike); [apply ix_scoped, H|].
    intros a b Q. destruct w; try reflexivity. rewrite (flat_ext _ (fun e => do t <- xkey io o b (fst e) ; Ok (match t with Some t => [(fst e, t, snd e)] | None => [] end))).
    + apply bind_same. intros es'. apply IH; assumption.
    + intros e. rewrite (ix_key _ _ _ Q). reflexivity.
  - destruct v; try reflexivity. rewrite (fold_ext _ (reverse_entry io o rec c')); [reflexivity|]. intros. apply ix_reverse, H.
Qed.
Lemma ix_node m ap c c' tsc tsc' es : answers_alike c c' -> answers_alike tsc tsc' ->
  expand_node io ld fin rnd pf o rec m ap c tsc es = expand_node io ld fin rnd pf o rec m ap c' tsc' es.
Proof. intros H T. unfold expand_node. rewrite (ix_node_entries _ _ _ _ _ _ _ _ H T). reflexivity. Qed.

Lemma ix_context c c' ap m b : answers_alike c c' ->
  outcomes answers_alike (element_context io ld pf o bu c ap m b) (element_context io ld pf o bu c' ap m b).
Proof.
  intros H. unfold element_context. rewrite (ix_def _ _ _ H).
  assert (P : preliminary io o c m = preliminary io o c' m) by (apply fold_ext; intros; rewrite (ix_key _ _ _ H); reflexivity).
  rewrite P. apply outcomes_same. intros [hv hi]. eapply (outcomes_bind answers_alike).
  - apply ix_scoped. destruct (al_prev H) as [|p p' Q]; [exact H|]. destruct (_ && _)%bool; assumption.
  - intros a a' A. apply outcomes_same. intros [lc|]; [|constructor; exact A]. apply outcomes_same. intros lc'. apply ix_process, A.
Qed.
Lemma ix_map f c c' ap m b : answers_alike c c' ->
  expand_map io ld fin rnd pf o bu rec f c ap m b = expand_map io ld fin rnd pf o bu rec f c' ap m b.
Proof.
  intros H. unfold expand_map. eapply outcomes_bind_eq; [apply ix_context, H|]. intros tsc tsc' T.
  assert (X : type_entries io o tsc m = type_entries io o tsc' m).
  { unfold type_entries. erewrite flat_ext; [reflexivity|]. intros e. cbn beta. rewrite (ix_key _ _ _ T). reflexivity. }
  rewrite X. apply bind_same. intros ts. eapply (outcomes_bind_eq answers_alike).
  - unfold type_scoped. apply fold_outcomes; [|exact T]. intros a a' e A. apply fold_outcomes; [|exact A]. clear a a' A. intros a a' t A. rewrite (ix_def _ _ _ T). apply ix_scoped, A.
  - intros x x' A.
    assert (I : input_type io o x ts = input_type io o x' ts).
    { unfold input_type. destruct ts as [|[k v] ts]; [reflexivity|]. destruct (rev (force_array v)) as [|[] l]; try reflexivity. apply ix_key, A. }
    rewrite I. apply bind_same. intros it.
    assert (G : expand_entries io o x m = expand_entries io o x' m) by (apply flat_ext; intros e; rewrite (ix_key _ _ _ A); reflexivity).
    rewrite G. apply bind_same. intros es. destruct (if (is_some ap && negb (ap_is ap KGraph))%bool then last_entry KList es else None) as [l|].
    + apply bind_same. intros i. erewrite flat_ext; [reflexivity|]. intros item. cbn beta. rewrite (HR _ _ _ _ _ A). reflexivity.
    + destruct (last_entry KSet es); [apply bind_same; intros; apply HR, A|]. destruct (last_entry KValue es); [rewrite (ix_value _ _ _ _ _ T)|rewrite (ix_node _ _ _ _ _ _ _ A T)]; reflexivity.
Qed.
Lemma ix_body f c c' ap j b : answers_alike c c' ->
  element_body io ld fin rnd pf o bu rec f c ap j b = element_body io ld fin rnd pf o bu rec f c' ap j b.
Proof.
  intros H. assert (S : expand_scalar io ld pf o c ap j = expand_scalar io ld pf o c' ap j).
  { unfold expand_scalar. destruct (free_floating ap); [reflexivity|]. rewrite (ix_def _ _ _ H). eapply (outcomes_bind_eq answers_alike); [apply ix_scoped, H|].
    intros a a' A. destruct (given j); [rewrite (ix_literal _ _ _ _ A)|]; reflexivity. }
  unfold element_body. destruct j as [| | | |l|m]; try reflexivity; try exact S; [|apply ix_map, H].
  rewrite (ix_def _ _ _ H). erewrite flat_ext; [reflexivity|]. intros item. cbn beta. rewrite (HR _ _ _ _ _ H). reflexivity.
Qed.
End Rec.

Lemma ix_element n : forall c c' ap j b, answers_alike c c' ->
  expand_element io ld fin rnd pf o bu n c ap j b = expand_element io ld fin rnd pf o bu n c' ap j b.
Proof. induction n as [|n IH]; intros c c' ap j b H; cbn [expand_element]; [reflexivity|]. apply ix_body; [exact IH|exact H]. Qed.
Theorem expand_alike n c c' doc : answers_alike c c' -> expand io ld fin rnd pf o bu n c doc = expand io ld fin rnd pf o bu n c' doc.
Proof. intros H. unfold expand. rewrite (ix_element _ _ _ _ _ _ H). reflexivity. Qed.
End Expansion.

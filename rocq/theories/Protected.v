(** Protected terms, undefined terms, null contexts. *)
From Verif Require Import Prelude Str Keyword Enums LangTag Container Stack ContextSyntax Ctx Process ProcessRel.

(** ** Equality of definitions *)

(** Language mappings: equal up to the case of ASCII letters. *)
Definition same_language (a b : option (nullable string)) : Prop :=
  match a, b with
  | Some (NSome x), Some (NSome y) => Forall2 same_letter (list_ascii_of_string x) (list_ascii_of_string y)
  | Some NNull, Some NNull => True
  | None, None => True
  | _, _ => False
  end.
(** Scoped contexts: equal for the equality of the syntax crate. *)
Definition same_context (a b : option lcontext) : Prop :=
  a = b \/ exists x y, a = Some x /\ b = Some y /\ lctx_eqb x y = true.

(** Two definitions that agree on everything but the protected flag. *)
Record same_definition (d d' : ndef) : Prop := {
  sd_value : nd_value d = nd_value d';
  sd_prefix : nd_prefix d = nd_prefix d';
  sd_reverse : nd_reverse d = nd_reverse d';
  sd_base : nd_base_url d = nd_base_url d';
  sd_context : same_context (nd_context d) (nd_context d');
  sd_container : nd_container d = nd_container d';
  sd_direction : nd_direction d = nd_direction d';
  sd_index : nd_index d = nd_index d';
  sd_language : same_language (nd_language d) (nd_language d');
  sd_nest : nd_nest d = nd_nest d';
  sd_typ : nd_typ d = nd_typ d'
}.

(** *** [lctx_eqb] is transitive *)
Ltac andb := repeat match goal with H : (_ && _)%bool = true |- _ => apply andb_prop in H; destruct H end.

Lemma opt_eqb_true {A} (e : A -> A -> bool) (H : forall x y, reflect (x = y) (e x y)) a b : opt_eqb e a b = true -> a = b.
Proof. intros E. destruct (opt_eqb_spec e H a b); congruence. Qed.

Definition trans_eqb {A} (e : A -> A -> bool) : Prop := forall x y z, e x y = true -> e y z = true -> e x z = true.
Lemma opt_eqb_trans {A} (e : A -> A -> bool) : trans_eqb e -> trans_eqb (opt_eqb e).
Proof. intros H [x|] [y|] [z|]; cbn; try discriminate; eauto. Qed.
Lemma nullable_eqb_trans {A} (e : A -> A -> bool) : trans_eqb e -> trans_eqb (nullable_eqb e).
Proof. intros H [|x] [|y] [|z]; cbn; try discriminate; eauto. Qed.
Lemma spec_trans {A} (e : A -> A -> bool) (H : forall x y, reflect (x = y) (e x y)) : trans_eqb e.
Proof. intros x y z. destruct (H x y); [subst; auto|discriminate]. Qed.
Lemma list_eqb_trans {A} (e : A -> A -> bool) : trans_eqb e -> trans_eqb (list_eqb e).
Proof.
  intros H x. induction x as [|a x IH]; intros [|b y] [|c z]; cbn; try discriminate; auto.
  intros H1 H2. andb. rewrite (H a b c), (IH y z); auto.
Qed.
Lemma lang_eqb_trans : trans_eqb lang_eqb.
Proof.
  intros x y z. unfold lang_eqb. apply ci_eq_trans.
Qed.
Lemma true_trans {A} : trans_eqb (fun _ _ : A => true).
Proof. intros x y z _ _. reflexivity. Qed.
Lemma bool_trans : trans_eqb Bool.eqb.
Proof. intros [] [] []; cbn; auto. Qed.
Lemma scontainer_trans : trans_eqb scontainer_eqb.
Proof.
  intros [x|x] [y|y] [z|z]; cbn; try discriminate.
  - apply (spec_trans _ ckind_eqb_spec).
  - apply (list_eqb_trans _ (spec_trans _ ckind_eqb_spec)).
Qed.
Lemma tid_trans : trans_eqb tid_eqb.
Proof.
  intros [x|x] [y|y] [z|z]; cbn; try discriminate.
  - apply (spec_trans _ keyword_eqb_spec).
  - apply (spec_trans _ streq_spec).
Qed.
Lemma ttype_trans : trans_eqb ttype_eqb.
Proof.
  intros [x|x] [y|y] [z|z]; cbn; try discriminate.
  - apply (spec_trans _ tkeyword_eqb_spec).
  - apply (spec_trans _ streq_spec).
Qed.

Lemma lctx_eqb_trans : trans_eqb lctx_eqb.
Proof.
  intros a. apply (lcontext_ind'
    (fun a => forall b c, lctx_eqb a b = true -> lctx_eqb b c = true -> lctx_eqb a c = true)
    (fun a => forall b c, centry_eqb a b = true -> centry_eqb b c = true -> centry_eqb a c = true)
    (fun a => forall b c, tdef_eqb a b = true -> tdef_eqb b c = true -> tdef_eqb a c = true)).
  - intros e IH [x|x] [y|y]; cbn; try discriminate. apply IH.
  - intros l IH [x|x] [y|y]; cbn; try discriminate.
    revert x y. induction IH as [|e l He Hl IHl]; intros [|x xs] [|y ys]; try discriminate; auto.
    intros H1 H2. andb. rewrite (He x y) by assumption. cbn. eapply IHl; eassumption.
  - intros [] []; cbn; try discriminate; auto.
  - intros s [] []; cbn; try discriminate. apply (spec_trans _ streq_spec).
  - intros d IH [| |x] [| |y]; cbn; try discriminate. intros H1 H2. andb.
    repeat (apply andb_true_intro; split).
    + eapply (opt_eqb_trans _ (nullable_eqb_trans _ (spec_trans _ streq_spec))); eassumption.
    + eapply (opt_eqb_trans _ (spec_trans _ streq_spec)); eassumption.
    + eapply (opt_eqb_trans _ (nullable_eqb_trans _ lang_eqb_trans)); eassumption.
    + eapply (opt_eqb_trans _ (nullable_eqb_trans _ (spec_trans _ direction_eqb_spec))); eassumption.
    + eapply (opt_eqb_trans _ bool_trans); eassumption.
    + eapply (opt_eqb_trans _ bool_trans); eassumption.
    + match goal with |- opt_eqb ?f _ _ = true => assert (trans_eqb f) as T end.
      { intros u v w. apply (opt_eqb_trans _ bool_trans). }
      eapply (opt_eqb_trans _ T); eassumption.
    + eapply (opt_eqb_trans _ true_trans); eassumption.
    + eapply (opt_eqb_trans _ (nullable_eqb_trans _ (spec_trans _ streq_spec))); eassumption.
    + apply Nat.eqb_eq. etransitivity; apply Nat.eqb_eq; eassumption.
    + match goal with
      | H : forallb _ (cd_bindings d) = true, H' : forallb _ (cd_bindings x) = true |- _ =>
          rename H into F1; rename H' into F2 end.
      rewrite forallb_forall in *. intros [k n] Hin. cbn [fst snd].
      rewrite Forall_forall in IH. specialize (IH _ Hin). specialize (F1 _ Hin). cbn [fst snd] in *.
      destruct (assoc k (cd_bindings x)) as [n'|] eqn:A1; [|discriminate].
      assert (In (k, n') (cd_bindings x)) as Hin'.
      { clear - A1. induction (cd_bindings x) as [|[k' v] l IH]; [discriminate|].
        cbn in A1. destruct (streq_spec k k') as [->|]; [injection A1 as ->; left; reflexivity|right; auto]. }
      specialize (F2 _ Hin'). cbn [fst snd] in F2.
      destruct (assoc k (cd_bindings y)) as [n''|]; [|discriminate].
      destruct n, n', n''; try discriminate; auto. cbn in IH. eauto.
  - intros s [] []; cbn; try discriminate. apply (spec_trans _ streq_spec).
  - intros d IH [|x] [|y]; cbn; try discriminate. intros H1 H2. andb.
    repeat (apply andb_true_intro; split).
    + eapply (opt_eqb_trans _ (nullable_eqb_trans _ tid_trans)); eassumption.
    + eapply (opt_eqb_trans _ (nullable_eqb_trans _ ttype_trans)); eassumption.
    + destruct (te_context d), (te_context x), (te_context y); try discriminate; auto. cbn in IH. eauto.
    + eapply (opt_eqb_trans _ (spec_trans _ streq_spec)); eassumption.
    + eapply (opt_eqb_trans _ (spec_trans _ streq_spec)); eassumption.
    + eapply (opt_eqb_trans _ (nullable_eqb_trans _ lang_eqb_trans)); eassumption.
    + eapply (opt_eqb_trans _ (nullable_eqb_trans _ (spec_trans _ direction_eqb_spec))); eassumption.
    + eapply (opt_eqb_trans _ (nullable_eqb_trans _ scontainer_trans)); eassumption.
    + eapply (opt_eqb_trans _ (spec_trans _ tnest_eqb_spec)); eassumption.
    + eapply (opt_eqb_trans _ bool_trans); eassumption.
    + eapply (opt_eqb_trans _ bool_trans); eassumption.
    + eapply (opt_eqb_trans _ bool_trans); eassumption.
Qed.

Lemma modulo_protected_same d p : modulo_protected_eqb d p = true -> same_definition d p.
Proof.
  unfold modulo_protected_eqb. intros H. andb.
  constructor;
    try (eapply opt_eqb_true; [|eassumption];
         first [apply term_eqb_spec|apply streq_spec|apply tnest_eqb_spec|apply ty_eqb_spec
               |apply nullable_eqb_spec, direction_eqb_spec]);
    try (apply Bool.eqb_prop; assumption).
  - destruct (nd_context d) as [x|], (nd_context p) as [y|]; cbn in *; try discriminate.
    + right. eauto.
    + left. reflexivity.
  - destruct (container_eqb_spec (nd_container d) (nd_container p)); congruence.
  - unfold same_language. destruct (nd_language d) as [[]|], (nd_language p) as [[]|]; cbn in *; try discriminate; auto.
    apply ci_eq_spec. assumption.
Qed.

Lemma same_language_refl l : same_language l l.
Proof. destruct l as [[]|]; cbn; auto. apply ci_eq_spec, ci_eq_refl. Qed.
Lemma same_language_trans a b c : same_language a b -> same_language b c -> same_language a c.
Proof.
  destruct a as [[]|], b as [[]|], c as [[]|]; cbn; try tauto.
  rewrite <- !ci_eq_spec. apply ci_eq_trans.
Qed.
Lemma same_definition_refl d : same_definition d d.
Proof. constructor; try reflexivity. - left. reflexivity. - apply same_language_refl. Qed.
Lemma same_definition_trans a b c : same_definition a b -> same_definition b c -> same_definition a c.
Proof.
  intros [] []. constructor; try congruence.
  - destruct sd_context0 as [->|(x & y & -> & E & T)]; [assumption|].
    destruct sd_context1 as [E'|(x' & y' & E' & -> & T')]; right.
    + exists x, y. rewrite <- E'. auto.
    + rewrite E in E'. injection E' as ->. exists x, y'. eauto using lctx_eqb_trans.
  - eapply same_language_trans; eassumption.
Qed.

(** ** Protected terms *)

(** A local definition of term [k] that [define] compares with the existing one: not a
    reverse property, and [@id] (if any) does not have the form of a keyword without being
    one. *)
Definition comparable (k : string) (v : nullable tdef) : Prop :=
  te_reverse (expanded_of v) = None /\
  (forall s, te_id (expanded_of v) = Some (NSome (TIdTerm s)) -> s = k \/ is_keyword_like s = false).

Definition still_defined (k : string) (d0 : ndef) (c : actx) : Prop :=
  exists d, get_normal c k = Some d /\ nd_protected d = true /\ same_definition d d0.

Lemma dget_cons k k' b d : dget k ((k', b) :: d) = if kk_eqb k k' then Some b else dget k d.
Proof. reflexivity. Qed.
Lemma dget_dend k k' d : dget k (dend k' d) = if kk_eqb k k' then Some false else dget k d.
Proof. reflexivity. Qed.

Section Protected.
Variable io : iops.
Variable ld : loader.
Variable k0 : string.
Variable d0 : ndef.
Let K0 := KKey k0.

Definition prel (s s' : st) : Prop :=
  (dget K0 (snd s) <> None ->
   get_normal (fst s') k0 = get_normal (fst s) k0 /\ dget K0 (snd s') <> None) /\
  (dget K0 (snd s) = None -> still_defined k0 d0 (fst s) -> still_defined k0 d0 (fst s')).

Lemma prel_refl s : prel s s.
Proof. split; auto. Qed.
Lemma prel_trans a b c : prel a b -> prel b c -> prel a c.
Proof.
  intros [A1 A2] [B1 B2]. split.
  - intros H. destruct (A1 H) as [E H']. destruct (B1 H') as [E' H'']. split; congruence.
  - intros H Hs. specialize (A2 H Hs). destruct (dget K0 (snd b)) eqn:G.
    + destruct B1 as [E _]; [discriminate|]. unfold still_defined in *. rewrite E. exact A2.
    + apply B2; auto.
Qed.

Lemma prel_define (m : merged) n :
  (forall v, m_get m K0 = Some (EvDef v) -> comparable k0 v) ->
  forall s k rs b p o s', po_override o = false ->
  e_define (engine io ld n) s m k rs b p o = Ok s' -> prel s s'.
Proof.
  intros HC. induction n as [|n IH]; intros s k rs b p o s' HO H; [discriminate|].
  cbn in H.
  assert (D : forall s k s' o', e_define (engine io ld n) s m (KKey k) rs None false (with_no_override o') = Ok s' -> prel s s')
    by (intros; eapply IH; [|eassumption]; reflexivity).
  destruct (kk_eqb_spec k K0) as [->|NK].
  - (* the protected term itself *)
    destruct s as [c dm]. unfold define_body in H. cbn [fst snd] in H.
    destruct (dget K0 dm) as [[]|] eqn:G; [discriminate|injection H as <-; apply prel_refl|].
    split; cbn [fst snd]; [intros X; contradiction|]. intros _ (d & Hd & Pd & Sd).
    destruct (match K0 with KKey s => streq s "" | KKeyword _ => false end); [discriminate|].
    destruct (m_get m K0) as [[t|v|]|] eqn:M.
    + apply bind_ok in H. destruct H as (c' & E & H). injection H as <-.
      unfold define_type_term in E. destruct (is_10 o); [discriminate|]. injection E as <-.
      exists d. auto.
    + specialize (HC v eq_refl). destruct HC as [HR HI]. unfold K0 in *.
      apply bind_ok in H. destruct H as ([s2 ended] & E & H).
      assert (still_defined k0 d0 (fst s2)) as S2.
      { unfold define_normal in E. cbn [fst snd] in E. rewrite HR in E.
        apply bind_ok in E. destruct E as (d1 & _ & E).
        apply bind_ok in E. destruct E as ([s3 d3] & E3 & E).
        apply bind_ok in E. destruct E as ([s4 d4] & E4 & E).
        destruct d4 as [d4|].
        - apply bind_ok in E. destruct E as (s5 & E5 & E). injection E as <- _.
          apply rest_state in E5. destruct E5 as (d5 & P5 & ->). cbn [fst].
          unfold define_protect in P5. rewrite HO, Hd, Pd in P5.
          destruct (modulo_protected_eqb d5 d) eqn:MP; [|discriminate]. injection P5 as P5.
          exists d5. split; [rewrite get_normal_set, streq_refl; reflexivity|]. split.
          + rewrite <- P5. reflexivity.
          + eapply same_definition_trans; [apply modulo_protected_same; exact MP|exact Sd].
        - exfalso. clear - E4 HI. unfold define_mapping in E4.
          destruct (te_id (expanded_of v)) as [i|].
          2:{ apply bind_ok in E4. destruct E4 as ([? ?] & _ & E4). discriminate. }
          destruct (id_differs i k0) eqn:DI.
          2:{ apply bind_ok in E4. destruct E4 as ([? ?] & _ & E4). discriminate. }
          destruct i as [|i]; [discriminate|]. unfold define_id in E4.
          destruct (_ && negb _)%bool eqn:KL.
          + apply andb_prop in KL. destruct KL as [KL NKw]. destruct i as [k|s]; [discriminate|].
            cbn in KL, DI. destruct (HI s eq_refl) as [->|F]; [rewrite streq_refl in DI; discriminate|].
            change (tid_str (TIdTerm s)) with s in KL. congruence.
          + apply bind_ok in E4. destruct E4 as ([s4' v'] & _ & E4).
            destruct (match v' with Some (TmKw KContext) => true | _ => false end); [discriminate|].
            destruct (match v' with Some (TmId p) => negb (id_valid p) | _ => false end); [discriminate|].
            apply bind_ok in E4. destruct E4 as (s5 & _ & E4).
            destruct (_ && simple_term v)%bool; [destruct v'; discriminate|discriminate]. }
      destruct ended; injection H as <-; exact S2.
    + discriminate.
    + injection H as <-. exists d. auto.
  - eapply (define_rel_body io prel m prel_refl prel_trans (fun k => k <> K0)); [..|exact NK|exact H].
    + intros c d k' NK' G. split; cbn [fst snd]; [|auto].
      intros X. split; [reflexivity|]. rewrite dget_cons. destruct (kk_eqb_spec K0 k'); congruence.
    + intros s1 k' NK'. split; cbn [fst snd]; [|auto]. rewrite dget_dend.
      destruct (kk_eqb_spec K0 k'); [congruence|]. auto.
    + intros c d k' v NK' _. assert (k' <> k0) as N by (unfold K0 in NK'; congruence).
      apply streq_false in N. split; cbn [fst snd].
      * intros X. rewrite get_normal_set, N. auto.
      * unfold still_defined. rewrite get_normal_set, N. auto.
    + intros c d t c' E. unfold define_type_term in E. destruct (is_10 o); [discriminate|]. injection E as <-.
      split; cbn [fst snd]; auto.
    + intros s1 k1 s2 E. eapply IH; [|exact E]. reflexivity.
Qed.

Lemma define_all_protected n c m rs b o c' : po_override o = false ->
  (forall v, assoc k0 (cd_bindings (m_base m)) = Some v -> comparable k0 v) ->
  (forall i v, m_imported m = Some i -> assoc k0 (cd_bindings i) = Some v -> comparable k0 v) ->
  define_all (engine io ld n) c m rs b o = Ok c' -> still_defined k0 d0 c -> still_defined k0 d0 c'.
Proof.
  intros HO HB HI H HS. unfold define_all in H.
  assert (HC : forall v, m_get m K0 = Some (EvDef v) -> comparable k0 v).
  { intros v. unfold m_get, K0, or_else, def_get.
    destruct (assoc k0 (cd_bindings (m_base m))) as [w|]; cbn [option_map].
    - intros E. injection E as <-. apply HB. reflexivity.
    - destruct (m_imported m) as [i|] eqn:Mi; [|discriminate].
      destruct (assoc k0 (cd_bindings i)) as [w|] eqn:A; [|discriminate]. cbn. intros E. injection E as <-. eapply HI; eauto. }
  apply bind_ok in H. destruct H as (s1 & E1 & H). apply bind_ok in H. destruct H as (s2 & E2 & H). injection H as <-.
  assert (prel (c, []) s1) as P1.
  { destruct (m_field cd_type m); [|injection E1 as <-; apply prel_refl]. eapply prel_define; eassumption. }
  assert (prel s1 s2) as P2.
  { eapply (keys_rel io ld prel); [apply prel_refl|apply prel_trans| |exact E2]. intros. eapply prel_define; eassumption. }
  apply (prel_trans _ _ _ P1 P2); [reflexivity|exact HS].
Qed.

End Protected.

(** *** Protected terms survive processing *)
Definition comparable_in (k : string) (d : cdef tdef) : Prop :=
  forall v, assoc k (cd_bindings d) = Some v -> comparable k v.

Lemma process_protected io ld n a lc rs b o c' k d :
  po_override o = false -> ctx_all (comparable_in k) lc -> load_all ld (comparable_in k) ->
  get_normal a k = Some d -> nd_protected d = true ->
  process_context io ld n a lc rs b o = Ok c' -> still_defined k d c'.
Proof.
  intros HO HL HD Hg Hp H.
  eapply (inv_process io ld (still_defined k d) (comparable_in k) (fun o => po_override o = false));
    [..|exact HO|exact HL|exact H|].
  - intros c1 c2 E _ (x & X & Y). exists x. unfold get_normal in *. rewrite <- E. auto.
  - reflexivity.
  - auto.
  - intros a1 c1 o1 c2 HO1 N (x & X & Y & _). exfalso. unfold process_null in N. rewrite HO1 in N.
    assert (has_protected_items c1 = true) as HP.
    { unfold has_protected_items. apply orb_true_intro. left. apply existsb_exists.
      exists (k, x). split; [|exact Y]. unfold get_normal in X. clear - X.
      induction (ac_defs c1) as [|[k' v] l IH]; [discriminate|]. cbn in X.
      destruct (streq_spec k k') as [->|]; [injection X as ->; left; reflexivity|right; auto]. }
    rewrite HP in N. discriminate.
  - intros. eapply define_all_protected; eauto. intros i v Hi. apply (H2 i Hi).
  - exact HD.
  - exists d. split; [exact Hg|]. split; [exact Hp|apply same_definition_refl].
Qed.

(** The [@type] definition too. *)
Lemma process_protected_type io ld n a lc rs b o c' :
  po_override o = false -> ac_type a = Some true ->
  process_context io ld n a lc rs b o = Ok c' -> ac_type c' = Some true.
Proof.
  intros HO Ht H.
  eapply (inv_process io ld (fun c => ac_type c = Some true) (fun _ => True) (fun o => po_override o = false));
    [..|exact HO|unfold ctx_all; auto|exact H|exact Ht].
  - intros c1 c2 _ E; congruence.
  - reflexivity.
  - auto.
  - intros a1 c1 o1 c2 HO1 N X. exfalso. unfold process_null in N. rewrite HO1 in N.
    unfold has_protected_items in N. rewrite X, orb_true_r in N. discriminate.
  - intros n1 c m rs1 b1 o1 c1 HO1 _ _ H1 X. unfold define_all in H1.
    apply bind_ok in H1. destruct H1 as (s1 & E1 & H1). apply bind_ok in H1. destruct H1 as (s2 & E2 & H1). injection H1 as <-.
    assert (T : forall n s k rs b p o s', po_override o = false -> e_define (engine io ld n) s m k rs b p o = Ok s' ->
                ac_type (fst s) = Some true -> ac_type (fst s') = Some true).
    { clear. induction n as [|n IH]; intros s k rs b p o s' HO H HT; [discriminate|]. cbn in H.
      revert HT.
      refine (define_rel_body io (fun s s' => ac_type (fst s) = Some true -> ac_type (fst s') = Some true) m _ _ (fun _ => True) _ _ _ (engine io ld n) rs o _ _ s k b p s' I H); cbn; auto.
      - intros c d t c' E. unfold define_type_term in E. destruct (is_10 o); [discriminate|]. rewrite HO in E. injection E as <-.
        cbn. intros ->. reflexivity.
      - intros s1 k1 s2 E1. eapply IH; [|exact E1]. reflexivity. }
    assert (ac_type (fst s1) = Some true) as X1.
    { destruct (m_field cd_type m); [|injection E1 as <-; exact X]. eapply T; [exact HO1|exact E1|exact X]. }
    revert X1. eapply (keys_rel io ld (fun s s' => ac_type (fst s) = Some true -> ac_type (fst s') = Some true)); [auto|auto| |exact E2].
    intros s k s' E. eapply T; eassumption.
  - unfold load_all, ctx_all. auto.
Qed.

(** ** Terms that are not bound stay undefined *)
Definition not_bound (k : string) (d : cdef tdef) : Prop := assoc k (cd_bindings d) = None.

Lemma process_not_bound io ld n a lc rs b o c' k :
  ctx_all (not_bound k) lc -> load_all ld (not_bound k) ->
  get_normal a k = None -> process_context io ld n a lc rs b o = Ok c' -> get_normal c' k = None.
Proof.
  intros HL HD Hg H.
  eapply (inv_process io ld (fun c => get_normal c k = None) (not_bound k) (fun _ => True));
    [..|exact I|exact HL|exact H|exact Hg]; auto.
  - intros c1 c2 E _. unfold get_normal. rewrite E. auto.
  - intros a1 c1 o1 c2 _ N _. unfold process_null in N. destruct (_ && _)%bool; [discriminate|].
    injection N as <-. destruct (po_propagate o1); reflexivity.
  - intros n1 c m rs1 b1 o1 c1 _ HB HI H1 X. unfold define_all in H1.
    assert (M : m_get m (KKey k) = None).
    { unfold m_get, def_get, not_bound in *. rewrite HB. cbn. destruct (m_imported m) as [i|]; [|reflexivity]. rewrite (HI i eq_refl). reflexivity. }
    apply bind_ok in H1. destruct H1 as (s1 & E1 & H1). apply bind_ok in H1. destruct H1 as (s2 & E2 & H1). injection H1 as <-.
    assert (get_normal (fst s1) k = None) as X1.
    { destruct (m_field cd_type m); [|injection E1 as <-; exact X]. rewrite (define_untouched _ _ _ _ _ _ _ _ _ _ _ _ M E1). exact X. }
    revert X1. eapply (keys_rel io ld (fun s s' => get_normal (fst s) k = None -> get_normal (fst s') k = None)); [auto|auto| |exact E2].
    intros s k1 s' E. rewrite (define_untouched _ _ _ _ _ _ _ _ _ _ _ _ M E). auto.
Qed.

(** Cyclic term definitions. *)
From Verif Require Import Prelude Str Keyword Enums LangTag Container Stack ContextSyntax Ctx Process ProcessRel.

(** ** Dependencies

    [mentions io d s k]: expanding the string [s] with the local context [d] at hand requires
    the definition of the term [k]: [s] is [k] itself, or the compact IRI [k:x] not bound in
    [d] as a term. *)
Inductive mentions (io : iops) (c : actx) (d : cdef tdef) : string -> string -> Prop :=
| men_term s : is_keyword_like s = false -> mentions io c d s s
| men_prefix p x :
    p <> "" -> p <> "_" -> contains_char ":" p = false -> starts_with "//" x = false ->
    iri_ref_ok io (p +++ ":" +++ x) = true -> blank_ok io (p +++ ":" +++ x) = false ->
    is_keyword_like (p +++ ":" +++ x) = false ->
    assoc (p +++ ":" +++ x) (cd_bindings d) = None -> get_normal c (p +++ ":" +++ x) = None ->
    mentions io c d (p +++ ":" +++ x) p.

(** [depends io c d k k']: the entry of [k] in [d] requires the definition of [k']. *)
Inductive depends (io : iops) (c : actx) (d : cdef tdef) (k k' : string) : Prop :=
| dep_type v s : assoc k (cd_bindings d) = Some v ->
    te_type (expanded_of v) = Some (NSome (TTyTerm s)) -> mentions io c d s k' -> depends io c d k k'
| dep_reverse v s : assoc k (cd_bindings d) = Some v ->
    te_reverse (expanded_of v) = Some s -> mentions io c d s k' -> depends io c d k k'
| dep_id v s : assoc k (cd_bindings d) = Some v -> te_reverse (expanded_of v) = None ->
    te_id (expanded_of v) = Some (NSome (TIdTerm s)) -> s <> k ->
    mentions io c d s k' -> depends io c d k k'
| dep_own v x : assoc k (cd_bindings d) = Some v -> te_reverse (expanded_of v) = None ->
    (te_id (expanded_of v) = None \/ te_id (expanded_of v) = Some (NSome (TIdTerm k))) ->
    k = k' +++ ":" +++ x -> k' <> "_" -> contains_char ":" k' = false -> starts_with "//" x = false ->
    iri_ref_ok io k = true -> depends io c d k k'.


Lemma colon_split p x : contains_char ":" p = false -> split_once ":" (p +++ ":" +++ x) = Some (p, x).
Proof. intros H. apply (split_once_complete ":" p x H). Qed.

Lemma colon_find p x : contains_char ":" p = false -> p <> "" -> colon_inside (p +++ ":" +++ x) = true.
Proof.
  intros H N. unfold colon_inside. destruct p as [|a p]; [contradiction|].
  unfold contains_char in H. cbn [String.append find_char] in *.
  destruct (Ascii.eqb a ":"); [discriminate|]. clear N.
  assert (E : exists n, find_char ":" (p +++ String ":" x) = Some n).
  { clear H. induction p as [|b p IH]; [exists 0; reflexivity|]. cbn [String.append find_char].
    destruct (Ascii.eqb b ":"); [eauto|]. destruct IH as [n ->]. exists (S n). reflexivity. }
  destruct E as [n E]. cbn [String.append] in *. rewrite E. reflexivity.
Qed.

Section Cycle.
Variable io : iops.
Variable ld : loader.
Variable c0 : actx.
Variable d : cdef tdef.
Variable S : string -> bool.
Hypothesis HS : forall k, S k = true -> exists k', S k' = true /\ depends io c0 d k k'.
Let m := MkMerged d None.

(** No term of the cycle is finished, and terms without entry are as in [c0]. *)
Definition unfinished (s : st) : Prop :=
  (forall k, S k = true -> dget (KKey k) (snd s) <> Some false) /\
  (forall x, assoc x (cd_bindings d) = None -> get_normal (fst s) x = get_normal c0 x).

Lemma get_m k : m_get m (KKey k) = option_map EvDef (assoc k (cd_bindings d)).
Proof. unfold m_get, m, or_else, def_get. cbn. destruct (assoc k (cd_bindings d)); reflexivity. Qed.

Section Step.
Variable r : eng.
Variable rs : pstack.
Variable o : popts.
Hypothesis IHno : forall s k b p o s', S k = true -> unfinished s -> e_define r s m (KKey k) rs b p o <> Ok s'.
Hypothesis IHinv : forall s k b p o s', unfinished s -> e_define r s m (KKey k) rs b p o = Ok s' -> unfinished s'.

Lemma mentions_no s0 s k' dr vo x : S k' = true -> mentions io c0 d s k' -> unfinished s0 ->
  expand_iri_with io r s0 (NSome (XStr s)) dr vo m rs o <> Ok x.
Proof.
  intros HK HM HU H. destruct x as [s1 t]. unfold expand_iri_with in H. destruct HM as [s K|p x N1 N2 N3 N4 N5 N6 N7 N8 N9].
  - rewrite K, (kk_of_str_key _ K) in H. apply bind_ok in H. destruct H as (s2 & H & _).
    eapply IHno; eassumption.
  - rewrite N7, (kk_of_str_key _ N7) in H. apply bind_ok in H. destruct H as (s2 & E & H).
    apply IHinv in E; [|exact HU].
    assert (D : expand_defined (fst s2) (p +++ ":" +++ x) vo = None).
    { unfold expand_defined, get_value. destruct (streq_spec (p +++ ":" +++ x) "@type") as [X|_].
      - rewrite X in N7. discriminate.
      - rewrite (proj2 E _ N8), N9. reflexivity. }
    rewrite D, (colon_find _ _ N3 N1), N6 in H.
    destruct (streq_spec (p +++ ":" +++ x) "_:") as [X|_].
    { exfalso. destruct p as [|a p]; [congruence|]. cbn in X. injection X as -> X. destruct p as [|a p]; [congruence|].
      cbn in X. injection X as -> X. destruct p; discriminate. }
    unfold compact_iri_of in H. rewrite (colon_split _ _ N3), N4, N5 in H.
    apply streq_false in N2. rewrite N2 in H. cbn [negb andb] in H.
    apply bind_ok in H. destruct H as (s3 & H & _). eapply IHno; eassumption.
Qed.

Lemma unfinished_set s k v : unfinished s -> assoc k (cd_bindings d) <> None -> unfinished (set_normal (fst s) k v, snd s).
Proof.
  intros [H1 H2] HB. split; [exact H1|]. cbn [fst snd]. intros x Hx. rewrite get_normal_set.
  destruct (streq_spec k x) as [->|]; [contradiction|auto].
Qed.
Lemma unfinished_begin s k : unfinished s -> unfinished (fst s, (k, true) :: snd s).
Proof.
  intros [H1 H2]. split; [|exact H2]. cbn [fst snd]. intros x Hx. cbn [dget].
  destruct (kk_eqb (KKey x) k); [discriminate|auto].
Qed.

Lemma cycle_no s0 k b p s1 : S k = true -> unfinished s0 -> define_body io r s0 m (KKey k) rs b p o <> Ok s1.
Proof.
  intros HK HU H. unfold define_body in H.
  destruct (dget (KKey k) (snd s0)) as [[]|] eqn:G; [discriminate|destruct HU as [X _]; apply (X k HK G)|].
  destruct (streq k ""); [discriminate|]. rewrite get_m in H.
  destruct (HS k HK) as (k' & HK' & HD).
  destruct (assoc k (cd_bindings d)) as [v|] eqn:A; [|destruct HD; congruence].
  cbn [option_map] in H. apply bind_ok in H. destruct H as ([s2 e] & H & _).
  unfold define_normal in H. cbn [fst snd] in H. apply bind_ok in H. destruct H as (d1 & _ & H).
  assert (U0 : unfinished (set_normal (fst s0) k None, (KKey k, true) :: snd s0)).
  { apply (unfinished_set (fst s0, (KKey k, true) :: snd s0)); [apply unfinished_begin, HU|congruence]. }
  apply bind_ok in H. destruct H as ([s3 d3] & E3 & H).
  assert (U3 : unfinished s3).
  { refine (rel_type io r (fun s s' => unfinished s -> unfinished s') m rs _ _ o _ _ _ _ _ _ E3 U0); auto.
    intros s k1 s' E U. eapply IHinv; eassumption. }
  destruct HD as [v' s A' HT HM|v' s A' HR HM|v' s A' HR HI NK HM|v' x A' HR HI -> N1 N2 N3 N4]; rewrite A in A'; injection A' as <-.
  - unfold define_type in E3. rewrite HT in E3. cbn [xp_of_ttype] in E3. apply bind_ok in E3. destruct E3 as (y & E3 & _).
    eapply mentions_no; [exact HK'|exact HM|exact U0|exact E3].
  - rewrite HR in H. unfold define_reverse in H. destruct (_ || _)%bool; [discriminate|].
    assert (is_keyword_like s = false) as K by (destruct HM; assumption).
    rewrite K in H. apply bind_ok in H. destruct H as (y & H & _).
    assert (X : xp_of_str s = XStr s).
    { apply kk_of_str_key in K. unfold kk_of_str in K. unfold xp_of_str. destruct (kw_of_str s); [discriminate|reflexivity]. }
    rewrite X in H. eapply mentions_no; [exact HK'|exact HM|exact U3|exact H].
  - rewrite HR in H. apply bind_ok in H. destruct H as ([s4 d4] & H & _).
    unfold define_mapping in H. rewrite HI in H. unfold id_differs in H. apply streq_false in NK. rewrite NK in H. cbn [negb] in H.
    unfold define_id in H. assert (is_keyword_like s = false) as K by (destruct HM; assumption).
    change (tid_str (TIdTerm s)) with s in H. rewrite K in H. cbn [andb] in H.
    apply bind_ok in H. destruct H as (y & H & _). eapply mentions_no; [exact HK'|exact HM|exact U3|exact H].
  - rewrite HR in H. apply bind_ok in H. destruct H as ([s4 d4] & H & _).
    assert (H' : (do (s1, t) <- define_no_id io r s3 m (k' +++ ":" +++ x) rs o; Ok (s1, Some (nd_set_value d3 (Some t)))) = Ok (s4, d4)).
    { unfold define_mapping in H. destruct HI as [HI|HI]; rewrite HI in H; [exact H|].
      unfold id_differs in H. rewrite streq_refl in H. cbn [negb] in H. exact H. }
    clear H. apply bind_ok in H'. destruct H' as ([s5 t] & H & _). unfold define_no_id in H.
    unfold compact_iri_of in H. rewrite (colon_split _ _ N2), N3, N4 in H.
    apply streq_false in N1. rewrite N1 in H. cbn [negb andb] in H.
    apply bind_ok in H. destruct H as (s6 & H & _). eapply IHno; eassumption.
Qed.
End Step.

Lemma cycle_engine n : forall rs,
  (forall s k b p o s', S k = true -> unfinished s -> e_define (engine io ld n) s m (KKey k) rs b p o <> Ok s') /\
  (forall s k b p o s', unfinished s -> e_define (engine io ld n) s m k rs b p o = Ok s' -> unfinished s').
Proof.
  induction n as [|n IH]; intros rs; [split; discriminate|].
  destruct (IH rs) as [IH1 IH2].
  assert (A : forall s k b p o s', S k = true -> unfinished s -> e_define (engine io ld (Datatypes.S n)) s m (KKey k) rs b p o <> Ok s').
  { intros s k b p o s' HK HU. cbn [engine e_define]. apply cycle_no; auto. intros. eapply IH2; eassumption. }
  split; [exact A|].
  intros s k b p o s' HU H.
  assert (K : k <> KKeyword KType -> forall x, k = KKey x -> S x = false).
  { intros _ x ->. destruct (S x) eqn:E; [|reflexivity]. exfalso. eapply A; eassumption. }
  cbn [engine e_define] in H.
  refine (define_rel_body io (fun s s' => unfinished s -> unfinished s') m _ _ (fun k => forall x, k = KKey x -> S x = false) _ _ _ (engine io ld n) rs o _ _ s k b p s' _ H HU); auto.
  - intros c dm k1 HK1 G U. apply (unfinished_begin (c, dm)), U.
  - intros s1 k1 HK1 [U1 U2]. split; [|exact U2]. cbn [fst snd]. intros x Hx. unfold dend. cbn [dget].
    destruct (kk_eqb_spec (KKey x) k1) as [<-|]; [|apply U1, Hx]. rewrite (HK1 x eq_refl) in Hx. discriminate.
  - intros c dm k1 v HK1 HM U. apply (unfinished_set (c, dm)); [exact U|]. rewrite get_m in HM.
    destruct (assoc k1 (cd_bindings d)); [discriminate|contradiction].
  - intros c dm t c' E [U1 U2]. unfold define_type_term in E. destruct (is_10 o); [discriminate|]. injection E as <-. split; [exact U1|exact U2].
  - intros s1 k1 s2 E U. eapply IH2; eassumption.
  - intros x ->. destruct (S x) eqn:E; [|reflexivity]. exfalso. eapply A; eassumption.
Qed.

Lemma cycle_all n c rs b o c' k : S k = true -> (forall x, get_normal c x = get_normal c0 x) ->
  define_all (engine io ld n) c m rs b o <> Ok c'.
Proof.
  intros HK HC H. unfold define_all in H. apply bind_ok in H. destruct H as (s1 & E1 & H).
  apply bind_ok in H. destruct H as (s2 & E2 & _).
  assert (U0 : unfinished (c, [])).
  { split; cbn [fst snd dget]; [discriminate|]. intros; apply HC. }
  assert (U1 : unfinished s1).
  { destruct (m_field cd_type m); [|injection E1 as <-; exact U0]. exact (proj2 (cycle_engine n rs) _ _ _ _ _ _ U0 E1). }
  assert (HIn : In k (m_keys m)).
  { unfold m_keys, m. cbn. destruct (HS k HK) as (k' & _ & HD).
    assert (A : forall v, assoc k (cd_bindings d) = Some v -> In k (map fst (cd_bindings d))).
    { induction (cd_bindings d) as [|[x v] l IH]; [discriminate|]. cbn. intros v'. destruct (streq_spec k x) as [->|]; eauto. }
    destruct HD; eapply A; eassumption. }
  clear E1 U0 HC. revert s1 E2 U1 HIn. generalize (m_keys m) as ks. induction ks as [|k1 ks IH]; intros s1 E2 U1 HIn; [destruct HIn|].
  cbn [define_keys] in E2. apply bind_ok in E2. destruct E2 as (s3 & E3 & E2).
  destruct HIn as [->|HIn].
  - exact (proj1 (cycle_engine n rs) _ _ _ _ _ _ HK U1 E3).
  - eapply IH; [exact E2| |exact HIn]. exact (proj2 (cycle_engine n rs) _ _ _ _ _ _ U1 E3).
Qed.
End Cycle.

(** A context starting with a definition that has cyclic dependencies is never accepted. *)
Lemma cycle_process io ld n a lc d es rs b o c' (S : string -> bool) k :
  entries_of lc = CEDef d :: es -> cd_import d = None ->
  (forall k, S k = true -> exists k', S k' = true /\ depends io a d k k') ->
  S k = true -> process_context io ld n a lc rs b o <> Ok c'.
Proof.
  intros HE HI HS HK H. unfold process_context in H. destruct n as [|n]; [discriminate|].
  cbn [engine e_process] in H. unfold process_body in H. apply bind_ok in H. destruct H as (o' & _ & H).
  rewrite HE in H. cbn [process_entries] in H. apply bind_ok in H. destruct H as ([c1 rs1] & H & _).
  apply bind_ok in H. destruct H as (c2 & H & _). unfold process_def in H.
  destruct (match cd_version d with Some _ => _ | None => _ end); [discriminate|].
  unfold import_of in H. rewrite HI in H. cbn [bind] in H. unfold process_merged in H.
  apply bind_ok in H. destruct H as (c3 & E3 & H). apply bind_ok in H. destruct H as (c4 & E4 & H).
  apply bind_ok in H. destruct H as (c5 & E5 & H).
  eapply (cycle_all io ld a d S HS); [exact HK| |exact H].
  apply base_defs in E3. apply vocab_defs in E4. apply direction_defs in E5.
  intros x. unfold get_normal. destruct E3 as [E3 _], E4 as [E4 _], E5 as [E5 _]. rewrite <- E5, <- E4, <- E3.
  destruct (_ && _)%bool; reflexivity.
Qed.

(** ** The error reported

    [cyclic d]: every binding of [d] is an [@id] mapping (nothing else) that depends on a
    binding of [d]. *)
Definition id_only (e : texp lcontext) : Prop :=
  te_type e = None /\ te_reverse e = None /\ te_protected e = None.
Definition all_cyclic (io : iops) (c : actx) (d : cdef tdef) : Prop :=
  forall k v, assoc k (cd_bindings d) = Some v ->
    k <> "" /\ id_only (expanded_of v) /\
    exists s k', te_id (expanded_of v) = Some (NSome (TIdTerm s)) /\ s <> k /\
      mentions io c d s k' /\ assoc k' (cd_bindings d) <> None.

Section Exact.
Variable io : iops.
Variable ld : loader.
Variable c0 : actx.
Variable d : cdef tdef.
Hypothesis HA : all_cyclic io c0 d.
Let m := MkMerged d None.

Definition is_bound (k : string) : bool := match assoc k (cd_bindings d) with Some _ => true | None => false end.

Lemma define_unbound n s k rs b p o : assoc k (cd_bindings d) = None -> k <> "" ->
  dget (KKey k) (snd s) <> Some true ->
  e_define (engine io ld n) s m (KKey k) rs b p o = Err EFuel \/
  exists s', e_define (engine io ld n) s m (KKey k) rs b p o = Ok s' /\ fst s' = fst s /\
    forall x, dget x (snd s') = if kk_eqb x (KKey k) then Some false else dget x (snd s).
Proof.
  intros HB HK HG. destruct n as [|n]; [left; reflexivity|right]. cbn [engine e_define]. unfold define_body.
  destruct (dget (KKey k) (snd s)) as [[]|] eqn:G; [congruence| |].
  - exists s. split; [reflexivity|]. split; [reflexivity|]. intros x. destruct (kk_eqb_spec x (KKey k)) as [->|]; auto.
  - apply streq_false in HK. rewrite HK. unfold m_get, m, or_else, def_get. cbn [m_base m_imported]. rewrite HB. cbn [option_map].
    eexists. split; [reflexivity|]. split; [reflexivity|]. intros x. unfold dend. cbn. destruct (kk_eqb x (KKey k)); reflexivity.
Qed.

(** All that is begun is unfinished, except unbound strings, which are never pending. *)
Definition pure_state (s : st) : Prop :=
  (forall k, assoc k (cd_bindings d) <> None -> dget (KKey k) (snd s) <> Some false) /\
  (forall k, assoc k (cd_bindings d) = None -> dget (KKey k) (snd s) <> Some true) /\
  (forall x, assoc x (cd_bindings d) = None -> get_normal (fst s) x = get_normal c0 x).

Lemma cyclic_error n : forall s k rs b p o, pure_state s -> assoc k (cd_bindings d) <> None ->
  e_define (engine io ld n) s m (KKey k) rs b p o = Err EFuel \/
  e_define (engine io ld n) s m (KKey k) rs b p o = Err ECyclicIriMapping.
Proof.
  induction n as [|n IH]; intros s k rs b p o HU HB; [left; reflexivity|].
  cbn [engine e_define]. unfold define_body.
  destruct (dget (KKey k) (snd s)) as [[]|] eqn:G; [right; reflexivity|exfalso; destruct HU as [U _]; eapply U; eassumption|].
  destruct (assoc k (cd_bindings d)) as [v|] eqn:A; [|congruence].
  destruct (HA k v A) as (HK & (HT & HR & HP) & s' & k' & HI & NK & HM & HB').
  assert (Mg : m_get m (KKey k) = Some (EvDef v)).
  { unfold m_get, or_else, def_get, m. cbn [m_base m_imported]. rewrite A. reflexivity. }
  apply streq_false in HK. rewrite HK, Mg.
  unfold define_normal, define_protected, define_type. rewrite HP, HT, HR. cbn [bind fst snd].
  unfold define_mapping. rewrite HI. unfold id_differs. apply streq_false in NK. rewrite NK. cbn [negb].
  unfold define_id. change (tid_str (TIdTerm s')) with s'.
  assert (is_keyword_like s' = false) as K by (destruct HM; assumption). rewrite K. cbn [andb].
  set (s1 := (set_normal (fst s) k None, (KKey k, true) :: snd s)).
  assert (U1 : pure_state s1).
  { destruct HU as (U1 & U2 & U3). unfold s1. split; [|split]; cbn [fst snd dget kk_eqb].
    - intros x Hx. destruct (streq x k); [discriminate|auto].
    - intros x Hx. destruct (streq_spec x k) as [->|]; [congruence|auto].
    - intros x Hx. rewrite get_normal_set. destruct (streq_spec k x) as [->|]; [congruence|auto]. }
  enough (X : forall dr vo, expand_iri_with io (engine io ld n) s1 (NSome (XStr s')) dr vo m rs o = Err EFuel \/
                            expand_iri_with io (engine io ld n) s1 (NSome (XStr s')) dr vo m rs o = Err ECyclicIriMapping).
  { cbn [xp_of_tid].
    match goal with |- context [expand_iri_with ?x1 ?x2 ?x3 ?x4 ?x5 ?x6 ?x7 ?x8 ?x9] =>
      change (expand_iri_with x1 x2 x3 x4 x5 x6 x7 x8 x9) with (expand_iri_with x1 x2 s1 x4 x5 x6 x7 x8 x9) end.
    destruct (X false (Some (po_vocab o))) as [X'|X']; rewrite X'; cbn [bind]; auto. }
  intros dr vo. unfold expand_iri_with. rewrite K, (kk_of_str_key _ K).
  destruct HM as [s' K'|q x N1 N2 N3 N4 N5 N6 N7 N8 N9].
  - destruct (IH s1 s' rs None false (with_no_override o) U1 HB') as [->| ->]; cbn [bind]; auto.
  - destruct (define_unbound n s1 (q +++ ":" +++ x) rs None false (with_no_override o) N8) as [->|(s2 & E2 & F2 & D2)].
    + destruct q; discriminate.
    + apply U1, N8.
    + auto.
    + rewrite E2. cbn [bind].
      assert (D : expand_defined (fst s2) (q +++ ":" +++ x) vo = None).
      { unfold expand_defined, get_value. destruct (streq_spec (q +++ ":" +++ x) "@type") as [X|_].
        - rewrite X in N7. discriminate.
        - destruct U1 as (_ & _ & U3). rewrite F2, (U3 _ N8), N9. reflexivity. }
      rewrite D, (colon_find _ _ N3 N1), N6.
      destruct (streq_spec (q +++ ":" +++ x) "_:") as [X|_].
      { exfalso. destruct q as [|a q]; [congruence|]. cbn in X. injection X as -> X. destruct q as [|a q]; [congruence|].
        cbn in X. injection X as -> X. destruct q; discriminate. }
      unfold compact_iri_of. rewrite (colon_split _ _ N3), N4, N5. apply streq_false in N2. rewrite N2. cbn [negb andb].
      assert (U2 : pure_state s2).
      { destruct U1 as (V1 & V2 & V3). split; [|split].
        - intros y Hy. rewrite D2. cbn [kk_eqb]. destruct (streq_spec y (q +++ ":" +++ x)) as [->|]; [congruence|auto].
        - intros y Hy. rewrite D2. destruct (kk_eqb (KKey y) (KKey (q +++ ":" +++ x))); [discriminate|auto].
        - intros y Hy. rewrite F2. auto. }
      destruct (IH s2 q rs None false (with_no_override o) U2 HB') as [->| ->]; cbn [bind]; auto.
Qed.
End Exact.

Lemma cyclic_process io ld n a d b o :
  d = MkDef None None None None None None None None None (cd_bindings d) ->
  all_cyclic io a d -> cd_bindings d <> [] ->
  process_full io ld n a (LOne (CEDef d)) b o = Err EFuel \/
  process_full io ld n a (LOne (CEDef d)) b o = Err ECyclicIriMapping.
Proof.
  intros HD HA HN. unfold process_full, process_context. destruct n as [|n]; [left; reflexivity|].
  cbn [engine e_process]. unfold process_body, propagate_of.
  assert (cd_propagate d = None) as X1 by (rewrite HD; reflexivity). rewrite X1. cbn [bind entries_of process_entries].
  match goal with |- context [process_def _ _ _ ?c _ _ _ _] => set (c1 := c) end.
  assert (C1 : forall x, get_normal c1 x = get_normal a x).
  { unfold c1. destruct (_ && _)%bool; reflexivity. }
  enough (X : process_def io ld (engine io ld n) c1 d ps_new b o = Err EFuel \/
              process_def io ld (engine io ld n) c1 d ps_new b o = Err ECyclicIriMapping)
    by (destruct X as [-> | ->]; cbn [bind]; auto).
  unfold process_def, import_of. assert (cd_version d = None) as X2 by (rewrite HD; reflexivity).
  assert (cd_import d = None) as X3 by (rewrite HD; reflexivity). rewrite X2, X3. cbn [bind].
  unfold process_merged, process_base, process_vocab, process_direction, process_language, m_field, define_all, m_field.
  cbn [m_base m_imported].
  assert (cd_base d = None) as X4 by (rewrite HD; reflexivity).
  assert (cd_vocab d = None) as X5 by (rewrite HD; reflexivity).
  assert (cd_language d = None) as X6 by (rewrite HD; reflexivity).
  assert (cd_direction d = None) as X7 by (rewrite HD; reflexivity).
  assert (cd_type d = None) as X8 by (rewrite HD; reflexivity).
  rewrite X4, X5, X6, X7, X8. cbn [or_else bind ps_is_empty ps_new].
  unfold m_keys. cbn [m_imported m_base app]. remember (cd_bindings d) as l eqn:L. destruct l as [|[k v] l]; [congruence|].
  cbn [map fst define_keys]. generalize (match or_else (cd_protected d) None with Some p => p | None => false end) as p. intros p.
  destruct (cyclic_error io ld a d HA n (c1, []) k ps_new b p o) as [E|E].
  - split; [|split]; cbn [fst snd dget]; [discriminate|discriminate|intros; apply C1].
  - rewrite <- L. cbn. rewrite streq_refl. discriminate.
  - rewrite E. cbn [bind]. auto.
  - rewrite E. cbn [bind]. auto.
Qed.

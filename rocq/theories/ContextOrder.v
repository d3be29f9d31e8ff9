(** The order of the terms of a context definition: used for C96. *)
From Coq Require Import Relation_Operators.
From Verif Require Import Prelude Str Keyword Enums LangTag Container Stack ContextSyntax Ctx Process ProcessRel
  Protected IriSpec Frame Cycles Created PropProcess PropMode.

(** ** Specification *)

(** The same context definition with its terms in another order. *)
Record same_terms (d d' : cdef tdef) : Prop := MkSameTerms {
  st_terms : Permutation (cd_bindings d) (cd_bindings d');
  st_base : cd_base d = cd_base d';
  st_import : cd_import d = cd_import d';
  st_language : cd_language d = cd_language d';
  st_direction : cd_direction d = cd_direction d';
  st_propagate : cd_propagate d = cd_propagate d';
  st_protected : cd_protected d = cd_protected d';
  st_type : cd_type d = cd_type d';
  st_version : cd_version d = cd_version d';
  st_vocab : cd_vocab d = cd_vocab d' }.

(** The same active context up to the order of its definitions. *)
Definition same_context (c c' : actx) : Prop :=
  same_settings c c' /\ ac_type c = ac_type c' /\ forall k, get_normal c k = get_normal c' k.

(** What is asked of the definition [d], processed with URL [b] and options [o] in [a]. *)
Record plain_terms (io : iops) (a : actx) (b : option string) (o : popts) (d : cdef tdef) : Prop := MkPlain {
  pl_import : cd_import d = None;
  pl_keys : NoDup (map fst (cd_bindings d));
  pl_protected : cd_protected d <> Some true;
  pl_override : po_override o = false \/ (forall k q, get_normal a k = Some q -> nd_protected q = false);
  pl_scoped : b = None \/ (forall k v, In (k, v) (cd_bindings d) -> te_context (expanded_of v) = None);
  pl_ignored : forall k v, In (k, v) (cd_bindings d) -> ~ ignored_term (expanded_of v) k;
  pl_type : forall k v x, In (k, v) (cd_bindings d) -> k <> "@type" +++ ":" +++ x }.

(** ** Proof *)
Lemma assoc_in {A} k (l : list (string * A)) v : assoc k l = Some v -> In (k, v) l.
Proof. induction l as [|[k' w] l IH]; cbn; [discriminate|]. destruct (streq_spec k k') as [E|N]; [subst; intros [= <-]; left; reflexivity|right; auto]. Qed.
Lemma assoc_some {A} k (l : list (string * A)) v : NoDup (map fst l) -> In (k, v) l -> assoc k l = Some v.
Proof.
  induction l as [|[k' w] l IH]; cbn; [contradiction|]. intros D [E|I].
  - injection E as -> ->. rewrite streq_refl. reflexivity.
  - inversion D as [|? ? N D']; subst. destruct (streq_spec k k') as [E|Q]; [subst; exfalso; apply N, (in_map fst _ _ I)|auto].
Qed.
Lemma assoc_perm {A} k (l l' : list (string * A)) : NoDup (map fst l) -> Permutation l l' -> assoc k l = assoc k l'.
Proof.
  intros D P. assert (D' : NoDup (map fst l')) by (eapply Permutation_NoDup; [apply Permutation_map, P|exact D]).
  destruct (assoc k l) as [v|] eqn:E.
  - symmetry. apply assoc_some; [exact D'|]. apply (Permutation_in _ P), assoc_in, E.
  - destruct (assoc k l') as [v|] eqn:E'; [|reflexivity]. apply assoc_in, (Permutation_in _ (Permutation_sym P)) in E'.
    rewrite (assoc_some _ _ _ D E') in E. discriminate E.
Qed.

(** *** Expansion looks at the term itself, or at its prefix *)
Definition prefix_of (io : iops) (s p : string) : Prop :=
  exists x, s = p +++ ":" +++ x /\ p <> "" /\ p <> "_" /\ contains_char ":" p = false /\ starts_with "//" x = false /\ iri_ref_ok io s = true /\ blank_ok io s = false.
Lemma compact_prefix io s p x : compact_iri_of io s = Some (p, x) -> colon_inside s = true -> blank_ok io s = false -> prefix_of io s p.
Proof.
  unfold compact_iri_of. intros H C B. destruct (split_once ":" s) as [[p' x']|] eqn:E; [|discriminate].
  destruct (negb (streq p' "_") && negb (starts_with "//" x') && iri_ref_ok io s)%bool eqn:Q; [|discriminate]. injection H as -> ->.
  apply andb_true_iff in Q. destruct Q as [Q Q3]. apply andb_true_iff in Q. destruct Q as [Q1 Q2]. apply negb_true_iff in Q1, Q2.
  apply split_once_sound in E. destruct E as [E N]. exists x. repeat split; auto.
  - intros ->. subst s. discriminate C.
  - intros ->. discriminate Q1.
Qed.
Lemma simple_agree io c1 c2 s dr act : ac_base c1 = ac_base c2 -> ac_vocab c1 = ac_vocab c2 ->
  (is_keyword_like s = false -> get_normal c1 s = get_normal c2 s) ->
  (is_keyword_like s = false -> get_normal c1 s = None -> forall p, prefix_of io s p -> get_normal c1 p = get_normal c2 p) ->
  expand_iri_simple io c1 (NSome (XStr s)) dr (Some act) = expand_iri_simple io c2 (NSome (XStr s)) dr (Some act).
Proof.
  intros B V S P. cbn [expand_iri_simple]. destruct (is_keyword_like s) eqn:K; [reflexivity|]. specialize (S eq_refl). specialize (P eq_refl).
  assert (T : streq s "@type" = false) by (destruct (streq_spec s "@type") as [E|]; [subst; discriminate K|reflexivity]).
  unfold expand_defined, get_value. rewrite T, <- S.
  assert (X : expand_tail io c1 s dr (Some act) = expand_tail io c2 s dr (Some act)) by (unfold expand_tail; rewrite B, V; reflexivity).
  assert (Y : expand_absolute io c1 s dr (Some act) = expand_absolute io c2 s dr (Some act)) by (unfold expand_absolute; rewrite X; reflexivity).
  destruct (get_normal c1 s) as [d|]; cbn [option_map]; [destruct (nd_value d) as [[| |]|]; reflexivity|].
  destruct (colon_inside s) eqn:C; [|exact X]. destruct (blank_ok io s) eqn:Bk; [reflexivity|]. destruct (streq s "_:"); [reflexivity|].
  destruct (compact_iri_of io s) as [[p x]|] eqn:CI; [|exact Y]. unfold expand_prefixed. rewrite <- (P eq_refl p (compact_prefix _ _ _ _ CI C Bk)), Y. reflexivity.
Qed.

Lemma maps_det io ld o c1 c2 x v1 v2 s1 s2 :
  expand_iri_simple io c1 x false (Some (po_vocab o)) = expand_iri_simple io c2 x false (Some (po_vocab o)) ->
  maps_in (setting_of io ld o s1) c1 x v1 -> maps_in (setting_of io ld o s2) c2 x v2 -> v1 = v2.
Proof.
  unfold maps_in. cbn [st_io st_act setting_of]. intros E M1 M2. apply expansion_iff in M1, M2. rewrite E, M2 in M1.
  destruct v1, v2; try discriminate; [injection M1 as ->; reflexivity|reflexivity].
Qed.

Section Both.
Variable io : iops.
Variable ld : loader.
Variable a : actx.
Variable b : option string.
Variable o : popts.
Variable d : cdef tdef.
Variables c1 c2 : actx.
Hypothesis HP : plain_terms io a b o d.
Hypothesis HB : ac_base c1 = ac_base c2.
Hypothesis HV : ac_vocab c1 = ac_vocab c2.
Hypothesis U1 : forall k, assoc k (cd_bindings d) = None -> get_normal c1 k = get_normal a k.
Hypothesis U2 : forall k, assoc k (cd_bindings d) = None -> get_normal c2 k = get_normal a k.
Notation found c := (forall k v, assoc k (cd_bindings d) = Some v -> exists b' p' ov',
  (b' = b /\ p' = (match cd_protected d with Some p => p | None => false end) /\ ov' = po_override o \/ b' = None /\ p' = false /\ ov' = false) /\
  created (setting_of io ld o c) k v b' p' ov' (assoc k (ac_defs a))).
Hypothesis C1 : found c1.
Hypothesis C2 : found c2.
Hypothesis HA : forall k, ~ clos_trans_1n string (depends io a d) k k.
Notation eqk k := (get_normal c1 k = get_normal c2 k).
Notation same_simple x := (expand_iri_simple io c1 x false (Some (po_vocab o)) = expand_iri_simple io c2 x false (Some (po_vocab o))).

Lemma bound_some k v : assoc k (cd_bindings d) = Some v -> get_normal c1 k <> None.
Proof.
  intros E. destruct (C1 _ _ E) as (b' & p' & ov' & _ & [[N _]|(_ & x & Ex & _)]); [exfalso; exact (pl_ignored _ _ _ _ _ HP _ _ (assoc_in _ _ _ E) N)|].
  unfold get_normal. cbn [st_ctx setting_of] in Ex. congruence.
Qed.
Lemma mentions_same s : (forall k, mentions io a d s k -> eqk k) -> same_simple (NSome (XStr s)).
Proof.
  intros H. apply simple_agree; [exact HB|exact HV| |].
  - intros K. apply H. constructor. exact K.
  - intros K N p (x & E & P1 & P2 & P3 & P4 & P5 & P6). subst s.
    assert (A : assoc (p +++ ":" +++ x) (cd_bindings d) = None).
    { destruct (assoc _ (cd_bindings d)) as [v|] eqn:A; [|reflexivity]. destruct (bound_some _ _ A N). }
    apply H. constructor; auto. rewrite <- U1 by exact A. exact N.
Qed.
Lemma str_same s : (forall k, mentions io a d s k -> eqk k) -> same_simple (NSome (xp_of_str s)).
Proof. intros H. unfold xp_of_str. destruct (kw_of_str s); [reflexivity|apply mentions_same, H]. Qed.
Lemma type_same t : (forall s k, t = Some (NSome (TTyTerm s)) -> mentions io a d s k -> eqk k) ->
  forall y y', type_mapped (setting_of io ld o c1) t y -> type_mapped (setting_of io ld o c2) t y' -> y = y'.
Proof.
  intros H. assert (Q : forall t', t = Some t' -> same_simple (match t' with NNull => NNull | NSome t => NSome (xp_of_ttype t) end)).
  { intros [|[k|s]] E; [reflexivity|reflexivity|]. apply mentions_same. intros k. apply H. exact E. }
  intros y y' M1 M2. destruct M1 as [|t' M1|t' x y M1 _ Y]; inversion M2 as [|? M2'|? x' y'' M2' _ Y']; subst; try reflexivity;
    pose proof (maps_det _ _ _ _ _ _ _ _ _ _ (Q _ eq_refl) M1 M2') as E; try discriminate E.
  injection E as <-. f_equal. destruct y, y''; subst; congruence.
Qed.
Lemma written_split k p x p' x' S : written S k p x -> written S k p' x' -> p = p' /\ x = x'.
Proof.
  intros (E & N & _) (E' & N' & _). assert (X := colon_split p x N). rewrite <- E, E', (colon_split p' x' N') in X. injection X as -> ->. auto.
Qed.
Lemma own_same k v t t' : assoc k (cd_bindings d) = Some v -> te_reverse (expanded_of v) = None ->
  (te_id (expanded_of v) = None \/ te_id (expanded_of v) = Some (NSome (TIdTerm k))) ->
  (forall k', depends io a d k k' -> eqk k') ->
  own_mapped (setting_of io ld o c1) k t -> own_mapped (setting_of io ld o c2) k t' -> t = t'.
Proof.
  intros A R I H M1 M2. assert (T : forall S x, ~ written S k "@type" x) by (intros S x (W & _); exact (pl_type _ _ _ _ _ HP _ _ x (assoc_in _ _ _ A) W)).
  assert (D : forall p x, written (setting_of io ld o c1) k p x -> eqk p).
  { intros p x (W1 & W2 & W3 & W4 & W5). apply H. apply (dep_own _ _ _ _ _ v x); auto.
    destruct (starts_with "//" x) eqn:Q; [|reflexivity]. apply starts_with_spec in Q. destruct Q as [y ->]. destruct (W4 y eq_refl). }
  assert (W12 : forall p x, written (setting_of io ld o c2) k p x -> written (setting_of io ld o c1) k p x) by (intros p x W; exact W).
  destruct M1 as [p x q i W E V O|t N O|x t W]; [| |destruct (T _ _ W)]; destruct M2 as [p' x' q' i' W' E' V' O'|t' N' O'|x' t' W']; try (destruct (T _ _ W')); cbn [st_ctx setting_of] in *.
  - apply W12 in W'. destruct (written_split _ _ _ _ _ _ W W') as [-> ->]. pose proof (D _ _ W) as Q. unfold get_normal in Q. assert (q = q') by congruence. subst. reflexivity.
  - exfalso. assert (P : p <> "@type") by (intros ->; exact (T _ _ W)). pose proof (N' p x W P) as Z. pose proof (D _ _ W) as Q. unfold get_normal in Q. congruence.
  - exfalso. apply W12 in W'. assert (P : p' <> "@type") by (intros ->; exact (T _ _ W')). pose proof (N p' x' W' P) as Z. pose proof (D _ _ W') as Q. unfold get_normal in Q. congruence.
  - destruct O as [B|B1 B2 B3|i x0 B1 B2 B3 B4 B5 B6|v0 B1 B2 B3 B4]; inversion O' as [B'|B1' B2' B3'|i' x0' B1' B2' B3' B4' B5' B6'|v0' B1' B2' B3' B4']; subst; cbn [st_ctx st_io setting_of] in *;
      try reflexivity; try congruence; try (destruct B2 as [?|[? ?]]; congruence); try (destruct B2' as [?|[? ?]]; congruence).
    destruct B5 as (X1 & X2 & X3 & X4), B5' as (X1' & X2' & X3' & X4').
    assert (Q : Some (TmId (IIri i)) = Some (TmId (IIri i'))).
    { eapply maps_det; [|exact B6|exact B6']. apply simple_agree; [congruence|congruence|intros _; unfold get_normal; congruence|].
      intros _ _ p (x & E & P1 & P2 & P3 & P4 & P5 & P6). unfold get_normal.
      assert (W : written (setting_of io ld o c1) k p x).
      { split; [exact E|]. split; [exact P3|]. split; [exact P2|]. split; [|exact P5]. intros y ->. assert (Z : starts_with "//" ("//" +++ y) = true) by (apply starts_with_spec; exists y; reflexivity). congruence. }
      assert (P : p <> "@type") by (intros ->; exact (T _ _ W)).
      assert (NK : p <> k). { intros ->. rewrite E in P3 at 1. rewrite contains_char_app in P3. cbn in P3. rewrite orb_true_r in P3. discriminate P3. }
      rewrite X4, X4' by exact NK. rewrite (N _ _ W P). symmetry. exact (N' _ _ W P). }
    congruence.
Qed.
Lemma bool_iff (x y : bool) (P : Prop) : (x = true <-> P) -> (y = true <-> P) -> x = y.
Proof. intros X Y. destruct x, y; try reflexivity; [symmetry; apply Y, X|apply X, Y]; reflexivity. Qed.
Lemma id_same k v t t' : assoc k (cd_bindings d) = Some v -> te_reverse (expanded_of v) = None -> (forall k', depends io a d k k' -> eqk k') ->
  id_mapped (setting_of io ld o c1) k (te_id (expanded_of v)) t -> id_mapped (setting_of io ld o c2) k (te_id (expanded_of v)) t' -> t = t'.
Proof.
  intros A R H M1 M2. destruct (te_id (expanded_of v)) as [[|i]|] eqn:I.
  - inversion M1 as [| |? ? [X|X]]; [|discriminate|discriminate]. inversion M2 as [| |? ? [X|X]]; [reflexivity|discriminate|discriminate].
  - inversion M1 as [|? ? N M _ _ _|? u1 X M]; subst.
    + inversion M2 as [|? ? N' M' _ _ _|? u2 [X|X] M']; subst; [|discriminate X|congruence]. eapply maps_det; [|exact M|exact M'].
      destruct i as [w|s]; [reflexivity|]. cbn [xp_of_tid]. apply mentions_same. intros k' Q. apply H. eapply dep_id; try eassumption. congruence.
    + destruct X as [X|X]; [discriminate X|]. injection X as ->. inversion M2 as [|? ? N' _ _ _ _|? u2 _ M']; subst; [congruence|]. f_equal.
      eapply own_same; eauto.
  - inversion M1 as [| |? u1 _ M]; subst. inversion M2 as [| |? u2 _ M']; subst. f_equal. eapply own_same; eauto.
Qed.
Lemma term_same k v : assoc k (cd_bindings d) = Some v -> (forall k', depends io a d k k' -> eqk k') -> eqk k.
Proof.
  intros A H. pose proof (assoc_in _ _ _ A) as IN. pose proof (pl_ignored _ _ _ _ _ HP _ _ IN) as NI.
  destruct (C1 _ _ A) as (b1 & p1 & v1 & F1 & X1), (C2 _ _ A) as (b2 & p2 & v2 & F2 & X2). cbv zeta in X1, X2.
  destruct X1 as [[N _]|(_ & d1 & E1 & X1)]; [destruct (NI N)|]. destruct X2 as [[N _]|(_ & d2 & E2 & X2)]; [destruct (NI N)|].
  cbn [st_ctx setting_of] in E1, E2. unfold get_normal. rewrite E1, E2. f_equal. clear E1 E2.
  assert (PF : match cd_protected d with Some p => p | None => false end = false).
  { pose proof (pl_protected _ _ _ _ _ HP) as Q. destruct (cd_protected d) as [[|]|]; congruence. }
  assert (PP : p1 = p2) by (destruct F1 as [(_ & ? & _)|(_ & ? & _)], F2 as [(_ & ? & _)|(_ & ? & _)]; congruence).
  subst p2.
  assert (T : forall s k', te_type (expanded_of v) = Some (NSome (TTyTerm s)) -> mentions io a d s k' -> eqk k') by (intros s k' E M; apply H; eapply dep_type; eassumption).
  destruct (te_reverse (expanded_of v)) as [rev|] eqn:R.
  - destruct X1 as [_ _ (i & V & _ & M) Ty Co [Pr _] (O1 & O2 & O3 & O4 & O5 & O6 & O7 & O8)], X2 as [_ _ (i' & V' & _ & M') Ty' Co' [Pr' _] (O1' & O2' & O3' & O4' & O5' & O6' & O7' & O8')].
    assert (EV : Some (TmId i) = Some (TmId i')). { eapply maps_det; [|exact M|exact M']. apply str_same. intros k' Q. apply H. eapply dep_reverse; eassumption. }
    pose proof (type_same _ T _ _ Ty Ty') as ET.
    assert (EC : nd_container d1 = nd_container d2). { destruct (te_container (expanded_of v)) as [[|x]|]; [congruence| |congruence]. destruct Co, Co'. congruence. }
    destruct d1, d2; cbn in *. f_equal; congruence.
  - destruct X1 as [Va (ty & Ty & Tc) Re Co _ [Ix _] (Cx & Bu & _ & _) La Di [Ne _] Pf _ [Pr _]], X2 as [Va' (ty' & Ty' & Tc') Re' Co' _ [Ix' _] (Cx' & Bu' & _ & _) La' Di' [Ne' _] Pf' _ [Pr' _]].
    pose proof (type_same _ T _ _ Ty Ty') as ET. subst ty'. pose proof (id_same _ _ _ _ A R H Va Va') as EV.
    assert (EC : nd_container d1 = nd_container d2) by (destruct (te_container (expanded_of v)); congruence).
    assert (EB : nd_base_url d1 = nd_base_url d2).
    { rewrite Bu, Bu'. destruct (pl_scoped _ _ _ _ _ HP) as [->|S]; [|rewrite (S _ _ IN); reflexivity].
      destruct F1 as [(-> & _)|(-> & _)], F2 as [(-> & _)|(-> & _)]; reflexivity. }
    assert (EP : nd_protected d1 = nd_protected d2).
    { rewrite Pr, Pr'. f_equal. destruct (pl_override _ _ _ _ _ HP) as [Q|Q].
      - destruct F1 as [(_ & _ & ->)|(_ & _ & ->)], F2 as [(_ & _ & ->)|(_ & _ & ->)]; rewrite ?Q; reflexivity.
      - destruct (assoc k (ac_defs a)) as [q|] eqn:Aq; [rewrite (Q k q Aq)|]; rewrite !andb_false_r; reflexivity. }
    assert (Et : nd_typ d1 = nd_typ d2).
    { rewrite <- EC in Tc'. destruct Tc as [[-> Q]|(-> & Q & ->)], Tc' as [[-> Q']|(E & Q' & ->)]; try reflexivity.
      - destruct (Q Q'); congruence.
      - destruct (Q' Q); congruence. }
    assert (EX : nd_prefix d1 = nd_prefix d2).
    { destruct (te_prefix (expanded_of v)) as [q|]; [destruct Pf as (_ & _ & _ & -> & _), Pf' as (_ & _ & _ & -> & _); reflexivity|]. rewrite EV in Pf. exact (bool_iff _ _ _ Pf Pf'). }
    destruct d1, d2; cbn in *. f_equal; congruence.
Qed.

(** *** Along the dependencies *)
Lemma depends_bound k k' : depends io a d k k' -> exists v, assoc k (cd_bindings d) = Some v.
Proof. intros []; eauto. Qed.
Lemma all_same_upto n : forall seen k, NoDup seen -> (forall x, In x seen -> In x (map fst (cd_bindings d)) /\ clos_trans_1n string (depends io a d) x k) ->
  length (cd_bindings d) <= n + length seen -> eqk k.
Proof.
  induction n as [|n IH]; intros seen k D S L; destruct (assoc k (cd_bindings d)) as [v|] eqn:A; try (rewrite U1, U2 by exact A; reflexivity).
  - exfalso. apply assoc_in, (in_map fst) in A. cbn in A. assert (N : ~ In k seen) by (intros I; exact (HA k (proj2 (S k I)))).
    assert (D' : NoDup (k :: seen)) by (constructor; assumption).
    assert (LE : length (k :: seen) <= length (map fst (cd_bindings d))). { apply NoDup_incl_length; [exact D'|]. intros x [<-|I]; [exact A|apply S, I]. }
    rewrite map_length in LE. cbn in LE, L. lia.
  - apply (term_same k v A). intros k' Q. apply (IH (k :: seen)).
    + constructor; [|exact D]. intros I. exact (HA k (proj2 (S k I))).
    + intros x [<-|I]; [split; [apply assoc_in, (in_map fst) in A; exact A|constructor; exact Q]|]. destruct (S x I) as [B T]. split; [exact B|].
      clear - T Q. induction T as [x y E|x y z E _ IHT]; [econstructor 2; [exact E|constructor; exact Q]|econstructor 2; [exact E|auto]].
    + cbn. lia.
Qed.
Lemma all_same k : eqk k.
Proof. apply (all_same_upto (length (cd_bindings d)) []); [constructor|contradiction|cbn; lia]. Qed.
End Both.

(** *** Before the terms *)
Definition before (io : iops) (a : actx) (d : cdef tdef) (rs : pstack) (o : popts) : result (actx * popts) cerr :=
  do o <- propagate_of (LOne (CEDef d)) o ;
  let c := if negb (po_propagate o) && match ac_prev a with None => true | Some _ => false end then set_previous a a else a in
  if match cd_version d with Some _ => is_10 o | None => false end then Err EProcessingModeConflict
  else
    let m := MkMerged d None in
    do c <- process_base io c m rs ;
    do c <- process_vocab io c m o ;
    do c <- Process.process_direction (Process.process_language c m) m o ;
    Ok (c, o).
Lemma before_same io a d d' rs o : same_terms d d' -> before io a d rs o = before io a d' rs o.
Proof.
  intros [_ E1 E2 E3 E4 E5 E6 E7 E8 E9]. unfold before, propagate_of, process_base, process_vocab, Process.process_language, Process.process_direction, m_field. cbn [m_base m_imported].
  rewrite E1, E3, E4, E5, E8, E9. reflexivity.
Qed.
Lemma before_ok io ld n a d rs b o c' : cd_import d = None -> process_context io ld n a (LOne (CEDef d)) rs b o = Ok c' ->
  exists n' c o', before io a d rs o = Ok (c, o') /\ define_all (engine io ld n') c (MkMerged d None) rs b o' = Ok c'.
Proof.
  intros HI H. unfold process_context in H. destruct n as [|n]; [discriminate|]. cbn [engine e_process] in H. unfold process_body in H. unfold before.
  apply bind_ok in H. destruct H as (o' & EO & H). rewrite EO. cbn [bind]. cbn [entries_of process_entries] in H.
  apply bind_ok in H. destruct H as ([x r1] & E & H). injection H as <-. apply bind_ok in E. destruct E as (c2 & E & H). injection H as -> _. unfold process_def in E.
  destruct (match cd_version d with Some _ => _ | None => _ end); [discriminate|]. unfold import_of in E. rewrite HI in E. cbn [bind] in E. unfold process_merged in E.
  apply bind_ok in E. destruct E as (c3 & E1 & E). apply bind_ok in E. destruct E as (c4 & E2 & E). apply bind_ok in E. destruct E as (c5 & E3 & E).
  rewrite E1. cbn [bind]. rewrite E2. cbn [bind]. rewrite E3. cbn [bind]. eauto.
Qed.
Lemma before_defs io a d rs o c o' : before io a d rs o = Ok (c, o') -> ac_defs c = ac_defs a.
Proof.
  unfold before. intros H. apply bind_ok in H. destruct H as (o1 & EO & H). cbv zeta in H. set (c0 := if (negb (po_propagate o1) && _)%bool then _ else a) in H.
  assert (D0 : ac_defs c0 = ac_defs a) by (unfold c0; destruct (_ && _)%bool; reflexivity). clearbody c0.
  destruct (match cd_version d with Some _ => _ | None => _ end); [discriminate|]. apply bind_ok in H. destruct H as (c3 & E1 & H). apply bind_ok in H. destruct H as (c4 & E2 & H).
  apply bind_ok in H. destruct H as (c5 & E3 & H). injection H as <- <-. apply base_defs in E1. apply vocab_defs in E2. apply direction_defs in E3. intuition congruence.
Qed.
Lemma plain_same io a b o d d' : same_terms d d' -> plain_terms io a b o d -> plain_terms io a b o d'.
Proof.
  intros S [P1 P2 P3 P4 P5 P6 P7]. pose proof (st_terms _ _ S) as P. assert (I : forall e, In e (cd_bindings d') -> In e (cd_bindings d)) by (intros e; apply Permutation_in, Permutation_sym, P).
  constructor; auto.
  - rewrite <- (st_import _ _ S). exact P1.
  - exact (Permutation_NoDup (Permutation_map fst P) P2).
  - rewrite <- (st_protected _ _ S). exact P3.
  - destruct P5 as [P5|P5]; [left; exact P5|right; intros k v J; exact (P5 _ _ (I _ J))].
  - intros k v x J. exact (P7 _ _ x (I _ J)).
Qed.

Theorem order_same io ld n n' a d d' rs b o c c' : same_terms d d' -> plain_terms io a b o d ->
  process_context io ld n a (LOne (CEDef d)) rs b o = Ok c -> process_context io ld n' a (LOne (CEDef d')) rs b o = Ok c' -> same_context c c'.
Proof.
  intros S P H H'. pose proof (plain_same _ _ _ _ _ _ S P) as P'. pose proof (pl_import _ _ _ _ _ P) as HI. pose proof (pl_import _ _ _ _ _ P') as HI'.
  destruct (before_ok _ _ _ _ _ _ _ _ _ HI H) as (m & x & o1 & B & E). destruct (before_ok _ _ _ _ _ _ _ _ _ HI' H') as (m' & x' & o1' & B' & E').
  rewrite <- (before_same _ _ _ _ _ _ S), B in B'. injection B' as <- <-. apply before_defs in B.
  pose proof (define_all_settings _ _ _ _ _ _ _ _ _ E) as T. pose proof (define_all_settings _ _ _ _ _ _ _ _ _ E') as T'.
  pose proof (assoc_perm (A := nullable tdef)) as AP.
  assert (A : forall k, assoc k (cd_bindings d) = assoc k (cd_bindings d')) by (intros k; apply AP; [exact (pl_keys _ _ _ _ _ P)|exact (st_terms _ _ S)]).
  assert (SS : same_settings c c') by (unfold same_settings in *; intuition congruence).
  split; [exact SS|]. split.
  - rewrite (C48_type _ _ _ _ _ _ _ _ _ HI H), (C48_type _ _ _ _ _ _ _ _ _ HI' H'), (st_type _ _ S). reflexivity.
  - apply (all_same io ld a b o d c c' P); unfold same_settings in SS; try tauto.
    + intros k N. unfold get_normal. rewrite <- B. eapply define_all_untouched; [|exact E]. unfold m_get, def_get. cbn [m_base m_imported or_else]. rewrite N. reflexivity.
    + intros k N. unfold get_normal. rewrite <- B. eapply define_all_untouched; [|exact E']. unfold m_get, def_get. cbn [m_base m_imported or_else]. rewrite <- A, N. reflexivity.
    + intros k v K. exact (process_def_created _ _ _ _ _ _ _ _ _ _ _ H HI K).
    + intros k v K. rewrite A in K. rewrite (st_protected _ _ S). exact (process_def_created _ _ _ _ _ _ _ _ _ _ _ H' HI' K).
    + intros k K. refine (C10_cycle_never_succeeds io ld n a (LOne (CEDef d)) d [] rs b o c k eq_refl HI K H).
Qed.

(** Reading back compacted keywords and values. *)
From Verif Require Import Prelude Json Str Keyword Enums LangTag LangString Container Stack ContextSyntax Ctx Inverse Process
  ProcessRel Cycles IriSpec Object ObjectJson ObjectEq AddValue CompactIri CompactIriProofs CompactIriRead Expand ExpandValue Compact.

(** The keyword [k] is not disturbed by the context [c]: its aliases do not look like keywords,
    and neither the vocabulary mapping nor a prefix begins it. *)
Record plain_keyword (c : actx) (k : keyword) : Prop := {
  pk_terms : forall t d, assoc t (ac_defs c) = Some d -> nd_value d = Some (TmKw k) -> is_keyword_like t = false;
  pk_vocab : forall m x, ac_vocab c = Some m -> kw_str k = term_str m +++ x -> x = "" \/ x = kw_str k;
  pk_prefix : forall p d t x, assoc p (ac_defs c) = Some d -> nd_prefix d = true -> nd_value d = Some t ->
    kw_str k = term_str t +++ x -> x = ""
}.

(** ** Keywords *)
Lemma kw_like k : is_keyword_like (kw_str k) = true.
Proof. destruct k; reflexivity. Qed.
Lemma read_kw_str io c k dr vo : expand_iri_simple io c (NSome (xp_of_str (kw_str k))) dr vo = Ok (Some (TmKw k)).
Proof. destruct k; reflexivity. Qed.
Lemma read_keyword io rel c m kw k dr a : NoDup (map fst (ac_defs c)) -> plain_keyword c kw -> kw <> KContext ->
  compact_iri rel c m (TmKw kw) true false = Ok (Some k) ->
  expand_iri_simple io c (NSome (xp_of_str k)) dr (Some a) = Ok (Some (TmKw kw)) /\ k <> "@context".
Proof.
  intros HN P NC H. unfold compact_iri in H. apply body_selected in H. destruct H as (_ & [(_ & cs & q & H)|[(_ & H)|(_ & H)]]).
  - apply select_spec in H. destruct H as (cs1 & cn & cs2 & qs1 & q' & qs2 & _ & _ & _ & _ & (d & H1 & H2 & _) & _).
    pose proof (assoc_In_nodup _ _ _ HN H1) as A. pose proof (pk_terms _ _ P _ _ A H2) as K. split.
    + apply expansion_expand; [exact K|]. apply ex_term; [exact K|]. eapply bt_term; [discriminate|exact A|exact H2].
    + intros ->. discriminate K.
  - unfold by_vocab in H. destruct (ac_vocab c) as [v|] eqn:V; [|discriminate].
    destruct (strip_prefix (term_str v) (term_str (TmKw kw))) as [x|] eqn:E; [|discriminate].
    apply strip_prefix_spec in E. cbn [term_str] in E. destruct (pk_vocab _ _ P _ _ V E) as [X|X]; subst x; [discriminate H|].
    destruct (negb _ && negb _); [|discriminate]. injection H as <-. split; [apply read_kw_str|]. destruct kw; (discriminate || congruence).
  - apply tail_cases in H. destruct H as [[H _]|[_ H]].
    + destruct H as (p & d & t & x & I & Q & V & E & N & -> & F). apply (assoc_In_nodup _ _ _ HN) in I. cbn [term_str] in E.
      destruct N. exact (pk_prefix _ _ P _ _ _ _ I Q V E).
    + cbn in H. subst k. split; [apply read_kw_str|]. destruct kw; (discriminate || congruence).
Qed.

Lemma insert_fresh k v m : ~ In k (keys m) -> insert k v m = m ++ [(k, v)].
Proof.
  induction m as [|[k' v'] m IH]; [reflexivity|]. cbn. intros H. destruct (streq_spec k' k) as [->|_]; [tauto|].
  rewrite IH; [reflexivity|tauto].
Qed.

Section Values.
Variables (io : iops) (ld : loader) (fin rnd : list word -> N) (pf : nat) (o : xopts) (base : option string).
Variables (rel : string -> string -> string) (co : copts) (c : actx).
Hypothesis LW : iri_laws io.
Hypothesis HN : NoDup (map fst (ac_defs c)).
Hypothesis VK : xo_vocab o = AKeep.
Local Arguments expand_iri_simple : simpl never.
Notation xkey := (xkey io o).
Notation kkey := (kkey rel co).
Notation put := (put rel co).

Definition reads (k : string) (kw : keyword) : Prop :=
  (forall dr, expand_iri_simple io c (NSome (xp_of_str k)) dr (Some AKeep) = Ok (Some (TmKw kw))) /\ k <> "@context".
Lemma reads_fun k kw kw' : reads k kw -> reads k kw' -> kw = kw'.
Proof. intros [H _] [H' _]. specialize (H true). specialize (H' true). congruence. Qed.
Lemma reads_key k kw : reads k kw -> xkey c k = Ok (Some (TmKw kw)).
Proof. intros [H _]. unfold Expand.xkey, xiri. rewrite VK, H. reflexivity. Qed.
Lemma kiri_ok t v r : kiri rel co c t v = Ok r -> compact_iri rel c (co_mode co) t v false = Ok r.
Proof. unfold kiri. destruct (compact_iri _ _ _ _ _ _) as [x|[]]; congruence. Qed.
Lemma kkey_reads kw k : plain_keyword c kw -> kw <> KContext -> kkey c kw = Ok k -> reads k kw.
Proof.
  intros P N. unfold Compact.kkey, kunwrap. destruct (kiri rel co c (TmKw kw) true) as [[x|]|] eqn:E; cbn; try discriminate.
  intro H. injection H as <-. apply kiri_ok in E. split; [intro dr; exact (proj1 (read_keyword io rel c _ _ _ dr AKeep HN P N E))|exact (proj2 (read_keyword io rel c _ _ _ true AKeep HN P N E))].
Qed.

(** The object [m] has the given entries, under keys that are read as the keywords. *)
Definition obj_reads (m : jobject) (es : list (keyword * json)) : Prop :=
  Forall2 (fun e x => reads (fst e) (fst x) /\ snd e = snd x) m es.
Lemma obj_reads_key m es k : obj_reads m es -> In k (keys m) -> exists kw, In kw (map fst es) /\ reads k kw.
Proof.
  induction 1 as [|[k' v'] [kw x] m es [R _] F IH]; [intros []|]. cbn. intros [<-|I]; [eauto|]. destruct (IH I) as (kw' & I' & R'). eauto.
Qed.
Lemma obj_reads_insert m es k kw v : obj_reads m es -> reads k kw -> ~ In kw (map fst es) -> obj_reads (insert k v m) (es ++ [(kw, v)]).
Proof.
  intros H R N. rewrite insert_fresh.
  - apply Forall2_app; [exact H|]. constructor; [split; [exact R|reflexivity]|constructor].
  - intros I. destruct (obj_reads_key _ _ _ H I) as (kw' & I' & R'). apply N. rewrite (reads_fun _ _ _ R R'). exact I'.
Qed.
Lemma put_reads m m' es kw v : obj_reads m es -> plain_keyword c kw -> kw <> KContext -> ~ In kw (map fst es) ->
  put c kw v m = Ok m' -> obj_reads m' (es ++ [(kw, v)]).
Proof.
  intros H P N I. unfold Compact.put. destruct (kkey c kw) as [k|] eqn:E; cbn; [|discriminate]. intro X. injection X as <-.
  apply obj_reads_insert; auto. eapply kkey_reads; eassumption.
Qed.

(** *** Expansion of such an object *)
Definition as_entries (m : jobject) (es : list (keyword * json)) : list xentry :=
  map (fun p => (fst (fst p), TmKw (fst (snd p)), snd (fst p))) (combine m es).
Lemma entries_reads m es : obj_reads m es -> expand_entries io o c m = Ok (as_entries m es).
Proof.
  unfold expand_entries, as_entries. induction 1 as [|[k v] [kw x] m es [R E] F IH]; [reflexivity|]. cbn [flat_r combine map fst snd].
  rewrite (reads_key k _ R). cbn [bind]. rewrite IH. reflexivity.
Qed.
Lemma preliminary_reads m es : obj_reads m es -> In KValue (map fst es) -> exists b, preliminary io o c m = Ok (true, b).
Proof.
  intros H I. unfold preliminary. assert (G : forall s, fst s = true \/ In KValue (map fst es) ->
    exists b, fold_r (fun s e => do t <- xkey c (fst e) ; Ok (match t with Some (TmKw KValue) => (true, snd s) | Some (TmKw KId) => (fst s, true) | _ => s end)) s m = Ok (true, b)).
  { clear I. induction H as [|[k v] [kw x] m es [R E] F IH]; intros s I.
    - destruct I as [I|[]]. exists (snd s). cbn. destruct s; cbn in *; subst. reflexivity.
    - cbn [fold_r fst]. rewrite (reads_key k _ R). cbn [bind]. apply IH. cbn in I. destruct I as [I|[->|I]].
      + left. destruct kw; cbn; auto.
      + left. reflexivity.
      + right. exact I. }
  apply (G (false, false)). right. exact I.
Qed.
Lemma no_context m es : obj_reads m es -> get_unique "@context" m = Ok None.
Proof.
  intros H. assert (N : get_all "@context" m = []).
  { apply get_all_nil. intros I. destruct (obj_reads_key _ _ _ H I) as (kw & _ & R). apply R. reflexivity. }
  unfold get_unique. rewrite N. reflexivity.
Qed.
Lemma type_entries_reads m es : obj_reads m es ->
  type_entries io o c m = Ok (sort_key fst (flat_map (fun p => match fst (snd p) with KType => [fst p] | _ => [] end) (combine m es))).
Proof.
  intros H. unfold type_entries.
  assert (G : flat_r (fun e => do t <- xkey c (fst e) ; Ok (match t with Some (TmKw KType) => [e] | _ => [] end)) m
              = Ok (flat_map (fun p => match fst (snd p) with KType => [fst p] | _ => [] end) (combine m es))).
  { induction H as [|[k v] [kw x] m es [R E] F IH]; [reflexivity|]. cbn [flat_r combine flat_map fst snd].
    rewrite (reads_key k _ R). cbn [bind]. rewrite IH. destruct kw; reflexivity. }
  rewrite G. reflexivity.
Qed.
Lemma last_reads k m es : obj_reads m es -> ~ In k (map fst es) -> last_entry k (as_entries m es) = None.
Proof.
  unfold last_entry, as_entries. intros H. generalize (None : option json) as a.
  induction H as [|[k' v] [kw x] m es [R E] F IH]; intros a N; [reflexivity|]. cbn [combine map fold_left fst snd]. cbn in N.
  assert (Q : keyword_eqb kw k = false) by (destruct (keyword_eqb_spec kw k) as [->|_]; [tauto|reflexivity]).
  rewrite Q. apply IH. tauto.
Qed.

Variable ap : option string.
Hypothesis NC : forall d, prop_def c ap = Some d -> nd_context d = None.
Variable rec : actx -> option string -> json -> bool -> result expanded xerr.

Lemma context_reads m es fm : obj_reads m es -> In KValue (map fst es) -> element_context io ld pf o base c ap m fm = Ok c.
Proof.
  intros H I. unfold element_context. destruct (preliminary_reads m es H I) as (b & ->). cbn [bind].
  assert (E : (match ac_prev c with Some p => if negb fm && negb true && negb (Nat.eqb (length m) 1 && b) then p else c | None => c end) = c).
  { destruct (ac_prev c); [|reflexivity]. rewrite andb_false_r. reflexivity. }
  rewrite E. rewrite (no_context _ _ H). cbn [map_err bind]. destruct (prop_def c ap) as [d|] eqn:D; [|reflexivity].
  rewrite (NC _ eq_refl). reflexivity.
Qed.

(** The keys play no further role. *)
Definition canon (es : list (keyword * json)) : list xentry := map (fun e => ("", TmKw (fst e), snd e)) es.
Lemma canon_last k m es : obj_reads m es -> last_entry k (as_entries m es) = last_entry k (canon es).
Proof.
  unfold last_entry, as_entries, canon. intros H. generalize (None : option json) as a.
  induction H as [|[k' v] [kw x] m es [R E] F IH]; intros a; [reflexivity|]. cbn [combine map fold_left fst snd] in *. subst v. apply IH.
Qed.
Lemma canon_value it m es v : obj_reads m es -> expand_value io o it c (as_entries m es) v = expand_value io o it c (canon es) v.
Proof.
  intros H. assert (G : forall s, fold_r (value_step io o c) s (as_entries m es) = fold_r (value_step io o c) s (canon es)).
  { unfold as_entries, canon. induction H as [|[k' x'] [kw x] m es [R E] F IH]; intros s; [reflexivity|]. cbn [combine map fold_r fst snd] in *. subst x'.
    change (value_step io o c s (k', TmKw kw, x)) with (value_step io o c s ("", TmKw kw, x)).
    destruct (value_step io o c s ("", TmKw kw, x)); [apply IH|reflexivity]. }
  unfold expand_value. rewrite G. reflexivity.
Qed.

(** Without type. *)
Lemma expand_untyped m es fm n v : obj_reads m es -> In KValue (map fst es) -> ~ In KType (map fst es) ->
  ~ In KList (map fst es) -> ~ In KSet (map fst es) -> last_entry KValue (as_entries m es) = Some v ->
  expand_map io ld fin rnd pf o base rec n c ap m fm =
  do r <- map_err XValue (expand_value io o None c (as_entries m es) v) ; Ok (match r with Some x => XObj x | None => XNull end).
Proof.
  intros H I NT NL NS L. unfold expand_map. rewrite (context_reads _ _ _ H I). cbn [bind]. rewrite (type_entries_reads _ _ H). cbn [bind].
  assert (E : flat_map (fun p : string * json * (keyword * json) => match fst (snd p) with KType => [fst p] | _ => [] end) (combine m es) = []).
  { clear - NT. revert es NT. induction m as [|e m IH]; intros [|[kw x] es] NT; try reflexivity. cbn in *. rewrite IH by tauto. destruct kw; try reflexivity. tauto. }
  rewrite E. cbn [sort_key fold_right type_scoped fold_r bind input_type]. rewrite (entries_reads _ _ H). cbn [bind].
  rewrite (last_reads KList _ _ H NL), (last_reads KSet _ _ H NS), L.
  destruct (is_some ap && negb (ap_is ap KGraph)); reflexivity.
Qed.
(** With a type. *)
Lemma expand_typed m1 m2 es1 es2 kt s it fm n v :
  let m := m1 ++ (kt, JStr s) :: m2 in let es := es1 ++ (KType, JStr s) :: es2 in
  obj_reads m1 es1 -> obj_reads m2 es2 -> reads kt KType -> In KValue (map fst es1) -> ~ In KType (map fst es1) -> ~ In KType (map fst es2) ->
  ~ In KList (map fst es) -> ~ In KSet (map fst es) -> last_entry KValue (as_entries m es) = Some v ->
  (forall d, assoc s (ac_defs c) = Some d -> nd_context d = None) ->
  xkey c s = Ok it ->
  expand_map io ld fin rnd pf o base rec n c ap m fm =
  do r <- map_err XValue (expand_value io o it c (as_entries m es) v) ; Ok (match r with Some x => XObj x | None => XNull end).
Proof.
  intros m es H1 H2 R I N1 N2 NL NS L NX X. assert (H : obj_reads m es) by (apply Forall2_app; [exact H1|constructor; [split; [exact R|reflexivity]|exact H2]]).
  assert (I' : In KValue (map fst es)) by (unfold es; rewrite map_app; apply in_or_app; auto).
  unfold expand_map. rewrite (context_reads _ _ _ H I'). cbn [bind]. rewrite (type_entries_reads _ _ H). cbn [bind].
  assert (E : flat_map (fun p : string * json * (keyword * json) => match fst (snd p) with KType => [fst p] | _ => [] end) (combine m es) = [(kt, JStr s)]).
  { unfold m, es. clear - N1 N2 H1. assert (Z : forall m es, ~ In KType (map fst es) ->
      flat_map (fun p : string * json * (keyword * json) => match fst (snd p) with KType => [fst p] | _ => [] end) (combine m es) = []).
    { induction m as [|e m IH]; intros [|[kw x] es] NT; try reflexivity. cbn in *. rewrite IH by tauto. destruct kw; try reflexivity. tauto. }
    revert N1. induction H1 as [|[k0 v0] [kw x] m es _ F IH]; intros N1.
    - cbn. rewrite Z by exact N2. reflexivity.
    - cbn in *. rewrite IH by tauto. destruct kw; try reflexivity. tauto. }
  rewrite E. cbn [sort_key fold_right Expand.insert_sorted bind].
  assert (T : type_scoped io ld pf o c [(kt, JStr s)] = Ok c).
  { unfold type_scoped. cbn [fold_r force_array snd flat_map as_str sort_key fold_right Expand.insert_sorted app bind].
    unfold prop_def, get_normal. destruct (streq_spec s "@type") as [_|_]; [reflexivity|]. destruct (assoc s (ac_defs c)) as [d|] eqn:D; [|reflexivity].
    rewrite (NX _ eq_refl). reflexivity. }
  rewrite T. cbn [bind input_type force_array rev app]. rewrite X. cbn [bind]. rewrite (entries_reads _ _ H). cbn [bind].
  rewrite (last_reads KList _ _ H NL), (last_reads KSet _ _ H NS), L.
  destruct (is_some ap && negb (ap_is ap KGraph)); reflexivity.
Qed.
End Values.

Lemma compact_is_full rel c m t v : compact_iri rel c m t v false = compact_iri_full rel c m t None v false.
Proof. reflexivity. Qed.
Lemma compact_some rel c m i v : i <> TmNull -> compact_iri rel c m i v false <> Ok None.
Proof.
  unfold compact_iri, compact_body, compact_tail. intros NN H. destruct i as [|i|kw]; [congruence| |].
  all:
  destruct (if v then _ else _) as [[k|]|]; cbn [bind] in H; try discriminate.
  all: destruct (if v then by_vocab _ _ else None); try discriminate.
  all: destruct (negb _); try discriminate. all: destruct (term_as_iri _); try discriminate.
  all: destruct (is_some _); try discriminate. all: destruct (if v then _ else _); discriminate.
Qed.

(** ** Specification of the round trip *)
Definition keywords : list keyword := [KValue; KType; KLanguage; KDirection; KIndex; KJson].
(** The index is kept elsewhere, or there is none. *)
Definition elsewhere (d : option ndef) (index : option string) : Prop :=
  index = None \/ exists d', d = Some d' /\ In CKIndex (as_slice (nd_container d')).
(** The string is given the language and the direction of the value by the context. *)
Definition fits (l l' : option string) : Prop := l' = None \/ both same_lang l l'.
Definition fits_dir (d d' : option direction) : Prop := d' = None \/ d = d'.

(** What is asked of a value, for a property with the definition [d]:
    - it is not null, and its datatype is read back and has no local context;
    - a tagged string has a language or a direction, and its language is not [@none];
    - if a tagged string loses its tags, the context has no default for a missing one, and the
      property has no datatype;
    - only JSON literals are given to a property of type [@json]. *)
Record keepable (io : iops) (c : actx) (d : option ndef) (index : option string) (v : value) : Prop := {
  kp_null : forall t, v <> VLit LNull t;
  kp_type : forall l s, v = VLit l (Some s) -> iri_ok io s = true /\ undisturbed io c s /\
    forall t d, assoc t (ac_defs c) = Some d -> nd_value d = Some (TmId (IIri s)) -> nd_context d = None;
  kp_tagged : forall s, v = VLang s -> tagged s /\ ls_language s <> Some "@none";
  kp_fits : forall s, v = VLang s -> elsewhere d index -> fits (lang_for c d) (ls_language s) -> fits_dir (dir_for c d) (ls_direction s) ->
    (ls_language s = None -> lang_for c d = None) /\ (ls_direction s = None -> dir_for c d = None) /\
    (mapped_type d = None \/ mapped_type d = Some TyNone);
  kp_json : mapped_type d = Some TyJson -> (exists j, v = VJson j) /\ elsewhere d index;
  kp_json_type : forall j, v = VJson j -> forall t d, assoc t (ac_defs c) = Some d ->
    t = "@json" \/ nd_value d = Some (TmKw KJson) -> nd_context d = None
}.

Lemma expand_assoc io c s dr a t d : expand_iri_simple io c (NSome (xp_of_str s)) dr (Some a) = Ok (Some t) -> t <> TmNull ->
  assoc s (ac_defs c) = Some d -> nd_value d = Some t \/ exists kw, t = TmKw kw /\ s = kw_str kw.
Proof.
  intros H N A. unfold xp_of_str in H. destruct (kw_of_str s) as [kw|] eqn:K.
  - right. exists kw. unfold expand_iri_simple in H. split; [congruence|]. apply kw_of_str_sound, K.
  - assert (E : expansion io c dr (Some a) (NSome (XStr s)) (OTerm t)) by (apply expansion_iff; rewrite H; reflexivity).
    inversion E as [| |s' K' |s' t' K' B|s' K' B|B|s' i K' B|s' K' B|s' r K' B]; subst; try congruence.
    + inversion B; subst; try congruence; left; congruence.
    + destruct (nd_value d) as [t'|] eqn:V; exfalso; eapply B; [eapply bt_term|eapply bt_null]; try eassumption; discriminate.
    + destruct (nd_value d) as [t'|] eqn:V; exfalso; eapply B; [eapply bt_term|eapply bt_null]; try eassumption; discriminate.
    + destruct (nd_value d) as [t'|] eqn:V; exfalso; eapply B; [eapply bt_term|eapply bt_null]; try eassumption; discriminate.
    + destruct (nd_value d) as [t'|] eqn:V; exfalso; eapply B; [eapply bt_term|eapply bt_null]; try eassumption; discriminate.
    + destruct (nd_value d) as [t'|] eqn:V; exfalso; eapply B; [eapply bt_term|eapply bt_null]; try eassumption; discriminate.
Qed.

Section Trip.
Variables (io : iops) (ld : loader) (fin rnd : list word -> N) (pf : nat) (o : xopts) (base : option string).
Variables (rel : string -> string -> string) (co : copts) (c : actx).
Hypothesis LW : iri_laws io.
Hypothesis HN : NoDup (map fst (ac_defs c)).
Hypothesis VK : xo_vocab o = AKeep.
Hypothesis HK : forall kw, In kw keywords -> plain_keyword c kw.
Variables (k : string) (d : option ndef).
Hypothesis NG : k <> "@graph".
Hypothesis HD : prop_def c (Some k) = d.
Hypothesis NC : forall d', d = Some d' -> nd_context d' = None.
Variable index : option string.
Local Arguments expand_iri_simple : simpl never.
Notation reads := (reads io c).
Notation obj_reads := (obj_reads io c).
Notation expand_element := (expand_element io ld fin rnd pf o base).
Notation compact_value := (compact_value io ld rel pf co).

Lemma removed_spec : remove_index c (Some k) index = true <-> elsewhere d index.
Proof.
  clear - HD.
  unfold remove_index, elsewhere, container_ap, container_of. destruct index as [i|]; cbn [is_some negb orb]; [|intuition].
  unfold c_contains. rewrite <- HD. unfold prop_def. destruct (streq_spec k "@type") as [->|N].
  - split; [destruct (ac_type c); discriminate|]. intros [H|(d' & H & _)]; discriminate.
  - destruct (get_normal c k) as [d'|].
    + rewrite existsb_exists. split.
      * intros (x & I & E). right. exists d'. split; [reflexivity|]. destruct x; try discriminate. exact I.
      * intros [H|(d'' & H & I)]; [discriminate|]. injection H as <-. exists CKIndex. auto.
    + split; [discriminate|]. intros [H|(d' & H & _)]; discriminate.
Qed.

Lemma no_scope : scoped io ld pf co c c (Some k) = Ok c.
Proof. unfold scoped. rewrite HD. destruct d as [d'|]; [rewrite (NC _ eq_refl)|]; reflexivity. Qed.

(** A scalar. *)
Lemma expand_string n fm j l : given j = Some l ->
  expand_element (S n) c (Some k) j fm = do x <- map_err XLiteral (expand_literal io o c (Some k) l) ; Ok (XObj x).
Proof.
  intros G. assert (E : expand_element (S n) c (Some k) j fm = expand_scalar io ld pf o c (Some k) j) by (destruct j; try discriminate; reflexivity).
  rewrite E. unfold expand_scalar. assert (F : free_floating (Some k) = false).
  { unfold free_floating, ap_is. cbn. destruct (streq_spec k "@graph"); [contradiction|reflexivity]. }
  rewrite F, HD, G. destruct d as [d'|]; [rewrite (NC _ eq_refl)|]; reflexivity.
Qed.

(** The end of [compact_value_in]. *)
Definition index_entry : list (keyword * json) :=
  if remove_index c (Some k) index then [] else match index with Some i => [(KIndex, JStr i)] | None => [] end.
Definition kept_index : option string := if remove_index c (Some k) index then None else index.
Lemma finish_reads m es j : obj_reads m es -> ~ In KIndex (map fst es) ->
  (do m <- (if negb (remove_index c (Some k) index) then match index with Some i => put rel co c KIndex (JStr i) m | None => Ok m end else Ok m) ;
   Ok (JObj m)) = Ok j -> exists mi, j = JObj (m ++ mi) /\ obj_reads mi index_entry.
Proof.
  intros R N. unfold index_entry. destruct (remove_index c (Some k) index); cbn [negb bind].
  - intros H. injection H as <-. exists []. rewrite app_nil_r. split; [reflexivity|constructor].
  - destruct index as [i|]; cbn [bind].
    + unfold put. destruct (kkey rel co c KIndex) as [x|] eqn:E; cbn [bind]; [|discriminate]. intros H. injection H as <-.
      apply (kkey_reads io rel co c HN) in E; [|apply HK; cbn; tauto|discriminate]. exists [(x, JStr i)]. split.
      * rewrite insert_fresh; [reflexivity|]. intros I. destruct (obj_reads_key _ _ _ _ _ R I) as (kw' & I' & R').
        apply N. rewrite (reads_fun _ _ _ _ _ E R'). exact I'.
      * constructor; [split; [exact E|reflexivity]|constructor].
    + intros H. injection H as <-. exists []. rewrite app_nil_r. split; [reflexivity|constructor].
Qed.

Lemma index_not kw : kw <> KIndex -> ~ In kw (map fst index_entry).
Proof. unfold index_entry. destruct (remove_index c (Some k) index); [|destruct index]; cbn; intuition congruence. Qed.
Lemma index_step s : fold_r (value_step io o c) s (canon index_entry) = Ok (MkVs (vs_json s) (vs_ty s)
  (match index_entry with [] => vs_index s | _ => kept_index end) (vs_lang s) (vs_dir s)).
Proof. unfold index_entry, kept_index. destruct (remove_index c (Some k) index); [|destruct index]; destruct s; reflexivity. Qed.
(** A value object without type. *)
Lemma expand_untyped_object m es v n fm r : obj_reads m es -> In KValue (map fst es) -> ~ In KType (map fst es) -> 
  ~ In KList (map fst es) -> ~ In KSet (map fst es) -> last_entry KValue (canon es) = Some v ->
  expand_value io o None c (canon es) v = Ok (Some r) ->
  expand_element (S n) c (Some k) (JObj m) fm = Ok (XObj r).
Proof.
  intros H I N1 N2 N3 L V. cbn [Expand.expand_element element_body].
  rewrite (expand_untyped io ld fin rnd pf o base rel c VK (Some k) ltac:(rewrite HD; exact NC) _ m es fm n v); auto.
  - rewrite (canon_value _ _ _ _ _ _ _ H), V. reflexivity.
  - rewrite (canon_last _ _ _ _ _ H). exact L.
Qed.
(** A value object with a type. *)
Lemma expand_typed_object kv kt mi v s n fm r it : 
  reads kv KValue -> reads kt KType -> obj_reads mi index_entry ->
  (forall d, assoc s (ac_defs c) = Some d -> nd_context d = None) ->
  xkey io o c s = Ok it ->
  expand_value io o it c (canon ((KValue, v) :: (KType, JStr s) :: index_entry)) v = Ok (Some r) ->
  expand_element (S n) c (Some k) (JObj ((kv, v) :: (kt, JStr s) :: mi)) fm = Ok (XObj r).
Proof.
  intros R RT RI NS X V. cbn [Expand.expand_element element_body].
  assert (H : obj_reads ([(kv, v)] ++ (kt, JStr s) :: mi) ([(KValue, v)] ++ (KType, JStr s) :: index_entry)).
  { constructor; [split; [exact R|reflexivity]|]. constructor; [split; [exact RT|reflexivity]|exact RI]. }
  change ((kv, v) :: (kt, JStr s) :: mi) with ([(kv, v)] ++ (kt, JStr s) :: mi).
  rewrite (expand_typed io ld fin rnd pf o base rel c VK (Some k) ltac:(rewrite HD; exact NC) _ [(kv, v)] mi [(KValue, v)] index_entry kt s it fm n v).
  - rewrite (canon_value _ _ _ _ _ _ _ H). cbn [app]. rewrite V. reflexivity.
  - constructor; [split; [exact R|reflexivity]|constructor].
  - exact RI.
  - exact RT.
  - left. reflexivity.
  - cbn. intuition discriminate.
  - apply index_not. discriminate.
  - cbn. intros [I|[I|I]]; try discriminate. revert I. apply index_not. discriminate.
  - cbn. intros [I|[I|I]]; try discriminate. revert I. apply index_not. discriminate.
  - rewrite (canon_last _ _ _ _ _ H). unfold index_entry. destruct (remove_index c (Some k) index); [|destruct index]; reflexivity.
  - exact NS.
  - exact X.
Qed.
Lemma expand_plain_object kv mi v n fm :
  reads kv KValue -> obj_reads mi index_entry -> forall l, given v = Some l ->
  expand_element (S n) c (Some k) (JObj ((kv, v) :: mi)) fm = Ok (XObj (kept_index, OVal (VLit l None))).
Proof.
  intros R RI l G. apply (expand_untyped_object _ ((KValue, v) :: index_entry) v).
  - constructor; [split; [exact R|reflexivity]|exact RI].
  - left. reflexivity.
  - intros [I|I]; [discriminate|]. revert I. apply index_not. discriminate.
  - intros [I|I]; [discriminate|]. revert I. apply index_not. discriminate.
  - intros [I|I]; [discriminate|]. revert I. apply index_not. discriminate.
  - unfold index_entry. destruct (remove_index c (Some k) index); [|destruct index]; reflexivity.
  - unfold expand_value, index_entry, kept_index. destruct (remove_index c (Some k) index); [|destruct index];
      cbn; destruct v; cbn in G; try discriminate; injection G as <-; reflexivity.
Qed.
Lemma one_put kw v m' : In kw keywords -> put rel co c kw v [] = Ok m' -> exists kv, reads kv kw /\ m' = [(kv, v)].
Proof.
  intros I. unfold put. destruct (kkey rel co c kw) as [x|] eqn:E; cbn [bind]; [|discriminate]. intros H. injection H as <-.
  apply (kkey_reads io rel co c HN) in E; [|apply HK, I|intros ->; cbn in I; intuition discriminate]. exists x. auto.
Qed.
Lemma more_put kw v m m' es : In kw keywords -> obj_reads m es -> ~ In kw (map fst es) -> put rel co c kw v m = Ok m' ->
  exists kv, reads kv kw /\ m' = m ++ [(kv, v)].
Proof.
  intros I R N. unfold put. destruct (kkey rel co c kw) as [x|] eqn:E; cbn [bind]; [|discriminate]. intros H. injection H as <-.
  apply (kkey_reads io rel co c HN) in E; [|apply HK, I|intros ->; cbn in I; intuition discriminate]. exists x. split; [exact E|].
  apply insert_fresh. intros J. destruct (obj_reads_key _ _ _ _ _ R J) as (kw' & I' & R'). apply N. rewrite (reads_fun _ _ _ _ _ E R'). exact I'.
Qed.

Theorem value_trip_all v j : keepable io c d index v -> compact_value c (Some k) index v = Ok j ->
  exists v', same_value v v' /\
    if opt_eqb ty_eqb (mapped_type d) (Some TyJson) then v' = VJson j /\ kept_index = None
    else forall n fm, expand_element (S n) c (Some k) j fm = Ok (XObj (kept_index, OVal v')).
Proof.
  intros K. unfold compact_value. rewrite no_scope. cbn [bind]. unfold compact_value_in. rewrite HD.
  destruct v as [l t|s|jv].
  - (* literals *)
    destruct (opt_eqb ty_eqb (mapped_type d) (Some TyJson)) eqn:TJ.
    { assert (E : mapped_type d = Some TyJson) by (destruct (mapped_type d) as [[]|]; cbn in TJ; try discriminate; reflexivity).
      destruct (kp_json _ _ _ _ _ K E) as [[x X] _]. discriminate. }
    intros H. exists (VLit l t). split; [constructor|]. intros n fm.
    assert (NL : forall x, l = x -> x <> LNull) by (intros x -> ->; exact (kp_null _ _ _ _ _ K t eq_refl)).
    assert (GL : given (lit_json l) = Some l) by (destruct l; try reflexivity; destruct (NL _ eq_refl eq_refl)).
    destruct (opt_eqb ty_eqb (option_map TyIri t) (mapped_type d) && remove_index c (Some k) index) eqn:B.
    + apply andb_true_iff in B. destruct B as [B RM].
      assert (E : mapped_type d = option_map TyIri t).
      { destruct t as [t|], (mapped_type d) as [[]|]; cbn in B; try discriminate; try reflexivity. apply streq_true in B. subst. reflexivity. }
      assert (SC : given j = Some l -> (forall s, l = LStr s -> t = None -> lang_for c d = None /\ dir_for c d = None) ->
                   expand_element (S n) c (Some k) j fm = Ok (XObj (kept_index, OVal (VLit l t)))).
      { intros G F. rewrite (expand_string _ _ _ _ G). unfold expand_literal. rewrite HD. unfold mapped_type in E. rewrite E. unfold kept_index. rewrite RM.
        destruct t as [t|]; [reflexivity|]. cbn [option_map]. destruct l as [|b|z|s]; try reflexivity.
        destruct (F s eq_refl eq_refl) as [-> ->]. reflexivity. }
      destruct l as [|b|z|s]; try (injection H as <-; apply SC; [reflexivity|intros ? [=]]).
      { destruct (NL _ eq_refl eq_refl). }
      destruct (is_some t || negb (is_some (lang_for c d)) && negb (is_some (dir_for c d))) eqn:P.
      * injection H as <-. apply SC; [reflexivity|]. intros s' _ ->. cbn in P. destruct (lang_for c d), (dir_for c d); try discriminate. auto.
      * assert (t = None) as -> by (destruct t; [discriminate|reflexivity]).
        destruct (put rel co c KValue (JStr s) []) as [m|] eqn:PV; cbn [bind] in H; [|discriminate].
        apply one_put in PV; [|cbn; tauto]. destruct PV as (kv & RV & ->).
        apply (finish_reads [(kv, JStr s)] [(KValue, JStr s)]) in H; [|constructor; [split; [exact RV|reflexivity]|constructor]|cbn; intuition discriminate].
        destruct H as (mi & -> & RI). cbn [app]. apply expand_plain_object; auto.
    + destruct (put rel co c KValue (lit_json l) []) as [m|] eqn:PV; cbn [bind] in H; [|discriminate].
      apply one_put in PV; [|cbn; tauto]. destruct PV as (kv & RV & ->).
      destruct t as [t|].
      * destruct (kp_type _ _ _ _ _ K l t eq_refl) as (IO & UD & NS).
        destruct (kkey rel co c KType) as [kt|] eqn:KT; cbn [bind] in H; [|discriminate].
        destruct (kiri rel co c (TmId (IIri t)) true) as [[s|]|] eqn:KS; cbn [bind] in H; try discriminate.
        2:{ apply kiri_ok in KS. exfalso. refine (compact_some _ _ _ _ _ _ KS). discriminate. }
        apply kiri_ok in KS. rewrite compact_is_full in KS.
        pose proof (fun dr => read_vocab io rel c t LW HN IO _ _ _ _ dr UD KS) as RD. clear KS.
        apply (kkey_reads io rel co c HN) in KT; [|apply HK; cbn; tauto|discriminate].
        rewrite insert_fresh in H.
        2:{ intros [I|[]]. cbn in I. subst kv. discriminate (reads_fun _ _ _ _ _ RV KT). }
        apply (finish_reads _ [(KValue, lit_json l); (KType, JStr s)]) in H.
        2:{ constructor; [split; [exact RV|reflexivity]|]. constructor; [split; [exact KT|reflexivity]|constructor]. }
        2:{ cbn; intuition discriminate. }
        destruct H as (mi & -> & RI). cbn [app]. eapply expand_typed_object; try eassumption.
        -- intros d' A. destruct (expand_assoc _ _ _ _ _ _ _ (RD true) ltac:(discriminate) A) as [V|(kw & V & _)]; [exact (NS _ _ A V)|discriminate].
        -- unfold xkey, xiri. rewrite VK, RD. reflexivity.
        -- unfold expand_value. cbn [canon map fold_r fst snd value_step bind as_str]. unfold xiri. rewrite VK, RD. cbn [map_err bind].
           fold (canon index_entry). rewrite index_step. cbn [bind vs_json vs_ty vs_index vs_lang vs_dir is_some orb].
           assert (KI : match index_entry with [] => None | _ => kept_index end = kept_index)
             by (unfold index_entry, kept_index; destruct (remove_index c (Some k) index); [|destruct index]; reflexivity).
           rewrite KI. destruct l; try reflexivity; destruct (NL _ eq_refl eq_refl).
      * apply (finish_reads [(kv, lit_json l)] [(KValue, lit_json l)]) in H; [|constructor; [split; [exact RV|reflexivity]|constructor]|cbn; intuition discriminate].
        destruct H as (mi & -> & RI). cbn [app]. apply expand_plain_object; auto.
  - (* tagged strings *)
    destruct (opt_eqb ty_eqb (mapped_type d) (Some TyJson)) eqn:TJ.
    { assert (E : mapped_type d = Some TyJson) by (destruct (mapped_type d) as [[]|]; cbn in TJ; try discriminate; reflexivity).
      destruct (kp_json _ _ _ _ _ K E) as [[x X] _]. discriminate. }
    destruct (kp_tagged _ _ _ _ _ K s eq_refl) as [TG NN].
    destruct s as [dt sl sd]. cbn [ls_data ls_language ls_direction] in *.
    destruct (remove_index c (Some k) index && _ && _) eqn:B.
    + intros H. injection H as <-. apply andb_true_iff in B. destruct B as [B BD]. apply andb_true_iff in B. destruct B as [RM BL].
      assert (FL : fits (lang_for c d) sl).
      { unfold fits. destruct sl as [l|]; [|auto]. right. cbn in BL. destruct (lang_for c d); cbn in BL; [|discriminate]. constructor. apply lang_eqb_spec, BL. }
      assert (FD : fits_dir (dir_for c d) sd).
      { unfold fits_dir. destruct sd as [x|]; [|auto]. right. cbn in BD. destruct (dir_for c d) as [y|]; cbn in BD; [|discriminate]. destruct x, y; (reflexivity || discriminate). }
      destruct (kp_fits _ _ _ _ _ K _ eq_refl (proj1 removed_spec RM) FL FD) as (K1 & K2 & K3). cbn [ls_language ls_direction] in K1, K2.
      assert (D2 : dir_for c d = sd) by (destruct FD as [->|E]; [apply K2; reflexivity|exact E]).
      assert (L2 : both same_lang (lang_for c d) sl) by (destruct FL as [->|E]; [rewrite K1 by reflexivity; constructor|exact E]).
      exists (VLang (MkLS dt (lang_for c d) sd)). split.
      { constructor. inversion L2; constructor. apply same_lang_sym. assumption. }
      intros n fm. rewrite (expand_string _ _ (JStr dt) (LStr dt) eq_refl). unfold expand_literal. rewrite HD. unfold kept_index. rewrite RM.
      assert (ST : string_value dt (lang_for c d) (dir_for c d) = VLang (MkLS dt (lang_for c d) sd)).
      { rewrite D2. unfold string_value, ls_new. assert (X : is_some (lang_for c d) || is_some sd = true).
        { destruct TG as [TG|TG]; cbn in TG.
          - destruct L2; [congruence|reflexivity].
          - destruct sd; [|congruence]. apply orb_true_r. }
        rewrite X. reflexivity. }
      unfold mapped_type in K3. destruct K3 as [->| ->]; rewrite ST; reflexivity.
    + intros H. destruct (put rel co c KValue (JStr dt) []) as [m|] eqn:PV; cbn [bind] in H; [|discriminate].
      apply one_put in PV; [|cbn; tauto]. destruct PV as (kv & RV & ->).
      exists (VLang (MkLS dt sl sd)). split; [apply same_value_refl|]. intros n fm.
      assert (R0 : obj_reads [(kv, JStr dt)] [(KValue, JStr dt)]) by (constructor; [split; [exact RV|reflexivity]|constructor]).
      assert (L : exists ml, obj_reads ml (match sl with Some l => [(KLanguage, JStr l)] | None => [] end) /\
        match sl with Some l => put rel co c KLanguage (JStr l) [(kv, JStr dt)] | None => Ok [(kv, JStr dt)] end = Ok ((kv, JStr dt) :: ml)).
      { destruct sl as [l|]; [|exists []; split; [constructor|reflexivity]].
        destruct (put rel co c KLanguage (JStr l) [(kv, JStr dt)]) as [m|] eqn:PL; cbn [bind] in H; [|discriminate].
        eapply more_put in PL; [|cbn; tauto|exact R0|cbn; intuition discriminate]. destruct PL as (kl & RL & ->).
        exists [(kl, JStr l)]. split; [constructor; [split; [exact RL|reflexivity]|constructor]|reflexivity]. }
      destruct L as (ml & RL & EL). assert (EL' : forall T (f : jobject -> result T kerr), bind (match sl with Some l => put rel co c KLanguage (JStr l) [(kv, JStr dt)] | None => Ok [(kv, JStr dt)] end) f = f ((kv, JStr dt) :: ml)).
      { intros T f. destruct sl; [rewrite EL|injection EL as <-]; reflexivity. }
      rewrite EL' in H. clear EL EL'.
      set (el := match sl with Some l => [(KLanguage, JStr l)] | None => [] end) in *.
      assert (R1 : obj_reads ((kv, JStr dt) :: ml) ((KValue, JStr dt) :: el)) by (constructor; [split; [exact RV|reflexivity]|exact RL]).
      assert (D : exists md, obj_reads md (match sd with Some x => [(KDirection, JStr (dir_str x))] | None => [] end) /\
        match sd with Some x => put rel co c KDirection (JStr (dir_str x)) ((kv, JStr dt) :: ml) | None => Ok ((kv, JStr dt) :: ml) end = Ok ((kv, JStr dt) :: ml ++ md)).
      { destruct sd as [x|]; [|exists []; split; [constructor|rewrite app_nil_r; reflexivity]].
        destruct (put rel co c KDirection (JStr (dir_str x)) ((kv, JStr dt) :: ml)) as [m|] eqn:PL; cbn [bind] in H; [|discriminate].
        eapply more_put in PL; [|cbn; tauto|exact R1|unfold el; destruct sl; cbn; intuition discriminate]. destruct PL as (kl & RD & ->).
        exists [(kl, JStr (dir_str x))]. split; [constructor; [split; [exact RD|reflexivity]|constructor]|reflexivity]. }
      destruct D as (md & RD & ED). assert (ED' : forall T (f : jobject -> result T kerr), bind (match sd with Some x => put rel co c KDirection (JStr (dir_str x)) ((kv, JStr dt) :: ml) | None => Ok ((kv, JStr dt) :: ml) end) f = f ((kv, JStr dt) :: ml ++ md)).
      { intros T f. destruct sd; [rewrite ED|injection ED as <-]; reflexivity. }
      rewrite ED' in H. clear ED ED'.
      set (ed := match sd with Some x => [(KDirection, JStr (dir_str x))] | None => [] end) in *.
      apply (finish_reads _ ((KValue, JStr dt) :: el ++ ed)) in H.
      2:{ inversion R1; subst. constructor; [assumption|]. apply Forall2_app; assumption. }
      2:{ unfold el, ed. destruct sl, sd; cbn; intuition discriminate. }
      destruct H as (mi & -> & RI).
      assert (RA : obj_reads (((kv, JStr dt) :: ml ++ md) ++ mi) (((KValue, JStr dt) :: el ++ ed) ++ index_entry)).
      { apply Forall2_app; [|exact RI]. inversion R1; subst. constructor; [assumption|]. apply Forall2_app; assumption. }
      apply (expand_untyped_object _ _ (JStr dt) n fm _ RA); clear RA R1 R0; unfold el, ed.
      * left. reflexivity.
      * unfold index_entry. destruct (remove_index c (Some k) index); [|destruct index]; destruct sl, sd; cbn; intuition discriminate.
      * unfold index_entry. destruct (remove_index c (Some k) index); [|destruct index]; destruct sl, sd; cbn; intuition discriminate.
      * unfold index_entry. destruct (remove_index c (Some k) index); [|destruct index]; destruct sl, sd; cbn; intuition discriminate.
      * unfold index_entry. destruct (remove_index c (Some k) index); [|destruct index]; destruct sl, sd; reflexivity.
      * assert (NO : match sl with Some l => streq l "@none" = false | None => True end).
        { destruct sl as [l|]; [|exact I]. destruct (streq_spec l "@none") as [->|_]; [congruence|reflexivity]. }
        unfold index_entry, kept_index, expand_value.
        destruct (remove_index c (Some k) index); [|destruct index as [i|]]; destruct sl as [l|], sd as [x|];
          try (destruct TG as [TG|TG]; cbn in TG; congruence);
          cbn [app canon map fold_r fst snd value_step bind as_str]; try rewrite NO;
          cbn [vs_json vs_ty vs_index vs_lang vs_dir fold_r bind value_step as_str is_some orb]; try (destruct x); reflexivity.
  - (* JSON literals *)
    intros H. exists (VJson jv). split; [apply same_value_refl|].
    destruct (opt_eqb ty_eqb (mapped_type d) (Some TyJson)) eqn:TJ.
    { assert (E : mapped_type d = Some TyJson) by (destruct (mapped_type d) as [[]|]; cbn in TJ; try discriminate; reflexivity).
      destruct (kp_json _ _ _ _ _ K E) as [_ EL]. apply removed_spec in EL. unfold kept_index. rewrite EL in H. cbn in H. injection H as <-. rewrite EL. auto. }
    intros n fm. cbn [andb] in H. destruct (put rel co c KValue jv []) as [m|] eqn:PV; cbn [bind] in H; [|discriminate].
    apply one_put in PV; [|cbn; tauto]. destruct PV as (kv & RV & ->).
    destruct (kkey rel co c KType) as [kt|] eqn:KT; cbn [bind] in H; [|discriminate].
    destruct (kiri rel co c (TmKw KJson) true) as [s|] eqn:KS; cbn [bind] in H; try discriminate.
    apply (kkey_reads io rel co c HN) in KT; [|apply HK; cbn; tauto|discriminate].
    assert (exists s', s = Some s' /\ reads s' KJson) as (s' & -> & RS).
    { destruct s as [s'|].
      - exists s'. split; [reflexivity|]. apply (kkey_reads io rel co c HN); [apply HK; cbn; tauto|discriminate|]. unfold kkey, kunwrap. rewrite KS. reflexivity.
      - exfalso. apply kiri_ok in KS. refine (compact_some _ _ _ _ _ _ KS). discriminate. }
    rewrite insert_fresh in H.
    2:{ intros [I|[]]. cbn in I. subst kv. discriminate (reads_fun _ _ _ _ _ RV KT). }
    cbn [opt_string] in H. apply (finish_reads _ [(KValue, jv); (KType, JStr s')]) in H.
    2:{ constructor; [split; [exact RV|reflexivity]|]. constructor; [split; [exact KT|reflexivity]|constructor]. }
    2:{ cbn; intuition discriminate. }
    destruct H as (mi & -> & RI). cbn [app]. eapply expand_typed_object; try eassumption.
    + intros d' A. destruct (expand_assoc _ _ _ _ _ _ _ (proj1 RS true) ltac:(discriminate) A) as [V|(kw & V & ->)].
      * exact (kp_json_type _ _ _ _ _ K _ eq_refl _ _ A (or_intror V)).
      * injection V as <-. exact (kp_json_type _ _ _ _ _ K _ eq_refl _ _ A (or_introl eq_refl)).
    + apply (reads_key io o c VK). exact RS.
    + unfold expand_value. cbn [canon map fold_r fst snd value_step bind as_str]. unfold xiri. rewrite VK, (proj1 RS). cbn [map_err bind].
      fold (canon index_entry). rewrite index_step. cbn [bind vs_json vs_ty vs_index vs_lang vs_dir is_some orb].
      assert (KI : match index_entry with [] => None | _ => kept_index end = kept_index)
        by (unfold index_entry, kept_index; destruct (remove_index c (Some k) index); [|destruct index]; reflexivity).
      rewrite KI. reflexivity.
Qed.
Theorem value_trip v j n fm : keepable io c d index v -> compact_value c (Some k) index v = Ok j ->
  exists v', same_value v v' /\
    if opt_eqb ty_eqb (mapped_type d) (Some TyJson) then v' = VJson j /\ kept_index = None
    else expand_element (S n) c (Some k) j fm = Ok (XObj (kept_index, OVal v')).
Proof.
  intros K H. destruct (value_trip_all v j K H) as (v' & S & E). exists v'. split; [exact S|]. destruct (opt_eqb ty_eqb (mapped_type d) (Some TyJson)); [exact E|apply E].
Qed.
End Trip.

(** ** Failures *)
Lemma selection_some av c v r : (forall i, exists b, av i = Ok b) -> exists s, selection_of av c v r = Ok s.
Proof.
  intros A. unfold selection_of.
  repeat match goal with
  | |- exists s, Ok ?x = Ok s => exists x; reflexivity
  | |- context [av ?i] => destruct (A i) as [? ->]; cbn [bind]
  | |- context [match ?x with _ => _ end] => destruct x; cbn [bind]
  end.
Qed.
(** Keywords can always be compacted. *)
Lemma key_total rel co c kw : exists k, kkey rel co c kw = Ok k.
Proof.
  unfold kkey, kunwrap, kiri. destruct (compact_iri rel c (co_mode co) (TmKw kw) true false) as [[k|]|e] eqn:E; cbn.
  - eauto.
  - exfalso. refine (compact_some _ _ _ _ _ _ E). discriminate.
  - exfalso. unfold compact_iri, compact_body, compact_tail in E.
    destruct (get_by term_eqb (TmKw kw) (inverse_of c)) as [dd|].
    + destruct (selection_some (fun _ => Ok false) c None false) as [s S]; [eauto|]. rewrite S in E. cbn [bind] in E.
      destruct (d_select _ _ _); [discriminate|]. destruct (by_vocab _ _); [discriminate|]. destruct (negb _); discriminate.
    + cbn [bind] in E. destruct (by_vocab _ _); [discriminate|]. destruct (negb _); discriminate.
Qed.
Lemma put_total rel co c kw v m : exists m', put rel co c kw v m = Ok m'.
Proof. unfold put. destruct (key_total rel co c kw) as [k ->]. cbn. eauto. Qed.
Theorem value_fails io ld rel pf co c k index v e :
  (forall d, prop_def c (Some k) = Some d -> nd_context d = None) ->
  compact_value io ld rel pf co c (Some k) index v = Err e ->
  exists l t, v = VLit l (Some t) /\ exists x, compact_iri rel c (co_mode co) (TmId (IIri t)) true false = Err x.
Proof.
  intros NC. unfold compact_value, scoped.
  assert (S : match prop_def c (Some k) with
              | Some d => match nd_context d with Some lc => kprocess io ld pf c lc (nd_base_url d) (with_override (popts_for co)) | None => Ok c end
              | None => Ok c end = Ok c) by (destruct (prop_def c (Some k)) as [d|]; [rewrite (NC _ eq_refl)|]; reflexivity).
  rewrite S. cbn [bind]. unfold compact_value_in.
  assert (F : forall m, exists m', (do m <- (if negb (remove_index c (Some k) index) then match index with Some i => put rel co c KIndex (JStr i) m | None => Ok m end else Ok m) ;
     Ok (JObj m)) = Ok m').
  { intros m. destruct (negb _); [destruct index as [i|]|]; cbn [bind]; eauto. destruct (put_total rel co c KIndex (JStr i) m) as [m' ->]. cbn. eauto. }
  destruct v as [l t|s|jv].
  - destruct (_ && _).
    + destruct l; try discriminate. destruct (is_some t || _); [discriminate|]. destruct (put_total rel co c KValue (JStr s) []) as [m ->]. cbn [bind].
      destruct (F m) as [m' ->]. discriminate.
    + destruct (put_total rel co c KValue (lit_json l) []) as [m ->]. cbn [bind]. destruct t as [t|].
      * destruct (key_total rel co c KType) as [kt ->]. cbn [bind]. unfold kiri.
        destruct (compact_iri rel c (co_mode co) (TmId (IIri t)) true false) as [s|x] eqn:E; cbn [bind].
        -- destruct (F (insert kt (opt_string s) m)) as [m' ->]. discriminate.
        -- intros _. exists l, t. split; [reflexivity|]. eauto.
      * cbn [bind]. destruct (F m) as [m' ->]. discriminate.
  - destruct (_ && _); [discriminate|]. destruct (put_total rel co c KValue (JStr (ls_data s)) []) as [m ->]. cbn [bind].
    assert (L : exists m', (match ls_language s with Some l => put rel co c KLanguage (JStr l) m | None => Ok m end) = Ok m')
      by (destruct (ls_language s); [apply put_total|eauto]).
    destruct L as [m1 ->]. cbn [bind].
    assert (D : exists m', (match ls_direction s with Some d => put rel co c KDirection (JStr (dir_str d)) m1 | None => Ok m1 end) = Ok m')
      by (destruct (ls_direction s); [apply put_total|eauto]).
    destruct D as [m2 ->]. cbn [bind]. destruct (F m2) as [m' ->]. discriminate.
  - destruct (_ && _); [discriminate|]. destruct (put_total rel co c KValue jv []) as [m ->]. cbn [bind].
    destruct (key_total rel co c KType) as [kt ->]. cbn [bind].
    assert (J : exists s, kiri rel co c (TmKw KJson) true = Ok s).
    { destruct (key_total rel co c KJson) as [kj J]. unfold kkey, kunwrap in J. destruct (kiri rel co c (TmKw KJson) true); [eauto|discriminate]. }
    destruct J as [s ->]. cbn [bind]. destruct (F (insert kt (opt_string s) m)) as [m' ->]. discriminate.
Qed.

(** Expansion of documents that are already expanded. *)
From Verif Require Import Prelude Json Str Keyword Enums LangTag LangString Container Stack ContextSyntax Ctx Process ProcessRel
  Object ObjectEq ObjectJson ObjectJsonProofs CompactIri CompactIriRead Cycles Sound Expand ExpandOk RoundTrip.

(** ** Specification *)

(** Identifiers whose text is read as themselves against the base IRI [b]: an invalid identifier
    could be resolved against it. *)
Definition stays (io : iops) (b : option string) (i : id) : Prop :=
  readable io i /\ match i with IInvalid s => b = None /\ is_keyword_like s = false | _ => True end.
(** Types and properties accepted by the options. *)
Definition accepted (o : xopts) (i : id) : Prop := id_valid i = true \/ xo_invalid o = AKeep.
(** Values: not null, datatypes are IRIs, tagged strings have a language other than [@none], or a
    direction. *)
Inductive settled_value (io : iops) : value -> Prop :=
| SvLit l t : l <> LNull -> (forall s, t = Some s -> iri_ok io s = true) -> settled_value io (VLit l t)
| SvLang s : tagged s -> ls_language s <> Some "@none" -> settled_value io (VLang s)
| SvJson j : settled_value io (VJson j).
(** What stays at the top of a document or of a graph: nodes with something else than an
    identifier. *)
Definition floats (x : iobj) : Prop := exists n, snd x = ONode n /\ (n_empty n = false \/ fst x <> None).
(** Objects that expansion leaves alone: no included nodes (they are not written under the name of
    a keyword), graphs made of nodes, properties with a colon. *)
Inductive settled (io : iops) (o : xopts) (b : option string) : obj -> Prop :=
| StVal v : settled_value io v -> settled io o b (OVal v)
| StNode n : settled_node io o b n -> settled io o b (ONode n)
| StList l : Forall (fun x => settled io o b (snd x)) l -> settled io o b (OList l)
with settled_node (io : iops) (o : xopts) (b : option string) : node -> Prop :=
| StMk i ts g ps rs :
    (forall x, i = Some x -> stays io b x) ->
    ts <> Some [] -> Forall (fun t => stays io b t /\ accepted o t) (opt_list ts) ->
    Forall (fun x => settled io o b (snd x) /\ floats x) (opt_list g) ->
    Forall (fun p => stays io None (fst p) /\ accepted o (fst p) /\ contains_char ":" (id_str (fst p)) = true /\
      Forall (fun x => settled io o b (snd x)) (snd p)) ps ->
    rs <> Some [] ->
    Forall (fun p => stays io None (fst p) /\ accepted o (fst p) /\ contains_char ":" (id_str (fst p)) = true /\
      Forall (fun x => settled_node io o b (snd x)) (snd p)) (opt_list rs) ->
    settled_node io o b (MkNode i ts g None ps rs).

(** What has to be asked of the result of an expansion, in addition to what expansion ensures. *)
Definition fixed (b : option string) (i : id) : Prop := id_valid i = true \/ (b = None /\ is_keyword_like (id_str i) = false).
Definition plain_key (o : xopts) (p : id) : Prop := accepted o p /\ contains_char ":" (id_str p) = true.
Inductive plain (o : xopts) (b : option string) : obj -> Prop :=
| PlLit l t : plain o b (OVal (VLit l t))
| PlLang s : ls_language s <> Some "@none" -> plain o b (OVal (VLang s))
| PlJson j : plain o b (OVal (VJson j))
| PlNode n : plain_node o b n -> plain o b (ONode n)
| PlList l : Forall (fun x => plain o b (snd x)) l -> plain o b (OList l)
with plain_node (o : xopts) (b : option string) : node -> Prop :=
| PlMk i ts g ps rs :
    (forall x, i = Some x -> fixed b x) -> Forall (fun t => fixed b t /\ accepted o t) (opt_list ts) ->
    Forall (fun x => plain o b (snd x) /\ floats x) (opt_list g) ->
    Forall (fun p => plain_key o (fst p) /\ Forall (fun x => plain o b (snd x)) (snd p)) ps ->
    rs <> Some [] -> Forall (fun p => plain_key o (fst p) /\ Forall (fun x => plain_node o b (snd x)) (snd p)) (opt_list rs) ->
    plain_node o b (MkNode i ts g None ps rs).

(** ** Proof *)
Section Again.
Variables (io : iops) (ld : loader) (fin rnd : list word -> N) (pf : nat) (o : xopts) (base : option string) (b : option string).
Hypothesis LW : id_laws io.
Hypothesis SORT : xo_ordered o = false.
Notation c := (ctx_new b).
Notation XE := (expand_element io ld fin rnd pf o base).
Local Arguments expand_iri_simple : simpl never.

Lemma stays_not_keyword i : stays io None i \/ stays io b i -> is_keyword_like (id_str i) = false.
Proof.
  assert (V : readable io i -> (exists s, i = IInvalid s) \/ is_keyword_like (id_str i) = false).
  { unfold readable. destruct i as [s|s|s]; cbn [id_str]; intros R; [| |left; eauto]; right; unfold id_of_string in R.
    - destruct (iri_ok io s) eqn:I; [|destruct (blank_ok io s); discriminate]. destruct (il_scheme _ (dl_iri _ LW) _ I) as (p & x & -> & _). apply colon_not_keyword.
    - destruct (iri_ok io s); [discriminate|]. destruct (blank_ok io s) eqn:B; [|discriminate]. destruct (dl_blank _ LW _ B) as [x ->]. exact (colon_not_keyword "_" x). }
  intros [[R M]|[R M]]; (destruct (V R) as [[s ->]|H]; [exact (proj2 M)|exact H]).
Qed.
Lemma read_stays i dr vo : (dr = true -> stays io b i) -> (dr = false -> stays io None i) ->
  expand_iri_simple io c (NSome (xp_of_str (id_str i))) dr vo = Ok (Some (TmId i)).
Proof.
  intros H1 H2. assert (ST : readable io i /\ match i with IInvalid s => (dr = true -> b = None) | _ => True end).
  { destruct dr; [destruct (H1 eq_refl) as [R M]|destruct (H2 eq_refl) as [R M]]; (split; [exact R|]); destruct i; try exact I; [intros _; exact (proj1 M)|discriminate]. }
  assert (NK : is_keyword_like (id_str i) = false) by (apply stays_not_keyword; destruct dr; auto).
  unfold xp_of_str. rewrite (not_keyword _ NK). unfold expand_iri_simple. rewrite NK.
  assert (ND : expand_defined c (id_str i) vo = None).
  { unfold expand_defined, get_value. cbn. destruct (streq_spec (id_str i) "@type") as [E|_]; [rewrite E in NK; discriminate|reflexivity]. }
  rewrite ND. clear H1 H2. destruct ST as [R M]. unfold readable, id_of_string in R.
  assert (A : iri_ok io (id_str i) = true -> expand_absolute io c (id_str i) dr vo = Ok (Some (TmId i))).
  { intros Y. unfold expand_absolute. rewrite Y. rewrite Y in R. rewrite R. reflexivity. }
  assert (T : iri_ok io (id_str i) = false -> blank_ok io (id_str i) = false -> expand_tail io c (id_str i) dr vo = Ok (Some (TmId i))).
  { intros Y Z. rewrite Y, Z in R. destruct i as [s|s|s]; try discriminate. cbn [id_str] in *. unfold expand_tail. cbn [ac_vocab ctx_new ac_base].
    assert (L : (if dr && iri_ref_ok io s then match resolve_iri io s b with Some i => TmId (IIri i) | None => TmId (IInvalid s) end else TmId (IInvalid s)) = TmId (IInvalid s)).
    { destruct dr; [|reflexivity]. rewrite (M eq_refl). cbn [andb resolve_iri]. rewrite Y. destruct (iri_ref_ok io s); reflexivity. }
    rewrite L. destruct vo; reflexivity. }
  destruct (colon_inside (id_str i)) eqn:CI.
  - destruct (blank_ok io (id_str i)) eqn:Bl.
    + destruct (iri_ok io (id_str i)) eqn:Ir; [rewrite (il_blank _ (dl_iri _ LW) _ Ir) in Bl; discriminate|]. rewrite R. reflexivity.
    + destruct (streq_spec (id_str i) "_:") as [E|_].
      * destruct (iri_ok io (id_str i)) eqn:Ir.
        { rewrite E in Ir. destruct (il_scheme _ (dl_iri _ LW) _ Ir) as (p & x & EP & NE & _ & NU & _). destruct p as [|a p]; [congruence|].
          cbn in EP. injection EP as <- _. discriminate NU. }
        rewrite <- R, E. reflexivity.
      * assert (X : expand_absolute io c (id_str i) dr vo = Ok (Some (TmId i))).
        { destruct (iri_ok io (id_str i)) eqn:Ir; [apply A; reflexivity|]. unfold expand_absolute. rewrite Ir. apply T; [reflexivity|reflexivity]. }
        destruct (compact_iri_of io (id_str i)) as [[p x]|]; [|exact X]. cbn. exact X.
  - assert (NC : iri_ok io (id_str i) = false).
    { destruct (iri_ok io (id_str i)) eqn:Ir; [|reflexivity]. destruct (il_scheme _ (dl_iri _ LW) _ Ir) as (p & x & EP & NE & NC & _).
      rewrite EP, (colon_find _ _ NC NE) in CI. discriminate. }
    apply T; [exact NC|]. destruct (blank_ok io (id_str i)) eqn:Bl; [|reflexivity]. destruct (dl_blank _ LW _ Bl) as [x EX]. rewrite EX in CI. discriminate CI.
Qed.

(** *** Entries *)
Definition rd (k : string) (t : term) : Prop := xkey io o c k = Ok (Some t) /\ k <> "@context".
Lemma rd_kw kw : kw <> KContext -> rd (kw_str kw) (TmKw kw).
Proof. intros N. split; [|destruct kw; try discriminate; congruence]. unfold xkey, xiri. destruct kw; reflexivity. Qed.
Lemma rd_id p : stays io None p -> contains_char ":" (id_str p) = true -> rd (id_str p) (TmId p).
Proof.
  intros S C. split; [unfold xkey, xiri; rewrite read_stays; [reflexivity|discriminate|auto]|]. intros E. rewrite E in C. discriminate.
Qed.
Definition unread (es : list xentry) : jobject := map (fun e => (fst (fst e), snd e)) es.
Definition fine (e : xentry) : Prop := rd (fst (fst e)) (snd (fst e)).
Lemma no_def ap : prop_def c ap = None.
Proof. destruct ap as [k|]; [|reflexivity]. cbn. destruct (streq k "@type"); reflexivity. Qed.
Lemma fine_entries es : Forall fine es -> expand_entries io o c (unread es) = Ok es.
Proof.
  unfold expand_entries. induction 1 as [|[[k t] v] es [G _] F IH]; [reflexivity|]. cbn [unread map flat_r fst snd] in *. rewrite G. cbn [bind].
  fold (unread es). rewrite IH. reflexivity.
Qed.
Lemma fine_preliminary es : Forall fine es -> exists r, preliminary io o c (unread es) = Ok r.
Proof.
  unfold preliminary. generalize (false, false) as s. intros s G. revert s. induction G as [|[[k t] v] es [G _] F IH]; intros s; [cbn; eauto|].
  cbn [unread map fold_r fst snd] in *. rewrite G. cbn [bind]. apply IH.
Qed.
Lemma fine_context es ap fm : Forall fine es -> element_context io ld pf o base c ap (unread es) fm = Ok c.
Proof.
  intros G. unfold element_context. destruct (fine_preliminary _ G) as [[x y] ->]. cbn [bind]. cbn [ac_prev ctx_new]. rewrite no_def.
  assert (E : get_unique "@context" (unread es) = Ok None).
  { assert (N : get_all "@context" (unread es) = []).
    { apply get_all_nil. intros J. unfold keys, unread in J. rewrite map_map in J. apply in_map_iff in J. destruct J as (e & E & J).
      exact (proj2 (Forall_in _ _ _ G J) E). }
    unfold get_unique. rewrite N. reflexivity. }
  rewrite E. reflexivity.
Qed.
Definition typed (es : list xentry) : list (string * json) :=
  flat_map (fun e : xentry => match snd (fst e) with TmKw KType => [(fst (fst e), snd e)] | _ => [] end) es.
Lemma fine_types es : Forall fine es -> type_entries io o c (unread es) = Ok (sort_key fst (typed es)).
Proof.
  intros G. unfold type_entries.
  assert (E : flat_r (fun e : string * json => do t <- xkey io o c (fst e) ; Ok (match t with Some (TmKw KType) => [e] | _ => [] end)) (unread es) = Ok (typed es)).
  { induction G as [|[[k t] v] es [G _] F IH]; [reflexivity|]. cbn [unread map flat_r fst snd typed flat_map] in *. rewrite G. cbn [bind]. fold (unread es). rewrite IH. cbn [bind]. fold (typed es).
    destruct t as [| |[]]; reflexivity. }
  rewrite E. reflexivity.
Qed.
Lemma fine_scoped ts : type_scoped io ld pf o c ts = Ok c.
Proof. unfold type_scoped. apply fold_same. intros e. apply fold_same. intros t. rewrite no_def. reflexivity. Qed.
Lemma any_read s dr vo : exists t, expand_iri_simple io c (NSome (xp_of_str s)) dr vo = Ok t.
Proof.
  unfold expand_iri_simple, expand_absolute, expand_tail, expand_absolute, xp_of_str. destruct (kw_of_str s); [eauto|].
  destruct (is_keyword_like s); [eauto|]. destruct (expand_defined c s vo); [eauto|]. cbn [ac_vocab ctx_new].
  repeat match goal with |- exists t, (if ?b then _ else _) = _ => destruct b | |- exists t, (match ?b with _ => _ end) = _ => destruct b end; eauto.
Qed.
Lemma fine_input ts : exists it, input_type io o c ts = Ok it.
Proof.
  unfold input_type. destruct ts as [|[k v] ts]; [eauto|]. destruct (List.rev (force_array v)) as [|[| | |s| |] ?]; eauto.
  unfold xkey, xiri. destruct (any_read s false (Some (xo_vocab o))) as [t ->]. cbn. eauto.
Qed.
Definition expands (ap : option string) (j : json) (x : iobj) : Prop := ev (fun n => forall fm, XE n c ap j fm = Ok (XObj x)).
Lemma expands_array ap js xs : Forall2 (expands ap) js xs -> ev (fun n => forall fm, XE n c ap (JArr js) fm = Ok (XArr xs)).
Proof.
  intros F. apply ev_forall2 in F. revert F. apply ev_succ. intros n F fm. cbn [expand_element element_body].
  assert (E : flat_r (fun item => do x <- XE n c ap item fm ; Ok (items x)) js = Ok xs).
  { induction F as [|j x l xs H F IH]; [reflexivity|]. cbn [flat_r]. rewrite H. cbn [bind items]. rewrite IH. reflexivity. }
  rewrite E. cbn [bind]. rewrite no_def. reflexivity.
Qed.

(** *** Values *)
Definition index_entry (ix : option string) : list xentry := match ix with Some i => [("@index", TmKw KIndex, JStr i)] | None => [] end.
Definition value_entries (v : value) : list xentry :=
  match v with
  | VLit l t => match t with Some t => [("@type", TmKw KType, JStr t)] | None => [] end ++ [("@value", TmKw KValue, lit_json l)]
  | VLang s => match ls_language s with Some l => [("@language", TmKw KLanguage, JStr l)] | None => [] end
      ++ match ls_direction s with Some d => [("@direction", TmKw KDirection, JStr (dir_str d))] | None => [] end ++ [("@value", TmKw KValue, JStr (ls_data s))]
  | VJson j => [("@type", TmKw KType, JStr "@json"); ("@value", TmKw KValue, j)]
  end.
Lemma value_shape ix v : with_index ix (value_json v) = JObj (unread (value_entries v ++ index_entry ix)).
Proof.
  destruct v as [l [t|]|[d [l|] [r|]]|j], ix; reflexivity.
Qed.
Lemma fine_value ix v : Forall fine (value_entries v ++ index_entry ix).
Proof.
  assert (K : forall kw j, kw <> KContext -> fine (kw_str kw, TmKw kw, j)) by (intros kw j N; exact (rd_kw kw N)).
  destruct v as [l [t|]|[d [l|] [r|]]|j], ix; cbn; repeat constructor; first [apply (K KType)|apply (K KValue)|apply (K KIndex)|apply (K KLanguage)|apply (K KDirection)]; discriminate.
Qed.
Lemma value_read ix v it : settled_value io v ->
  (it = match v with VLit _ (Some t) => Some (TmId (IIri t)) | VJson _ => Some (TmKw KJson) | _ => None end) ->
  exists ve, last_entry KValue (value_entries v ++ index_entry ix) = Some ve /\
  expand_value io o it c (value_entries v ++ index_entry ix) ve = Ok (Some (ix, OVal v)).
Proof.
  intros S ->. destruct S as [l t NL IT|s TG NN|j].
  - exists (lit_json l). split; [destruct t, ix; reflexivity|].
    assert (E : forall s, iri_ok io s = true -> xiri io c s true (Some (xo_vocab o)) = Ok (Some (TmId (IIri s)))).
    { intros s Is. unfold xiri. rewrite (read_stays (IIri s)); [reflexivity| |discriminate]. intros _. split; [unfold readable, id_of_string; cbn; rewrite Is; reflexivity|exact I]. }
    unfold expand_value. destruct t as [t|].
    + specialize (E t (IT t eq_refl)). destruct ix; cbn [value_entries index_entry app fold_r value_step as_str vs_json vs_ty vs_index vs_lang vs_dir]; rewrite E; cbn; destruct l; try congruence; reflexivity.
    + destruct ix; cbn; destruct l; try congruence; reflexivity.
  - destruct s as [d l r]. cbn [ls_language] in NN. exists (JStr d). split; [destruct l, r, ix; reflexivity|]. unfold expand_value. cbn [value_entries ls_language ls_direction ls_data].
    destruct TG as [TG|TG]; cbn [ls_language ls_direction] in TG;
      (destruct l as [l|], r as [[]|], ix; try congruence; cbn; try (destruct (streq_spec l "@none") as [->|_]; [congruence|]); reflexivity).
  - exists j. split; [destruct ix; reflexivity|]. unfold expand_value. destruct ix; reflexivity.
Qed.
Lemma expands_value ap ix v : settled_value io v -> expands ap (with_index ix (value_json v)) (ix, OVal v).
Proof.
  intros S. rewrite value_shape. pose proof (fine_value ix v) as G. exists 1. intros [|n] L fm; [lia|]. cbn [expand_element element_body]. unfold expand_map.
  rewrite (fine_context _ _ _ G). cbn [bind]. rewrite (fine_types _ G). cbn [bind]. rewrite fine_scoped. cbn [bind].
  assert (I : input_type io o c (sort_key fst (typed (value_entries v ++ index_entry ix))) =
    Ok (match v with VLit _ (Some t) => Some (TmId (IIri t)) | VJson _ => Some (TmKw KJson) | _ => None end)).
  { destruct S as [l t NL IT|s TG NN|j].
    - destruct t as [t|], ix; cbn; try reflexivity; unfold xkey, xiri; (rewrite (read_stays (IIri t)); [reflexivity|discriminate|]);
        (intros _; split; [unfold readable, id_of_string; cbn; rewrite (IT _ eq_refl); reflexivity|exact I]).
    - destruct s as [d [l|] [r|]], ix; reflexivity.
    - destruct ix; reflexivity. }
  rewrite I. cbn [bind]. rewrite (fine_entries _ G). cbn [bind].
  assert (NL : last_entry KList (value_entries v ++ index_entry ix) = None /\ last_entry KSet (value_entries v ++ index_entry ix) = None) by (destruct v as [l [t|]|[d [l|] [r|]]|j], ix; split; reflexivity).
  destruct NL as [NL NS]. rewrite NL, NS. destruct (value_read ix v _ S eq_refl) as (ve & E & X).
  destruct (is_some ap && negb (ap_is ap KGraph)); rewrite E, X; reflexivity.
Qed.

(** *** Lists *)
Lemma expands_list key ix js xs : key <> "@graph" -> Forall2 (expands (Some key)) js xs ->
  expands (Some key) (with_index ix (JObj (insert "@list" (JArr js) []))) (ix, OList xs).
Proof.
  intros NG F. set (es := ("@list", TmKw KList, JArr js) :: index_entry ix).
  assert (E : with_index ix (JObj (insert "@list" (JArr js) [])) = JObj (unread es)) by (destruct ix; reflexivity). rewrite E.
  assert (G : Forall fine es) by (constructor; [apply (rd_kw KList); discriminate|]; destruct ix; constructor; [apply (rd_kw KIndex); discriminate|constructor]).
  apply ev_forall2 in F. revert F. apply ev_succ. intros n F fm. cbn [expand_element element_body]. unfold expand_map.
  rewrite (fine_context _ _ _ G). cbn [bind]. rewrite (fine_types _ G). cbn [bind]. rewrite fine_scoped. cbn [bind].
  destruct (fine_input (sort_key fst (typed es))) as [it ->]. cbn [bind]. rewrite (fine_entries _ G). cbn [bind is_some andb].
  assert (A : ap_is (Some key) KGraph = false) by (cbn; destruct (streq_spec key "@graph"); [contradiction|reflexivity]). rewrite A. cbn [negb].
  assert (L : last_entry KList es = Some (JArr js)) by (destruct ix; reflexivity). rewrite L.
  assert (I : list_index es = Ok ix) by (destruct ix; reflexivity). rewrite I. cbn [bind force_array].
  assert (R : flat_r (fun item => do x <- XE n c (Some key) item false ; Ok (items x)) js = Ok xs).
  { clear -F. induction F as [|j x l xs H F IH]; [reflexivity|]. cbn [flat_r]. rewrite H. cbn [bind items]. rewrite IH. reflexivity. }
  rewrite R. reflexivity.
Qed.

(** *** Nodes *)
Definition steps (ap : option string) (s : nstate) (es : list xentry) (s' : nstate) : Prop :=
  ev (fun n => forall self, fold_r (node_entry io ld fin rnd pf o (XE n) self ap c c) s es = Ok s').
Lemma steps_nil ap s : steps ap s [] s.
Proof. apply ev_always. intros n self. reflexivity. Qed.
Lemma steps_app ap s es s' es' s'' : steps ap s es s' -> steps ap s' es' s'' -> steps ap s (es ++ es') s''.
Proof. intros H H'. eapply ev_impl; [|exact (ev_and _ _ H H')]. intros n [A B] self. rewrite fold_r_app, A. apply B. Qed.
Lemma steps_one ap s e s' : ev (fun n => forall self, node_entry io ld fin rnd pf o (XE n) self ap c c s e = Ok s') -> steps ap s [e] s'.
Proof. apply ev_impl. intros n H self. cbn [fold_r]. rewrite H. reflexivity. Qed.
Definition start : nstate := ((None, node_new None), false).
Lemma expands_node ap es ix n : Forall fine es -> Forall (fun e => node_term (snd (fst e))) es -> steps ap start es ((ix, n), false) ->
  free_floating ap && n_empty n && negb (is_some ix) = false -> expands ap (JObj (unread es)) (ix, ONode n).
Proof.
  intros G T St F. unfold expands. refine (ev_succ _ _ _ (ev_and _ _ St (ex_intro (fun N => forall n, N <= n -> 1 <= n) 1 (fun n L => L)))).
  intros m [H L] fm. cbn [expand_element element_body]. unfold expand_map. rewrite (fine_context _ _ _ G). cbn [bind].
  rewrite (fine_types _ G). cbn [bind]. rewrite fine_scoped. cbn [bind]. destruct (fine_input (sort_key fst (typed es))) as [it ->]. cbn [bind]. rewrite (fine_entries _ G). cbn [bind].
  assert (X : forall k, k = KList \/ k = KSet \/ k = KValue -> last_entry k es = None).
  { intros k K. apply last_none. eapply Forall_impl; [|exact T]. intros e E H'. unfold node_term in E. rewrite H' in E. destruct E as (A & B & D), K as [->|[->| ->]]; congruence. }
  rewrite !X by tauto. assert (Y : forall b : bool, (if b then None else None) = (None : option json)) by (intros []; reflexivity). rewrite Y.
  destruct m as [|m]; [lia|]. unfold expand_node. cbn [node_entries]. specialize (H (node_entries io ld fin rnd pf o (XE (S m)) m ap c)).
  unfold start in H. rewrite H. cbn [bind fst snd andb]. rewrite F. reflexivity.
Qed.
Lemma not_reversed ap : ap <> Some "@reverse" -> ap_is ap KReverse = false.
Proof. intros N. unfold ap_is. destruct ap as [k|]; [|reflexivity]. destruct (streq_spec k (kw_str KReverse)) as [->|_]; [destruct N|]; reflexivity. Qed.
Lemma no_key n k : has_key n k = false -> (match xo_mode o with JsonLd10 => true | JsonLd11 => negb (keyword_eqb k KIncluded) && negb (keyword_eqb k KType) end) && has_key n k = false.
Proof. intros ->. apply andb_false_r. Qed.
Lemma keep_policy i e : accepted o i -> invalid_policy o i e = Ok true.
Proof. intros [V|K]; destruct i; try reflexivity; [discriminate|]. cbn. rewrite K. reflexivity. Qed.
Lemma step_id ap i ix ts g inc ps rs : ap <> Some "@reverse" -> stays io b i ->
  steps ap ((ix, MkNode None ts g inc ps rs), false) [("@id", TmKw KId, id_json i)] ((ix, MkNode (Some i) ts g inc ps rs), false).
Proof.
  intros N S. apply steps_one, ev_always. intros n self. cbn [node_entry]. unfold keyword_entry. rewrite (not_reversed _ N), no_key by reflexivity.
  cbn [as_str id_json]. unfold xiri. rewrite read_stays; [reflexivity|auto|discriminate].
Qed.
Lemma step_index ap i n x : ap <> Some "@reverse" -> steps ap ((None, n), x) [("@index", TmKw KIndex, JStr i)] ((Some i, n), x).
Proof.
  intros N. apply steps_one, ev_always. intros m self. cbn [node_entry]. unfold keyword_entry. rewrite (not_reversed _ N). cbn [snd fst]. rewrite no_key by reflexivity. reflexivity.
Qed.
Lemma step_types ap ts ix i g inc ps rs : ap <> Some "@reverse" -> Forall (fun t => stays io b t /\ accepted o t) ts -> ts <> [] ->
  steps ap ((ix, MkNode i None g inc ps rs), false) [("@type", TmKw KType, JArr (map id_json ts))] ((ix, MkNode i (Some ts) g inc ps rs), false).
Proof.
  intros N F NE. apply steps_one, ev_always. intros n self. cbn [node_entry]. unfold keyword_entry. rewrite (not_reversed _ N), no_key by reflexivity. cbn [snd fst].
  assert (E : expand_types io o c (JArr (map id_json ts)) (MkNode i None g inc ps rs) = Ok (MkNode i (Some ts) g inc ps rs)); [|rewrite E; reflexivity].
  unfold expand_types. cbn [force_array].
  match goal with |- fold_r ?f _ _ = _ => assert (G : forall p, p <> None \/ ts <> [] -> fold_r f (MkNode i p g inc ps rs) (map id_json ts) = Ok (MkNode i (Some (opt_list p ++ ts)) g inc ps rs)) end.
  { clear NE. induction F as [|t ts [S A] F IH]; intros p NE.
    - destruct p; cbn; [rewrite app_nil_r; reflexivity|tauto].
    - cbn [map fold_r as_str id_json]. unfold xiri. rewrite read_stays by (auto; discriminate). cbn [map_err bind id_of_term]. rewrite (keep_policy _ _ A). cbn [bind push_type].
      assert (X : Some (opt_list p ++ [t]) <> None) by congruence. specialize (IH (Some (opt_list p ++ [t])) (or_introl X)). cbn [opt_list] in IH. rewrite <- app_assoc in IH. exact IH. }
  exact (G None (or_intror NE)).
Qed.
Lemma oset_all xs : Forall (fun x => wf (snd x)) xs -> distinct same_i xs -> oset fin rnd xs = xs.
Proof.
  intros W D. unfold oset, oset_insert. rewrite (set_insert_all (iobj_hash fin rnd) (iobj_eqb fin rnd) same_i xs []); [reflexivity| |exact D].
  cbn [app]. intros x y I J. unfold iobj_eqb. rewrite andb_true_iff, opt_streq. intros [E X]. split; [exact E|].
  apply (proj1 (eqb_both fin rnd)) in X; [exact X|exact (Forall_in _ _ _ W I)|exact (Forall_in _ _ _ W J)].
Qed.
Lemma top_floats (xs : list iobj) : Forall floats xs -> filter top_level xs = xs.
Proof. induction 1 as [|x xs (n & E & _) F IH]; [reflexivity|]. cbn [filter]. unfold top_level at 1. rewrite E, IH. reflexivity. Qed.
Lemma step_graph ap js xs ix i ts inc ps rs : ap <> Some "@reverse" -> Forall2 (expands (Some "@graph")) js xs ->
  Forall floats xs -> Forall (fun x => wf (snd x)) xs -> distinct same_i xs ->
  steps ap ((ix, MkNode i ts None inc ps rs), false) [("@graph", TmKw KGraph, JArr js)] ((ix, MkNode i ts (Some xs) inc ps rs), false).
Proof.
  intros N F Nd W D. apply expands_array in F. apply steps_one. revert F. apply ev_impl. intros n F self.
  cbn [node_entry]. unfold keyword_entry. rewrite (not_reversed _ N), no_key by reflexivity. rewrite F. cbn [bind items]. rewrite (top_floats _ Nd), (oset_all _ W D). reflexivity.
Qed.
Notation node_objs := (map (fun x : inode => (fst x, ONode (snd x)) : iobj)).
Lemma as_nodes_objs e l : as_nodes e (node_objs l) = Ok l.
Proof. unfold as_nodes. induction l as [|[ix n] l IH]; [reflexivity|]. cbn [map map_r as_node snd fst bind]. rewrite IH. reflexivity. Qed.
Lemma step_reverse ap rs ix i ts g inc ps : ap <> Some "@reverse" -> rs <> [] -> NoDup (map fst rs) ->
  Forall (fun p => stays io None (fst p) /\ accepted o (fst p) /\ contains_char ":" (id_str (fst p)) = true /\
    Forall2 (expands (Some (id_str (fst p)))) (map inode_json (snd p)) (node_objs (snd p))) rs ->
  steps ap ((ix, MkNode i ts g inc ps None), false) [("@reverse", TmKw KReverse, JObj (rev_entries rs))] ((ix, MkNode i ts g inc ps (Some rs)), false).
Proof.
  intros N NE ND F.
  assert (G : forall l r0, Forall (fun p => stays io None (fst p) /\ accepted o (fst p) /\ contains_char ":" (id_str (fst p)) = true /\
      Forall2 (expands (Some (id_str (fst p)))) (map inode_json (snd p)) (node_objs (snd p))) l -> NoDup (map fst (opt_list r0 ++ l)) -> r0 <> None \/ l <> [] ->
    ev (fun n => fold_r (reverse_entry io o (XE n) c) (MkNode i ts g inc ps r0) (rev_entries l) = Ok (MkNode i ts g inc ps (Some (opt_list r0 ++ l))))).
  { clear -LW. intros l r0 F. revert r0. induction F as [|[p l0] l (S & A & C & F) _ IH]; intros r0 ND NE.
    - destruct r0; [apply ev_always; intros n; cbn; rewrite app_nil_r; reflexivity|tauto].
    - cbn [fst snd] in *. apply expands_array in F. assert (SN : Some (opt_list r0 ++ [(p, l0)]) <> None) by congruence.
      specialize (IH (Some (opt_list r0 ++ [(p, l0)]))). cbn [opt_list] in IH. rewrite <- app_assoc in IH. specialize (IH ND (or_introl SN)).
      eapply ev_impl; [|exact (ev_and _ _ F IH)]. clear F IH. intros n [F IH].
      assert (ST : reverse_entry io o (XE n) c (MkNode i ts g inc ps r0) (id_str p, JArr (map inode_json l0)) = Ok (MkNode i ts g inc ps (Some (opt_list r0 ++ [(p, l0)])))).
      { unfold reverse_entry. destruct (rd_id p S C) as [-> _]. cbn [bind]. unfold id_has_colon. rewrite C, (keep_policy _ _ A). cbn [bind negb]. rewrite F. cbn [bind items]. rewrite no_def, as_nodes_objs. cbn [bind add_reverse].
        rewrite insert_all_new; [reflexivity|]. rewrite map_app in ND. cbn [map fst] in ND. apply NoDup_remove_2 in ND. intros J. apply ND, in_or_app. left. exact J. }
      unfold rev_entries. cbn [map fst snd fold_r]. rewrite ST. cbn [bind]. exact IH. }
  specialize (G rs None F ND (or_intror NE)). cbn [opt_list app] in G. apply steps_one. revert G. apply ev_impl. intros n G self.
  cbn [node_entry]. unfold keyword_entry. rewrite (not_reversed _ N), no_key by reflexivity. cbn [snd fst]. unfold entries_sorted. rewrite SORT.
  match goal with |- bind ?r _ = _ => replace r with (Ok (E := xerr) (MkNode i ts g inc ps (Some rs))) by (symmetry; exact G) end. reflexivity.
Qed.
Definition prop_steps (ps : list (id * list iobj)) : list xentry := map (fun p => (id_str (fst p), TmId (fst p), JArr (map iobj_json (snd p)))) ps.
Lemma step_props ap ix i ts g inc rs ps : forall q, NoDup (map fst (q ++ ps)) ->
  Forall (fun p => stays io None (fst p) /\ accepted o (fst p) /\ contains_char ":" (id_str (fst p)) = true /\
    Forall2 (expands (Some (id_str (fst p)))) (map iobj_json (snd p)) (snd p)) ps ->
  steps ap ((ix, MkNode i ts g inc q rs), false) (prop_steps ps) ((ix, MkNode i ts g inc (q ++ ps) rs), false).
Proof.
  induction ps as [|[p l] ps IH]; intros q ND F; [rewrite app_nil_r; apply steps_nil|]. inversion F as [|? ? (S & A & C & E) F']; subst. cbn [fst snd] in *.
  cbn [prop_steps map fst snd]. change (?x :: map ?f ps) with ([x] ++ prop_steps ps).
  eapply steps_app; [|specialize (IH (q ++ [(p, l)])); rewrite <- app_assoc in IH; exact (IH ND F')].
  apply expands_array in E. apply steps_one. revert E. apply ev_impl. intros n E self. cbn [node_entry]. unfold property_entry, id_has_colon. rewrite C, (keep_policy _ _ A). cbn [bind negb snd fst].
  unfold expand_property. rewrite no_def. rewrite E. cbn [bind]. unfold wrap_graph, wrap_list, store. cbn [has_container andb]. cbn [items add_prop].
  rewrite insert_all_new; [reflexivity|]. rewrite map_app in ND. cbn [map fst] in ND. apply NoDup_remove_2 in ND. intros J. apply ND, in_or_app. left. exact J.
Qed.

(** *** Objects *)
Lemma settled_printable : (forall x, settled io o b x -> printable io x) /\ (forall n, settled_node io o b n -> printable_node io n).
Proof.
  assert (KJ : forall t, iri_ok io t = true -> t <> "@json").
  { intros t Y E. subst t. destruct (il_scheme _ (dl_iri _ LW) _ Y) as (p & x & EP & _). pose proof (colon_not_keyword p x) as K. rewrite <- EP in K. discriminate. }
  assert (RS : forall s, contains_char ":" s = true -> ~ In s reserved).
  { intros s C R. cbn in R. repeat (destruct R as [<-|R]; [discriminate C|]). exact R. }
  apply (obj_node_ind (fun x => settled io o b x -> printable io x) (fun n => settled_node io o b n -> printable_node io n)).
  - intros v H. inversion H as [? S| |]; subst. constructor. destruct S as [l t NL IT|s TG NN|j]; constructor; [|assumption]. intros t' ->. split; [auto|]. apply KJ, IT. reflexivity.
  - intros n IH H. inversion H; subst. constructor. auto.
  - intros l IH H. inversion H as [| |? F]; subst. constructor. apply Forall_forall. intros x J. exact (Forall_in _ _ _ IH J (Forall_in _ _ _ F J)).
  - intros i ts g inc ps rs Hg Hi Hp Hr H. inversion H as [? ? ? ? ? Si Ts St Sg Sp Rn Sr]; subst. constructor.
    + intros x E. exact (proj1 (Si x E)).
    + exact Ts.
    + eapply Forall_impl; [|exact St]. intros t [[R _] _]. exact R.
    + apply Forall_forall. intros x J. destruct g as [g|]; [|destruct J]. exact (Forall_in _ _ _ Hg J (proj1 (Forall_in _ _ _ Sg J))).
    + apply Forall_forall. intros p J. destruct (Forall_in _ _ _ Sp J) as ([R _] & _ & C & F). split; [exact R|]. split; [exact (RS _ C)|].
      apply Forall_forall. intros x K. exact (Forall_in _ _ _ (Forall_in _ _ _ Hp J) K (Forall_in _ _ _ F K)).
    + apply Forall_forall. intros p J. destruct (Forall_in _ _ _ Sr J) as ([R _] & _ & C & F). split; [exact R|]. destruct rs as [rs|]; [|destruct J].
      apply Forall_forall. intros x K. exact (Forall_in _ _ _ (Forall_in _ _ _ Hr J) K (Forall_in _ _ _ F K)).
Qed.

Definition ok_place (ap : option string) (x : iobj) : Prop :=
  ap <> Some "@reverse" /\ ((exists k, ap = Some k /\ k <> "@graph") \/ floats x).
Lemma same_place p x : contains_char ":" (id_str p) = true -> ok_place (Some (id_str p)) x.
Proof.
  intros C. split; [intros E; injection E as E; rewrite E in C; discriminate|]. left. exists (id_str p). split; [reflexivity|]. intros E. rewrite E in C. discriminate.
Qed.
Lemma forall2_self {A B} (R : B -> A -> Prop) (f : A -> B) l : Forall (fun x => R (f x) x) l -> Forall2 R (map f l) l.
Proof. induction 1; constructor; assumption. Qed.
Lemma forall2_nodes {B} (R : B -> iobj -> Prop) (f : inode -> B) l : Forall (fun x => R (f x) (fst x, ONode (snd x))) l -> Forall2 R (map f l) (node_objs l).
Proof. induction 1; constructor; assumption. Qed.
Lemma reexpand_both :
  (forall x, settled io o b x -> wf x -> forall ap ix, ok_place ap (ix, x) -> expands ap (with_index ix (obj_json x)) (ix, x)) /\
  (forall n, settled_node io o b n -> wf_node n -> forall ap ix, ok_place ap (ix, ONode n) -> expands ap (with_index ix (node_json n)) (ix, ONode n)).
Proof.
  apply (obj_node_ind
    (fun x => settled io o b x -> wf x -> forall ap ix, ok_place ap (ix, x) -> expands ap (with_index ix (obj_json x)) (ix, x))
    (fun n => settled_node io o b n -> wf_node n -> forall ap ix, ok_place ap (ix, ONode n) -> expands ap (with_index ix (node_json n)) (ix, ONode n))).
  - intros v S _ ap ix _. inversion S; subst. cbn [obj_json]. apply expands_value. assumption.
  - intros n IH S W ap ix P. inversion S; inversion W; subst. cbn [obj_json]. apply IH; assumption.
  - intros l IH S W ap ix [NR P]. inversion S as [| |? F]; inversion W as [| |? G]; subst. cbn [obj_json].
    destruct P as [(k & -> & NG)|(n & E & _)]; [|discriminate E]. apply expands_list; [exact NG|]. apply forall2_self. apply Forall_forall. intros [ix' x] J.
    cbn [fst snd]. apply (Forall_in _ _ _ IH J); [exact (Forall_in _ _ _ F J)|exact (Forall_in _ _ _ G J)|]. split; [exact NR|]. left. eauto.
  - intros i ts g inc ps rs Hg Hi Hp Hr S W ap ix P. pose proof (proj2 settled_printable _ S) as PR. inversion S as [? ? ? ? ? Si Ts St Sg Sp Rn Sr]; subst.
    rewrite (ObjectJsonProofs.node_entries io i ts g ps rs PR W).
    inversion W as [? ? ? ? ? ? Wg Dg _ _ Np Wp Nr Wr]; subst.
    set (es := match i with Some i => [("@id", TmKw KId, id_json i)] | None => [] end
      ++ match ts with Some ts => [("@type", TmKw KType, JArr (map id_json ts))] | None => [] end
      ++ match g with Some g => [("@graph", TmKw KGraph, JArr (map iobj_json g))] | None => [] end
      ++ match rs with Some rs => [("@reverse", TmKw KReverse, JObj (rev_entries rs))] | None => [] end
      ++ prop_steps ps ++ index_entry ix).
    assert (RES : forall x, In x (keys (head_entries i ts g rs ++ prop_entries ps)) -> x <> "@index").
    { intros x J. rewrite keys_app in J. apply in_app_or in J. destruct J as [J|J].
      - unfold head_entries in J. rewrite !keys_app in J. destruct i, ts, g, rs; cbn in J; intuition (subst; discriminate).
      - unfold keys, prop_entries in J. rewrite map_map in J. apply in_map_iff in J. destruct J as (p & <- & J). cbn [fst].
        destruct (Forall_in _ _ _ Sp J) as (_ & _ & C & _). intros E. cbn in E. revert C. clear -E. intros C.
        match type of C with contains_char _ ?x = true => change x with (id_str (fst p)) in C end. rewrite E in C. discriminate. }
    assert (EQ : with_index ix (JObj (head_entries i ts g rs ++ prop_entries ps)) = JObj (unread es)).
    { assert (Q : forall m, unread (prop_steps ps ++ m) = prop_entries ps ++ unread m).
      { intros m. unfold unread, prop_steps, prop_entries. rewrite map_app, map_map. reflexivity. }
      unfold with_index. destruct ix as [ix|].
      - rewrite insert_app by (intros J; exact (RES _ J eq_refl)). unfold es, unread. rewrite !map_app. fold (unread (prop_steps ps)). rewrite <- (app_nil_r (prop_steps ps)), Q. cbn [unread map]. rewrite app_nil_r.
        unfold head_entries. rewrite <- !app_assoc. destruct i, ts, g, rs; reflexivity.
      - unfold es, unread. rewrite !map_app. fold (unread (prop_steps ps)). rewrite <- (app_nil_r (prop_steps ps)), Q. cbn [unread map index_entry]. rewrite !app_nil_r.
        unfold head_entries. rewrite <- !app_assoc. destruct i, ts, g, rs; reflexivity. }
    rewrite EQ. destruct P as [NR P]. apply expands_node.
    + unfold es. rewrite !Forall_app. assert (K : forall kw j, kw <> KContext -> fine (kw_str kw, TmKw kw, j)) by (intros kw j NK; exact (rd_kw kw NK)).
      repeat split; try (match goal with |- Forall fine (match ?z with _ => _ end) => destruct z; [constructor; [|constructor]|constructor] end; first [apply (K KId)|apply (K KType)|apply (K KGraph)|apply (K KReverse)]; discriminate).
      * unfold prop_steps. apply Forall_forall. intros e J. apply in_map_iff in J. destruct J as (p & <- & J). destruct (Forall_in _ _ _ Sp J) as (SS & _ & C & _). exact (rd_id _ SS C).
      * destruct ix; constructor; [apply (K KIndex); discriminate|constructor].
    + unfold es. rewrite !Forall_app. unfold node_term. repeat split; try (match goal with |- Forall _ (match ?z with _ => _ end) => destruct z; repeat constructor; discriminate end).
      * unfold prop_steps. apply Forall_forall. intros e J. apply in_map_iff in J. destruct J as (p & <- & J). cbn. repeat split; discriminate.
      * destruct ix; repeat constructor; discriminate.
    + unfold es. eapply steps_app; [|eapply steps_app; [|eapply steps_app; [|eapply steps_app; [|eapply steps_app]]]].
      * instantiate (1 := ((None, MkNode i None None None [] None), false)). destruct i as [i|]; [apply step_id; auto|apply steps_nil].
      * instantiate (1 := ((None, MkNode i ts None None [] None), false)). destruct ts as [ts|]; [apply step_types; [exact NR|exact St|congruence]|apply steps_nil].
      * instantiate (1 := ((None, MkNode i ts g None [] None), false)). destruct g as [g|]; [|apply steps_nil]. cbn [opt_list] in *. apply step_graph; [exact NR| | |exact Wg|exact Dg].
        -- apply forall2_self, Forall_forall. intros [ix' x] J. destruct (Forall_in _ _ _ Sg J) as [SX FL]. unfold iobj_json. cbn [fst snd] in *. apply (Forall_in _ _ _ Hg J SX (Forall_in _ _ _ Wg J)). split; [discriminate|]. right. exact FL.
        -- eapply Forall_impl; [|exact Sg]. intros x [_ FL]. exact FL.
      * instantiate (1 := ((None, MkNode i ts g None [] rs), false)). destruct rs as [rs|]; [|apply steps_nil]. cbn [opt_list] in *. apply step_reverse; [exact NR|intros ->; apply Rn; reflexivity|exact Nr|].
        apply Forall_forall. intros p J. destruct (Forall_in _ _ _ Sr J) as (SS & A & C & F). split; [exact SS|]. split; [exact A|]. split; [exact C|].
        apply forall2_nodes, Forall_forall. intros [ix' x] K. unfold inode_json. cbn [fst snd].
        apply (Forall_in _ _ _ (Forall_in _ _ _ Hr J) K (Forall_in _ _ _ F K) (Forall_in _ _ _ (Forall_in _ _ _ Wr J) K)). apply same_place, C.
      * instantiate (1 := ((None, MkNode i ts g None ([] ++ ps) rs), false)). apply step_props; [exact Np|].
        apply Forall_forall. intros p J. destruct (Forall_in _ _ _ Sp J) as (SS & A & C & F). split; [exact SS|]. split; [exact A|]. split; [exact C|].
        apply forall2_self, Forall_forall. intros [ix' x] K. unfold iobj_json. cbn [fst snd].
        apply (Forall_in _ _ _ (Forall_in _ _ _ Hp J) K (Forall_in _ _ _ F K) (Forall_in _ _ _ (Forall_in _ _ _ Wp J) K)). apply same_place, C.
      * destruct ix; [apply step_index, NR|apply steps_nil].
    + destruct P as [(k & -> & NG)|(n & E & FL)].
      * unfold free_floating, ap_is. cbn [is_some negb orb kw_str]. destruct (streq_spec k "@graph"); [contradiction|reflexivity].
      * cbn [snd fst] in *. injection E as <-. destruct FL as [->|FL]; [rewrite andb_false_r; reflexivity|]. destruct ix; [|congruence]. apply andb_false_r.
Qed.

Lemma reexpand e : Forall (fun x => settled io o b (snd x) /\ wf (snd x) /\ floats x) e -> distinct same_i e ->
  (forall x, e = [x] -> unnamed_graph x = None) ->
  ev (fun n => expand io ld fin rnd pf o base n c (JArr (map iobj_json e)) = Ok e).
Proof.
  intros F D U. assert (X : Forall2 (expands None) (map iobj_json e) e).
  { apply forall2_self, Forall_forall. intros [ix x] J. destruct (Forall_in _ _ _ F J) as (S & W & FL). unfold iobj_json. cbn [fst snd] in *.
    apply (proj1 reexpand_both x S W). split; [discriminate|]. right. exact FL. }
  apply expands_array in X. revert X. apply ev_impl. intros n X. unfold expand. rewrite X. cbn [bind items].
  assert (W : Forall (fun x => wf (snd x)) e) by (eapply Forall_impl; [|exact F]; intros x H; apply H).
  assert (T : filter top_level e = e) by (apply top_floats; eapply Forall_impl; [|exact F]; intros x H; apply H).
  destruct e as [|x [|y e]].
  - reflexivity.
  - rewrite (U x eq_refl). cbn [filter] in T. destruct (top_level x); [|discriminate]. reflexivity.
  - f_equal. transitivity (oset fin rnd (x :: y :: e)); [f_equal; exact T|exact (oset_all _ W D)].
Qed.
End Again.

Lemma colon_no_kw s : contains_char ":" s = true -> is_keyword_like s = false.
Proof.
  intros C. destruct (split_once ":" s) as [[p x]|] eqn:E.
  - apply split_once_sound in E. destruct E as [-> _]. apply (colon_not_keyword p x).
  - apply split_once_none in E. congruence.
Qed.
Lemma fixed_stays io b i : readable io i -> fixed b i -> stays io b i.
Proof. intros R F. split; [exact R|]. destruct i; try exact I. destruct F as [F|F]; [discriminate|exact F]. Qed.
Lemma key_stays io o p : readable io p -> plain_key o p -> stays io None p.
Proof. intros R [_ C]. split; [exact R|]. destruct p; try exact I. split; [reflexivity|apply colon_no_kw, C]. Qed.
Lemma good_settled io K o b :
  (forall x, ExpandOk.good io K x -> plain o b x -> settled io o b x) /\ (forall n, ExpandOk.good_node io K n -> plain_node o b n -> settled_node io o b n).
Proof.
  apply (obj_node_ind (fun x => ExpandOk.good io K x -> plain o b x -> settled io o b x) (fun n => ExpandOk.good_node io K n -> plain_node o b n -> settled_node io o b n)).
  - intros v G P. inversion G as [? S| |]; subst. constructor. destruct S; constructor; try assumption. inversion P. assumption.
  - intros n IH G P. inversion G; inversion P; subst. constructor. auto.
  - intros l IH G P. inversion G as [| |? F]; inversion P as [| | | |? Q]; subst. constructor. apply Forall_forall. intros x J.
    exact (Forall_in _ _ _ IH J (Forall_in _ _ _ F J) (Forall_in _ _ _ Q J)).
  - intros i ts g inc ps rs Hg Hi Hp Hr G P. inversion G as [? ? ? ? ? ? Gi Gt Gts Gg _ Gp Gr]; inversion P as [? ? ? ? ? Pi Pt Pg Pp Pn Pr]; subst. constructor.
    + intros x E. apply fixed_stays; auto.
    + exact Gt.
    + apply Forall_forall. intros t J. destruct (Forall_in _ _ _ Pt J) as [F A]. split; [|exact A]. apply fixed_stays; [exact (Forall_in _ _ _ Gts J)|exact F].
    + apply Forall_forall. intros x J. destruct (Forall_in _ _ _ Pg J) as [F A]. split; [|exact A]. exact (Forall_in _ _ _ Hg J (Forall_in _ _ _ Gg J) F).
    + apply Forall_forall. intros p J. destruct (Forall_in _ _ _ Pp J) as [KP F]. destruct (Forall_in _ _ _ Gp J) as (R & _ & F').
      split; [exact (key_stays _ _ _ R KP)|]. destruct KP as [A C]. split; [exact A|]. split; [exact C|].
      apply Forall_forall. intros x I. exact (Forall_in _ _ _ (Forall_in _ _ _ Hp J) I (Forall_in _ _ _ F' I) (Forall_in _ _ _ F I)).
    + exact Pn.
    + apply Forall_forall. intros p J. destruct (Forall_in _ _ _ Pr J) as [KP F]. destruct (Forall_in _ _ _ Gr J) as (R & _ & F').
      split; [exact (key_stays _ _ _ R KP)|]. destruct KP as [A C]. split; [exact A|]. split; [exact C|].
      apply Forall_forall. intros x I. exact (Forall_in _ _ _ (Forall_in _ _ _ Hr J) I (Forall_in _ _ _ F' I) (Forall_in _ _ _ F I)).
Qed.

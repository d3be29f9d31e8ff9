(** Properties of compaction: C21, C41. *)
From Verif Require Import Prelude Json Str Keyword Enums LangTag LangString Container Stack ContextSyntax Ctx Process
  Object ObjectJson ObjectEq AddValue CompactIri CompactIriRead Expand Compact CompactValue CompactProofs CompactKept Samples PropCompactIri PropExpand.

(** ** C21 *)

(** The keywords of value objects can be read back, and the property has no local context. *)
Record readable_in (c : actx) (k : string) : Prop := {
  ri_once : NoDup (map fst (ac_defs c));
  ri_keywords : forall kw, In kw keywords -> plain_keyword c kw;
  ri_property : k <> "@graph";
  ri_context : forall d, prop_def c (Some k) = Some d -> nd_context d = None
}.
Definition no_maps (d : option ndef) : Prop :=
  forall d' x, d = Some d' -> In x (as_slice (nd_container d')) -> x <> CKLanguage /\ x <> CKIndex /\ x <> CKType /\ x <> CKId.

(** The value and the index of a property, compacted then expanded, are kept. *)
Theorem C21_partial : forall io ld fin rnd pf o base rel co c k index v j n,
  iri_laws io -> xo_vocab o = AKeep -> readable_in c k -> no_maps (prop_def c (Some k)) ->
  keepable io c (prop_def c (Some k)) index v ->
  compact_value io ld rel pf co c (Some k) index v = Ok j ->
  exists v', same_value v v' /\
    expand_property io ld fin rnd pf o (expand_element io ld fin rnd pf o base (S n)) c k j = Ok (XObj (index, OVal v')).
Proof.
  intros io ld fin rnd pf o base rel co c k index v j n LW VK [HN HK NG NC] NM K H.
  destruct (value_trip io ld fin rnd pf o base rel co c LW HN VK HK k _ NG eq_refl NC index v j n false K H) as (v' & S & E).
  exists v'. split; [exact S|]. unfold expand_property. set (d := prop_def c (Some k)) in *.
  assert (KI : kept_index c k index = index).
  { unfold kept_index. destruct (remove_index c (Some k) index) eqn:R; [|reflexivity].
    apply (removed_spec c k _ eq_refl) in R. destruct R as [->|(d' & D & I)]; [reflexivity|]. destruct (NM _ _ D I) as (_ & X & _). congruence. }
  assert (T : opt_eqb ty_eqb (mapped_type d) (Some TyJson) = match d with Some d => match nd_typ d with Some TyJson => true | _ => false end | None => false end).
  { unfold mapped_type. destruct d as [d'|]; [|reflexivity]. destruct (nd_typ d') as [[]|]; reflexivity. }
  rewrite KI, T in E. destruct (match d with Some _ => _ | None => _ end).
  - destruct E as [-> E]. rewrite E. reflexivity.
  - assert (C : forall x, x = CKLanguage \/ x = CKIndex \/ x = CKType \/ x = CKId -> has_container d x = false).
    { intros x X. unfold has_container, c_contains. destruct d as [d'|]; [|reflexivity]. destruct (existsb _ _) eqn:B; [|reflexivity].
      apply existsb_exists in B. destruct B as (y & I & Y). destruct (NM _ _ eq_refl I) as (N1 & N2 & N3 & N4).
      destruct x, y; cbn in Y; (discriminate || (exfalso; congruence) || (exfalso; intuition discriminate)). }
    destruct j; try exact E. rewrite !C by tauto. exact E.
Qed.
Print Assumptions C21_partial.

(** Also for the items of containers, where the index is kept by an index map. *)
Theorem C21_item_partial : forall io ld fin rnd pf o base rel co c k index v j n fm,
  iri_laws io -> xo_vocab o = AKeep -> readable_in c k -> mapped_type (prop_def c (Some k)) <> Some TyJson ->
  keepable io c (prop_def c (Some k)) index v ->
  compact_value io ld rel pf co c (Some k) index v = Ok j ->
  exists index' v', same_value v v' /\
    expand_element io ld fin rnd pf o base (S n) c (Some k) j fm = Ok (XObj (index', OVal v')) /\
    (elsewhere (prop_def c (Some k)) index /\ index' = None \/ ~ elsewhere (prop_def c (Some k)) index /\ index' = index).
Proof.
  intros io ld fin rnd pf o base rel co c k index v j n fm LW VK [HN HK NG NC] NJ K H.
  destruct (value_trip io ld fin rnd pf o base rel co c LW HN VK HK k _ NG eq_refl NC index v j n fm K H) as (v' & S & E).
  exists (kept_index c k index), v'. split; [exact S|]. split.
  - destruct (opt_eqb ty_eqb (mapped_type (prop_def c (Some k))) (Some TyJson)) eqn:T; [|exact E].
    destruct NJ. destruct (mapped_type _) as [[]|]; try discriminate T. reflexivity.
  - unfold kept_index. destruct (remove_index c (Some k) index) eqn:R.
    + left. split; [|reflexivity]. apply (removed_spec c k _ eq_refl), R.
    + right. split; [|reflexivity]. intros X. apply (removed_spec c k _ eq_refl) in X. congruence.
Qed.
Print Assumptions C21_item_partial.

(** Compaction of a value only fails for a datatype that cannot be compacted. *)
Theorem C21_fails_partial : forall io ld rel pf co c k index v e,
  (forall d, prop_def c (Some k) = Some d -> nd_context d = None) ->
  compact_value io ld rel pf co c (Some k) index v = Err e ->
  exists l t, v = VLit l (Some t) /\ exists x, compact_iri rel c (co_mode co) (TmId (IIri t)) true false = Err x.
Proof. exact value_fails. Qed.
Print Assumptions C21_fails_partial.

(** What the conditions exclude: a value compacted to something read differently. *)
Definition sample_trip (c : actx) (v : value) : result (json * list iobj) unit :=
  match compact_value sample_iops no_loader sample_rel 20 copts_default c (Some "p") None v with
  | Ok j => match expand_property sample_iops no_loader sample_hash sample_hash 20 xopts_default
                    (expand_element sample_iops no_loader sample_hash sample_hash 20 xopts_default None 5) c "p" j with
            | Ok x => Ok (j, items x)
            | Err _ => Err tt
            end
  | Err _ => Err tt
  end.
Definition with_p (lang : option string) (dir : option direction) (t : option ty) : actx :=
  MkCtx None None None lang dir None [("p", nd_set_typ (ndef_of "http://a/p" false false) t)] None.

(** A null value disappears. *)
Theorem C21_null_refuted : sample_trip (with_p None None None) (VLit LNull None) = Ok (JNull, []).
Proof. vm_compute. reflexivity. Qed.
Print Assumptions C21_null_refuted.
(** A string with only a direction becomes a plain string, and takes the default language. *)
Theorem C21_direction_refuted :
  sample_trip (with_p (Some "en") (Some Ltr) None) (VLang (MkLS "x" None (Some Ltr))) =
  Ok (JStr "x", [(None, OVal (VLang (MkLS "x" (Some "en") (Some Ltr))))]).
Proof. vm_compute. reflexivity. Qed.
Print Assumptions C21_direction_refuted.
(** A tagged string of a property with a datatype takes the datatype, or becomes a node. *)
Theorem C21_type_refuted :
  sample_trip (with_p (Some "en") None (Some (TyIri "http://a/t"))) (VLang (MkLS "x" (Some "en") None)) =
  Ok (JStr "x", [(None, OVal (VLit (LStr "x") (Some "http://a/t")))]) /\
  sample_trip (with_p (Some "en") None (Some TyId)) (VLang (MkLS "x:y" (Some "en") None)) =
  Ok (JStr "x:y", [(None, ONode (node_new (Some (IIri "x:y"))))]).
Proof. split; vm_compute; reflexivity. Qed.
Print Assumptions C21_type_refuted.
(** A literal of a property of type [@json] becomes a JSON literal. *)
Theorem C21_json_refuted :
  sample_trip (with_p None None (Some TyJson)) (VLit (LStr "x") None) =
  Ok (JObj [("@value", JStr "x")], [(None, OVal (VJson (JObj [("@value", JStr "x")])))]).
Proof. vm_compute. reflexivity. Qed.
Print Assumptions C21_json_refuted.
(** The language [@none] is lost. *)
Theorem C21_none_refuted :
  sample_trip (with_p None None None) (VLang (MkLS "x" (Some "@none") None)) =
  Ok (JObj [("@value", JStr "x"); ("@language", JStr "@none")], [(None, OVal (VLit (LStr "x") None))]).
Proof. vm_compute. reflexivity. Qed.
Print Assumptions C21_none_refuted.

(** Values of a property with a default language: tagged strings, strings, typed literals, JSON
    literals, with aliases. *)
Definition sample_values : actx :=
  MkCtx None None None (Some "en") None None
    [("p", ndef_of "http://a/p" false false); ("t", ndef_of "http://a/t" false false);
     ("value", nd_set_value ndef_default (Some (TmKw KValue)))] None.
Example C21_example :
  sample_trip sample_values (VLang (MkLS "x" (Some "EN") None)) = Ok (JStr "x", [(None, OVal (VLang (MkLS "x" (Some "en") None)))]) /\
  sample_trip sample_values (VLit (LStr "x") None) = Ok (JObj [("value", JStr "x")], [(None, OVal (VLit (LStr "x") None))]) /\
  sample_trip sample_values (VLit (LBool true) (Some "http://a/t")) =
  Ok (JObj [("value", JBool true); ("@type", JStr "t")], [(None, OVal (VLit (LBool true) (Some "http://a/t")))]) /\
  sample_trip sample_values (VJson JNull) = Ok (JObj [("value", JNull); ("@type", JStr "@json")], [(None, OVal (VJson JNull))]) /\
  readable_in sample_values "p" /\ no_maps (prop_def sample_values (Some "p")) /\
  keepable sample_iops sample_values (prop_def sample_values (Some "p")) None (VLang (MkLS "x" (Some "EN") None)) /\
  keepable sample_iops sample_values (prop_def sample_values (Some "p")) None (VLit (LBool true) (Some "http://a/t")).
Proof.
  split; [vm_compute; reflexivity|]. split; [vm_compute; reflexivity|]. split; [vm_compute; reflexivity|]. split; [vm_compute; reflexivity|].
  assert (D : forall t d, assoc t (ac_defs sample_values) = Some d ->
    t = "p" /\ d = ndef_of "http://a/p" false false \/ t = "t" /\ d = ndef_of "http://a/t" false false \/
    t = "value" /\ d = nd_set_value ndef_default (Some (TmKw KValue))).
  { intros t d A. cbn in A. destruct (streq_spec t "p") as [->|_]; [left; split; congruence|].
    destruct (streq_spec t "t") as [->|_]; [right; left; split; congruence|]. destruct (streq_spec t "value") as [->|_]; [right; right; split; congruence|discriminate]. }
  split; [|split; [|split]].
  - split.
    + cbn. repeat constructor; cbn; intuition discriminate.
    + intros kw _. split.
      * intros t d A V. destruct (D _ _ A) as [[-> ->]|[[-> ->]|[-> ->]]]; reflexivity.
      * intros m x V. discriminate V.
      * intros t d t' x A P. destruct (D _ _ A) as [[-> ->]|[[-> ->]|[-> ->]]]; discriminate P.
    + discriminate.
    + intros d P. cbn in P. injection P as <-. reflexivity.
  - intros d x P I. cbn in P. injection P as <-. destruct I.
  - split; try discriminate.
    + intros s E. injection E as <-. split; [left|]; discriminate.
    + intros s E _ _ _. injection E as <-. split; [discriminate|]. split; [reflexivity|left; reflexivity].
  - split; try discriminate. intros l s E. injection E as <- <-. split; [reflexivity|]. split.
    + split.
      * intros t d A V. destruct (D _ _ A) as [[-> ->]|[[-> ->]|[-> ->]]]; reflexivity.
      * intros d A. discriminate A.
      * intros m x V. discriminate V.
      * intros t d t' x A P. destruct (D _ _ A) as [[-> ->]|[[-> ->]|[-> ->]]]; discriminate P.
    + intros t d A V. destruct (D _ _ A) as [[-> ->]|[[-> ->]|[-> ->]]]; reflexivity.
Qed.

(** ** C41 *)

(** Compaction does not panic if none of the contexts met has a term with a nest value, or a
    container that makes a map. *)
Theorem C41_safe_partial : forall io ld rel pf o n c j doc,
  (forall c', derived io ld pf c c' -> unmapped c') -> compact io ld rel pf o n c j doc <> Err KePanic.
Proof.
  intros io ld rel pf o n c j doc U H. pose proof (document_safe io ld rel pf o n c j doc U) as S. rewrite H in S. apply S. reflexivity.
Qed.
Print Assumptions C41_safe_partial.
Theorem C41_object_safe_partial : forall io ld rel pf o n c index x ap,
  (forall c', derived io ld pf c c' -> unmapped c') -> compact_object io ld rel pf o n index x c c ap <> Err KePanic.
Proof.
  intros io ld rel pf o n c index x ap U H. pose proof (object_safe io ld rel pf o c U n index x c c ap (DvSelf _ _ _ _) (DvSelf _ _ _ _)) as S.
  rewrite H in S. apply S. reflexivity.
Qed.
Print Assumptions C41_object_safe_partial.

(** The properties of a compacted node: every item of every property gives its values to one key,
    in order, and nothing else comes in between. *)
Theorem C41_kept_partial : forall io ld rel pf o n c index nd ap m,
  (forall c', derived io ld pf c c' -> unlisted c') ->
  compact_object io ld rel pf o (S n) index (ONode nd) c c ap = Ok (JObj m) ->
  exists c' before css after, derived io ld pf c c' /\
    Forall2 (fun e cs => given_by rel o (compact_object io ld rel pf o n) c' false (TmId (fst e)) (snd e) cs)
      (if co_ordered o then sort_key (fun e : id * list iobj => id_str (fst e)) (n_props nd) else n_props nd) css /\
    NoDup (keys m) /\ forall k, values_of m k = under k before ++ under k (concat css) ++ under k after.
Proof.
  intros io ld rel pf o n c index nd ap m U H.
  destruct (node_kept io ld rel pf o (compact_object io ld rel pf o n) c U) with (4 := H) as (c' & b & css & a & D & F & B); try constructor.
  { intros. apply (object_safe io ld rel pf o c); auto. intros c1 D1. exact (ul_maps _ (U _ D1)). }
  exists c', b, css, a. split; [exact D|]. split; [exact F|]. split; [exact (bt_once _ _ B)|]. intros k. rewrite (bt_values _ _ B), !under_app. reflexivity.
Qed.
Print Assumptions C41_kept_partial.
(** In particular, no value is lost. *)
Theorem C41_item_kept_partial : forall io ld rel pf o n c index nd ap m p l x,
  (forall c', derived io ld pf c c' -> unlisted c') ->
  compact_object io ld rel pf o (S n) index (ONode nd) c c ap = Ok (JObj m) ->
  In (p, l) (n_props nd) -> In x l ->
  exists c' key j, derived io ld pf c c' /\ kiri_with rel o c' (TmId p) x false = Ok (Some key) /\
    item_value rel o (compact_object io ld rel pf o n) c' key x j /\ incl (leaves j) (values_of m key).
Proof.
  intros io ld rel pf o n c index nd ap m p l x U H I J.
  destruct (C41_kept_partial io ld rel pf o n c index nd ap m U H) as (c' & b & css & a & D & F & _ & V). exists c'.
  assert (I' : In (p, l) (if co_ordered o then sort_key (fun e : id * list iobj => id_str (fst e)) (n_props nd) else n_props nd)).
  { destruct (co_ordered o); [|exact I]. apply sort_key_in. exact I. }
  destruct (Forall2_in_l _ _ _ _ F I') as (cs & Ic & G). cbn [fst snd] in G. destruct l as [|y l]; [destruct J|].
  destruct (Forall2_in_l _ _ _ _ G J) as (e & Ie & K & j & Vj & E). exists (fst e), j. split; [exact D|]. split; [exact K|]. split; [exact Vj|].
  intros v Iv. rewrite V. apply in_or_app. right. apply in_or_app. left. unfold under. apply in_flat_map. exists e. split.
  - apply in_concat. exists cs. auto.
  - rewrite streq_refl, E. exact Iv.
Qed.
Print Assumptions C41_item_kept_partial.

Definition sample_compact (c : actx) (l : list iobj) : result json kerr :=
  compact_object sample_iops no_loader sample_rel 20 copts_default 10 None
    (ONode (MkNode None None None None [(IIri "http://a/p", l)] None)) c c None.
Definition with_container (k : container) (t : option ty) : actx :=
  ctx_of [("p", nd_set_container (nd_set_typ (ndef_of "http://a/p" false false) t) k)].
Definition str_obj (s : string) : iobj := (None, OVal (VLit (LStr s) None)).
Definition graph_obj (i : option string) (l : list iobj) : obj := ONode (MkNode (option_map IIri i) None (Some l) None [] None).
Definition node_obj (s : string) : iobj := (None, ONode (node_new (Some (IIri s)))).

(** Only the last list of a property with a list container is kept. *)
Theorem C41_lists_refuted :
  sample_compact (with_container CList None) [(None, OList [str_obj "a"]); (None, OList [str_obj "b"])] =
  Ok (JObj [("p", JArr [JStr "b"])]).
Proof. vm_compute. reflexivity. Qed.
Print Assumptions C41_lists_refuted.
(** JSON literals of a property of type [@json] are merged, and the empty array disappears. *)
Theorem C41_json_refuted :
  sample_compact (with_container CNone (Some TyJson)) [(None, OVal (VJson (JNum "1"))); (None, OVal (VJson (JArr [JNum "2"])))] =
  sample_compact (with_container CNone (Some TyJson)) [(None, OVal (VJson (JArr [JNum "1"; JNum "2"])))] /\
  sample_compact (with_container CNone (Some TyJson)) [(None, OVal (VJson (JArr [])))] = Ok (JObj []).
Proof. split; vm_compute; reflexivity. Qed.
Print Assumptions C41_json_refuted.
(** With an index map, a list object is mistaken for the map, or makes the algorithm panic. *)
Theorem C41_index_refuted :
  sample_compact (with_container CIndex None) [(Some "i", OList [str_obj "a"]); (Some "j", snd (str_obj "b"))] =
  Ok (JObj [("p", JObj [("@list", JArr [JStr "a"]); ("@index", JStr "i"); ("j", JStr "b")])]) /\
  sample_compact (with_container CIndex None) [(Some "i", OList [str_obj "a"]); (Some "i", OList []); (Some "j", snd (str_obj "b"))] = Err KePanic.
Proof. split; vm_compute; reflexivity. Qed.
Print Assumptions C41_index_refuted.
(** Likewise a named graph with a map of graphs. *)
Theorem C41_graph_refuted :
  let g := (Some "i", graph_obj (Some "http://a/g") [node_obj "http://a/x"]) in
  let h := (Some "i", graph_obj None [node_obj "http://a/y"]) in
  sample_compact (with_container CGraphIndex None) [g; h] =
  Ok (JObj [("p", JObj [("@graph", JObj [("@id", JStr "http://a/x")]); ("@id", JStr "http://a/g"); ("@index", JStr "i");
                        ("i", JObj [("@id", JStr "http://a/y")])])]) /\
  sample_compact (with_container CGraphIndex None) [g; g; h] = Err KePanic.
Proof. split; vm_compute; reflexivity. Qed.
Print Assumptions C41_graph_refuted.

(** Values, lists and nodes of a property with two terms, one of them for a language. *)
Definition sample_terms : actx :=
  ctx_of [("p", ndef_of "http://a/p" false false); ("q", nd_set_language (nd_set_container (ndef_of "http://a/p" false false) CSet) (Some (NSome "en")))].
Example C41_example :
  sample_compact sample_terms
    [str_obj "a"; (None, OVal (VLang (MkLS "b" (Some "en") None))); (None, OList [str_obj "c"; str_obj "d"]); node_obj "http://a/x"] =
  Ok (JObj [("q", JArr [JStr "b"]);
            ("p", JArr [JStr "a"; JObj [("@list", JArr [JStr "c"; JStr "d"])]; JObj [("@id", JStr "http://a/x")]])]) /\
  (forall c', derived sample_iops no_loader 20 sample_terms c' -> unlisted c').
Proof.
  split; [vm_compute; reflexivity|]. assert (E : forall c', derived sample_iops no_loader 20 sample_terms c' -> c' = sample_terms).
  { induction 1 as [|c p _ -> P|dc c k d lc po c' _ -> _ _ P L _]; [reflexivity|discriminate|].
    exfalso. destruct k as [k|]; [|discriminate]. cbn [prop_def] in P. destruct (streq k "@type"); [discriminate|].
    unfold get_normal, sample_terms, ctx_of in P. cbn [ac_defs assoc] in P. destruct (streq k "p"); [injection P as <-; discriminate|].
    destruct (streq k "q"); [injection P as <-; discriminate|discriminate]. }
  intros c' D. rewrite (E _ D).
  assert (A : forall t d, assoc t (ac_defs sample_terms) = Some d -> nd_nest d = None /\ forall x, In x (as_slice (nd_container d)) -> x = CKSet).
  { intros t d A. unfold sample_terms, ctx_of in A. cbn [ac_defs assoc] in A. destruct (streq t "p"); [injection A as <-; split; [reflexivity|intros x []]|].
    destruct (streq t "q"); [injection A as <-; split; [reflexivity|intros x [<-|[]]; reflexivity]|discriminate]. }
  split; [split|].
  - intros t d H. apply (A _ _ H).
  - intros t d x H I. rewrite (proj2 (A _ _ H) _ I). repeat split; discriminate.
  - intros t d H I. discriminate (proj2 (A _ _ H) _ I).
Qed.

(** Laws of expansion: C62 to C67. *)
From Verif Require Import Prelude Json Str Keyword Enums LangTag LangString Container Stack ContextSyntax Ctx Process
  Object ObjectJson Expand ExpandFuel Laws Samples PropExpand PropCompactIri PropCompact.

(** ** C62 *)

(** The outcomes that are no answer: the recursion does not end, or an [unwrap] fails. *)
Definition stuck (e : xerr) : Prop := e = XFuel \/ e = XPanic \/ e = XLiteral LPanic.
(** Recursion to a depth bounded by the size of the document is enough: expansion never gets
    stuck, and allowing more does not change the answer. *)
Theorem C62_ends : forall io ld fin rnd pf o base c doc n, json_size doc < n ->
  (forall e, expand io ld fin rnd pf o base n c doc = Err e -> ~ stuck e) /\
  (forall m, n <= m -> expand io ld fin rnd pf o base m c doc = expand io ld fin rnd pf o base n c doc).
Proof.
  intros io ld fin rnd pf o base c doc n L. split.
  - intros e H S. pose proof (expand_fuel io ld fin rnd pf o base n c None doc false L) as F. unfold expand in H. destruct (expand_element _ _ _ _ _ _ _ _ _ _ _ _) as [x|e']; [discriminate|].
    injection H as ->. destruct S as [->|[->| ->]]; exact F.
  - intros m M. unfold expand. rewrite (expand_stable io ld fin rnd pf o base n m c None doc false L M). reflexivity.
Qed.
Print Assumptions C62_ends.
(** Less may not be enough. *)
Example C62_example :
  let doc := one_value (JArr [JObj [("http://a/q", JStr "x")]]) in
  expand sample_iops no_loader sample_hash sample_hash 20 xopts_default None 3 (ctx_new None) doc = Err XFuel /\
  expand sample_iops no_loader sample_hash sample_hash 20 xopts_default None (S (json_size doc)) (ctx_new None) doc =
  Ok (one_expanded (None, ONode (MkNode None None None None [(IIri "http://a/q", [str_obj "x"])] None))).
Proof. split; vm_compute; reflexivity. Qed.

(** ** C63 *)

(** Replacing a part of a document by another one with the same expansion, in the context in effect
    there and for the property there, does not change the expansion of the document. *)
Theorem C63_parts : forall io ld fin rnd pf o base c j j', changed io ld fin rnd pf o base c None false j j' ->
  forall n, json_size j < n -> json_size j' < n -> expand io ld fin rnd pf o base n c j = expand io ld fin rnd pf o base n c j'.
Proof. exact changed_expand. Qed.
Print Assumptions C63_parts.
Example C63_example :
  let c := with_container CList None in
  let doc x := JObj [("@id", JStr "http://a/s"); ("http://a/q", JArr [JObj [("p", JArr [JStr "a"; x])]; JStr "b"])] in
  changed sample_iops no_loader sample_hash sample_hash 20 xopts_default None c None false (doc (JStr "x")) (doc (JObj [("@value", JStr "x")])) /\
  sample_expand c (doc (JStr "x")) = sample_expand c (doc (JObj [("@value", JStr "x")])) /\
  sample_expand c (doc (JStr "x")) = Ok [(None, ONode (MkNode (Some (IIri "http://a/s")) None None None [(IIri "http://a/q",
    [(None, ONode (MkNode None None None None [(IIri "http://a/p", [(None, OList [str_obj "a"; str_obj "x"])])] None)); str_obj "b"])] None))].
Proof.
  cbv zeta. split; [|split; vm_compute; reflexivity].
  apply (ChProperty _ _ _ _ _ _ _ _ None false [("@id", JStr "http://a/s")] "http://a/q" _ _ [] (with_container CList None) (with_container CList None) (IIri "http://a/q"));
    [split; [reflexivity|exists []; split; reflexivity]|split; [discriminate|reflexivity]|reflexivity|reflexivity|].
  apply (ChItem _ _ _ _ _ _ _ _ _ _ []).
  apply (ChProperty _ _ _ _ _ _ _ _ _ _ [] "p" _ _ [] (with_container CList None) (with_container CList None) (IIri "http://a/p"));
    [split; [reflexivity|exists []; split; reflexivity]|split; [discriminate|reflexivity]|reflexivity|reflexivity|].
  apply (ChItem _ _ _ _ _ _ _ _ _ _ [JStr "a"]). apply ChHere. intros [|[|n]] L L'; [cbn in L; lia|cbn in L; lia|]. reflexivity.
Qed.

(** ** C64 *)

(** A language map is short for the array of its strings, each with its language and the direction
    of the property. *)
Theorem C64_language_maps : forall io ld fin rnd pf o base c ap fm es1 key m es2 tsc c' p d,
  in_effect io ld pf o base c ap (es1 ++ (key, JObj m) :: es2) fm tsc c' -> property_key io o tsc c' key p ->
  prop_def c' (Some key) = Some d -> c_contains (nd_container d) CKLanguage = true -> nd_typ d <> Some TyJson -> nd_context d = None ->
  strings_only m -> (forall k, In k (keys m) -> exists t, xkey io o c' k = Ok t) ->
  alike io ld fin rnd pf o base c ap fm (JObj (es1 ++ (key, JObj m) :: es2))
    (JObj (es1 ++ (key, JArr (spell_languages (reads_none io o c') (own_direction c' d) (entries_sorted o m))) :: es2)).
Proof. exact language_law. Qed.
Print Assumptions C64_language_maps.
Definition c64_def : ndef := nd_set_direction (nd_set_container (ndef_of "http://a/p" false false) CLanguage) (Some (NSome Rtl)).
Definition c64_map : jobject := [("en", JStr "a"); ("@none", JArr [JStr "b"; JNull]); ("fr", JArr [JStr "c"; JStr "d"])].
Definition c64_array : list json :=
  [JObj [("@value", JStr "a"); ("@language", JStr "en"); ("@direction", JStr "rtl")]; JObj [("@value", JStr "b"); ("@direction", JStr "rtl")];
   JObj [("@value", JStr "c"); ("@language", JStr "fr"); ("@direction", JStr "rtl")]; JObj [("@value", JStr "d"); ("@language", JStr "fr"); ("@direction", JStr "rtl")]].
Ltac all_members := repeat (apply Forall_cons || apply Forall_nil).
Example C64_example :
  let c := ctx_of [("p", c64_def)] in
  alike sample_iops no_loader sample_hash sample_hash 20 xopts_default None c None false (JObj [("p", JObj c64_map)]) (JObj [("p", JArr c64_array)]) /\
  sample_expand c (JObj [("p", JObj c64_map)]) = Ok [(None, ONode (MkNode None None None None [(IIri "http://a/p",
    [(None, OVal (VLang (MkLS "a" (Some "en") (Some Rtl)))); (None, OVal (VLang (MkLS "b" None (Some Rtl))));
     (None, OVal (VLang (MkLS "c" (Some "fr") (Some Rtl)))); (None, OVal (VLang (MkLS "d" (Some "fr") (Some Rtl))))])] None))].
Proof.
  cbv zeta. split; [|vm_compute; reflexivity].
  refine (C64_language_maps sample_iops no_loader sample_hash sample_hash 20 xopts_default None (ctx_of [("p", c64_def)]) None false [] "p" c64_map []
    (ctx_of [("p", c64_def)]) (ctx_of [("p", c64_def)]) (IIri "http://a/p") c64_def _ _ _ _ _ _ _ _);
    [split; [reflexivity|exists []; split; reflexivity]|split; [discriminate|reflexivity]|reflexivity|reflexivity|discriminate|reflexivity| |].
  - all_members; try (left; reflexivity); right; eexists; reflexivity.
  - intros k [<-|[<-|[<-|[]]]]; eexists; reflexivity.
Qed.

(** ** C65 *)

(** An index map is short for the array of its members, each with its key as [@index]. *)
Theorem C65_index_maps : forall io ld fin rnd pf o base c ap fm es1 key m es2 tsc c' p d,
  in_effect io ld pf o base c ap (es1 ++ (key, JObj m) :: es2) fm tsc c' -> property_key io o tsc c' key p ->
  prop_def c' (Some key) = Some d -> nd_container d = CIndex \/ nd_container d = CIndexSet -> nd_index d = None -> nd_typ d <> Some TyJson ->
  ac_prev c' = None -> (forall k, In k (keys m) -> exists t, xkey io o c' k = Ok t) ->
  members (fun _ => lacks io ld pf o base [KIndex; KSet; KNest] c' (Some key)) m ->
  alike io ld fin rnd pf o base c ap fm (JObj (es1 ++ (key, JObj m) :: es2))
    (JObj (es1 ++ (key, JArr (spell_map (fun i => ("@index", JStr i)) (reads_nothing io o c') (entries_sorted o m))) :: es2)).
Proof. exact index_law. Qed.
Print Assumptions C65_index_maps.
(** Not so in the context of a type: it stays in effect in the members of the map, but not in an
    array. *)
Definition c65_typed : actx :=
  ctx_of [("p", nd_set_container (ndef_of "http://a/p" false false) CIndex);
          ("T", nd_set_context (ndef_of "http://a/T" false false) (lc_of [("x", te_of "http://a/x" None None None)]) None)].
Definition c65_node (ps : list (id * list iobj)) : list iobj :=
  [(None, ONode (MkNode None (Some [IIri "http://a/T"]) None None [(IIri "http://a/p", [(Some "i", ONode (MkNode None None None None ps None))])] None))].
Theorem C65_type_scoped_refuted :
  sample_expand c65_typed (JObj [("@type", JStr "T"); ("p", JObj [("i", JObj [("x", JStr "v")])])]) = Ok (c65_node [(IIri "http://a/x", [str_obj "v"])]) /\
  sample_expand c65_typed (JObj [("@type", JStr "T"); ("p", JArr [JObj [("x", JStr "v"); ("@index", JStr "i")]])]) = Ok (c65_node []).
Proof. split; vm_compute; reflexivity. Qed.
Print Assumptions C65_type_scoped_refuted.
Definition c65_map : jobject :=
  [("i", JArr [JObj [("@id", JStr "http://a/x")]; JObj [("@value", JStr "a")]; JNull; JObj [("@list", JArr [JStr "b"])]]); ("@none", JObj [("http://a/q", JStr "c")])].
Definition c65_array : list json :=
  [JObj [("@id", JStr "http://a/x"); ("@index", JStr "i")]; JObj [("@value", JStr "a"); ("@index", JStr "i")]; JNull;
   JObj [("@list", JArr [JStr "b"]); ("@index", JStr "i")]; JObj [("http://a/q", JStr "c")]].
(** An object without embedded contexts lacks the keywords that none of its keys is. *)
Lemma lacks_plain io ld pf o base ks c ap m : ac_prev c = None -> (forall d, prop_def c ap = Some d -> nd_context d = None) -> get_unique "@context" m = Ok None ->
  (forall e, In e m -> exists t, xkey io o c (fst e) = Ok t /\ forall k, In k (KType :: ks) -> t <> Some (TmKw k)) -> lacks io ld pf o base ks c ap m.
Proof.
  intros P D G K. assert (EC : forall tsc, element_context io ld pf o base c ap m false = Ok tsc -> tsc = c).
  { intros tsc. unfold element_context. rewrite P, G. destruct (preliminary io o c m) as [[hv hi]|]; [|discriminate]. cbn [bind].
    destruct (prop_def c ap) as [d|]; [rewrite (D d eq_refl)|]; cbn [bind map_err]; congruence. }
  assert (R : forall key k, In key (keys m) -> In k (KType :: ks) -> xkey io o c key <> Ok (Some (TmKw k))).
  { intros key k I IK. apply in_map_iff in I. destruct I as (e & <- & I). destruct (K e I) as (t & T & N). rewrite T. intros X. injection X as ->. exact (N k IK eq_refl). }
  split.
  - intros tsc H key k I IK. rewrite (EC tsc H). apply R; [exact I|right; exact IK].
  - intros tsc c' (H & ts & TE & TS) key k I IK. rewrite (EC tsc H) in *. assert (ts = []) as ->.
    { clear EC H TS. unfold type_entries in TE. destruct (flat_r _ m) as [l|] eqn:F; [|discriminate]. injection TE as <-. enough (l = []) as -> by reflexivity.
      clear G D I IK key k. revert l F. induction m as [|e m IH]; intros l F; cbn [flat_r] in F; [congruence|].
      destruct (K e (or_introl eq_refl)) as (t & T & N). rewrite T in F. cbn [bind] in F. destruct (flat_r _ m) as [l'|]; [|discriminate]. injection F as <-.
      rewrite (IH ltac:(intros; apply K; right; assumption) ltac:(intros; apply R; [right|]; assumption) l' eq_refl), app_nil_r.
      specialize (N KType (or_introl eq_refl)). destruct t as [[| |[]]|]; try reflexivity. congruence. }
    injection TS as <-. apply R; [exact I|right; exact IK].
Qed.
Ltac lacks_by_hand := apply lacks_plain; [reflexivity|intros d [= <-]; reflexivity|reflexivity|];
  cbn [In]; intros ? I; repeat (destruct I as [<-|I]; [eexists; split; [reflexivity|cbn [In]; intros ? K; repeat (destruct K as [<-|K]; [discriminate|]); destruct K]|]); destruct I.
Example C65_example :
  let c := with_container CIndex None in
  alike sample_iops no_loader sample_hash sample_hash 20 xopts_default None c None false (JObj [("p", JObj c65_map)]) (JObj [("p", JArr c65_array)]) /\
  sample_expand c (JObj [("p", JObj c65_map)]) = Ok [(None, ONode (MkNode None None None None [(IIri "http://a/p",
    [(Some "i", ONode (node_new (Some (IIri "http://a/x")))); (Some "i", OVal (VLit (LStr "a") None)); (Some "i", OList [str_obj "b"]);
     (None, ONode (MkNode None None None None [(IIri "http://a/q", [str_obj "c"])] None))])] None))].
Proof.
  cbv zeta. split; [|vm_compute; reflexivity].
  refine (C65_index_maps sample_iops no_loader sample_hash sample_hash 20 xopts_default None (with_container CIndex None) None false [] "p" c65_map []
    (with_container CIndex None) (with_container CIndex None) (IIri "http://a/p") _ _ _ eq_refl _ _ _ _ _ _);
    [split; [reflexivity|exists []; split; reflexivity]|split; [discriminate|reflexivity]|left; reflexivity|reflexivity|discriminate|reflexivity| |].
  - intros k [<-|[<-|[]]]; eexists; reflexivity.
  - all_members; try (left; reflexivity); right; eexists; (split; [reflexivity|]); lacks_by_hand.
Qed.

(** ** C66 *)

(** An identifier map is short for the array of its members, each with its key as [@id]. *)
Theorem C66_id_maps : forall io ld fin rnd pf o base c ap fm es1 key m es2 tsc c' p d,
  in_effect io ld pf o base c ap (es1 ++ (key, JObj m) :: es2) fm tsc c' -> property_key io o tsc c' key p ->
  prop_def c' (Some key) = Some d -> nd_container d = CId \/ nd_container d = CIdSet -> nd_typ d <> Some TyJson -> ac_prev c' = None ->
  (forall k, In k (keys m) -> exists t, xkey io o c' k = Ok t) ->
  members (fun i mm => lacks io ld pf o base [KId; KList; KSet; KValue; KLanguage; KDirection; KNest] c' (Some key) mm /\
                       forall tsc2 c2, in_effect io ld pf o base c' (Some key) mm false tsc2 c2 -> id_of_key io c2 i = id_of_key io c' i) m ->
  alike io ld fin rnd pf o base c ap fm (JObj (es1 ++ (key, JObj m) :: es2))
    (JObj (es1 ++ (key, JArr (spell_map (fun i => ("@id", JStr i)) (reads_nothing io o c') (entries_sorted o m))) :: es2)).
Proof. exact id_law. Qed.
Print Assumptions C66_id_maps.
(** A key is read as an identifier outside of the member, even if the context of the member makes it
    read otherwise. *)
Definition c66_node (s : string) : list iobj := one_expanded (None, ONode (MkNode (Some (IIri s)) None None None [(IIri "http://a/q", [str_obj "v"])] None)).
Theorem C66_context_refuted :
  let c := with_container CId None in
  let m := [("@context", JObj [("e", JObj [("@id", JStr "http://e/"); ("@prefix", JBool true)])]); ("http://a/q", JStr "v")] in
  sample_expand c (JObj [("p", JObj [("e:x", JObj m)])]) = Ok (c66_node "e:x") /\
  sample_expand c (JObj [("p", JArr [JObj (m ++ [("@id", JStr "e:x")])])]) = Ok (c66_node "http://e/x").
Proof. split; vm_compute; reflexivity. Qed.
Print Assumptions C66_context_refuted.
Definition c66_map : jobject := [("http://a/x", JArr [JObj [("http://a/q", JStr "a")]; JObj []]); ("@none", JObj [("http://a/q", JStr "c")])].
Definition c66_array : list json :=
  [JObj [("http://a/q", JStr "a"); ("@id", JStr "http://a/x")]; JObj [("@id", JStr "http://a/x")]; JObj [("http://a/q", JStr "c")]].
Lemma plain_effect io ld pf o base c ap m tsc c' : ac_prev c = None -> (forall d, prop_def c ap = Some d -> nd_context d = None) -> get_unique "@context" m = Ok None ->
  type_entries io o c m = Ok [] -> in_effect io ld pf o base c ap m false tsc c' -> tsc = c /\ c' = c.
Proof.
  intros P D G T (H & ts & TE & TS). assert (tsc = c) as ->.
  { revert H. unfold element_context. rewrite P, G. destruct (preliminary io o c m) as [[hv hi]|]; [|discriminate]. cbn [bind].
    destruct (prop_def c ap) as [d|]; [rewrite (D d eq_refl)|]; cbn [bind map_err]; congruence. }
  rewrite T in TE. injection TE as <-. injection TS as <-. auto.
Qed.
Example C66_example :
  let c := with_container CId None in
  alike sample_iops no_loader sample_hash sample_hash 20 xopts_default None c None false (JObj [("p", JObj c66_map)]) (JObj [("p", JArr c66_array)]) /\
  sample_expand c (JObj [("p", JObj c66_map)]) = Ok [(None, ONode (MkNode None None None None [(IIri "http://a/p",
    [(None, ONode (MkNode (Some (IIri "http://a/x")) None None None [(IIri "http://a/q", [str_obj "a"])] None)); node_obj "http://a/x";
     (None, ONode (MkNode None None None None [(IIri "http://a/q", [str_obj "c"])] None))])] None))].
Proof.
  cbv zeta. split; [|vm_compute; reflexivity].
  refine (C66_id_maps sample_iops no_loader sample_hash sample_hash 20 xopts_default None (with_container CId None) None false [] "p" c66_map []
    (with_container CId None) (with_container CId None) (IIri "http://a/p") _ _ _ eq_refl _ _ _ _ _);
    [split; [reflexivity|exists []; split; reflexivity]|split; [discriminate|reflexivity]|left; reflexivity|discriminate|reflexivity| |].
  - intros k [<-|[<-|[]]]; eexists; reflexivity.
  - all_members; right; eexists; (split; [reflexivity|]); (split; [lacks_by_hand|]);
      intros tsc2 c2 E; apply plain_effect in E; try reflexivity; try (intros d [= <-]; reflexivity); destruct E as [_ ->]; reflexivity.
Qed.

(** ** C67 *)

(** A type map is short for the array of its members, each with its key as [@type]. *)
Theorem C67_type_maps : forall io ld fin rnd pf o base c ap fm es1 key m es2 tsc c' p d,
  in_effect io ld pf o base c ap (es1 ++ (key, JObj m) :: es2) fm tsc c' -> property_key io o tsc c' key p ->
  prop_def c' (Some key) = Some d -> nd_container d = CType \/ nd_container d = CSetType -> nd_typ d <> Some TyJson -> ac_prev c' = None ->
  (forall k, In k (keys m) -> exists t, xkey io o c' k = Ok t) -> (forall k d', In k (keys m) -> prop_def c' (Some k) = Some d' -> nd_context d' = None) ->
  members (fun i mm => lacks io ld pf o base [KType; KList; KSet; KValue; KLanguage; KDirection; KNest] c' (Some key) mm /\
     (reads_nothing io o c' i = false -> exists t, xkey io o c' i = Ok (Some (TmId t)) /\ valid_id t = true /\
      forall tsc2, element_context io ld pf o base c' (Some key) mm false = Ok tsc2 -> xiri io tsc2 i true (Some (xo_vocab o)) = Ok (Some (TmId t)) /\
        (exists x, xkey io o tsc2 i = Ok x) /\ forall d2, prop_def tsc2 (Some i) = Some d2 -> nd_context d2 = None)) m ->
  (forall k, In k (keys m) -> reads_nothing io o c' k = false -> exists t, xkey io o c' k = Ok (Some (TmId t)) /\ valid_id t = true) ->
  alike io ld fin rnd pf o base c ap fm (JObj (es1 ++ (key, JObj m) :: es2))
    (JObj (es1 ++ (key, JArr (spell_map (fun i => ("@type", JStr i)) (reads_nothing io o c') (entries_sorted o m))) :: es2)).
Proof. exact type_law. Qed.
Print Assumptions C67_type_maps.
(** Relative references are resolved as types of an object but not as keys of a type map. *)
Theorem C67_relative_refuted :
  let c := MkCtx None (Some "http://b/") None None None None [("p", nd_set_container (ndef_of "http://a/p" false false) CType)] None in
  let typed i := Ok (one_expanded (None, ONode (MkNode None (Some [i]) None None [] None))) in
  sample_expand c (JObj [("p", JObj [("T", JObj [])])]) = typed (IInvalid "T") /\
  sample_expand c (JObj [("p", JArr [JObj [("@type", JStr "T")]])]) = typed (IIri (resolve sample_iops "http://b/" "T")).
Proof. split; vm_compute; reflexivity. Qed.
Print Assumptions C67_relative_refuted.
(** The context of a type stays in effect in nested objects when the type is the key of a type
    map, but not when it is a type of the object. *)
Definition c67_typed : actx :=
  ctx_of [("p", nd_set_container (ndef_of "http://a/p" false false) CType);
          ("T", nd_set_context (ndef_of "http://a/T" false false) (lc_of [("x", te_of "http://a/x" None None None)]) None)].
Definition c67_node (ps : list (id * list iobj)) : list iobj :=
  one_expanded (None, ONode (MkNode None (Some [IIri "http://a/T"]) None None [(IIri "http://a/q", [(None, ONode (MkNode None None None None ps None))])] None)).
Theorem C67_type_scoped_refuted :
  sample_expand c67_typed (JObj [("p", JObj [("T", JObj [("http://a/q", JObj [("x", JStr "v")])])])]) = Ok (c67_node [(IIri "http://a/x", [str_obj "v"])]) /\
  sample_expand c67_typed (JObj [("p", JArr [JObj [("http://a/q", JObj [("x", JStr "v")]); ("@type", JStr "T")]])]) = Ok (c67_node []).
Proof. split; vm_compute; reflexivity. Qed.
Print Assumptions C67_type_scoped_refuted.
Definition c67_map : jobject := [("http://a/T", JArr [JObj [("@id", JStr "http://a/x")]; JObj []]); ("@none", JObj [("http://a/q", JStr "c")])].
Definition c67_array : list json :=
  [JObj [("@id", JStr "http://a/x"); ("@type", JStr "http://a/T")]; JObj [("@type", JStr "http://a/T")]; JObj [("http://a/q", JStr "c")]].
Example C67_example :
  let c := with_container CType None in
  alike sample_iops no_loader sample_hash sample_hash 20 xopts_default None c None false (JObj [("p", JObj c67_map)]) (JObj [("p", JArr c67_array)]) /\
  sample_expand c (JObj [("p", JObj c67_map)]) = Ok [(None, ONode (MkNode None None None None [(IIri "http://a/p",
    [(None, ONode (MkNode (Some (IIri "http://a/x")) (Some [IIri "http://a/T"]) None None [] None)); (None, ONode (MkNode None (Some [IIri "http://a/T"]) None None [] None));
     (None, ONode (MkNode None None None None [(IIri "http://a/q", [str_obj "c"])] None))])] None))].
Proof.
  cbv zeta. split; [|vm_compute; reflexivity].
  refine (C67_type_maps sample_iops no_loader sample_hash sample_hash 20 xopts_default None (with_container CType None) None false [] "p" c67_map []
    (with_container CType None) (with_container CType None) (IIri "http://a/p") _ _ _ eq_refl _ _ _ _ _ _ _);
    [split; [reflexivity|exists []; split; reflexivity]|split; [discriminate|reflexivity]|left; reflexivity|discriminate|reflexivity| | | |].
  - intros k [<-|[<-|[]]]; eexists; reflexivity.
  - intros k d [<-|[<-|[]]]; discriminate.
  - all_members; right; eexists; (split; [reflexivity|]); (split; [lacks_by_hand|]); intros R; try discriminate R;
      (eexists; split; [reflexivity|]; split; [reflexivity|]; intros tsc2 [= <-]; split; [reflexivity|]; split; [eexists; reflexivity|discriminate]).
  - intros k [<-|[<-|[]]] R; [eexists; split; reflexivity|discriminate R].
Qed.

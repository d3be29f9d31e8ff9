(** More laws of expansion: C68 to C74. *)
From Verif Require Import Prelude Json Str Keyword Enums LangTag LangString Container Stack ContextSyntax Ctx Process
  Object ObjectJson Expand ExpandFuel Laws Laws2 Samples PropExpand PropCompactIri PropCompact PropLaws.

Notation sample_alike := (alike sample_iops no_loader sample_hash sample_hash 20 xopts_default None).

(** ** C68 *)

(** The value of a property with a list container is short for a list object. *)
Theorem C68_list_containers : forall io ld fin rnd pf o base c ap fm es1 key v es2 tsc c' p d k,
  in_effect io ld pf o base c ap (es1 ++ (key, v) :: es2) fm tsc c' -> property_key io o tsc c' key p ->
  prop_def c' (Some key) = Some d -> nd_container d = CList -> nd_typ d <> Some TyJson -> nd_context d = None -> ac_prev c' = None ->
  xkey io o c' k = Ok (Some (TmKw KList)) -> match v with JObj m => lacks io ld pf o base [KList; KSet] c' (Some key) m | _ => True end ->
  alike io ld fin rnd pf o base c ap fm (JObj (es1 ++ (key, v) :: es2)) (JObj (es1 ++ (key, JObj [(k, v)]) :: es2)).
Proof. exact list_law. Qed.
Print Assumptions C68_list_containers.
(** Not so in the context of a type, which is not in effect in a list object. *)
Definition c68_typed : actx :=
  ctx_of [("p", nd_set_container (ndef_of "http://a/p" false false) CList);
          ("T", nd_set_context (ndef_of "http://a/T" false false) (LOne (CEDef (MkDef None None (Some (NSome "en")) None None None None None None []))) None)].
Definition c68_node (l : option string) : list iobj :=
  [(None, ONode (MkNode None (Some [IIri "http://a/T"]) None None [(IIri "http://a/p",
     [(None, OList [(None, OVal (match l with Some _ => VLang (MkLS "v" l None) | None => VLit (LStr "v") None end))])])] None))].
Theorem C68_type_scoped_refuted :
  sample_expand c68_typed (JObj [("@type", JStr "T"); ("p", JArr [JStr "v"])]) = Ok (c68_node (Some "en")) /\
  sample_expand c68_typed (JObj [("@type", JStr "T"); ("p", JObj [("@list", JArr [JStr "v"])])]) = Ok (c68_node None).
Proof. split; vm_compute; reflexivity. Qed.
Print Assumptions C68_type_scoped_refuted.
Example C68_example :
  let c := with_container CList None in
  let v := JArr [JStr "a"; JNull; JArr [JStr "b"; JStr "c"]] in
  sample_alike c None false (JObj [("@id", JStr "http://a/s"); ("p", v)]) (JObj [("@id", JStr "http://a/s"); ("p", JObj [("@list", v)])]) /\
  sample_expand c (JObj [("@id", JStr "http://a/s"); ("p", v)]) = Ok [(None, ONode (MkNode (Some (IIri "http://a/s")) None None None
    [(IIri "http://a/p", [(None, OList [str_obj "a"; (None, OList [str_obj "b"; str_obj "c"])])])] None))].
Proof.
  cbv zeta. split; [|vm_compute; reflexivity].
  refine (C68_list_containers sample_iops no_loader sample_hash sample_hash 20 xopts_default None (with_container CList None) None false [("@id", JStr "http://a/s")] "p" _ []
    (with_container CList None) (with_container CList None) (IIri "http://a/p") _ "@list" _ _ eq_refl _ _ _ _ _ _);
    [split; [reflexivity|exists []; split; reflexivity]|split; [discriminate|reflexivity]|reflexivity|discriminate|reflexivity|reflexivity|reflexivity|exact I].
Qed.

(** ** C69 *)

(** A set object is nothing more than its content: the index of a set is lost. *)
Theorem C69_sets : forall io ld fin rnd pf o base c ap fm l1 k v l2, ac_prev c = None -> (forall d, prop_def c ap = Some d -> nd_context d = None) ->
  xkey io o c k = Ok (Some (TmKw KSet)) -> Forall (fun e => xkey io o c (fst e) = Ok (Some (TmKw KIndex))) (l1 ++ l2) ->
  alike io ld fin rnd pf o base c ap fm (JObj (l1 ++ (k, v) :: l2)) v.
Proof. exact set_law. Qed.
Print Assumptions C69_sets.
(** Set and list objects have no other entries. *)
Theorem C69_others : forall io ld fin rnd pf o base c ap fm m tsc c' kw k k' t, in_effect io ld pf o base c ap m fm tsc c' ->
  kw = KSet \/ kw = KList /\ is_some ap = true /\ ap_is ap KGraph = false ->
  In k (keys m) -> xkey io o c' k = Ok (Some (TmKw kw)) -> In k' (keys m) -> xkey io o c' k' = Ok (Some t) -> t <> TmKw kw -> t <> TmKw KIndex ->
  forall n x, expand_element io ld fin rnd pf o base n c ap (JObj m) fm <> Ok x.
Proof.
  intros io ld fin rnd pf o base c ap fm m tsc c' kw k k' t E [->|(-> & A1 & A2)] I K I' K' N1 N2 n x; [exact (set_rejects io ld fin rnd pf o base c ap fm m tsc c' k k' t E I K I' K' N1 N2 n x)|exact (list_rejects io ld fin rnd pf o base c ap fm m tsc c' k k' t E A1 A2 I K I' K' N1 N2 n x)].
Qed.
Print Assumptions C69_others.
(** Not even a context of their own. *)
Theorem C69_context_refuted :
  let lc := ("@context", JObj [("q", JStr "http://a/q")]) in
  sample_expand (ctx_new None) (one_value (JObj [lc; ("@set", JArr [JStr "v"])])) = Err XInvalidSetOrListObject /\
  sample_expand (ctx_new None) (one_value (JObj [lc; ("@list", JArr [JStr "v"])])) = Err XInvalidSetOrListObject /\
  sample_expand (ctx_new None) (one_value (JObj [("@set", JArr [JStr "v"])])) = Ok (one_expanded (str_obj "v")).
Proof. split; [|split]; vm_compute; reflexivity. Qed.
Print Assumptions C69_context_refuted.
Example C69_example :
  let v := JArr [JStr "a"; JObj [("@id", JStr "http://a/x")]] in
  sample_alike (ctx_new None) (Some "http://a/p") false (JObj [("@index", JStr "i"); ("@set", v)]) v /\
  sample_expand (ctx_new None) (one_value (JObj [("@index", JStr "i"); ("@set", JStr "a")])) = Ok (one_expanded (str_obj "a")) /\
  sample_expand (ctx_new None) (one_value (JObj [("@set", v); ("@id", JStr "http://a/x")])) = Err XInvalidSetOrListObject.
Proof.
  cbv zeta. split; [|split; vm_compute; reflexivity].
  refine (C69_sets sample_iops no_loader sample_hash sample_hash 20 xopts_default None (ctx_new None) (Some "http://a/p") false [("@index", JStr "i")] "@set" _ [] _ _ _ _); [reflexivity|discriminate|reflexivity|].
  repeat constructor.
Qed.

(** ** C70 *)

(** A term is short for its IRI, with the values spelled out: as node objects, typed literals,
    strings with their language and direction, or JSON literals. *)
Theorem C70_terms : forall io ld fin rnd pf o base c ap fm es1 key v key' v' es2 tsc c' p,
  in_effect io ld pf o base c ap (es1 ++ (key, v) :: es2) fm tsc c' -> ac_prev c = None ->
  read_as io o c tsc c' key (TmId p) -> read_as io o c tsc c' key' (TmId p) -> plain_term c' key -> plain_term c' key' -> typ_of c' key' <> Some TyJson ->
  spelled_out io ld pf o base c' key v v' ->
  alike io ld fin rnd pf o base c ap fm (JObj (es1 ++ (key, v) :: es2)) (JObj (es1 ++ (key', v') :: es2)).
Proof. exact term_law. Qed.
Print Assumptions C70_terms.
Definition c70_term (t : ty) : ndef := nd_set_typ (ndef_of "http://a/p" false false) (Some t).
Definition c70_context : actx :=
  ctx_of [("i", c70_term TyId); ("v", c70_term TyVocab); ("d", c70_term (TyIri "http://a/date")); ("j", c70_term TyJson);
          ("l", nd_set_language (ndef_of "http://a/p" false false) (Some (NSome "en"))); ("x", ndef_of "http://a/x" false false)].
Definition c70_values : list (string * json * json) :=
  [("i", JStr "http://a/x", JObj [("@id", JStr "http://a/x")]); ("v", JStr "x", JObj [("@id", JStr "http://a/x")]);
   ("d", JArr [JStr "2020"; JNull; JNum "20"], JArr [JObj [("@value", JStr "2020"); ("@type", JStr "http://a/date")]; JNull; JObj [("@value", JNum "20"); ("@type", JStr "http://a/date")]]);
   ("j", JArr [JNull], JObj [("@value", JArr [JNull]); ("@type", JStr "@json")]);
   ("l", JArr [JStr "a"; JBool true], JArr [JObj [("@value", JStr "a"); ("@language", JStr "en")]; JObj [("@value", JBool true)]])].
Example C70_example :
  (forall e, In e c70_values -> sample_alike c70_context None false (JObj [(fst (fst e), snd (fst e))]) (JObj [("http://a/p", snd e)])) /\
  map (fun e => sample_expand c70_context (JObj [(fst (fst e), snd (fst e))])) c70_values =
  map (fun l => Ok [(None, ONode (MkNode None None None None [(IIri "http://a/p", l)] None))])
    [[(None, ONode (node_new (Some (IIri "http://a/x"))))]; [(None, ONode (node_new (Some (IIri "http://a/x"))))];
     [(None, OVal (VLit (LStr "2020") (Some "http://a/date"))); (None, OVal (VLit (LNum "20") (Some "http://a/date")))];
     [(None, OVal (VJson (JArr [JNull])))]; [(None, OVal (VLang (MkLS "a" (Some "en") None))); (None, OVal (VLit (LBool true) None))]].
Proof.
  split; [|vm_compute; reflexivity]. intros e I.
  assert (R : forall k, In k ["i"; "v"; "d"; "j"; "l"; "http://a/p"] -> read_as sample_iops xopts_default c70_context c70_context c70_context k (TmId (IIri "http://a/p"))).
  { intros k K. repeat (destruct K as [<-|K]; [split; [discriminate|split; [eexists; reflexivity|split; [eexists; split; [reflexivity|discriminate]|reflexivity]]]|]). destruct K. }
  refine (C70_terms sample_iops no_loader sample_hash sample_hash 20 xopts_default None c70_context None false [] (fst (fst e)) (snd (fst e)) "http://a/p" (snd e) [] c70_context c70_context (IIri "http://a/p") _ eq_refl _ (R _ _) _ Logic.I _ _);
    [| |cbn; tauto| |discriminate|].
  - repeat (destruct I as [<-|I]; [split; [reflexivity|exists []; split; reflexivity]|]). destruct I.
  - apply R. repeat (destruct I as [<-|I]; [cbn; tauto|]). destruct I.
  - repeat (destruct I as [<-|I]; [split; [left; reflexivity|split; reflexivity]|]). destruct I.
  - destruct I as [<-|I]; [apply SoOne; [discriminate|apply SpId; reflexivity]|].
    destruct I as [<-|I]; [apply SoOne; [discriminate|apply SpVocab; reflexivity]|].
    destruct I as [<-|I].
    { apply SoArray; [discriminate|]. constructor; [|constructor; [apply SpNull|constructor; [|constructor]]];
        (eapply SpTyped; [reflexivity|reflexivity|reflexivity|reflexivity|]); (split; [reflexivity|split; [eexists; split; [reflexivity|discriminate]|discriminate]]). }
    destruct I as [<-|I]; [apply SoJson; try reflexivity; discriminate|].
    destruct I as [<-|[]]. apply SoArray; [discriminate|]. constructor; [apply (SpString sample_iops no_loader 20 xopts_default None c70_context "l" "a"); [left; reflexivity|discriminate]|].
    constructor; [|constructor]. eapply SpOther; [exact I|reflexivity|discriminate|reflexivity].
Qed.

(** ** C71 *)

(** The names of a keyword are interchangeable. *)
Theorem C71_aliases : forall io ld fin rnd pf o base c ap fm es1 k k' v es2 tsc c' kw,
  in_effect io ld pf o base c ap (es1 ++ (k, v) :: es2) fm tsc c' -> ac_prev c = None ->
  same_keyword io o c tsc c' k k' kw (Forall (fun e => xkey io o tsc (fst e) <> Ok (Some (TmKw KType))) (es1 ++ es2)) ->
  alike io ld fin rnd pf o base c ap fm (JObj (es1 ++ (k, v) :: es2)) (JObj (es1 ++ (k', v) :: es2)).
Proof. exact alias_law. Qed.
Print Assumptions C71_aliases.
(** Not so for [@nest], as an alias may have a context, nor for several types: the context of the
    type under the last name is applied last. *)
Definition c71_scoped (kw : keyword) (s : string) : ndef := nd_set_context (nd_set_value ndef_default (Some (TmKw kw))) (lc_of [("x", te_of s None None None)]) None.
Definition c71_type (t s : string) : string * ndef := (t, nd_set_context (ndef_of ("http://a/" +++ t) false false) (lc_of [("x", te_of s None None None)]) None).
Definition c71_alias (kw : keyword) : ndef := nd_set_value ndef_default (Some (TmKw kw)).
Theorem C71_nest_refuted :
  let c := ctx_of [("n", c71_scoped KNest "http://a/x")] in
  sample_expand c (JObj [("n", JObj [("x", JStr "v")]); ("http://a/q", JStr "w")]) =
    Ok [(None, ONode (MkNode None None None None [(IIri "http://a/x", [str_obj "v"]); (IIri "http://a/q", [str_obj "w"])] None))] /\
  sample_expand c (JObj [("@nest", JObj [("x", JStr "v")]); ("http://a/q", JStr "w")]) = Ok [(None, ONode (MkNode None None None None [(IIri "http://a/q", [str_obj "w"])] None))].
Proof. split; vm_compute; reflexivity. Qed.
Print Assumptions C71_nest_refuted.
Theorem C71_types_refuted :
  let c := ctx_of [("a", c71_alias KType); ("z", c71_alias KType); c71_type "T" "http://a/x"; c71_type "U" "http://a/y"] in
  let node s ts := Ok [(None, ONode (MkNode None (Some ts) None None [(IIri s, [str_obj "v"])] None))] in
  sample_expand c (JObj [("a", JStr "T"); ("m", JStr ""); ("@type", JStr "U"); ("x", JStr "v")]) = node "http://a/x" [IIri "http://a/T"; IIri "http://a/U"] /\
  sample_expand c (JObj [("a", JStr "T"); ("m", JStr ""); ("z", JStr "U"); ("x", JStr "v")]) = node "http://a/y" [IIri "http://a/T"; IIri "http://a/U"].
Proof. split; vm_compute; reflexivity. Qed.
Print Assumptions C71_types_refuted.
Example C71_example :
  let c := ctx_of [("ident", c71_alias KId); ("type", c71_alias KType)] in
  let doc i t := JObj [(i, JStr "http://a/s"); (t, JStr "http://a/T"); ("http://a/q", JStr "v")] in
  sample_alike c None false (doc "ident" "type") (doc "@id" "@type") /\
  sample_expand c (doc "ident" "type") = Ok [(None, ONode (MkNode (Some (IIri "http://a/s")) (Some [IIri "http://a/T"]) None None [(IIri "http://a/q", [str_obj "v"])] None))].
Proof.
  set (c := ctx_of _). cbv zeta. split; [|vm_compute; reflexivity].
  apply (alike_trans _ _ _ _ _ _ _ _ _ _ _ (JObj [("@id", JStr "http://a/s"); ("type", JStr "http://a/T"); ("http://a/q", JStr "v")])).
  - refine (C71_aliases sample_iops no_loader sample_hash sample_hash 20 xopts_default None c None false [] "ident" "@id" _ _ c c KId _ eq_refl _);
      [split; [reflexivity|eexists; split; [reflexivity|reflexivity]]|]. split; [discriminate|]. left.
    split; (split; [discriminate|]; split; [eexists; reflexivity|]; split; [eexists; split; [reflexivity|discriminate]|reflexivity]).
  - refine (C71_aliases sample_iops no_loader sample_hash sample_hash 20 xopts_default None c None false [("@id", JStr "http://a/s")] "type" "@type" _ _ c c KType _ eq_refl _);
      [split; [reflexivity|eexists; split; [reflexivity|reflexivity]]|]. split; [discriminate|]. right. split.
    + repeat constructor; discriminate.
    + all_members; (split; [discriminate|split; [eexists; reflexivity|split; reflexivity]]).
Qed.

(** ** C72 *)

(** A context embedded in a node object may be processed beforehand. *)
Theorem C72_contexts : forall io ld fin rnd pf o base c ap fm es1 lc l es2 c1,
  ac_prev c = None -> ac_prev c1 = None -> (forall d, prop_def c ap = Some d -> nd_context d = None) -> (forall d, prop_def c1 ap = Some d -> nd_context d = None) ->
  context_of_json (iri_ref_ok io) lc = Ok l -> xprocess io ld pf c l base (popts_of o) = Ok c1 ->
  Forall (fun e => fst e <> "@context" /\ (exists t, xkey io o c (fst e) = Ok t) /\ (exists t, xkey io o c1 (fst e) = Ok t)) (es1 ++ es2) ->
  lacks io ld pf o base [KList; KSet; KValue] c1 ap (es1 ++ es2) ->
  (forall n, expand_element io ld fin rnd pf o base (S n) c ap (JObj (es1 ++ ("@context", lc) :: es2)) fm = expand_element io ld fin rnd pf o base (S n) c1 ap (JObj (es1 ++ es2)) fm) /\
  (ap = None -> fm = false -> forall n, expand io ld fin rnd pf o base (S n) c (JObj (es1 ++ ("@context", lc) :: es2)) = expand io ld fin rnd pf o base (S n) c1 (JObj (es1 ++ es2))).
Proof.
  intros io ld fin rnd pf o base c ap fm es1 lc l es2 c1 P P1 D D1 CJ XP F L.
  assert (H := context_law io ld fin rnd pf o base c ap fm es1 lc l es2 c1 P P1 D D1 CJ XP F L). split; [exact H|].
  intros -> -> n. unfold expand. rewrite H. reflexivity.
Qed.
Print Assumptions C72_contexts.
Definition c72_json : json := JObj [("q", JStr "http://a/q"); ("@language", JStr "en")].
Definition c72_local : lcontext := match context_of_json (iri_ref_ok sample_iops) c72_json with Ok l => l | Err _ => LOne CENull end.
Definition c72_context : actx := match xprocess sample_iops no_loader 20 (ctx_new None) c72_local None (popts_of xopts_default) with Ok c => c | Err _ => ctx_new None end.
Example C72_example :
  expand sample_iops no_loader sample_hash sample_hash 20 xopts_default None 21 (ctx_new None) (JObj [("q", JStr "v"); ("@context", c72_json); ("@id", JStr "http://a/s")]) =
    expand sample_iops no_loader sample_hash sample_hash 20 xopts_default None 21 c72_context (JObj [("q", JStr "v"); ("@id", JStr "http://a/s")]) /\
  sample_expand c72_context (JObj [("q", JStr "v"); ("@id", JStr "http://a/s")]) =
    Ok [(None, ONode (MkNode (Some (IIri "http://a/s")) None None None [(IIri "http://a/q", [(None, OVal (VLang (MkLS "v" (Some "en") None)))])] None))].
Proof.
  split; [|vm_compute; reflexivity].
  refine (proj2 (C72_contexts sample_iops no_loader sample_hash sample_hash 20 xopts_default None (ctx_new None) None false [("q", JStr "v")] c72_json c72_local [("@id", JStr "http://a/s")] c72_context _ _ _ _ _ _ _ _) eq_refl eq_refl 20).
  - reflexivity.
  - vm_compute; reflexivity.
  - discriminate.
  - discriminate.
  - vm_compute; reflexivity.
  - vm_compute; reflexivity.
  - repeat (apply Forall_cons || apply Forall_nil); (split; [discriminate|split; eexists; vm_compute; reflexivity]).
  - apply lacks_plain; [vm_compute; reflexivity|discriminate|reflexivity|]. cbn [In app]. intros e I.
    destruct I as [<-|[<-|[]]]; (eexists; split; [vm_compute; reflexivity|cbn [In]; intros ? K; repeat (destruct K as [<-|K]; [discriminate|]); destruct K]).
Qed.

(** ** C73 *)

(** Nested properties are properties of the node. *)
Theorem C73_nest : forall io ld fin rnd pf o base c ap fm es1 k m es2 tsc c',
  in_effect io ld pf o base c ap (es1 ++ (k, JObj m) :: es2) fm tsc c' -> ac_prev c = None -> xo_ordered o = false -> ap_is ap KReverse = false ->
  read_as io o c tsc c' k (TmKw KNest) -> (forall d, prop_def c' (Some k) = Some d -> nd_context d = None) ->
  Forall (fun e => fst e <> "@context" /\ (exists u, xkey io o c (fst e) = Ok u) /\ (exists u, xkey io o tsc (fst e) = Ok u /\ u <> Some (TmKw KType)) /\
                   exists u, xkey io o c' (fst e) = Ok u /\ ~ In u [Some (TmKw KList); Some (TmKw KSet); Some (TmKw KValue)]) m ->
  Forall (fun e => forall kw, In kw [KList; KSet; KValue] -> xkey io o c' (fst e) <> Ok (Some (TmKw kw))) (es1 ++ es2) ->
  alike io ld fin rnd pf o base c ap fm (JObj (es1 ++ (k, JObj m) :: es2)) (JObj (es1 ++ m ++ es2)).
Proof. exact nest_law. Qed.
Print Assumptions C73_nest.
(** The context of a nested type is not used. *)
Theorem C73_type_refuted :
  let c := ctx_of [c71_type "T" "http://a/x"] in
  let node ps := Ok [(None, ONode (MkNode None (Some [IIri "http://a/T"]) None None ps None))] in
  sample_expand c (JObj [("@nest", JObj [("@type", JStr "T"); ("x", JStr "v")])]) = node [] /\
  sample_expand c (JObj [("@type", JStr "T"); ("x", JStr "v")]) = node [(IIri "http://a/x", [str_obj "v"])].
Proof. split; vm_compute; reflexivity. Qed.
Print Assumptions C73_type_refuted.
Example C73_example :
  let inner := [("http://a/q", JStr "v"); ("@id", JStr "http://a/s"); ("@nest", JObj [("http://a/r", JStr "w")])] in
  sample_alike (ctx_new None) None false (JObj [("@nest", JObj inner); ("http://a/q", JStr "u")]) (JObj (inner ++ [("http://a/q", JStr "u")])) /\
  sample_expand (ctx_new None) (JObj [("@nest", JObj inner); ("http://a/q", JStr "u")]) =
    Ok [(None, ONode (MkNode (Some (IIri "http://a/s")) None None None [(IIri "http://a/q", [str_obj "v"; str_obj "u"]); (IIri "http://a/r", [str_obj "w"])] None))].
Proof.
  cbv zeta. split; [|vm_compute; reflexivity].
  refine (C73_nest sample_iops no_loader sample_hash sample_hash 20 xopts_default None (ctx_new None) None false [] "@nest" _ _ (ctx_new None) (ctx_new None) _ eq_refl eq_refl eq_refl _ _ _ _).
  - split; [reflexivity|exists []; split; reflexivity].
  - split; [discriminate|]; split; [eexists; reflexivity|]; split; [eexists; split; [reflexivity|discriminate]|reflexivity].
  - discriminate.
  - repeat (apply Forall_cons || apply Forall_nil); (split; [discriminate|split; [eexists; reflexivity|split; [eexists; split; [reflexivity|discriminate]|]]]);
      (eexists; split; [reflexivity|]; cbn [In]; intuition discriminate).
  - repeat (apply Forall_cons || apply Forall_nil). intros kw K. cbn in K. destruct K as [<-|[<-|[<-|[]]]]; discriminate.
Qed.

(** ** C74 *)

(** Entries that say nothing may be left out: those with a key that stands for nothing or is no
    IRI, and those with the value null. *)
Theorem C74_nothing : forall io ld fin rnd pf o base c ap fm es1 key v es2 tsc c',
  in_effect io ld pf o base c ap (es1 ++ (key, v) :: es2) fm tsc c' -> ac_prev c = None -> key <> "@context" ->
  xkey io o tsc key <> Ok (Some (TmKw KType)) -> says_nothing io o c' key v ->
  Forall (fun e => forall kw, In kw [KList; KSet; KValue] -> xkey io o c' (fst e) <> Ok (Some (TmKw kw))) (es1 ++ es2) ->
  alike io ld fin rnd pf o base c ap fm (JObj (es1 ++ (key, v) :: es2)) (JObj (es1 ++ es2)).
Proof. exact dropped_law. Qed.
Print Assumptions C74_nothing.
(** Null is taken for an empty list or an empty set of graphs by properties with these
    containers. *)
Theorem C74_container_refuted :
  let node ps := Ok [(None, ONode (MkNode (Some (IIri "http://a/s")) (Some [IIri "http://a/T"]) None None ps None))] in
  let doc v := JObj [("@id", JStr "http://a/s"); ("@type", JStr "http://a/T"); ("p", v)] in
  sample_expand (with_container CNone None) (doc JNull) = node [] /\
  sample_expand (with_container CList None) (doc JNull) = node [(IIri "http://a/p", [(None, OList [])])] /\
  sample_expand (with_container CGraph None) (doc JNull) = node [(IIri "http://a/p", [])].
Proof. split; [|split]; vm_compute; reflexivity. Qed.
Print Assumptions C74_container_refuted.
Example C74_example :
  let doc l := JObj (("@id", JStr "http://a/s") :: l ++ [("http://a/q", JStr "v")]) in
  (forall e, In e [("p", JNull); ("x", JStr "y"); ("n", JStr "z")] ->
     sample_alike (ctx_of [("p", ndef_of "http://a/p" false false); ("n", nd_set_value ndef_default (Some TmNull))]) None false (doc [e]) (doc [])) /\
  sample_expand (with_container CNone None) (doc [("p", JNull); ("x", JStr "y")]) = Ok [(None, ONode (MkNode (Some (IIri "http://a/s")) None None None [(IIri "http://a/q", [str_obj "v"])] None))].
Proof.
  set (c := ctx_of _). cbv zeta. split; [|vm_compute; reflexivity]. intros e I.
  assert (E : in_effect sample_iops no_loader 20 xopts_default None c None ([("@id", JStr "http://a/s")] ++ e :: [("http://a/q", JStr "v")]) false c c).
  { repeat (destruct I as [<-|I]; [split; [reflexivity|exists []; split; reflexivity]|]). destruct I. }
  destruct e as [key v].
  refine (C74_nothing sample_iops no_loader sample_hash sample_hash 20 xopts_default None c None false [("@id", JStr "http://a/s")] key v [("http://a/q", JStr "v")] c c E eq_refl _ _ _ _).
  - intros ->. cbn in I. intuition discriminate.
  - repeat (destruct I as [[= <- <-]|I]; [discriminate|]). destruct I.
  - destruct I as [[= <- <-]|[[= <- <-]|[[= <- <-]|[]]]].
    + right. right. right. exists (IIri "http://a/p"). repeat split. discriminate.
    + right. right. left. exists (IInvalid "x"). repeat split. discriminate.
    + right. left. reflexivity.
  - repeat (apply Forall_cons || apply Forall_nil); intros kw K; cbn in K; destruct K as [<-|[<-|[<-|[]]]]; discriminate.
Qed.

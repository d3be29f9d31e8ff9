(** Properties of the values of compacted nodes: C87. *)
From Verif Require Import Prelude Json Str Keyword Enums LangTag LangString Container Stack ContextSyntax Ctx Process
  Object ObjectJson AddValue CompactIri CompactIriTerm Expand Compact CompactValue CompactProofs CompactKept Placed PlacedItems PlacedNodes Samples PropCompactIri PropExpand PropCompact.

(** ** C87 *)

(** A compacted node holds the parts of the node: its identifier, types, reverse properties, index
    and graph, the items of its properties, its included nodes, each at its path, in order, and
    nothing else, if no part is in the way of another one. *)
Theorem C87_placed : forall io ld rel pf o n c index nd ap m,
  compact_object io ld rel pf o (S n) index (ONode nd) c c ap = Ok (JObj m) ->
  exists c1 c2 ps, derived io ld pf c c1 /\ derived io ld pf c c2 /\
    node_parts io ld rel pf o (compact_object io ld rel pf o n) nd index c1 c ap c2 ps /\
    NoDup (keys m) /\ (clear ps -> placed m ps).
Proof.
  intros io ld rel pf o n c index nd ap m H. cbn [compact_object] in H. unfold compact_node in H.
  set (c0 := if n_empty nd && is_some (n_id nd) then c else match ac_prev c with Some p => p | None => c end) in H.
  assert (C0 : derived io ld pf c c0).
  { unfold c0. destruct (_ && _); [apply DvSelf|]. destruct (ac_prev c) eqn:P; [exact (DvPrevious _ _ _ _ _ _ (DvSelf _ _ _ _) P)|apply DvSelf]. }
  pose proof (scoped_safe io ld pf o c c c0 ap (DvSelf _ _ _ _) C0) as S1. destruct (scoped io ld pf o c c0 ap) as [c'|]; cbn [bind safe] in *; [|discriminate].
  pose proof (types_context_safe io ld rel pf o c c nd c' (DvSelf _ _ _ _) S1) as S2.
  destruct (compact_types_context io ld rel pf o c nd c') as [c1|]; cbn [bind safe] in *; [|discriminate].
  destruct (node_stage io ld rel pf o _ _ _ _ _ _ _ H) as (c2 & ps & P & N & S). exists c1, c2, ps. split; [exact S2|]. split.
  - destruct P as (? & ? & pr & ? & ? & ? & ? & _ & _ & R & _). unfold reverse_parts in R. match type of R with match ?e with _ => _ end => destruct e as [|r rs] end; [destruct R as [-> _]; exact S2|].
    destruct R as [R _]. pose proof (scoped_safe io ld pf o c c1 c1 (Some "@reverse") S2 S2) as X. rewrite R in X. exact X.
  - split; [exact P|]. split; [exact (N nil_once)|]. exact (S [] placed_nil).
Qed.
Print Assumptions C87_placed.
(** The context is the same all along if no term has a local context. *)
Definition unscoped (c : actx) : Prop := ac_prev c = None /\ forall t d, assoc t (ac_defs c) = Some d -> nd_context d = None.
Theorem C87_unscoped : forall io ld rel pf o n c index nd ap m, unscoped c ->
  compact_object io ld rel pf o (S n) index (ONode nd) c c ap = Ok (JObj m) ->
  exists ps, node_parts io ld rel pf o (compact_object io ld rel pf o n) nd index c c ap c ps /\ (clear ps -> placed m ps).
Proof.
  intros io ld rel pf o n c index nd ap m [P0 U] H. destruct (C87_placed _ _ _ _ _ _ _ _ _ _ _ H) as (c1 & c2 & ps & D1 & D2 & P & _ & S).
  assert (E : forall c', derived io ld pf c c' -> c' = c).
  { induction 1 as [|c3 p _ -> X|dc c3 k d lc po c' _ -> _ _ X L _]; [reflexivity|congruence|]. exfalso.
    destruct k as [k|]; [|discriminate]. cbn [prop_def] in X. destruct (streq k "@type"); [discriminate|]. unfold get_normal in X. rewrite (U _ _ X) in L. discriminate. }
  rewrite (E _ D1), (E _ D2) in P. eauto.
Qed.
Print Assumptions C87_unscoped.

(** In particular, for every item: its value is at its path, with the other values of that path. *)
Theorem C87_item : forall io ld rel pf o n c index nd ap m p l x, unscoped c ->
  compact_object io ld rel pf o (S n) index (ONode nd) c c ap = Ok (JObj m) -> In (p, l) (n_props nd) -> In x l ->
  exists ps q, node_parts io ld rel pf o (compact_object io ld rel pf o n) nd index c c ap c ps /\
    puts rel o (compact_object io ld rel pf o n) c false (TmId p) x q /\ In q ps /\
    (clear ps -> filed (with_path (pt_path q) ps) (json_at (JObj m) (pt_path q)) /\
      (pt_alone q = false -> incl (leaves (pt_value q)) (stored (json_at (JObj m) (pt_path q)))) /\
      (pt_alone q = true -> json_at (JObj m) (pt_path q) = Some (pt_value q))).
Proof.
  intros io ld rel pf o n c index nd ap m p l x U H I J. destruct (C87_unscoped _ _ _ _ _ _ _ _ _ _ _ U H) as (ps & P & S). pose proof P as P0.
  destruct P as (pi & pt & pr & px & pg & pss & pn & _ & _ & _ & _ & _ & F & _ & E).
  assert (I' : In (p, l) (if co_ordered o then sort_key (fun e : id * list iobj => id_str (fst e)) (n_props nd) else n_props nd)).
  { destruct (co_ordered o); [|exact I]. apply sort_key_in. exact I. }
  destruct (Forall2_in_l _ _ _ _ F I') as (qs & Iq & G). cbn [fst snd] in G. destruct l as [|y l]; [destruct J|]. unfold put_by in G.
  destruct (Forall2_in_l _ _ _ _ G J) as (q & Iqq & Q). exists ps, q. split; [exact P0|]. split; [exact Q|].
  assert (IQ : In q ps).
  { rewrite E. do 5 (apply in_or_app; right). apply in_or_app. left. apply in_concat. eauto. }
  split; [exact IQ|]. intros CL. specialize (S CL).
  assert (NE : pt_path q <> []) by (destruct Q as (key & pre & rest & _ & _ & -> & _); destruct pre; discriminate).
  pose proof (placed_at _ _ _ _ S IQ eq_refl NE) as FL. split; [exact FL|].
  assert (IW : In q (with_path (pt_path q) ps)) by (apply with_path_in; auto). split; [|intros A; exact (fl_alone _ _ FL _ IW A)].
  intros A. assert (AL : Forall (fun r => pt_alone r = false) (with_path (pt_path q) ps)).
  { apply Forall_forall. intros r Ir. destruct (pt_alone r) eqn:AR; [|reflexivity]. exfalso. apply with_path_in in Ir. destruct Ir as [Ir Pr].
    revert CL IQ Ir Pr A AR. clear. intros CL. induction CL as [|z ps F CL IH]; [intros []|]. rewrite Forall_forall in F. intros [->|IQ] [->|Ir] Pr A AR.
    - congruence.
    - destruct (F _ Ir) as [_ X]. apply X. exists []. rewrite app_nil_r. auto.
    - destruct (F _ IQ) as [X _]. apply X. exists []. rewrite app_nil_r. auto.
    - auto. }
  intros v Iv. unfold stored. rewrite (fl_values _ _ FL AL). apply in_flat_map. eauto.
Qed.
Print Assumptions C87_item.

(** A list object that is not the value of a property, as a list in a list: the items alone in a
    list container, an object that holds them otherwise. *)
Theorem C87_list : forall io ld rel pf o n c index l ap j,
  compact_object io ld rel pf o (S n) index (OList l) c c ap = Ok j ->
  exists c', derived io ld pf c c' /\
    ((exists key, ap = Some key /\ has c key CKList /\ content o (compact_object io ld rel pf o n) c' key l j) \/
     (~ kept_in c ap CKList /\ exists m ps, j = JObj m /\ list_parts rel o (compact_object io ld rel pf o n) l index c' ap ps /\
        NoDup (keys m) /\ (clear ps -> placed m ps))).
Proof.
  intros io ld rel pf o n c index l ap j H. cbn [compact_object] in H. unfold compact_list in H.
  set (c0 := match ac_prev c with Some p => p | None => c end) in H.
  assert (C0 : derived io ld pf c c0).
  { unfold c0. destruct (ac_prev c) eqn:P; [exact (DvPrevious _ _ _ _ _ _ (DvSelf _ _ _ _) P)|apply DvSelf]. }
  pose proof (scoped_safe io ld pf o c c c0 ap (DvSelf _ _ _ _) C0) as S1. destruct (scoped io ld pf o c c0 ap) as [c'|]; cbn [bind safe] in *; [|discriminate].
  exists c'. split; [exact S1|]. destruct (c_contains (container_ap c ap) CKList) eqn:K.
  - left. apply kept_in_spec in K. destruct K as (key & -> & K). exists key. split; [reflexivity|]. split; [exact K|]. exact (collection_content rel o _ _ _ _ _ H).
  - right. split; [rewrite <- kept_in_spec; congruence|].
    assert (O : exists m, j = JObj m) by (do 2 match type of H with bind ?r _ = _ => destruct r; cbn [bind] in H; [|discriminate] end; injection H as <-; eauto).
    destruct O as (m & ->).
    destruct (list_stage rel o (compact_object io ld rel pf o n) l index c' ap m H) as (ps & P & N & S). exists m, ps. split; [reflexivity|]. split; [exact P|]. split; [exact (N nil_once)|exact (S [] placed_nil)].
Qed.
Print Assumptions C87_list.

(** A compacted document: the only node, or the nodes in [@graph], with the context. *)
Definition no_context (j : json) : Prop := j = JNull \/ j = JArr [] \/ j = JObj [].
Definition contexted (j : json) (m : jobject) (r : json) : Prop :=
  ((m = [] \/ no_context j) /\ r = JObj m) \/
  (m <> [] /\ ~ no_context j /\ exists m', r = JObj (("@context", j) :: m') /\ assoc "@context" m' = None /\
     forall k, k <> "@context" -> assoc k m' = assoc k m).
Lemma compact_is_object io ld rel pf o n c index x j : is_value x = false ->
  compact_object io ld rel pf o n index x c c None = Ok j -> exists m, j = JObj m.
Proof.
  intros V H. destruct n as [|n]; [discriminate|]. cbn [compact_object] in H. destruct x as [v|nd|l]; [discriminate| |].
  - unfold compact_node in H. cbn [scoped prop_def bind] in H. match type of H with bind ?r _ = _ => destruct r as [c'|]; cbn [bind] in H; [|discriminate] end.
    assert (B : forall m, compact_node_body io ld rel pf o (compact_object io ld rel pf o n) nd index c' c None m = Ok j -> exists m', j = JObj m').
    { intros m B. unfold compact_node_body in B. destruct (compact_types _ _ _ _ _ _); cbn [bind] in B; [|discriminate].
      match type of B with bind ?r _ = _ => destruct r as [[c2 m2]|] end; cbn [bind] in B; [|discriminate].
      do 4 (match type of B with bind ?r _ = _ => destruct r as [?|] end; cbn [bind] in B; [|discriminate]). injection B as <-. eauto. }
    unfold compact_node_in in H. destruct (n_id nd); [|exact (B _ H)]. cbn [prop_def mapped_type] in H. destruct (n_empty nd) in H;
      do 2 (match type of H with bind ?r _ = _ => destruct r as [?|] end; cbn [bind] in H; [|discriminate]); exact (B _ H).
  - unfold compact_list in H. cbn [scoped prop_def bind container_ap c_contains as_slice existsb] in H.
    do 2 (match type of H with bind ?r _ = _ => destruct r as [?|] end; cbn [bind] in H; [|discriminate]). injection H as <-. eauto.
Qed.
Theorem C87_document : forall io ld rel pf o n c j doc r, (forall x, In x doc -> is_value (snd x) = false) ->
  compact io ld rel pf o n c j doc = Ok r ->
  exists ms, Forall2 (fun x m => compact_object io ld rel pf o n (fst x) (snd x) c c None = Ok (JObj m)) doc ms /\
    ((ms = [] /\ r = JObj []) \/
     (exists m, ms = [m] /\ co_arrays o = true /\ contexted j m r) \/
     (ms <> [] /\ (co_arrays o = false \/ forall m, ms <> [m]) /\
        exists k, kkey rel o c KGraph = Ok k /\ contexted j [(k, JArr (map JObj ms))] r)).
Proof.
  intros io ld rel pf o n c j doc r V H. unfold compact, compact_collection in H. rewrite flat_is_map in H.
  match type of H with context [map_r ?f doc] => destruct (map_r f doc) as [js|] eqn:M end; cbn [bind] in H; [|discriminate].
  assert (F : exists ms, js = map JObj ms /\ Forall2 (fun x m => compact_object io ld rel pf o n (fst x) (snd x) c c None = Ok (JObj m)) doc ms).
  { clear H. revert js M. induction doc as [|x doc IH]; intros js M; cbn [map_r] in M.
    - injection M as <-. exists []. split; constructor.
    - destruct (compact_object io ld rel pf o n (fst x) (snd x) c c None) as [y|] eqn:X; [|discriminate]. cbn [bind] in M.
      match type of M with context [map_r ?f doc] => destruct (map_r f doc) as [ys|] end; cbn [bind] in M; [|discriminate]. injection M as <-.
      destruct (compact_is_object _ _ _ _ _ _ _ _ _ _ (V x (or_introl eq_refl)) X) as (m & ->).
      destruct (IH (fun x I => V x (or_intror I)) _ eq_refl) as (ms & -> & F). exists (m :: ms). split; [reflexivity|constructor; assumption]. }
  destruct F as (ms & -> & F). exists ms. split; [exact F|].
  assert (E : filter (fun j : json => negb (is_null j)) (map JObj ms) = map JObj ms) by (clear; induction ms as [|m ms IH]; cbn; congruence). rewrite E in H.
  assert (EM : forall m, embed_context rel o c j (JObj m) = Ok r -> contexted j m r).
  { intros m X. unfold embed_context in X. cbn [bind] in X. injection X as <-. unfold contexted, no_context. destruct m as [|e m]; [left; split; [auto|reflexivity]|]. cbn [orb].
    match goal with |- context [if ?b then _ else _] => destruct b eqn:B end.
    - left. split; [|reflexivity]. destruct j as [| | | |[]|[]]; try discriminate; auto.
    - right. split; [discriminate|]. split; [intros [->|[->| ->]]; discriminate|]. eexists. split; [reflexivity|]. split; [|intros k N; apply assoc_remove_key; exact N].
      match goal with |- ?a = None => destruct a eqn:A end; [|reflexivity]. apply assoc_Some_In in A. apply (List.in_map fst) in A. apply keys_remove_key in A. cbn in A. tauto. }
  assert (MANY : forall l, l <> [] -> embed_context rel o c j (JArr l) = Ok r -> exists k, kkey rel o c KGraph = Ok k /\ contexted j [(k, JArr l)] r).
  { intros l N X. unfold embed_context in X. destruct l as [|y l]; [congruence|]. destruct (kkey rel o c KGraph) as [k|]; cbn [bind] in X; [|discriminate].
    exists k. split; [reflexivity|]. apply EM. unfold embed_context. cbn [bind]. exact X. }
  destruct ms as [|m [|m2 ms]]; cbn [map] in H.
  - left. split; [reflexivity|]. unfold embed_context in H. cbn [bind orb] in H. congruence.
  - cbn [ap_is opt_eqb container_ap c_contains as_slice existsb] in H. rewrite !orb_false_r in H. destruct (co_arrays o); cbn [negb] in H.
    + right. left. exists m. auto.
    + right. right. split; [discriminate|]. split; [auto|]. exact (MANY [JObj m] ltac:(discriminate) H).
  - right. right. split; [discriminate|]. split; [right; discriminate|]. exact (MANY (map JObj (m :: m2 :: ms)) ltac:(discriminate) H).
Qed.
Print Assumptions C87_document.

(** *** What does not hold *)

(** With a property-valued index, the first of several values of the index property is lost if it
    is not a string. *)
Definition indexed_by (q : string) : actx :=
  ctx_of [("p", nd_set_index (nd_set_container (ndef_of "http://a/p" false false) CIndex) (Some q)); ("q", ndef_of "http://a/q" false false)].
Theorem C87_first_refuted :
  sample_compact (indexed_by "q")
    [(None, ONode (MkNode (Some (IIri "http://a/x")) None None None [(IIri "http://a/q", [node_obj "http://a/y"; str_obj "s"])] None))] =
  Ok (JObj [("p", JObj [("@none", JObj [("@id", JStr "http://a/x"); ("q", JStr "s")])])]).
Proof. vm_compute. reflexivity. Qed.
Print Assumptions C87_first_refuted.
(** If the context gives the index property by its IRI though it has a term, its values are not
    found: the key is [@none]. *)
Theorem C87_index_refuted :
  let x := (None, ONode (MkNode (Some (IIri "http://a/x")) None None None [(IIri "http://a/q", [str_obj "s"])] None)) in
  sample_compact (indexed_by "q") [x] = Ok (JObj [("p", JObj [("s", JObj [("@id", JStr "http://a/x")])])]) /\
  sample_compact (indexed_by "http://a/q") [x] = Ok (JObj [("p", JObj [("@none", JObj [("@id", JStr "http://a/x"); ("q", JStr "s")])])]).
Proof. split; vm_compute; reflexivity. Qed.
Print Assumptions C87_index_refuted.

(** *** Examples *)
Definition c87_ctx : actx := ctx_of
  [("n", nd_set_value ndef_default (Some (TmKw KNest)));
   ("l", nd_set_nest (nd_set_container (ndef_of "http://a/l" false false) CLanguage) (Some (TNestTerm "n")));
   ("t", nd_set_nest (nd_set_container (ndef_of "http://a/t" false false) CType) (Some (TNestTerm "n")));
   ("i", nd_set_container (ndef_of "http://a/i" false false) CIdSet);
   ("g", nd_set_container (ndef_of "http://a/g" false false) CGraphId);
   ("s", nd_set_nest (nd_set_container (ndef_of "http://a/s" false false) CList) (Some TNest));
   ("r", nd_set_reverse (ndef_of "http://a/r" false false) true)].
Definition c87_lang (s l : string) : iobj := (None, OVal (VLang (MkLS s (Some l) None))).
Definition c87_node : node := MkNode (Some (IIri "http://a/n")) (Some [IIri "http://a/T"; IIri "http://a/U"]) None None
  [(IIri "http://a/l", [c87_lang "x" "en"; c87_lang "y" "fr"; c87_lang "z" "en"]);
   (IIri "http://a/t", [(None, ONode (MkNode (Some (IIri "http://a/v")) (Some [IIri "http://a/T"]) None None [(IIri "http://a/q", [str_obj "w"])] None))]);
   (IIri "http://a/i", [(None, ONode (MkNode (Some (IIri "http://a/v")) None None None [(IIri "http://a/q", [str_obj "w"])] None))]);
   (IIri "http://a/g", [(None, graph_obj (Some "http://a/h") [node_obj "http://a/x"])]);
   (IIri "http://a/s", [(None, OList [str_obj "a"; str_obj "b"])])]
  (Some [(IIri "http://a/r", [(None, node_new (Some (IIri "http://a/z")))])]).
Example C87_example :
  compact_object sample_iops no_loader sample_rel 20 copts_default 10 (Some "k") (ONode c87_node) c87_ctx c87_ctx None =
  Ok (JObj [("@id", JStr "http://a/n"); ("@type", JArr [JStr "http://a/T"; JStr "http://a/U"]); ("r", JObj [("@id", JStr "http://a/z")]); ("@index", JStr "k");
    ("n", JObj [("l", JObj [("fr", JStr "y"); ("en", JArr [JStr "x"; JStr "z"])]);
                ("t", JObj [("http://a/T", JObj [("@id", JStr "http://a/v"); ("http://a/q", JStr "w")])])]);
    ("i", JObj [("http://a/v", JArr [JObj [("http://a/q", JStr "w")]])]);
    ("g", JObj [("http://a/h", JObj [("@id", JStr "http://a/x")])]);
    ("@nest", JObj [("s", JArr [JStr "a"; JStr "b"])])]) /\ unscoped c87_ctx.
Proof.
  split; [vm_compute; reflexivity|]. split; [reflexivity|]. intros t d H. apply assoc_Some_In in H. cbn in H.
  repeat (destruct H as [H|H]; [injection H as _ <-; reflexivity|]). destruct H.
Qed.
(** The paths of this example: they are clear of each other. *)
Example C87_example_clear :
  clear [MkPart ["@id"] false true (JStr "http://a/n"); MkPart ["@type"] false false (JArr [JStr "http://a/T"; JStr "http://a/U"]);
         MkPart ["r"] false false (JObj [("@id", JStr "http://a/z")]); MkPart ["@index"] false true (JStr "k");
         MkPart ["n"; "l"; "en"] false false (JStr "x"); MkPart ["n"; "l"; "fr"] false false (JStr "y"); MkPart ["n"; "l"; "en"] false false (JStr "z");
         MkPart ["n"; "t"; "http://a/T"] false false (JObj [("@id", JStr "http://a/v"); ("http://a/q", JStr "w")]);
         MkPart ["i"; "http://a/v"] true false (JObj [("http://a/q", JStr "w")]); MkPart ["g"; "http://a/h"] false false (JObj [("@id", JStr "http://a/x")]);
         MkPart ["@nest"; "s"] false true (JArr [JStr "a"; JStr "b"])].
Proof.
  repeat match goal with
  | |- clear _ => unfold clear
  | |- ForallOrdPairs _ _ => constructor
  | |- Forall _ _ => constructor
  | |- apart _ _ => split; intros (s & E & X); cbn in E; destruct s as [|? s]; cbn in X; first [discriminate E | destruct X as [X|X]; [congruence|discriminate X] | injection E; intros; discriminate]
  end.
Qed.
(** A list beside an index map is in the way. *)
Example C87_example_in_the_way : ~ clear [MkPart ["p"] false false (JObj [("@list", JArr [])]); MkPart ["p"; "j"] false false (JStr "b")].
Proof. intros C. inversion C as [|? ? F _]; subst. inversion F as [|? ? [X _] _]; subst. apply X. exists ["j"]. split; [reflexivity|left; discriminate]. Qed.
(** A list in a list of a list container, and elsewhere; a list item alone. *)
Example C87_example_list :
  let x := OList [str_obj "a"; str_obj "b"] in
  let c := ctx_of [("l", nd_set_container (ndef_of "http://a/l" false false) CList); ("p", ndef_of "http://a/p" false false)] in
  let run ap i y := compact_object sample_iops no_loader sample_rel 20 copts_default 10 i y c c ap in
  run (Some "l") None x = Ok (JArr [JStr "a"; JStr "b"]) /\ run (Some "l") None (OList [str_obj "a"]) = Ok (JArr [JStr "a"]) /\
  run (Some "p") (Some "k") x = Ok (JObj [("@list", JArr [JStr "a"; JStr "b"]); ("@index", JStr "k")]) /\
  run (Some "p") None (OList [(None, x); str_obj "c"]) = Ok (JObj [("@list", JArr [JObj [("@list", JArr [JStr "a"; JStr "b"])]; JStr "c"])]).
Proof. cbn zeta. repeat split; vm_compute; reflexivity. Qed.
Example C87_example_document :
  let c := ctx_of [("p", ndef_of "http://a/p" false false); ("g", nd_set_value ndef_default (Some (TmKw KGraph)))] in
  let x := (None, ONode (MkNode (Some (IIri "http://a/n")) None None None [(IIri "http://a/p", [str_obj "v"])] None)) in
  let run j doc := compact sample_iops no_loader sample_rel 20 copts_default 10 c j doc in
  run (JStr "http://a/c") [x] = Ok (JObj [("@context", JStr "http://a/c"); ("@id", JStr "http://a/n"); ("p", JStr "v")]) /\
  run JNull [x] = Ok (JObj [("@id", JStr "http://a/n"); ("p", JStr "v")]) /\
  run (JStr "http://a/c") [x; x] = Ok (JObj [("@context", JStr "http://a/c"); ("g", JArr [JObj [("@id", JStr "http://a/n"); ("p", JStr "v")]; JObj [("@id", JStr "http://a/n"); ("p", JStr "v")]])]).
Proof. cbn zeta. repeat split; vm_compute; reflexivity. Qed.

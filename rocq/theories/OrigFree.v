(** Compaction in a context without scoped contexts does not depend on the base IRI with which the
    context was created ([original_base_url]). *)
From Verif Require Import Prelude Json Str Keyword Enums LangTag LangString Container Stack ContextSyntax Ctx Inverse Process
  Object ObjectEq ObjectJson AddValue CompactIri Expand ExpandFuel Compact RoundTrip.

(** [c] with another original base IRI. *)
Definition with_orig (b : option string) (c : actx) : actx :=
  MkCtx b (ac_base c) (ac_vocab c) (ac_lang c) (ac_dir c) (ac_prev c) (ac_defs c) (ac_type c).

Section OrigFree.
Variables (io : iops) (ld : loader) (rel : string -> string -> string) (pf : nat) (o : copts).
Variables (c : actx) (b : option string).
Notation c' := (with_orig b c).
Hypothesis NP : ac_prev c = None.
Hypothesis NS : forall ap d, prop_def c ap = Some d -> nd_context d = None.

Lemma kiri_o t v : kiri rel o c' t v = kiri rel o c t v. Proof. reflexivity. Qed.
Lemma kiri_with_o t x r : kiri_with rel o c' t x r = kiri_with rel o c t x r. Proof. reflexivity. Qed.
Lemma kkey_o k : kkey rel o c' k = kkey rel o c k. Proof. reflexivity. Qed.
Lemma put_o k v m : put rel o c' k v m = put rel o c k v m. Proof. reflexivity. Qed.
Lemma prop_o ap : prop_def c' ap = prop_def c ap. Proof. reflexivity. Qed.
Lemma scoped_c ap : scoped io ld pf o c c ap = Ok c.
Proof using NS. unfold scoped. destruct (prop_def c ap) as [d|] eqn:E; [rewrite (NS _ _ E)|]; reflexivity. Qed.
Lemma scoped_o ap : scoped io ld pf o c' c' ap = Ok c'.
Proof using NS. unfold scoped. rewrite prop_o. destruct (prop_def c ap) as [d|] eqn:E; [rewrite (NS _ _ E)|]; reflexivity. Qed.
Lemma value_o ap ix v : compact_value io ld rel pf o c' ap ix v = compact_value io ld rel pf o c ap ix v.
Proof using NS. unfold compact_value. rewrite scoped_c, scoped_o. reflexivity. Qed.

Section Items.
Variable rec : option string -> obj -> actx -> actx -> option string -> result json kerr.
Hypothesis AG : forall ix x ap, rec ix x c' c' ap = rec ix x c c ap.

Lemma collection_o l ap : compact_collection o rec l c' c' ap = compact_collection o rec l c c ap.
Proof using AG. unfold compact_collection. erewrite flat_r_ext; [reflexivity|]. intros x _. cbn beta. rewrite AG. reflexivity. Qed.
Lemma item_list_o l ix m cn a key : compact_property_list rel o rec l ix m cn a key c' = compact_property_list rel o rec l ix m cn a key c.
Proof using AG. unfold compact_property_list. rewrite collection_o. reflexivity. Qed.
Lemma item_graph_o n g ix m cn a key : compact_property_graph rel o rec n g ix m cn a key c' = compact_property_graph rel o rec n g ix m cn a key c.
Proof using AG. unfold compact_property_graph. rewrite collection_o. reflexivity. Qed.
Lemma map_entry_o cn key x j : map_entry rel o rec cn key x j c' = map_entry rel o rec cn key x j c.
Proof using AG.
  unfold map_entry. rewrite !kkey_o, prop_o.
  destruct (o_id (snd x)); [rewrite AG|]; reflexivity.
Qed.
Lemma in_map_ext m k f g : (forall x, f x = g x) -> in_map m k f = in_map m k g.
Proof. intros H. unfold in_map. destruct (kget k m) as [[j|]|]; cbn [bind]; try rewrite H; try reflexivity. destruct j; try rewrite H; reflexivity. Qed.
Lemma plain_o x m cn a key : compact_plain rel o rec x m cn a key c' = compact_plain rel o rec x m cn a key c.
Proof using AG.
  unfold compact_plain. rewrite AG. destruct (rec (fst x) (snd x) c c (Some key)) as [j|]; [|reflexivity]. cbn [bind].
  destruct (_ && _); [|reflexivity]. apply in_map_ext. intros y. rewrite map_entry_o. reflexivity.
Qed.
Lemma with_nest_ext m key f g : (forall x, f x = g x) -> with_nest m c' key f = with_nest m c key g.
Proof using.
  intros H. unfold with_nest. rewrite prop_o. destruct (prop_def c (Some key)) as [d|]; [|apply H]. destruct (nd_nest d) as [t|]; [|apply H].
  change (get_value c') with (get_value c). destruct (match t with TNest => true | TNestTerm _ => _ end); [apply in_map_ext, H|reflexivity].
Qed.
Lemma item_o t r m x : compact_item rel o rec t c' r m x = compact_item rel o rec t c r m x.
Proof using AG.
  unfold compact_item. rewrite kiri_with_o. destruct (kiri_with rel o c t x r) as [[key|]|]; [|reflexivity..]. cbn [bind].
  apply with_nest_ext. intros y. cbv zeta. change (container_of c' key) with (container_of c key). change (as_array_for o c' key) with (as_array_for o c key).
  destruct (snd x) as [v|n|l]; [apply plain_o| |apply item_list_o]. destruct (if is_graph n then n_graph n else None); [apply item_graph_o|apply plain_o].
Qed.
Lemma property_o t l r m : compact_property rel o rec t l c' r m = compact_property rel o rec t l c r m.
Proof using AG.
  unfold compact_property. destruct l as [|x l].
  - rewrite kiri_with_o. destruct (kiri_with rel o c t _ r) as [[key|]|]; [|reflexivity..]. cbn [bind]. apply with_nest_ext. reflexivity.
  - apply fold_r_ext. intros a y _. apply item_o.
Qed.
Lemma node_body_o n ix ap m : compact_node_body io ld rel pf o rec n ix c' c' ap m = compact_node_body io ld rel pf o rec n ix c c ap m.
Proof using AG NS.
  unfold compact_node_body. change (compact_types rel o c' c') with (compact_types rel o c c). destruct (compact_types rel o c c (n_types n) m) as [m1|]; [|reflexivity]. cbn [bind].
  assert (T : forall m2,
    (do m <- (match ix with Some i => if c_contains (container_ap c' ap) CKIndex then Ok m2 else put rel o c' KIndex (JStr i) m2 | None => Ok m2 end) ;
     do m <- (match n_graph n with Some g => compact_property rel o rec (TmKw KGraph) g c' false m | None => Ok m end) ;
     do m <- fold_r (fun m e => compact_property rel o rec (TmId (fst e)) (snd e) c' false m) m (if co_ordered o then sort_key (fun e => id_str (fst e)) (n_props n) else n_props n) ;
     do m <- (match n_included n with Some l => compact_property rel o rec (TmKw KIncluded) (map (fun x : inode => (fst x, ONode (snd x))) l) c' false m | None => Ok m end) ;
     Ok (JObj m)) =
    (do m <- (match ix with Some i => if c_contains (container_ap c ap) CKIndex then Ok m2 else put rel o c KIndex (JStr i) m2 | None => Ok m2 end) ;
     do m <- (match n_graph n with Some g => compact_property rel o rec (TmKw KGraph) g c false m | None => Ok m end) ;
     do m <- fold_r (fun m e => compact_property rel o rec (TmId (fst e)) (snd e) c false m) m (if co_ordered o then sort_key (fun e => id_str (fst e)) (n_props n) else n_props n) ;
     do m <- (match n_included n with Some l => compact_property rel o rec (TmKw KIncluded) (map (fun x : inode => (fst x, ONode (snd x))) l) c false m | None => Ok m end) ;
     Ok (JObj m))).
  { intros m2. change (container_ap c' ap) with (container_ap c ap). change (put rel o c') with (put rel o c).
    match goal with |- bind ?x _ = _ => destruct x as [m3|]; [|reflexivity] end. cbn [bind].
    assert (G : match n_graph n with Some g => compact_property rel o rec (TmKw KGraph) g c' false m3 | None => Ok m3 end =
                match n_graph n with Some g => compact_property rel o rec (TmKw KGraph) g c false m3 | None => Ok m3 end) by (destruct (n_graph n); [apply property_o|reflexivity]).
    rewrite G. match goal with |- bind ?x _ = _ => destruct x as [m4|]; [|reflexivity] end. cbn [bind].
    erewrite (fold_r_ext (fun m e => compact_property rel o rec (TmId (fst e)) (snd e) c' false m)) by (intros a e _; apply property_o).
    match goal with |- bind ?x _ = _ => destruct x as [m5|]; [|reflexivity] end. cbn [bind]. destruct (n_included n); [rewrite property_o|]; reflexivity. }
  destruct (opt_list (n_reverse n)) as [|r rs]; [apply T|]. rewrite scoped_c, scoped_o. cbn [bind].
  erewrite (fold_r_ext (fun r0 e => compact_property rel o rec (TmId (fst e)) _ c' true r0)) by (intros a e _; apply property_o).
  match goal with |- context [fold_r (fun r0 e => compact_property rel o rec (TmId (fst e)) _ c true r0) ?i ?l] => destruct (fold_r (fun r0 e => compact_property rel o rec (TmId (fst e)) (map (fun x : inode => (fst x, ONode (snd x))) (snd e)) c true r0) i l) as [q|]; [|reflexivity] end.
  cbn [bind]. change (reverse_step o c') with (reverse_step o c). destruct (fold_r (reverse_step o c) (m1, []) q) as [[m2 r2]|]; [|reflexivity]. cbn [bind].
  change (put rel o c') with (put rel o c). match goal with |- bind (bind ?x _) _ = _ => destruct x as [m3|]; [|reflexivity] end. cbn [bind]. apply T.
Qed.
Lemma types_c n : compact_types_context io ld rel pf o c n c = do _ <- map_r (fun t => kunwrap (kiri rel o c (TmId t) true)) (opt_list (n_types n)) ; Ok c.
Proof using NS.
  unfold compact_types_context. destruct (map_r _ _) as [ts|]; [|reflexivity]. cbn [bind]. generalize (sort_key (fun s => s) ts). intros l. induction l as [|t l IH]; [reflexivity|]. cbn [fold_r].
  destruct (prop_def c (Some t)) as [d|] eqn:E; [rewrite (NS _ _ E)|]; exact IH.
Qed.
Lemma types_o n : compact_types_context io ld rel pf o c' n c' = do _ <- map_r (fun t => kunwrap (kiri rel o c (TmId t) true)) (opt_list (n_types n)) ; Ok c'.
Proof using NS.
  unfold compact_types_context. change (kiri rel o c') with (kiri rel o c). destruct (map_r _ _) as [ts|]; [|reflexivity]. cbn [bind]. generalize (sort_key (fun s => s) ts). intros l. induction l as [|t l IH]; [reflexivity|]. cbn [fold_r].
  rewrite prop_o. destruct (prop_def c (Some t)) as [d|] eqn:E; [rewrite (NS _ _ E)|]; exact IH.
Qed.
Lemma node_o n ix ap : compact_node io ld rel pf o rec n ix c' c' ap = compact_node io ld rel pf o rec n ix c c ap.
Proof using AG NS NP.
  unfold compact_node. change (ac_prev c') with (ac_prev c). rewrite NP. destruct (n_empty n && is_some (n_id n)) eqn:B; rewrite scoped_c, scoped_o; cbn [bind];
    rewrite types_c, types_o; (destruct (map_r _ _) as [ts|]; [|reflexivity]); cbn [bind]; unfold compact_node_in; rewrite prop_o; change (kiri rel o c') with (kiri rel o c); cbv zeta;
    (destruct (n_id n) as [i|]; [|apply node_body_o]); destruct (if n_empty n then _ else _) as [[]|]; try reflexivity;
    (destruct (kiri rel o c (TmId i) false); [|reflexivity]); cbn [bind]; (destruct (kiri rel o c (TmKw KId) true); [|reflexivity]); cbn [bind]; apply node_body_o.
Qed.
Lemma list_o l ix ap : compact_list io ld rel pf o rec l ix c' c' ap = compact_list io ld rel pf o rec l ix c c ap.
Proof using AG NS NP.
  unfold compact_list. change (ac_prev c') with (ac_prev c). rewrite NP, scoped_c, scoped_o. cbn [bind]. change (container_ap c' ap) with (container_ap c ap).
  rewrite collection_o, property_o. reflexivity.
Qed.
End Items.
Lemma object_o n : forall ix x ap, compact_object io ld rel pf o n ix x c' c' ap = compact_object io ld rel pf o n ix x c c ap.
Proof using NS NP.
  induction n as [|n IH]; intros ix x ap; [reflexivity|]. cbn [compact_object]. destruct x as [v|y|l]; [apply value_o|apply node_o, IH|apply list_o, IH].
Qed.
Theorem compact_orig n j doc : compact io ld rel pf o n c' j doc = compact io ld rel pf o n c j doc.
Proof using NS NP. unfold compact. rewrite collection_o by apply object_o. reflexivity. Qed.
End OrigFree.

(** Compaction: the values that are kept. *)
From Verif Require Import Prelude Json Str Keyword Enums LangTag LangString Container Stack ContextSyntax Ctx Inverse Process
  Object ObjectJson AddValue CompactIri CompactIriTerm Expand Compact CompactValue CompactProofs.

(** ** Specification *)

(** Contributions to an object: keys with values.  An object is built from contributions if each
    of its keys has their values, in order. *)
Definition under (k : string) (cs : list (string * list json)) : list json :=
  flat_map (fun e => if streq (fst e) k then snd e else []) cs.
Record built (m : jobject) (cs : list (string * list json)) : Prop := {
  bt_once : NoDup (keys m);
  bt_values : forall k, values_of m k = under k cs;
  bt_keys : forall k, In k (keys m) -> In k (map fst cs)
}.
(** All of the keys are there. *)
Definition complete (m : jobject) (cs : list (string * list json)) : Prop := forall k, In k (map fst cs) -> In k (keys m).

Lemma under_app k a b : under k (a ++ b) = under k a ++ under k b.
Proof. apply flat_map_app. Qed.
Lemma under_notin k cs : ~ In k (map fst cs) -> under k cs = [].
Proof.
  unfold under. induction cs as [|[k' vs] cs IH]; [reflexivity|]. cbn [flat_map fst snd map In]. intros H. destruct (streq_spec k' k) as [->|_]; [tauto|]. apply IH. tauto.
Qed.
Lemma under_one k k' vs : under k [(k', vs)] = if streq k' k then vs else [].
Proof. unfold under. cbn [flat_map fst snd]. rewrite app_nil_r. reflexivity. Qed.
Lemma values_notin m k : ~ In k (keys m) -> values_of m k = [].
Proof. intros H. unfold values_of. apply assoc_None_notin in H. rewrite H. reflexivity. Qed.

Lemma built_nil : built [] [].
Proof. split; [constructor|reflexivity|intros k []]. Qed.
Lemma complete_nil : complete [] [].
Proof. intros k []. Qed.
Lemma in_keys_assoc {A} k (m : list (string * A)) : In k (map fst m) <-> exists v, assoc k m = Some v.
Proof.
  split.
  - intros I. destruct (assoc k m) as [v|] eqn:E; [eauto|]. apply assoc_None_notin in E. destruct (E I).
  - intros [v E]. apply assoc_Some_In in E. apply in_map_iff. exists (k, v). auto.
Qed.
Lemma built_insert m cs k v : built m cs -> ~ In k (map fst cs) -> is_array v = false -> built (insert k v m) (cs ++ [(k, [v])]).
Proof.
  intros [N V K] F A. split.
  - apply nodup_insert, N.
  - intros k'. rewrite under_app, under_one. unfold values_of. rewrite assoc_insert. destruct (streq_spec k' k) as [->|D].
    + rewrite streq_refl, (under_notin _ _ F). destruct v; try discriminate; reflexivity.
    + destruct (streq_spec k k') as [->|_]; [congruence|]. rewrite app_nil_r. apply V.
  - intros k'. rewrite keys_insert, map_app, in_app_iff. cbn. intros [->|I]; auto.
Qed.
Lemma complete_insert m cs k v : complete m cs -> complete (insert k v m) (cs ++ [(k, [v])]).
Proof. intros C k'. rewrite map_app, in_app_iff, keys_insert. cbn. intros [I|[<-|[]]]; auto. Qed.
Lemma built_add m cs k v b m' : built m cs -> kadd m k v b = Ok m' -> built m' (cs ++ [(k, leaves v)]).
Proof.
  intros [N V K]. unfold kadd. destruct (add_value_ok v m k b N) as (m1 & -> & N1 & V1 & O1 & _). intros H. injection H as <-. split.
  - exact N1.
  - intros k'. rewrite under_app, under_one. destruct (streq_spec k k') as [<-|D].
    + rewrite V1, V. reflexivity.
    + unfold values_of. rewrite O1 by congruence. rewrite app_nil_r. apply V.
  - intros k' I. rewrite map_app, in_app_iff. cbn. destruct (streq_spec k' k) as [->|D]; [auto|]. left. apply K.
    apply in_keys_assoc in I. apply in_keys_assoc. rewrite <- O1 by congruence. exact I.
Qed.
Lemma complete_add m cs k v b m' : NoDup (keys m) -> complete m cs -> kadd m k v b = Ok m' -> leaves v <> [] \/ b = true ->
  complete m' (cs ++ [(k, leaves v)]).
Proof.
  intros N C. unfold kadd. destruct (add_value_ok v m k b N) as (m1 & -> & N1 & V1 & O1 & A1 & _). intros H L. injection H as <-.
  assert (P : In k (keys m1)).
  { apply in_keys_assoc. destruct L as [L|L].
    - unfold values_of in V1. destruct (assoc k m1) as [w|]; [eauto|]. symmetry in V1. apply app_eq_nil in V1. tauto.
    - destruct (A1 L) as [l E]. eauto. }
  intros k'. rewrite map_app, in_app_iff. cbn. intros [I|[<-|[]]]; [|exact P]. destruct (streq_spec k' k) as [->|D]; [exact P|].
  specialize (C _ I). apply in_keys_assoc in C. apply in_keys_assoc. rewrite O1 by congruence. exact C.
Qed.

(** No list containers either. *)
Record unlisted (c : actx) : Prop := {
  ul_maps : unmapped c;
  ul_lists : forall t d, assoc t (ac_defs c) = Some d -> ~ In CKList (as_slice (nd_container d))
}.
Lemma unlisted_container c k : unlisted c -> c_contains (container_of c k) CKList = false.
Proof.
  intros U. unfold container_of, c_contains. destruct (streq k "@type"); [destruct (ac_type c); reflexivity|].
  unfold get_normal. destruct (assoc k (ac_defs c)) as [d|] eqn:A; [|reflexivity].
  destruct (existsb _ _) eqn:B; [|reflexivity]. apply existsb_exists in B. destruct B as (y & I & Y).
  destruct (ul_lists _ U _ _ A). destruct y; try discriminate. exact I.
Qed.

(** Keys whose values are not in a map, a list or a nested object. *)
Record flat_key (c : actx) (key : string) : Prop := {
  fk_nest : match prop_def c (Some key) with Some d => nd_nest d | None => None end = None;
  fk_container : forall ck, ck = CKLanguage \/ ck = CKIndex \/ ck = CKId \/ ck = CKType \/ ck = CKList -> c_contains (container_of c key) ck = false
}.

Section Kept.
Variables (io : iops) (ld : loader) (rel : string -> string -> string) (pf : nat) (o : copts).
Variable rec : option string -> obj -> actx -> actx -> option string -> result json kerr.
Notation kiri := (kiri rel o).
Notation kiri_with := (kiri_with rel o).
Notation kkey := (kkey rel o).
Notation put := (put rel o).

(** The nodes of a graph. *)
Definition content (c : actx) (key : string) (g : list iobj) (j : json) : Prop :=
  exists js, map_r (fun y => rec (fst y) (snd y) c c (Some key)) g = Ok js /\
    let vs := filter (fun j => negb (is_null j)) js in j = JArr vs \/ vs = [j].
(** What is added for an item. *)
Inductive item_value (c : actx) (key : string) : iobj -> json -> Prop :=
| IvPlain ix x j : is_list x = false -> ~ a_graph x -> rec ix x c c (Some key) = Ok j -> item_value c key (ix, x) j
| IvList ix l js a kl ki m :
    map_r (fun y => rec (fst y) (snd y) c c (Some key)) l = Ok js -> kkey c KList = Ok kl ->
    match ix with Some _ => kkey c KIndex = Ok ki | None => True end ->
    (let vs := filter (fun j => negb (is_null j)) js in a = vs \/ vs = [JArr a]) -> m = insert kl (JArr a) [] ->
    item_value c key (ix, OList l) (JObj (match ix with Some i => insert ki (JStr i) m | None => m end))
| IvGraph ix i g j kg ki s kx m : content c key g j -> kkey c KGraph = Ok kg ->
    match i with Some i => kiri c (TmKw KId) false = Ok (Some ki) /\ kiri c (TmId i) false = Ok (Some s) | None => True end ->
    match ix with Some _ => kkey c KIndex = Ok kx | None => True end ->
    m = insert kg j [] ->
    item_value c key (ix, ONode (MkNode i None (Some g) None [] None))
      (JObj (let m := match i with Some _ => insert ki (JStr s) m | None => m end in
             match ix with Some i => insert kx (JStr i) m | None => m end))
| IvInGraph ix g j : c_contains (container_of c key) CKGraph = true -> content c key g j -> (forall a b l, j <> JArr (a :: b :: l)) ->
    item_value c key (ix, ONode (MkNode None None (Some g) None [] None)) j
| IvInGraphs ix g j ki : c_contains (container_of c key) CKGraph = true -> content c key g j -> (exists a b l, j = JArr (a :: b :: l)) ->
    kkey c KIncluded = Ok ki ->
    item_value c key (ix, ONode (MkNode None None (Some g) None [] None)) (JObj [(ki, j)]).
Definition gives (c : actx) (r : bool) (t : term) (x : iobj) (e : string * list json) : Prop :=
  kiri_with c t x r = Ok (Some (fst e)) /\ exists j, item_value c (fst e) x j /\ snd e = leaves j.

Lemma flat_is_map l c tsc ap :
  flat_r (fun x : iobj => do j <- rec (fst x) (snd x) c tsc ap ; Ok (if is_null j then [] else [j])) l =
  do js <- map_r (fun x : iobj => rec (fst x) (snd x) c tsc ap) l ; Ok (filter (fun j => negb (is_null j)) js).
Proof.
  induction l as [|x l IH]; [reflexivity|]. cbn [flat_r map_r]. destruct (rec (fst x) (snd x) c tsc ap) as [j|]; [|reflexivity]. cbn [bind].
  rewrite IH. destruct (map_r _ l) as [js|]; [|reflexivity]. cbn. destruct (is_null j); reflexivity.
Qed.
Lemma collection_array l c tsc ap j : compact_collection o rec l c tsc ap = Ok j ->
  exists js, map_r (fun x : iobj => rec (fst x) (snd x) c tsc ap) l = Ok js /\
    let vs := filter (fun j => negb (is_null j)) js in j = JArr vs \/ exists v, vs = [v] /\ j = v.
Proof.
  unfold compact_collection. rewrite flat_is_map. destruct (map_r _ l) as [js|]; [|discriminate]. cbn [bind]. intros H. injection H as H.
  exists js. split; [reflexivity|]. cbn. destruct (filter _ js) as [|v [|w vs]]; [left; congruence| |left; congruence].
  destruct (_ || _) in H; [left; congruence|right; eauto].
Qed.
Lemma kiri_with_some c t x r : t <> TmNull -> kiri_with c t x r <> Ok None.
Proof.
  intros NT K. unfold Compact.kiri_with in K. destruct (compact_iri_full rel c (co_mode o) t (Some x) true r) as [[k|]|[]] eqn:E; try discriminate.
  unfold compact_iri_full, compact_body, compact_tail in E. clear - E NT. destruct t as [|i|kw]; [congruence| |].
  all: destruct (match get_by _ _ _ with Some _ => _ | None => _ end) as [[k|]|]; cbn [bind] in E; try discriminate.
  all: destruct (by_vocab _ _); try discriminate. all: destruct (negb _); try discriminate.
  all: destruct (term_as_iri _); try discriminate. all: destruct (is_some (get_value _ _)); discriminate.
Qed.
Lemma kiri_some c i v : kiri c (TmId i) v <> Ok None.
Proof.
  intros K. unfold Compact.kiri in K. destruct (compact_iri rel c (co_mode o) (TmId i) v false) as [[k|]|[]] eqn:E; try discriminate.
  unfold compact_iri, compact_body, compact_tail in E. clear - E.
  match type of E with bind ?r _ = _ => destruct r as [[k|]|] end; cbn [bind] in E; try discriminate.
  destruct (if v then _ else _); try discriminate. destruct (negb _); try discriminate.
  destruct (term_as_iri _); try discriminate. destruct (is_some (get_value _ _)); try discriminate. destruct (if v then _ else _); discriminate.
Qed.
Lemma item_add_at t c r m x m' key : kiri_with c t x r = Ok (Some key) -> flat_key c key -> compact_item rel o rec t c r m x = Ok m' ->
  exists j, item_value c key x j /\ kadd m key j (as_array_for o c key) = Ok m'.
Proof.
  intros K [NE FC] H. unfold compact_item in H. rewrite K in H. cbn [bind] in H.
  assert (WN : forall f, with_nest m c key f = f m) by (intros f; unfold with_nest; destruct (prop_def c (Some key)) as [d|]; [rewrite NE|]; reflexivity). rewrite WN in H. clear WN.
  assert (P : is_list (snd x) = false -> ~ a_graph (snd x) -> compact_plain rel o rec x m (container_of c key) (as_array_for o c key) key c = Ok m' ->
    exists j, item_value c key x j /\ kadd m key j (as_array_for o c key) = Ok m').
  { intros L G P. unfold compact_plain in P. destruct (rec (fst x) (snd x) c c (Some key)) as [j|] eqn:R; cbn [bind] in P; [|discriminate].
    rewrite (FC CKLanguage), (FC CKIndex), (FC CKId), (FC CKType) in P by tauto.
    rewrite !andb_false_r in P. exists j. split; [|exact P]. destruct x as [ix x]. constructor; assumption. }
  destruct x as [ix x]. cbn [snd fst] in *. destruct x as [v|n|l].
  - apply P; [reflexivity|intros (? & ? & X); discriminate X|exact H].
  - destruct (is_graph n) eqn:G; [|apply P; [reflexivity|apply not_graph_spec; exact G|exact H]].
    apply (a_graph_spec (ONode n)) in G. destruct G as (i & g & E). injection E as ->. cbn [n_graph] in H.
    unfold compact_property_graph in H. destruct (compact_collection o rec g c c (Some key)) as [j|] eqn:CC; cbn [bind] in H; [|discriminate].
    assert (CN : content c key g j).
    { apply collection_array in CC. destruct CC as (js & M & J). exists js. split; [exact M|]. destruct J as [->|(v & E & ->)]; auto. }
    rewrite (FC CKId), (FC CKIndex) in H by tauto. rewrite !andb_false_r in H. cbn [andb] in H.
    destruct (c_contains (container_of c key) CKGraph && is_simple _) eqn:SG.
    + apply andb_true_iff in SG. destruct SG as [SG SI]. destruct i as [i|]; [discriminate SI|].
      match type of H with bind ?r _ = _ => destruct r as [j'|] eqn:E end; cbn [bind] in H; [|discriminate].
      exists j'. split; [|exact H].
      destruct j as [| | | |[|a [|b l]]|]; try (injection E as <-; apply IvInGraph; try assumption; intros; discriminate).
      unfold put in E. destruct (kkey c KIncluded) as [ki|] eqn:KI; cbn [bind] in E; [|discriminate]. injection E as <-. apply IvInGraphs; eauto.
    + unfold put in H. destruct (kkey c KGraph) as [kg|] eqn:KG; cbn [bind] in H; [|discriminate].
      match type of H with bind ?r _ = _ => destruct r as [x2|] eqn:E2 end; cbn [bind] in H; [|discriminate].
      match type of H with bind ?r _ = _ => destruct r as [x3|] eqn:E3 end; cbn [bind] in H; [|discriminate].
      exists (JObj x3). split; [|exact H]. cbn [n_id] in E2.
      assert (E2' : exists ki s, match i with Some i => kiri c (TmKw KId) false = Ok (Some ki) /\ kiri c (TmId i) false = Ok (Some s) | None => True end /\
        x2 = match i with Some _ => insert ki (JStr s) (insert kg j []) | None => insert kg j [] end).
      { destruct i as [i|]; [|exists "", ""; split; [exact I|congruence]]. destruct (kiri c (TmKw KId) false) as [[ki|]|] eqn:KI; cbn [kunwrap bind] in E2; try discriminate.
        destruct (kiri c (TmId i) false) as [[s|]|] eqn:KS; cbn [bind opt_string] in E2; try discriminate.
        - injection E2 as <-. exists ki, s. auto.
        - exfalso. exact (kiri_some _ _ _ KS). }
      destruct E2' as (ki & s & C1 & ->).
      destruct ix as [x|].
      * destruct (kkey c KIndex) as [kx|] eqn:KX; cbn [bind] in E3; [|discriminate]. injection E3 as <-.
        apply (IvGraph c key (Some x) i g j kg ki s kx _ CN KG C1 KX eq_refl).
      * injection E3 as <-. apply (IvGraph c key None i g j kg ki s "" _ CN KG C1 I eq_refl).
  - unfold compact_property_list in H. destruct (compact_collection o rec l c c (Some key)) as [j|] eqn:CC; cbn [bind] in H; [|discriminate].
    rewrite (FC CKList) in H by tauto. cbn [negb] in H. apply collection_array in CC. destruct CC as (js & M & J). cbn zeta in J.
    unfold put at 1 in H. destruct (kkey c KList) as [kl|] eqn:KL; cbn [bind] in H; [|discriminate].
    assert (EJ : exists a, match j with JArr _ => j | _ => JArr [j] end = JArr a /\ (a = filter (fun j => negb (is_null j)) js \/ filter (fun j => negb (is_null j)) js = [JArr a])).
    { destruct J as [->|(v & E & ->)]; [eauto|]. rewrite E. destruct v as [| | | |a|]; eauto. }
    destruct EJ as (a & EJ & A). rewrite EJ in H.
    destruct ix as [i|].
    + unfold put in H. destruct (kkey c KIndex) as [ki|] eqn:KI; cbn [bind] in H; [|discriminate].
      eexists. split; [|exact H]. exact (IvList c key (Some i) l js a kl ki _ M KL KI A eq_refl).
    + cbn [bind] in H. eexists. split; [|exact H]. exact (IvList c key None l js a kl "" _ M KL I A eq_refl).
Qed.
Lemma unlisted_flat c key : unlisted c -> flat_key c key.
Proof.
  intros U. split.
  - destruct (prop_def c (Some key)) as [d|] eqn:D; [|reflexivity]. unfold prop_def in D. destruct (streq key "@type"); [discriminate|]. exact (um_nest _ (ul_maps _ U) _ _ D).
  - intros ck [->|[->|[->|[->| ->]]]]; (apply unlisted_container, U) || (apply unmapped_container; [exact (ul_maps _ U)|tauto]).
Qed.
Lemma item_add t c r m x m' : unlisted c -> compact_item rel o rec t c r m x = Ok m' -> t <> TmNull ->
  exists key j, kiri_with c t x r = Ok (Some key) /\ item_value c key x j /\ kadd m key j (as_array_for o c key) = Ok m'.
Proof.
  intros U H NT. destruct (kiri_with c t x r) as [[key|]|] eqn:K.
  - destruct (item_add_at _ _ _ _ _ _ _ K (unlisted_flat c key U) H) as (j & V & A). exists key, j. auto.
  - destruct (kiri_with_some _ _ _ _ NT K).
  - unfold compact_item in H. rewrite K in H. discriminate.
Qed.
Lemma gives_built t c r l : unlisted c -> t <> TmNull -> forall m m' cs, built m cs -> fold_r (compact_item rel o rec t c r) m l = Ok m' ->
  exists cs', Forall2 (gives c r t) l cs' /\ built m' (cs ++ cs') /\
    (complete m cs -> Forall (fun e => snd e <> []) cs' -> complete m' (cs ++ cs')).
Proof.
  intros U NT. induction l as [|x l IH]; intros m m' cs B H; cbn [fold_r] in H.
  - injection H as <-. exists []. rewrite app_nil_r. auto.
  - destruct (compact_item rel o rec t c r m x) as [m1|] eqn:E; [|discriminate].
    destruct (item_add _ _ _ _ _ _ U E NT) as (key & j & K & V & A).
    destruct (IH m1 m' (cs ++ [(key, leaves j)]) (built_add _ _ _ _ _ _ B A) H) as (cs' & F & B' & C').
    rewrite <- app_assoc in B', C'. exists ((key, leaves j) :: cs'). split; [|split].
    + constructor; [|exact F]. split; [exact K|]. exists j. auto.
    + exact B'.
    + intros C FA. inversion FA; subst. apply C'; [|assumption]. eapply complete_add; [exact (bt_once _ _ B)|exact C|exact A|]. left. assumption.
Qed.
(** The contributions of a property. *)
Definition given_by (c : actx) (r : bool) (t : term) (l : list iobj) (cs : list (string * list json)) : Prop :=
  match l with
  | [] => exists k, kiri_with c t (None, ONode (node_new None)) r = Ok (Some k) /\ cs = [(k, [])]
  | _ => Forall2 (gives c r t) l cs
  end.
Lemma property_built t c r l m m' cs : unlisted c -> t <> TmNull -> built m cs -> compact_property rel o rec t l c r m = Ok m' ->
  exists cs', given_by c r t l cs' /\ built m' (cs ++ cs') /\
    (complete m cs -> Forall (fun e => l <> [] -> snd e <> []) cs' -> complete m' (cs ++ cs')).
Proof.
  intros U NT B H. unfold compact_property in H. destruct l as [|x l].
  - destruct (kiri_with c t (None, ONode (node_new None)) r) as [[k|]|] eqn:K; cbn [bind] in H; try discriminate.
    2:{ destruct (kiri_with_some _ _ _ _ NT K). }
    rewrite (unmapped_with_nest _ _ _ _ (ul_maps _ U)) in H. exists [(k, [])]. split; [exists k; auto|]. split; [exact (built_add _ _ _ _ _ _ B H)|].
    intros C _. exact (complete_add _ _ _ _ _ _ (bt_once _ _ B) C H (or_intror eq_refl)).
  - destruct (gives_built t c r (x :: l) U NT m m' cs B H) as (cs' & F & B' & C'). exists cs'. split; [exact F|]. split; [exact B'|].
    intros C FA. apply C'; [exact C|]. eapply Forall_impl; [|exact FA]. intros e X. apply X. discriminate.
Qed.
(** The contributions of several properties. *)
Lemma properties_built c r ps : unlisted c -> forall m m' cs, built m cs ->
  fold_r (fun m (e : id * list iobj) => compact_property rel o rec (TmId (fst e)) (snd e) c r m) m ps = Ok m' ->
  exists css, Forall2 (fun e cs => given_by c r (TmId (fst e)) (snd e) cs) ps css /\ built m' (cs ++ concat css) /\
    (complete m cs -> Forall2 (fun (e : id * list iobj) cs => Forall (fun x => snd e <> [] -> snd x <> []) cs) ps css -> complete m' (cs ++ concat css)).
Proof.
  intros U. induction ps as [|e ps IH]; intros m m' cs B H; cbn [fold_r] in H.
  - injection H as <-. exists []. cbn. rewrite app_nil_r. auto.
  - destruct (compact_property rel o rec (TmId (fst e)) (snd e) c r m) as [m1|] eqn:E; [|discriminate].
    destruct (property_built (TmId (fst e)) c r (snd e) m m1 cs U ltac:(discriminate) B E) as (cs1 & G & B1 & C1).
    destruct (IH m1 m' (cs ++ cs1) B1 H) as (css & F & B' & C'). rewrite <- app_assoc in B', C'. exists (cs1 :: css). split; [|split].
    + constructor; assumption.
    + exact B'.
    + intros C FA. inversion FA; subst. apply C'; [apply C1; assumption|assumption].
Qed.
End Kept.

(** Every object is built from its own entries. *)
Definition own (m : jobject) : list (string * list json) := map (fun e => (fst e, match snd e with JArr l => l | v => [v] end)) m.
Lemma own_built m : NoDup (keys m) -> built m (own m).
Proof.
  intros N. split; [exact N| |].
  - intros k. unfold values_of, own. induction m as [|[k' v] m IH]; [reflexivity|]. unfold keys in N. cbn [map fst] in N. inversion N as [|? ? NI N']; subst.
    cbn [assoc map fst snd]. unfold under. cbn [flat_map fst snd]. destruct (streq_spec k k') as [<-|D].
    + assert (E : flat_map (fun e : string * list json => if streq (fst e) k then snd e else [])
        (map (fun e : string * json => (fst e, match snd e with JArr l => l | v => [v] end)) m) = []).
      { apply under_notin. rewrite map_map. exact NI. }
      rewrite streq_refl, E, app_nil_r. destruct v; reflexivity.
    + destruct (streq_spec k' k) as [->|_]; [congruence|]. apply IH. exact N'.
  - intros k. unfold own. rewrite map_map. auto.
Qed.

Section Nodes.
Variables (io : iops) (ld : loader) (rel : string -> string -> string) (pf : nat) (o : copts).
Variable rec : option string -> obj -> actx -> actx -> option string -> result json kerr.
Variable c0 : actx.
Hypothesis UL : forall c, derived io ld pf c0 c -> unlisted c.
Hypothesis HR : forall ix x c tsc ap, derived io ld pf c0 c -> derived io ld pf c0 tsc -> safe any (rec ix x c tsc ap).

Lemma reverse_once rs c m1 c1 m2 : derived io ld pf c0 c -> once m1 -> 
  (match rs with
   | [] => Ok (c, m1)
   | e0 :: rs0 => do c <- scoped io ld pf o c c (Some "@reverse") ;
       do r <- fold_r (fun r (e : id * list inode) => compact_property rel o rec (TmId (fst e)) (map (fun x : inode => (fst x, ONode (snd x))) (snd e)) c true r) [] (e0 :: rs0) ;
       do (m, r) <- fold_r (reverse_step o c) (m1, []) r ;
       do m <- (match r with [] => Ok m | _ => put rel o c KReverse (JObj r) m end) ;
       Ok (c, m)
   end) = Ok (c1, m2) -> derived io ld pf c0 c1 /\ once m2.
Proof.
  intros C S1. destruct rs as [|r rs]; [intros X; injection X as <- <-; auto|].
  pose proof (scoped_safe io ld pf o c0 c c (Some "@reverse") C C) as Sc. destruct (scoped io ld pf o c c (Some "@reverse")) as [cr|]; cbn [bind safe] in *; [|discriminate].
  match goal with |- bind ?r _ = _ -> _ => destruct r as [rr|] end; cbn [bind]; [|discriminate].
  assert (Sf : safe (fun s => once (fst s)) (fold_r (reverse_step o cr) (m1, []) rr)).
  { apply (safe_fold (fun s => once (fst s))); [|exact S1]. intros [a b] [k v] _ Na. unfold reverse_step.
    destruct (match prop_def cr (Some k) with Some _ => _ | None => _ end); [|exact Na].
    apply (safe_bind once); [apply kadd_safe, Na|]. intros m' N'. exact N'. }
  destruct (fold_r (reverse_step o cr) (m1, []) rr) as [[ma rb]|]; cbn [bind safe fst] in *; [|discriminate].
  assert (Sp : safe once (match rb with [] => Ok ma | _ => put rel o cr KReverse (JObj rb) ma end)) by (destruct rb; [exact Sf|apply put_safe, Sf]).
  match goal with |- bind ?r _ = _ -> _ => destruct r as [mb|] end; cbn [bind safe] in *; [|discriminate]. intros X. injection X as <- <-. auto.
Qed.
Lemma body_kept n ix c tsc ap m0 j : derived io ld pf c0 c -> derived io ld pf c0 tsc -> NoDup (keys m0) ->
  compact_node_body io ld rel pf o rec n ix c tsc ap m0 = Ok j ->
  exists c' m before css after, derived io ld pf c0 c' /\ j = JObj m /\
    Forall2 (fun e cs => given_by rel o rec c' false (TmId (fst e)) (snd e) cs)
      (if co_ordered o then sort_key (fun e : id * list iobj => id_str (fst e)) (n_props n) else n_props n) css /\
    built m (before ++ concat css ++ after).
Proof.
  intros C T N H. unfold compact_node_body in H.
  assert (UM : forall c, derived io ld pf c0 c -> unmapped c) by (intros c1 D; exact (ul_maps _ (UL _ D))).
  pose proof (types_safe rel o tsc c (n_types n) m0 N) as S1. destruct (compact_types rel o tsc c (n_types n) m0) as [m1|]; cbn [bind safe] in *; [|discriminate].
  match type of H with bind ?r _ = _ => destruct r as [[c1 m2]|] eqn:E2 end; cbn [bind] in H; [|discriminate].
  destruct (reverse_once _ _ _ _ _ C S1 E2) as [C1 N2]. clear E2.
  pose proof (index_safe rel o c1 ap ix m2 N2) as S3. match type of H with bind ?r _ = _ => destruct r as [m3|] end; cbn [bind safe] in *; [|discriminate].
  assert (S4 : safe once (match n_graph n with Some g => compact_property rel o rec (TmKw KGraph) g c1 false m3 | None => Ok m3 end)).
  { destruct (n_graph n); [|exact S3]. apply (property_safe io ld rel pf o c0 UM rec HR); assumption. }
  destruct (match n_graph n with Some _ => _ | None => _ end) as [m4|]; cbn [bind safe] in *; [|discriminate].
  match type of H with bind ?r _ = _ => destruct r as [m5|] eqn:E5 end; cbn [bind] in H; [|discriminate].
  destruct (properties_built rel o rec c1 false _ (UL _ C1) m4 m5 (own m4) (own_built _ S4) E5) as (css & F & B & _).
  exists c1.
  destruct (n_included n) as [inc|]; cbn [bind] in H.
  - match type of H with bind ?r _ = _ => destruct r as [m6|] eqn:E6 end; cbn [bind] in H; [|discriminate]. injection H as <-.
    destruct (property_built rel o rec (TmKw KIncluded) c1 false _ m5 m6 _ (UL _ C1) ltac:(discriminate) B E6) as (cs6 & _ & B6 & _).
    exists m6, (own m4), css, cs6. rewrite <- app_assoc in B6. auto.
  - injection H as <-. exists m5, (own m4), css, []. rewrite app_nil_r. auto.
Qed.
Lemma node_kept n ix c tsc ap m : derived io ld pf c0 c -> derived io ld pf c0 tsc ->
  compact_node io ld rel pf o rec n ix c tsc ap = Ok (JObj m) ->
  exists c' before css after, derived io ld pf c0 c' /\
    Forall2 (fun e cs => given_by rel o rec c' false (TmId (fst e)) (snd e) cs)
      (if co_ordered o then sort_key (fun e : id * list iobj => id_str (fst e)) (n_props n) else n_props n) css /\
    built m (before ++ concat css ++ after).
Proof.
  intros C T H. unfold compact_node in H.
  set (c1 := if n_empty n && is_some (n_id n) then c else match ac_prev c with Some p => p | None => c end) in H.
  assert (C1 : derived io ld pf c0 c1).
  { unfold c1. destruct (_ && _); [exact C|]. destruct (ac_prev c) eqn:P; [exact (DvPrevious _ _ _ _ _ _ C P)|exact C]. }
  pose proof (scoped_safe io ld pf o c0 tsc c1 ap T C1) as S1. destruct (scoped io ld pf o tsc c1 ap) as [c2|]; cbn [bind safe] in *; [|discriminate].
  pose proof (types_context_safe io ld rel pf o c0 tsc n c2 T S1) as S2.
  destruct (compact_types_context io ld rel pf o tsc n c2) as [c3|]; cbn [bind safe] in *; [|discriminate].
  unfold compact_node_in in H.
  assert (B : forall m0, NoDup (keys m0) -> compact_node_body io ld rel pf o rec n ix c3 tsc ap m0 = Ok (JObj m) ->
    exists c' before css after, derived io ld pf c0 c' /\
    Forall2 (fun e cs => given_by rel o rec c' false (TmId (fst e)) (snd e) cs)
      (if co_ordered o then sort_key (fun e : id * list iobj => id_str (fst e)) (n_props n) else n_props n) css /\
    built m (before ++ concat css ++ after)).
  { intros m0 N E. destruct (body_kept _ _ _ _ _ _ _ S2 T N E) as (c' & m' & b & css & a & D & J & F & Bt). injection J as ->. eauto 10. }
  destruct (n_id n) as [i|]; [|exact (B _ nil_once H)].
  assert (X : forall s alias, compact_node_body io ld rel pf o rec n ix c3 tsc ap (match alias with Some k => insert k s [] | None => [] end) = Ok (JObj m) ->
    exists c' before css after, derived io ld pf c0 c' /\
    Forall2 (fun e cs => given_by rel o rec c' false (TmId (fst e)) (snd e) cs)
      (if co_ordered o then sort_key (fun e : id * list iobj => id_str (fst e)) (n_props n) else n_props n) css /\
    built m (before ++ concat css ++ after)).
  { intros s alias. apply B. destruct alias; [apply insert_once|]; apply nil_once. }
  assert (Y : forall v (f : json -> json), (do s <- kiri rel o c3 (TmId i) v ; Ok (opt_string s)) = Ok (JObj m) -> False).
  { intros v f E. destruct (kiri rel o c3 (TmId i) v) as [[s|]|]; discriminate. }
  assert (Z : (do s <- kiri rel o c3 (TmId i) false ; do alias <- kiri rel o c3 (TmKw KId) true ;
     compact_node_body io ld rel pf o rec n ix c3 tsc ap (match alias with Some k => insert k (opt_string s) [] | None => [] end)) = Ok (JObj m) ->
    exists c' before css after, derived io ld pf c0 c' /\
    Forall2 (fun e cs => given_by rel o rec c' false (TmId (fst e)) (snd e) cs)
      (if co_ordered o then sort_key (fun e : id * list iobj => id_str (fst e)) (n_props n) else n_props n) css /\
    built m (before ++ concat css ++ after)).
  { intros E. destruct (kiri rel o c3 (TmId i) false) as [s|]; cbn [bind] in E; [|discriminate].
    destruct (kiri rel o c3 (TmKw KId) true) as [al|]; cbn [bind] in E; [|discriminate]. exact (X _ _ E). }
  destruct (if n_empty n then _ else _) as [[]|]; try exact (Z H); destruct (Y _ (fun x => x) H).
Qed.
End Nodes.

Lemma sort_key_in {A} (key : A -> string) y l : In y (sort_key key l) <-> In y l.
Proof.
  assert (S : forall x l, In y (insert_sorted key x l) <-> y = x \/ In y l).
  { intros x. induction l0 as [|z l0 IH]; [cbn; intuition congruence|]. cbn [insert_sorted]. destruct (String.compare _ _); cbn [In]; try rewrite IH; intuition. }
  induction l as [|x l IH]; [reflexivity|]. cbn [sort_key fold_right In]. rewrite S. fold (sort_key key l). rewrite IH. intuition.
Qed.
Lemma Forall2_in_l {A B} (R : A -> B -> Prop) l l' x : Forall2 R l l' -> In x l -> exists y, In y l' /\ R x y.
Proof.
  induction 1 as [|a b l l' H F IH]; [intros []|]. intros [<-|I]; [exists b; split; [left; reflexivity|exact H]|].
  destruct (IH I) as (y & Iy & Ry). exists y. split; [right; exact Iy|exact Ry].
Qed.

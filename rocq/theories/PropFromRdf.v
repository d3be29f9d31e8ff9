(** Properties of building a document from RDF quads. *)
From Verif Require Import Prelude Json Enums LangTag LangString Str Keyword Container ContextSyntax Ctx Object ObjectJson Relabel Rdf RdfProofs RdfSpec PropRdf FromRdf FromRdfProofs FromRdfRender.
From Coq Require Import NArith Lia Arith.

(** ** C34 *)
(** The literals whose lexical form is the one their value is printed with. *)
Definition canonical (io : ser_io) (rio : rdf_io) (s : string) (t : ltype) : Prop :=
  match t with
  | TLang l => wf_lang rio l = true
  | TAny u => (u = rdf "JSON" -> exists j, json_parse io s = Some j /\ json_print rio j = s) /\
      (u = xsd "boolean" -> s = "true" \/ s = "false") /\
      (u = xsd "integer" -> is_number io s = true /\ is_i64 rio s = true) /\
      (u = xsd "double" -> is_number io s = true /\ double_print rio s = s)
  end.
(** Going up from a resource that is the object of a single statement to the subject of that
    statement, and so on, ends; no step goes through [rdf:type]. *)
Inductive rooted (T : list triple) : rval -> Prop :=
| RtRoot r : (forall s p, ~ once_by T r s p) -> rooted T r
| RtUp r s p : once_by T r s p -> p <> r_type -> rooted T (RId s) -> rooted T r.
(** The statements that are kept. *)
Definition survives (qs : list quad) (q : quad) : Prop :=
  match q with
  | (s, p, o, a) => In (s, p, o, a) qs /\ rooted (triples_of a qs) (RId s) /\ (forall b, a = Some b -> rooted (triples_of None qs) (RId b)) /\
      (p = r_type -> exists v, o = RId v)
  end.
(** From some fuel on, the result is [d]. *)
Definition builds (io : ser_io) (fin rnd : list word -> N) (qs : list quad) (d : list iobj) : Prop := ev (fun n => from_quads io fin rnd n qs) d.

Lemma canonical_kept io rio gen dir s t : canonical io rio s t -> kept_literal io rio gen dir s t.
Proof.
  destruct t as [u|l]; cbn [canonical].
  - intros (C1 & C2 & C3 & C4). unfold kept_literal, literal_value. destruct (streq_spec u (rdf "JSON")) as [->|N1].
    { destruct (C1 eq_refl) as (j & E & P). rewrite E. exists (VJson j). split; [reflexivity|]. intros k. cbn [value_rdf]. rewrite P. reflexivity. }
    destruct (streq_spec u (xsd "boolean")) as [->|N2].
    { destruct (C2 eq_refl) as [->| ->]; [exists (VLit (LBool true) (Some (xsd "boolean")))|exists (VLit (LBool false) (Some (xsd "boolean")))]; split; reflexivity. }
    destruct (streq_spec u (xsd "integer")) as [->|N3].
    { destruct (C3 eq_refl) as [E1 E2]. rewrite E1. exists (VLit (LNum s) (Some (xsd "integer"))). split; [reflexivity|]. intros k. cbn [value_rdf]. rewrite E2. reflexivity. }
    destruct (streq_spec u (xsd "double")) as [->|N4].
    { destruct (C4 eq_refl) as [E1 E2]. rewrite E1. exists (VLit (LNum s) (Some (xsd "double"))). split; [reflexivity|]. intros k. cbn [value_rdf]. rewrite streq_refl, andb_false_r, E2. reflexivity. }
    cbn [orb]. destruct (streq_spec u (xsd "string")) as [->|N5]; [exists (VLit (LStr s) None)|exists (VLit (LStr s) (Some u))]; split; reflexivity.
  - intros W. exists (VLang (MkLS s (Some l) None)). split; [reflexivity|]. intros k. cbn [value_rdf ls_language ls_direction ls_data]. rewrite W. reflexivity.
Qed.
Lemma anchored_rooted T x : anchored T x <-> rooted T x.
Proof.
  split.
  - induction 1 as [x N|x y (s & p & -> & O & Np) A IH]; [apply RtRoot; intros s p O; apply N; exists s, p; exact O|eapply RtUp; eassumption].
  - induction 1 as [r N|r s p O Np A IH]; [apply AnRoot; intros (s & p & O); apply (N s p O)|]. eapply AnChild; [|exact IH]. exists s, p. auto.
Qed.

(** The statements read back are exactly those that are not lost; nothing else is said. *)
Theorem C34_exactly_partial : forall io fin rnd rio gen dir generalized qs,
  (forall s p x t a, In (s, p, RLit x t, a) qs -> p <> r_type -> canonical io rio x t) ->
  (forall s p o a, In (s, p, o, a) qs -> allowed generalized p) ->
  first_last qs ->
  exists d, builds io fin rnd qs d /\
  (exists qs', emits rio gen dir generalized (doc_frames d) qs') /\
  forall qs', emits rio gen dir generalized (doc_frames d) qs' -> forall Q, In Q qs' <-> survives qs Q.
Proof.
  intros io fin rnd rio gen dir generalized qs Hl Ha Hfl. set (terms := ss_terms (load qs)).
  assert (Hal : forall s p o a, In (s, p, o, a) qs -> allowed_b generalized p).
  { intros s p o a I. destruct (Ha _ _ _ _ I) as [E|[u ->]]; [left; exact E|right; reflexivity]. }
  assert (Ht1 : forall a, (exists s o, In (s, r_type, o) (triples_of a qs) /\ rdf_type_of o = None) -> tm_list terms = Some (RId (VIri (rdf "List")))).
  { intros a (s & o & I & E). apply load_list. apply triples_of_in in I. eauto. }
  assert (Ht2 : forall a, (exists s o, In (s, r_first, o) (triples_of a qs)) -> tm_first terms = Some (RId r_first)).
  { intros a (s & o & I). apply load_first; [exact Hfl|]. apply triples_of_in in I. eauto. }
  assert (Ht3 : forall a, (exists s o, In (s, r_rest, o) (triples_of a qs)) -> tm_rest terms = Some (RId r_rest)).
  { intros a (s & o & I). apply load_rest. apply triples_of_in in I. eauto. }
  assert (Hlt : forall a s p x t, In (s, p, RLit x t) (triples_of a qs) -> p <> r_type -> kept_literal io rio gen dir x t).
  { intros a s p x t I Np. apply canonical_kept. apply triples_of_in in I. eapply Hl; eassumption. }
  assert (Hpt : forall a s p o, In (s, p, o) (triples_of a qs) -> allowed_b generalized p).
  { intros a s p o I. apply triples_of_in in I. eapply Hal, I. }
  assert (Named : forall a, exists l, ev (fun n => map_r (fun e => render_object io fin rnd terms n (run (triples_of (Some a) qs)) (fst e) (snd e)) (roots (run (triples_of (Some a) qs)))) l /\
    tells rio gen dir generalized (flat_map (fun y => ld_ob (Some (id_of_vid a)) (snd y)) (collect_o fin rnd l))
      (fun Q => exists x, anchored (triples_of (Some a) qs) x /\ own (triples_of (Some a) qs) (Some a) (fun _ _ => False) x Q)).
  { intros a. apply (graph_spec io fin rnd terms rio gen dir generalized (run (triples_of (Some a) qs)) (triples_of (Some a) qs) (Some a) (fun _ _ => False)); eauto.
    - apply run_nodup.
    - intros k r E. apply run_spec, E.
    - intros s p o I. eapply run_has, I.
    - intros k Q [].
    - intros k r E. destruct (run_spec _ _ _ E) as [_ Gn]. rewrite Gn. intros Q []. }
  set (inner := fun (k : rval) (Q : quad) => exists a, k = RId a /\ names_graph qs k /\ exists x, anchored (triples_of (Some a) qs) x /\ own (triples_of (Some a) qs) (Some a) (fun _ _ => False) x Q).
  destruct (graph_spec io fin rnd terms rio gen dir generalized (all_of qs) (triples_of None qs) None inner) as (l & El & Tl); eauto.
  - apply all_of_nodup.
  - intros k r E. apply all_of_spec, E.
  - intros s p o I. apply all_of_has. left. apply triples_of_in in I. eauto.
  - intros k Q (a & _ & Ng & _). apply all_of_has. right. exact Ng.
  - intros k r E. destruct (all_of_spec _ _ _ E) as [_ Gs]. destruct (sr_graph r) as [g'|] eqn:Eg.
    + destruct (proj1 (Gs g') eq_refl) as (a & -> & -> & Ng). split; [eauto|]. destruct (Named a) as (l & El & [T1 T2]). exists l. split; [exact El|]. split.
      * intros q Iq. destruct (T1 q Iq) as (Q & K & R). exists Q. split; [|exact R]. exists a. auto.
      * intros Q (a' & [= <-] & _ & K). apply T2, K.
    + intros Q (a & -> & Ng & _). assert (X : None = Some (run (triples_of (Some a) qs))); [|discriminate]. apply Gs. eauto.
  - exists (collect_o fin rnd l). split; [|split].
    + destruct El as [N El]. exists N. intros n Ln. rewrite from_quads_eq. fold (roots (all_of qs)). fold terms. rewrite El by exact Ln. reflexivity.
    + destruct (rdf_quads_are rio gen dir generalized (doc_frames (collect_o fin rnd l))) as [N H]. eexists. exists N. apply H. lia.
    + intros qs' [n Em] Q. rewrite (rdf_quads_spec _ _ _ _ _ _ _ Em). unfold frames_out, doc_frames. cbn [flat_map fr_out]. rewrite app_nil_r.
      rewrite (tells_conv rio gen dir generalized _ _ Tl). destruct Q as [[[s p] o] a]. cbn [survives]. split.
      * intros (x & A & [(s' & p' & o' & -> & I & Hty & [= -> -> -> ->])|(b & -> & Ng & y & A' & [(s' & p' & o' & -> & I & Hty & [= -> -> -> ->])|[]])]).
        -- split; [apply triples_of_in, I|]. split; [apply anchored_rooted, A|]. split; [discriminate|exact Hty].
        -- split; [apply triples_of_in, I|]. split; [apply anchored_rooted, A'|]. split; [|exact Hty]. intros b' [= <-]. apply anchored_rooted, A.
      * intros (I & R & Rb & Hty). destruct a as [b|].
        -- exists (RId b). split; [apply anchored_rooted, Rb; reflexivity|]. right. exists b. split; [reflexivity|]. split; [exists b, (s, p, o); auto|].
           exists (RId s). split; [apply anchored_rooted, R|]. left. exists s, p, o. split; [reflexivity|]. split; [apply triples_of_in, I|]. auto.
        -- exists (RId s). split; [apply anchored_rooted, R|]. left. exists s, p, o. split; [reflexivity|]. split; [apply triples_of_in, I|]. auto.
Qed.
Print Assumptions C34_exactly_partial.

(** Hence a dataset is rebuilt when nothing in it is lost: every subject and every graph name is
    rooted, and types are not literals. *)
Theorem C34_partial : forall io fin rnd rio gen dir generalized qs,
  (forall s p x t a, In (s, p, RLit x t, a) qs -> p <> r_type /\ canonical io rio x t) ->
  (forall s p o a, In (s, p, o, a) qs -> allowed generalized p) ->
  first_last qs ->
  (forall s p o a, In (s, p, o, a) qs -> rooted (triples_of a qs) (RId s) /\ forall b, a = Some b -> rooted (triples_of None qs) (RId b)) ->
  exists d, builds io fin rnd qs d /\
  (exists qs', emits rio gen dir generalized (doc_frames d) qs') /\
  forall qs', emits rio gen dir generalized (doc_frames d) qs' -> forall Q, In Q qs' <-> In Q qs.
Proof.
  intros io fin rnd rio gen dir generalized qs Hl Ha Hfl Hr.
  destruct (C34_exactly_partial io fin rnd rio gen dir generalized qs) as (d & B & Ex & H); [intros; eapply Hl; eassumption|exact Ha|exact Hfl|].
  exists d. split; [exact B|]. split; [exact Ex|]. intros qs' Em Q. rewrite (H qs' Em). destruct Q as [[[s p] o] a]. cbn [survives]. split; [intros (I & _); exact I|].
  intros I. destruct (Hr _ _ _ _ I) as [R Rb]. split; [exact I|]. split; [exact R|]. split; [exact Rb|]. intros ->. destruct o as [v|x t]; [eauto|]. destruct (Hl _ _ _ _ _ I) as [Np _]. congruence.
Qed.
Print Assumptions C34_partial.

(** Lists are never rebuilt. *)
Inductive listless : obj -> Prop :=
| LlVal v : listless (OVal v)
| LlNode n : (forall p l y, In (p, l) (n_props n) -> In y l -> listless (snd y)) -> (forall y, In y (opt_list (n_graph n)) -> listless (snd y)) ->
    n_included n = None -> n_reverse n = None -> listless (ONode n).
Ltac step E x Ex := match type of E with bind ?t _ = _ => destruct t as [x|] eqn:Ex; [cbn [bind] in E|discriminate E] end.
Section Listless.
  Variables (io : ser_io) (fin rnd : list word -> N) (terms : rdf_terms) (okg : sgraph -> Prop).
  Hypothesis Hok : forall g k r, okg g -> In (k, r) g -> sr_values r = None /\ forall g', sr_graph r = Some g' -> okg g'.
  Lemma reference_listless x y : render_reference io x = Ok y -> listless (snd y).
  Proof.
    destruct x as [v|s t]; cbn.
    - intros [= <-]. apply LlNode; try reflexivity; intros; contradiction.
    - destruct (literal_value io s t); [|discriminate]. intros [= <-]. constructor.
  Qed.
  Lemma collect_in l y : In y (collect_o fin rnd l) -> In y l.
  Proof.
    unfold collect_o. assert (H : forall acc, In y (fold_left (set_insert (fun x => rnd (iobj_words fin x)) (iobj_eqb fin rnd)) l acc) -> In y acc \/ In y l); [|intros I; destruct (H [] I) as [[]|K]; exact K].
    induction l as [|x l IH]; intros acc I; [auto|]. cbn [fold_left] in I. destruct (IH _ I) as [K|K]; [|cbn; auto].
    unfold set_insert in K. destruct (existsb _ acc); [auto|]. apply in_app_or in K. destruct K as [K|[<-|[]]]; cbn; auto.
  Qed.
  Lemma map_r_forall {X} (f : X -> result iobj ser_err) (P : iobj -> Prop) l ys : map_r f l = Ok ys -> (forall x y, In x l -> f x = Ok y -> P y) -> forall y, In y ys -> P y.
  Proof.
    revert ys. induction l as [|x l IH]; intros ys E H y I; cbn [map_r] in E; [injection E as <-; destruct I|].
    destruct (f x) as [z|] eqn:Ez; [|discriminate]. cbn [bind] in E. destruct (map_r f l) as [zs|] eqn:Ezs; [|discriminate]. cbn [bind] in E. injection E as <-.
    destruct I as [<-|I]; [eapply H; [left; reflexivity|exact Ez]|]. eapply IH; [reflexivity| |exact I]. intros a b Ia. apply H. right. exact Ia.
  Qed.
  Lemma fold_err {X Y Er} (f : Y -> X -> result Y Er) l e : fold_left (fun acc x => do a <- acc ; f a x) l (Err e) = Err e.
  Proof. induction l; [reflexivity|]. cbn. assumption. Qed.
  Lemma fold_inv {X Y Er} (f : Y -> X -> result Y Er) (P : Y -> Prop) l : (forall a x b, In x l -> P a -> f a x = Ok b -> P b) -> forall a b, P a -> fold_left (fun acc x => do a <- acc ; f a x) l (Ok a) = Ok b -> P b.
  Proof.
    induction l as [|x l IH]; intros H a b Pa E; cbn [fold_left bind] in E; [injection E as <-; exact Pa|].
    destruct (f a x) as [c|e] eqn:Ec; [|rewrite fold_err in E; discriminate]. eapply IH; [|eapply H; [left; reflexivity|exact Pa|exact Ec]|exact E]. intros a' x' b' I. apply H. right. exact I.
  Qed.
  Definition ps_ok (ps : list (id * list iobj)) : Prop := forall q y, pin ps q y -> listless (snd y).
  Lemma render_listless fuel : forall g x r y, okg g -> In (x, r) g -> render_object io fin rnd terms fuel g x r = Ok y -> listless (snd y).
  Proof.
    induction fuel as [|n IH]; intros g x r y O I E; [discriminate|]. rewrite render_S in E.
    destruct (sr_is_empty r); [eapply reference_listless, E|]. destruct (Hok g x r O I) as [V G]. rewrite V in E.
    step E ts Ets. cbv zeta in E. step E gr Eg.
    assert (Hgr : forall y, In y (opt_list gr) -> listless (snd y)).
    { destruct (sr_graph r) as [g'|]; [|injection Eg as <-; intros ? []]. step Eg l El. injection Eg as <-.
      intros z Iz. apply collect_in in Iz. revert z Iz. apply (map_r_forall _ _ _ _ El). intros [k r'] z Ie Ez. apply filter_In in Ie. cbn [fst snd] in Ez. eapply IH; [apply G; reflexivity|apply Ie|exact Ez]. }
    assert (Href : forall x y, or_ref io fin rnd terms n g x = Ok y -> listless (snd y)).
    { intros z w. unfold or_ref. destruct (s_get z g) as [r'|] eqn:Ez; [|apply reference_listless]. destruct (N.eqb (sr_refs r') 1 && negb (sr_is_empty r')); [|apply reference_listless].
      apply IH; [exact O|apply s_get_in, Ez]. }
    assert (Hins : forall p xs a b, ps_ok a -> ins io fin rnd terms n g p xs a = Ok b -> ps_ok b).
    { intros p xs a b Pa. unfold ins. destruct (id_of p) as [q|]; [|intros [= <-]; exact Pa].
      refine (fold_inv (fun ps x => do o <- or_ref io fin rnd terms n g x ; Ok (insert_all q [o] ps)) ps_ok xs _ a b Pa).
      intros a' z b' _ Pa' Ez. destruct (or_ref io fin rnd terms n g z) as [w|] eqn:Ew; [|discriminate]. injection Ez as <-. intros q' y' Hy. apply insert_all_in in Hy. destruct Hy as [Hy|[_ ->]]; [eapply Pa', Hy|eapply Href, Ew]. }
    step E ps1 E1.
    assert (P1 : ps_ok ps1).
    { refine (fold_inv (fun ps e => ins io fin rnd terms n g (fst e) (snd e) ps) ps_ok (sr_props r) _ [] ps1 _ E1); [intros a e b _; apply Hins|]. intros q z (l & [] & _). }
    step E ps2 E2.
    assert (P2 : ps_ok ps2). { destruct (is_nil (sr_first r)); [injection E2 as <-; exact P1|]. destruct (unwrap (tm_first terms)); [|discriminate]. cbn [bind] in E2. eapply Hins; eassumption. }
    step E ps3 E3. injection E as <-.
    assert (P3 : ps_ok ps3). { destruct (is_nil (sr_rest r)); [injection E3 as <-; exact P2|]. destruct (unwrap (tm_rest terms)); [|discriminate]. cbn [bind] in E3. eapply Hins; eassumption. }
    cbn [snd]. apply LlNode; [|exact Hgr|reflexivity|reflexivity]. cbn [n_props]. intros p l z Ip Iz. apply (P3 p z). exists l. auto.
  Qed.
End Listless.
Theorem C34_lists_refuted : forall io fin rnd fuel qs d, from_quads io fin rnd fuel qs = Ok d -> forall y, In y d -> listless (snd y).
Proof.
  intros io fin rnd fuel qs d E. rewrite from_quads_eq in E. step E l El. injection E as <-.
  intros y Iy. apply collect_in in Iy. revert y Iy. apply (map_r_forall _ _ _ _ El). intros [k r] y I Ey. apply filter_In in I. cbn [fst snd] in Ey.
  set (okg := fun g => g = all_of qs \/ exists a, g = run (triples_of (Some a) qs)).
  apply (render_listless io fin rnd (ss_terms (load qs)) okg) in Ey; [exact Ey| |left; reflexivity|apply I].
  clear. intros g k r [->|[a ->]] I.
  - apply s_in_get in I; [|apply all_of_nodup]. destruct (all_of_spec _ _ _ I) as [F G]. split; [apply (f_values _ _ _ F)|]. intros g' Eg. apply G in Eg. destruct Eg as (a & _ & -> & _). right. eauto.
  - apply s_in_get in I; [|apply run_nodup]. destruct (run_spec _ _ _ I) as [F G]. split; [apply (f_values _ _ _ F)|]. congruence.
Qed.
Print Assumptions C34_lists_refuted.

(** What is lost or changed. *)
Definition ex_sio : ser_io := MkSerIo (fun _ => Some JNull) (fun _ => true).
Definition ex_sum (l : list word) : N := 0%N.
Definition ex_a : vid := VIri "http://a". Definition ex_b : vid := VIri "http://b". Definition ex_p : vid := VIri "http://p".
Theorem C34_refuted :
  (* statements that form a cycle *)
  from_quads ex_sio ex_sum ex_sum 5 [(ex_a, ex_p, RId ex_b, None); (ex_b, ex_p, RId ex_a, None)] = Ok [] /\
  (* statements about a class that has one instance *)
  from_quads ex_sio ex_sum ex_sum 5 [(ex_a, r_type, RId ex_b, None); (ex_b, ex_p, RLit "x" (TAny (xsd "string")), None)] = Ok
    [(None, ONode (MkNode (Some (IIri "http://a")) (Some [IIri "http://b"]) None None [] None))] /\
  (* [rdf:first] becomes [rdf:type] *)
  from_quads ex_sio ex_sum ex_sum 5 [(ex_a, r_first, RId ex_p, None); (ex_b, r_type, RId ex_p, None)] = Ok
    [(None, ONode (MkNode (Some (IIri "http://a")) None None None [(IIri (rdf "type"), [ex_ref "http://p"])] None));
     (None, ONode (MkNode (Some (IIri "http://b")) (Some [IIri "http://p"]) None None [] None))] /\
  (* the lexical form of a boolean *)
  from_quads ex_sio ex_sum ex_sum 5 [(ex_a, ex_p, RLit "1" (TAny (xsd "boolean")), None)] = Ok
    [(None, ONode (MkNode (Some (IIri "http://a")) None None None [(IIri "http://p", [(None, OVal (VLit (LBool true) (Some (xsd "boolean"))))])] None))].
Proof. repeat split; vm_compute; reflexivity. Qed.
Print Assumptions C34_refuted.

(** A dataset with a named graph, a blank node used once and a type that is used twice. *)
Definition ex_quads : list quad :=
  [(ex_a, ex_p, RId (VBlank "x"), None); (VBlank "x", ex_p, RLit "en" (TLang "en"), None); (ex_a, r_type, RId ex_b, None);
   (VBlank "x", r_type, RId ex_b, None); (ex_b, ex_p, RLit "true" (TAny (xsd "boolean")), None); (ex_a, ex_p, RId ex_a, Some (VBlank "x"))].
Example C34_example :
  (exists d, from_quads ex_sio ex_sum ex_sum 10 ex_quads = Ok d /\
    rdf_quads ex_io ex_gen None false 100 (doc_frames d) =
    Some [(ex_a, r_type, RId ex_b, None); (ex_a, ex_p, RId (VBlank "x"), None); (VBlank "x", r_type, RId ex_b, None);
          (VBlank "x", ex_p, RLit "en" (TLang "en"), None); (ex_b, ex_p, RLit "true" (TAny (xsd "boolean")), None)]) /\
  survives ex_quads (VBlank "x", ex_p, RLit "en" (TLang "en"), None) /\ ~ survives ex_quads (ex_a, ex_p, RId ex_a, Some (VBlank "x")).
Proof.
  split; [|split].
  - eexists. split; [vm_compute; reflexivity|lazy; reflexivity].
  - cbn [survives]. split; [cbn; auto|]. split; [|split; [discriminate|discriminate]].
    apply (RtUp _ _ ex_a ex_p); [|discriminate|].
    + exists [], (skipn 1 (triples_of None ex_quads)). split; [reflexivity|]. split; [intros ? ? []|]. split; [|discriminate].
      intros s p I. cbn in I. repeat (destruct I as [I|I]; [discriminate|]). exact I.
    + apply RtRoot. intros s p O. apply once_by_in in O. cbn in O. repeat (destruct O as [O|O]; [discriminate|]). exact O.
  - assert (H : forall r, rooted (triples_of (Some (VBlank "x")) ex_quads) r -> r <> RId ex_a).
    { induction 1 as [r N|r s p O _ R IH]; intros ->.
      - apply (N ex_a ex_p). exists [], []. split; [reflexivity|]. split; [intros ? ? []|]. split; [intros ? ? []|discriminate].
      - apply once_by_in in O. destruct O as [O|[]]. injection O as <- <-. apply IH. reflexivity. }
    intros (_ & R & _). exact (H _ R eq_refl).
Qed.

(** Properties of the RDF output. *)
From Verif Require Import Prelude Json Enums LangTag LangString Str Keyword Container ContextSyntax Ctx Object ObjectEq Flatten Traverse Relabel RelabelProofs FlattenProofs FlattenSpec Rdf RdfProofs RdfSpec.
From Coq Require Import Lia Arith Permutation.

(** The quads that iterating over a document to its end gives. *)
Definition emits (io : rdf_io) (gen : nat -> vid) (dir : option rdf_direction) (generalized : bool) (fs : list frame) (qs : list quad) : Prop :=
  exists fuel, rdf_quads io gen dir generalized fuel fs = Some qs.
Definition never_repeats (gen : nat -> vid) : Prop := forall i j, gen i = gen j -> i = j.

(** Values used by the examples. *)
Fixpoint digits (n : nat) : string := match n with O => "" | S n => "0" +++ digits n end.
Definition ex_gen (k : nat) : vid := VBlank ("g" +++ digits k).
Definition ex_io : rdf_io := MkRdfIo (fun l => negb (streq l "")) (fun _ => "{}") (fun _ => true) (fun n => n).
Definition ex_ref (u : string) : iobj := (None, ONode (node_new (Some (IIri u)))).
Definition ex_str (s : string) : iobj := (None, OVal (VLit (LStr s) None)).

(** ** C30 *)
(** What is emitted for a list object met while [k] identifiers have been generated: its RDF value,
    and the triples that describe it. *)
Definition list_rdf (io : rdf_io) (gen : nat -> vid) (dir : option rdf_direction) (k : nat) (l : list iobj) (v : rval) (T : list triple) (k' : nat) : Prop :=
  match object_rdf io gen dir k (OList l) with
  | (Some (r, None), k1) => v = r /\ T = [] /\ k' = k1
  | (Some (r, Some (h, l')), k1) => v = r /\ exists fuel, lt_all io gen dir fuel k1 (list_triples h l') = Some (T, k')
  | (None, _) => False
  end.
Theorem C30_partial : forall io gen dir k l, Forall (fun y => expressible io (snd y)) l -> never_repeats gen ->
  exists v T k', list_rdf io gen dir k l v T k' /\
  collection io gen dir T v l /\
  Forall (fun t => snd (fst t) = r_first \/ snd (fst t) = r_rest) T /\
  NoDup (subjects r_first T) /\ Permutation (subjects r_rest T) (subjects r_first T) /\
  length (subjects r_first T) = cells (OList l) /\
  Forall (fun s => exists j, k <= j < k' /\ s = gen j) (subjects r_first T).
Proof.
  intros io gen dir k l E Inj. unfold list_rdf. destruct l as [|y l].
  - exists (RId r_nil), [], k. cbn. repeat split; constructor.
  - cbn [object_rdf]. destruct (trips io gen dir (OList (y :: l)) (gen k) (S k)) as [T k'] eqn:ET. exists (RId (gen k)), T, k'.
    assert (NE : y :: l <> []) by discriminate.
    destruct (proj1 (trips_cells io gen dir) (OList (y :: l)) (ExList _ _ E) k (S k) T k' (Nat.lt_succ_diag_r k) ET (ex_intro _ (y :: l) (conj eq_refl NE))) as (L & J & [ND B] & E1 & E2 & P).
    split; [|split; [|split; [|split; [|split; [|split]]]]].
    + split; [reflexivity|]. destruct (lt_all_are io gen dir (y :: l) (gen k) (S k)) as [N H]. exists N. rewrite H by lia. rewrite ET. reflexivity.
    + pose proof (proj1 (trips_collection io gen dir) (OList (y :: l)) (y :: l) (gen k) (S k) eq_refl NE (ExList _ _ E)) as C. rewrite ET in C. exact C.
    + pose proof (proj1 (trips_pred io gen dir) (OList (y :: l)) (gen k) (S k)) as C. rewrite ET in C. exact C.
    + rewrite E1. change (NoDup (map gen (k :: J))). apply FinFun.Injective_map_NoDup; [exact Inj|]. constructor; [|exact ND].
      intros I. pose proof (proj1 (Forall_forall _ _) B k I) as Q. cbn in Q. lia.
    + exact P.
    + exact E2.
    + rewrite E1. constructor; [exists k; split; [lia|reflexivity]|]. apply Forall_forall. intros s I. apply in_map_iff in I. destruct I as (j & <- & Ij).
      pose proof (proj1 (Forall_forall _ _) B j Ij) as Q. cbn in Q. exists j. split; [lia|reflexivity].
Qed.
Print Assumptions C30_partial.
(** An item without an RDF value, here a node without an identifier, breaks the list: its first
    node has no [rdf:rest]. *)
Theorem C30_refuted : exists io gen dir l v T k', never_repeats gen /\ list_rdf io gen dir 0 l v T k' /\
  (forall l', ~ collection io gen dir T v l').
Proof.
  exists ex_io, ex_gen, None, [ex_str "a"; (None, ONode (node_new None)); ex_str "b"].
  eexists (RId (ex_gen 0)), _, _. split; [|split; [split; [reflexivity|exists 20; reflexivity]|]].
  - assert (D : forall i, String.length (digits i) = i) by (induction i; cbn; congruence).
    intros i j [= H]. rewrite <- (D i), <- (D j), H. reflexivity.
  - intros l' C. inversion C as [|h r t y l I1 S I2 C']; subst. cbn in I2. destruct I2 as [I2|[I2|[I2|[I2|[]]]]]; discriminate.
Qed.
Print Assumptions C30_refuted.
Example C30_example : list_rdf ex_io ex_gen None 0 [ex_str "a"; (None, OList [ex_ref "http://x/"]); (None, OList [])] (RId (ex_gen 0))
  [(ex_gen 0, r_first, RLit "a" (TAny (xsd "string")));
   (ex_gen 0, r_rest, RId (ex_gen 1)); (ex_gen 1, r_first, RId (ex_gen 2));
   (ex_gen 2, r_first, RId (VIri "http://x/")); (ex_gen 2, r_rest, RId r_nil);
   (ex_gen 1, r_rest, RId (ex_gen 3)); (ex_gen 3, r_first, RId r_nil); (ex_gen 3, r_rest, RId r_nil)] 4.
Proof. split; [reflexivity|]. exists 20. reflexivity. Qed.

(** ** C31 *)
Lemma q_in_conv io gen dir generalized fs qs Q : emits io gen dir generalized fs qs -> In Q qs ->
  exists q k, In q (frames_out fs) /\ In Q (fst (conv io gen dir generalized q k)).
Proof. intros [n E] I. rewrite (rdf_quads_spec _ _ _ _ _ _ _ E) in I. eapply conv_all_from, I. Qed.
Lemma spo_spec generalized q g s p : spo generalized q = Some (g, s, p) <->
  graph_named (lq_graph q) g /\ named (lq_subject q) s /\ match lq_prop q with LType => p = VIri (rdf "type") | LProp i => named i p end /\ (generalized = true \/ is_blank p = false).
Proof.
  destruct q as [a i pr o]. unfold spo. cbn [lq_graph lq_subject lq_prop]. split.
  - destruct (match a with Some g => match valid g with Some v => Some (Some v) | None => None end | None => Some None end) as [g'|] eqn:Eg; [|discriminate].
    destruct (valid i) as [s'|] eqn:Es; [|discriminate]. destruct (match pr with LType => _ | LProp p => valid p end) as [p'|] eqn:Ep; [|discriminate].
    destruct (negb generalized && is_blank p') eqn:Eb; [discriminate|]. intros [= -> -> ->]. repeat split.
    + destruct a as [a|]; [|injection Eg as <-; constructor]. destruct (valid a) eqn:Ea; [|discriminate]. injection Eg as <-. constructor. apply valid_named, Ea.
    + apply valid_named, Es.
    + destruct pr; [injection Ep as <-; reflexivity|apply valid_named, Ep].
    + destruct generalized; [left; reflexivity|right; exact Eb].
  - intros (Hg & Hs & Hp & Hb). apply valid_named in Hs. rewrite Hs.
    assert (Eg : match a with Some g => match valid g with Some v => Some (Some v) | None => None end | None => Some None end = Some g)
      by (destruct Hg as [|a' v Hv]; [reflexivity|apply valid_named in Hv; rewrite Hv; reflexivity]). rewrite Eg.
    assert (Ep : match pr with LType => Some (VIri (rdf "type")) | LProp p => valid p end = Some p)
      by (destruct pr; [rewrite Hp; reflexivity|apply valid_named, Hp]). rewrite Ep.
    destruct Hb as [->| ->]; [reflexivity|]. rewrite andb_false_r. reflexivity.
Qed.
Lemma trips_objects io gen dir : (forall o h k, Forall (fun t => forall s l, snd t = RLit s (TLang l) -> wf_lang io l = true) (fst (trips io gen dir o h k))) /\ (forall n : node, True).
Proof.
  apply (obj_node_ind (fun o => forall h k, Forall (fun t => forall s l, snd t = RLit s (TLang l) -> wf_lang io l = true) (fst (trips io gen dir o h k))) (fun _ => True));
    try (intros; exact I); try (intros; constructor).
  intros l F h k. cbn [trips]. generalize (Some h) as hd, (@None vid) as prev. intros hd prev. revert prev hd k.
  induction F as [|x l O F IH]; intros prev hd k; cbn [trips_items].
  - destruct prev; cbn; repeat constructor; discriminate.
  - destruct (match hd with Some h => _ | None => _ end) as [i k1]. destruct (object_rdf io gen dir k1 (snd x)) as [[[r t]|] k2] eqn:Er; [|apply IH].
    destruct (match t with Some (h', _) => trips io gen dir (snd x) h' k2 | None => ([], k2) end) as [n k3] eqn:En.
    specialize (IH (Some i) None k3). destruct (trips_items io gen dir (trips io gen dir) (Some i) None l k3) as [m k4]. cbn [fst] in *.
    apply Forall_app. split; [destruct prev; cbn; repeat constructor; discriminate|].
    constructor.
    + cbn. intros s l0 ->. pose proof (object_denotes _ _ _ _ _ _ _ _ Er) as D. inversion D as [v r' M E1 E2| | |]; subst. inversion M; subst. auto.
    + apply Forall_app. split; [|exact IH].
      destruct t as [[h' l']|]; [|injection En as <- _; constructor]. specialize (O h' k2). rewrite En in O. exact O.
Qed.

(** Iterating ends, and what it gives is well-formed. *)
Theorem C31_well_formed : forall io gen dir generalized fs, exists qs, emits io gen dir generalized fs qs /\
  forall s p o g, In (s, p, o, g) qs ->
    (generalized = true \/ exists u, p = VIri u) /\ (forall t l, o = RLit t (TLang l) -> wf_lang io l = true).
Proof.
  intros io gen dir generalized fs. destruct (rdf_quads_are io gen dir generalized fs) as [N H]. eexists. split; [exists N; apply H; lia|].
  intros s p o g I. destruct (conv_all_from _ _ _ _ _ _ _ I) as (q & k & Iq & Ic). unfold conv, RdfProofs.conv in Ic.
  destruct (spo generalized q) as [[[g' s'] p']|] eqn:Es; [|destruct Ic]. apply spo_spec in Es. destruct Es as (_ & _ & _ & Hb).
  assert (Hp : generalized = true \/ exists u, p' = VIri u) by (destruct Hb as [Hb|Hb]; [left; exact Hb|right; destruct p'; [eauto|discriminate]]).
  assert (Hd : forall r t k', ldobj_rdf io gen dir k (lq_object q) = (Some (r, t), k') -> forall x l, r = RLit x (TLang l) -> wf_lang io l = true).
  { intros r t k' E x l ->. destruct (lq_object q) as [ob|n|i]; cbn [ldobj_rdf] in E.
    - pose proof (object_denotes _ _ _ _ _ _ _ _ E) as D. inversion D as [v r' M E1 E2| | |]; subst. inversion M; subst. auto.
    - unfold id_rdf in E. destruct (n_id n) as [i|]; [destruct (valid i)|]; discriminate.
    - unfold id_rdf in E. destruct (valid i); discriminate. }
  destruct (ldobj_rdf io gen dir k (lq_object q)) as [[[r [[h l]|]]|] k'] eqn:Er; cbn [fst] in Ic.
  - destruct (trips io gen dir (OList l) h k') as [T k2] eqn:ET. destruct Ic as [Ic|Ic].
    + injection Ic as <- <- <- <-. split; [exact Hp|]. eapply Hd. reflexivity.
    + apply in_map_iff in Ic. destruct Ic as (t & E & It). destruct t as [[s0 p0] o0]. injection E as -> -> -> ->. split.
      * right. pose proof (proj1 (trips_pred io gen dir) (OList l) h k') as F. rewrite ET in F. pose proof (proj1 (Forall_forall _ _) F _ It) as [Q|Q]; cbn in Q; rewrite Q; eexists; reflexivity.
      * pose proof (proj1 (trips_objects io gen dir) (OList l) h k') as F. rewrite ET in F. exact (proj1 (Forall_forall _ _) F _ It).
  - destruct Ic as [Ic|[]]. injection Ic as <- <- <- <-. split; [exact Hp|]. eapply Hd. reflexivity.
  - destruct Ic.
Qed.
Print Assumptions C31_well_formed.
(** Invalid identifiers and blank predicates are left out. *)
Example C31_example :
  let d := [(None, ONode (MkNode (Some (IIri "http://s/")) (Some [IInvalid "t"; IIri "http://T"]) None None
    [(IBlank "p", [ex_str "a"]); (IInvalid "q", [ex_str "b"]); (IIri "http://p", [ex_str "c"; (None, OVal (VLang (MkLS "d" (Some "") None)))])] None));
    (None, ONode (MkNode (Some (IInvalid "s")) (Some [IIri "http://T"]) None None [] None))] in
  rdf_quads ex_io ex_gen None false 20 (doc_frames d) =
    Some [(VIri "http://s/", VIri (rdf "type"), RId (VIri "http://T"), None); (VIri "http://s/", VIri "http://p", RLit "c" (TAny (xsd "string")), None)] /\
  rdf_quads ex_io ex_gen None true 20 (doc_frames d) =
    Some [(VIri "http://s/", VIri (rdf "type"), RId (VIri "http://T"), None); (VIri "http://s/", VBlank "p", RLit "a" (TAny (xsd "string")), None);
          (VIri "http://s/", VIri "http://p", RLit "c" (TAny (xsd "string")), None)].
Proof. split; reflexivity. Qed.

(** ** C32 *)
Lemma emits_conv io gen dir generalized fs qs b n q : emits io gen dir generalized fs qs -> (forall q, ldq_of b n q -> In q (frames_out fs)) -> ldq_of b n q ->
  exists k, incl (fst (conv io gen dir generalized q k)) qs.
Proof.
  intros [m E] S Q. rewrite (rdf_quads_spec _ _ _ _ _ _ _ E). apply conv_all_in. apply S, Q.
Qed.
Definition allowed (generalized : bool) (p : vid) : Prop := generalized = true \/ exists u, p = VIri u.
(** What the dataset must say for a node [n] of the graph [b]. *)
Definition told (io : rdf_io) (gen : nat -> vid) (dir : option rdf_direction) (generalized : bool) (qs : list quad) (b : option id) (n : node) : Prop :=
  forall g i s, graph_named b g -> n_id n = Some i -> named i s ->
    (forall t v, In t (opt_list (n_types n)) -> named t v -> In (s, VIri (rdf "type"), RId v, g) qs) /\
    (forall p w l y, In (p, l) (n_props n) -> In y l -> named p w -> allowed generalized w -> has_value io (snd y) ->
      exists r, In (s, w, r, g) qs /\ denotes io gen dir r (snd y)) /\
    (forall p w l y, In (p, l) (n_props n) -> In y l -> named p w -> allowed generalized w -> expressible io (snd y) ->
      exists r T, In (s, w, r, g) qs /\ stands io gen dir T r (snd y) /\ forall t, In t T -> In (t, g) qs) /\
    (forall p w l y j u, In (p, l) (opt_list (n_reverse n)) -> In y l -> n_id (snd y) = Some j -> named j u -> named p w -> allowed generalized w ->
      In (u, w, RId s, g) qs).
Lemma frames_told io gen dir generalized fs qs b n : emits io gen dir generalized fs qs -> (forall q, ldq_of b n q -> In q (frames_out fs)) ->
  told io gen dir generalized qs b n.
Proof.
  intros E S g i s Hg Ei Hs.
  assert (Ha : forall w, allowed generalized w -> generalized = true \/ is_blank w = false) by (intros w [H|[u ->]]; auto).
  repeat split.
  - intros t v It Hv. destruct (emits_conv _ _ _ _ _ _ _ _ _ E S (LoType b n i t Ei It)) as [k Ik]. apply Ik. unfold conv, RdfProofs.conv.
    rewrite (proj2 (spo_spec generalized (MkLq b i LType (LRef t)) g s (VIri (rdf "type"))) (conj Hg (conj Hs (conj eq_refl (or_intror eq_refl))))).
    cbn [lq_object ldobj_rdf id_rdf]. apply valid_named in Hv. rewrite Hv. left. reflexivity.
  - intros p w l y Ip Iy Hw Hal Hv. destruct (emits_conv _ _ _ _ _ _ _ _ _ E S (LoProp b n i p l y Ei Ip Iy)) as [k Ik]. unfold conv, RdfProofs.conv in Ik.
    rewrite (proj2 (spo_spec generalized (MkLq b i (LProp p) (LObj (snd y))) g s w) (conj Hg (conj Hs (conj Hw (Ha w Hal))))) in Ik.
    cbn [lq_object ldobj_rdf] in Ik. destruct (object_some io gen dir k (snd y) Hv) as (r & t & k' & Er). rewrite Er in Ik. exists r. split; [|eapply object_denotes, Er].
    apply Ik. destruct t as [[h l']|]; [destruct (trips io gen dir (OList l') h k')|]; left; reflexivity.
  - intros p w l y Ip Iy Hw Hal Hx. destruct (emits_conv _ _ _ _ _ _ _ _ _ E S (LoProp b n i p l y Ei Ip Iy)) as [k Ik]. unfold conv, RdfProofs.conv in Ik.
    rewrite (proj2 (spo_spec generalized (MkLq b i (LProp p) (LObj (snd y))) g s w) (conj Hg (conj Hs (conj Hw (Ha w Hal))))) in Ik.
    cbn [lq_object ldobj_rdf] in Ik. destruct (object_some io gen dir k (snd y) (expressible_value _ _ Hx)) as (r & t & k' & Er). rewrite Er in Ik.
    destruct (match t with Some (h, _) => trips io gen dir (snd y) h k' | None => ([], k') end) as [T k2] eqn:ET.
    exists r, T. split; [|split].
    + apply Ik. destruct t as [[h l']|]; [destruct (trips io gen dir (OList l') h k')|]; left; reflexivity.
    + eapply object_stands; [apply (proj1 (trips_collection io gen dir))|exact Hx|exact Er|exact ET].
    + intros t0 It. apply Ik. destruct t as [[h l']|]; [|injection ET as <- _; destruct It].
      destruct (object_rdf_list _ _ _ _ _ _ _ _ _ Er) as (Eo & _). rewrite <- Eo, ET. right. apply (in_map (fun t => (t, g))), It.
  - intros p w l y j u Ip Iy Ej Hu Hw Hal. destruct (emits_conv _ _ _ _ _ _ _ _ _ E S (LoReverse b n i p l y j Ei Ip Iy Ej)) as [k Ik]. apply Ik. unfold conv, RdfProofs.conv.
    rewrite (proj2 (spo_spec generalized (MkLq b j (LProp p) (LNode n)) g u w) (conj Hg (conj Hu (conj Hw (Ha w Hal))))).
    cbn [lq_object ldobj_rdf id_rdf]. rewrite Ei. unfold id_rdf. apply valid_named in Hs. rewrite Hs. left. reflexivity.
Qed.
Lemma seen_told io gen dir generalized d qs b n : emits io gen dir generalized (doc_frames d) qs -> seen_in d b n -> told io gen dir generalized qs b n.
Proof. intros E S. eapply frames_told; [exact E|]. intros q Q. apply doc_ld. eauto. Qed.
(** Proved for the nodes that are not inside a node without an identifier. *)
Theorem C32_seen_partial : forall io gen dir generalized d, exists qs, emits io gen dir generalized (doc_frames d) qs /\
  forall b n, seen_in d b n -> told io gen dir generalized qs b n.
Proof.
  intros io gen dir generalized d. destruct (C31_well_formed io gen dir generalized (doc_frames d)) as (qs & E & _). exists qs. split; [exact E|].
  intros b n S. eapply seen_told; eassumption.
Qed.
Print Assumptions C32_seen_partial.
(** Hence for all the nodes of a document where all the nodes have an identifier. *)
Theorem C32_partial : forall io gen dir generalized d, identified d -> exists qs, emits io gen dir generalized (doc_frames d) qs /\
  forall b z n, occurs_in d b z n -> told io gen dir generalized qs b n.
Proof.
  intros io gen dir generalized d Id. destruct (C32_seen_partial io gen dir generalized d) as (qs & E & H). exists qs. split; [exact E|].
  intros b z n O. apply H. eapply occurs_in_seen; eassumption.
Qed.
Print Assumptions C32_partial.
(** What an anonymous node contains is lost, nodes with an identifier included. *)
Definition ex_anon : list iobj :=
  [(None, ONode (MkNode None None None None [(IIri "http://p", [(None, ONode (MkNode (Some (IIri "http://s/")) (Some [IIri "http://T"]) None None [] None))])] None))].
Theorem C32_refuted : exists d b z n, occurs_in d b z n /\ n_id n <> None /\ forall io gen dir generalized qs,
  emits io gen dir generalized (doc_frames d) qs -> ~ told io gen dir generalized qs b n.
Proof.
  exists ex_anon, None, None, (MkNode (Some (IIri "http://s/")) (Some [IIri "http://T"]) None None [] None). split; [|split; [discriminate|]].
  - eexists. split; [left; reflexivity|]. constructor. eapply OcProp; [left; reflexivity|left; reflexivity|]. cbn. constructor. apply OcSelf.
  - intros io gen dir generalized qs [fuel E] H. rewrite (rdf_quads_spec _ _ _ _ _ _ _ E) in H.
    destruct (H None _ _ GnDefault eq_refl (NmIri _)) as (H1 & _). exact (H1 _ _ (or_introl eq_refl) (NmIri _)).
Qed.
Print Assumptions C32_refuted.
Example C32_example :
  let inner := MkNode (Some (IIri "http://i/")) (Some [IIri "http://T"]) None None [] None in
  let d := [(None, ONode (MkNode (Some (IIri "http://g/")) None (Some [(None, ONode (MkNode (Some (IBlank "b")) None None None
      [(IIri "http://p", [(None, OList [(None, ONode inner)])])] (Some [(IIri "http://r", [(None, inner)])])))]) None [] None))] in
  rdf_quads ex_io ex_gen None false 30 (doc_frames d) =
   Some [(VBlank "b", VIri "http://p", RId (ex_gen 0), Some (VIri "http://g/"));
         (ex_gen 0, r_first, RId (VIri "http://i/"), Some (VIri "http://g/"));
         (ex_gen 0, r_rest, RId r_nil, Some (VIri "http://g/"));
         (VIri "http://i/", VIri (rdf "type"), RId (VIri "http://T"), Some (VIri "http://g/"));
         (VIri "http://i/", VIri "http://r", RId (VBlank "b"), Some (VIri "http://g/"));
         (VIri "http://i/", VIri (rdf "type"), RId (VIri "http://T"), Some (VIri "http://g/"))].
Proof. reflexivity. Qed.

(** ** C55: nothing more is said. *)
(** What the node [n] itself says: a type, a property or a reversed property. *)
Definition from_node (io : rdf_io) (gen : nat -> vid) (dir : option rdf_direction) (n : node) (i : id) (s p : vid) (r : rval) : Prop :=
  (named i s /\ p = VIri (rdf "type") /\ exists t v, In t (opt_list (n_types n)) /\ named t v /\ r = RId v) \/
  (named i s /\ exists q l y, In (q, l) (n_props n) /\ In y l /\ named q p /\ denotes io gen dir r (snd y)) \/
  (exists q l y j v, In (q, l) (opt_list (n_reverse n)) /\ In y l /\ n_id (snd y) = Some j /\ named j s /\ named q p /\ named i v /\ r = RId v).
Lemma frames_only io gen dir generalized fs qs (S : option id -> node -> Prop) :
  (forall q, In q (frames_out fs) -> exists b n, S b n /\ ldq_of b n q) -> emits io gen dir generalized fs qs ->
  forall s p r g, In (s, p, r, g) qs ->
    ((p = r_first \/ p = r_rest) /\ exists k, s = gen k) \/
    exists b n i, graph_named b g /\ S b n /\ n_id n = Some i /\ from_node io gen dir n i s p r.
Proof.
  intros H E s p r g I. destruct (q_in_conv _ _ _ _ _ _ _ E I) as (q & k & Iq & Ic).
  apply H in Iq. destruct Iq as (b & n & HS & Q). unfold conv, RdfProofs.conv in Ic.
  destruct (spo generalized q) as [[[g' s'] p']|] eqn:Es; [|destruct Ic]. apply spo_spec in Es. destruct Es as (Hg & Hs & Hp & _).
  assert (Hh : forall rr h l k', ldobj_rdf io gen dir k (lq_object q) = (Some (rr, Some (h, l)), k') -> exists j, h = gen j).
  { intros rr h l k' El. destruct (lq_object q) as [ob|m|t]; cbn [ldobj_rdf] in El.
    - destruct (object_rdf_list _ _ _ _ _ _ _ _ _ El) as (_ & _ & _ & -> & _). eauto.
    - unfold id_rdf in El. destruct (n_id m) as [i|]; [destruct (valid i)|]; discriminate.
    - unfold id_rdf in El. destruct (valid t); discriminate. }
  assert (Hm : (exists t k', ldobj_rdf io gen dir k (lq_object q) = (Some (r, t), k')) -> s = s' -> p = p' -> g = g' ->
     exists b n i, graph_named b g /\ S b n /\ n_id n = Some i /\
      from_node io gen dir n i s p r).
  { intros (t & k' & Er) -> -> ->. exists b, n. inversion Q as [i t' Ei It E1|i w l y Ei Iw Iy E1|i w l y j Ei Iw Iy Ej E1]; subst q; cbn [lq_graph lq_subject lq_prop lq_object ldobj_rdf] in *; exists i; (split; [exact Hg|]); (split; [exact HS|]); (split; [exact Ei|]).
    - left. split; [exact Hs|]. split; [exact Hp|]. unfold id_rdf in Er. destruct (valid t') as [v|] eqn:Ev; [|discriminate]. injection Er as <- _ _. exists t', v. split; [exact It|]. split; [apply valid_named, Ev|reflexivity].
    - right. left. split; [exact Hs|]. exists w, l, y. split; [exact Iw|]. split; [exact Iy|]. split; [exact Hp|]. eapply object_denotes, Er.
    - right. right. rewrite Ei in Er. unfold id_rdf in Er. destruct (valid i) as [v|] eqn:Ev; [|discriminate]. injection Er as <- _ _. exists w, l, y, j, v.
      repeat (split; [assumption|]). split; [apply valid_named, Ev|reflexivity]. }
  destruct (ldobj_rdf io gen dir k (lq_object q)) as [[[rr [[h l]|]]|] k'] eqn:Er; cbn [fst] in Ic.
  - destruct (Hh _ _ _ _ eq_refl) as [j ->]. destruct (trips io gen dir (OList l) (gen j) k') as [T k2] eqn:ET. destruct Ic as [Ic|Ic].
    + injection Ic as E1 E2 E3 E4. right. apply Hm; auto. rewrite <- E3. eauto.
    + left. apply in_map_iff in Ic. destruct Ic as (t & E' & It). destruct t as [[s0 p0] o0]. injection E' as -> -> -> ->.
      pose proof (proj1 (trips_pred io gen dir) (OList l) (gen j) k') as F. rewrite ET in F.
      pose proof (proj1 (trips_subject io gen dir) (OList l) j k') as F2. rewrite ET in F2.
      split; [exact (proj1 (Forall_forall _ _) F _ It)|exact (proj1 (Forall_forall _ _) F2 _ It)].
  - destruct Ic as [Ic|[]]. injection Ic as E1 E2 E3 E4. right. apply Hm; auto. rewrite <- E3. eauto.
  - destruct Ic.
Qed.
Theorem C55_only_the_document : forall io gen dir generalized d qs, emits io gen dir generalized (doc_frames d) qs ->
  forall s p r g, In (s, p, r, g) qs ->
    ((p = r_first \/ p = r_rest) /\ exists k, s = gen k) \/
    exists b z n i, graph_named b g /\ occurs_in d b z n /\ n_id n = Some i /\
      from_node io gen dir n i s p r.
Proof.
  intros io gen dir generalized d qs E s p r g I.
  destruct (frames_only _ _ _ _ _ _ (seen_in d) (fun q Iq => proj1 (doc_ld d q) Iq) E _ _ _ _ I) as [H|(b & n & i & Hg & S & Ei & H)]; [left; exact H|right].
  destruct (seen_occurs_in _ _ _ S) as [z O]. exists b, z, n, i. auto.
Qed.
Print Assumptions C55_only_the_document.
(** The type of the second node, in a named graph, is only stated there. *)
Example C55_example :
  let d := [(None, ONode (MkNode (Some (IIri "http://g/")) (Some [IIri "http://G"]) (Some [(None, ONode (MkNode (Some (IIri "http://s/")) (Some [IIri "http://T"]) None None [] None))]) None [] None))] in
  rdf_quads ex_io ex_gen None false 20 (doc_frames d) =
    Some [(VIri "http://g/", VIri (rdf "type"), RId (VIri "http://G"), None); (VIri "http://s/", VIri (rdf "type"), RId (VIri "http://T"), Some (VIri "http://g/"))].
Proof. reflexivity. Qed.

(** ** C56: the RDF of a node map. *)
(** [n] is found in the node map under the graph [b], not inside a node without an identifier. *)
Definition stored (m : nmap) (b : option id) (n : node) : Prop :=
  (exists k y, In (k, y) (fst m) /\ seen_node None (snd y) b n) \/
  (exists a g k y, In (a, g) (snd m) /\ In (k, y) g /\ seen_node (Some a) (snd y) b n).
Lemma node_map_ld m q : In q (frames_out (node_map_frames m)) <-> exists b n, stored m b n /\ ldq_of b n q.
Proof.
  unfold frames_out, node_map_frames. rewrite in_flat_map. split.
  - intros (f & If & Iq). apply in_rev in If. destruct If as [<-|If].
    + cbn [fr_out] in Iq. apply in_flat_map in Iq. destruct Iq as (y & Iy & Iq). apply in_map_iff in Iy. destruct Iy as ([k y'] & <- & Iy).
      destruct (proj2 ld_in_seen _ _ _ Iq) as (b & n & S & Q). exists b, n. split; [left; exists k, y'; auto|exact Q].
    + apply in_map_iff in If. destruct If as ([a g] & <- & If). cbn [fr_out fst snd] in Iq. apply in_flat_map in Iq. destruct Iq as (y & Iy & Iq).
      apply in_map_iff in Iy. destruct Iy as ([k y'] & <- & Iy). destruct (proj2 ld_in_seen _ _ _ Iq) as (b & n & S & Q). exists b, n.
      split; [right; exists a, g, k, y'; auto|exact Q].
  - intros (b & n & [(k & y & Iy & S)|(a & g & k & y & Ig & Iy & S)] & Q).
    + exists (FrNodes None (map snd (fst m))). split; [rewrite <- in_rev; left; reflexivity|]. cbn [fr_out]. apply in_flat_map. exists y.
      split; [apply (in_map snd) in Iy; exact Iy|]. eapply (proj2 seen_ld); eassumption.
    + exists (FrNodes (Some a) (map snd g)). split; [rewrite <- in_rev; right; apply in_map_iff; exists (a, g); auto|]. cbn [fr_out]. apply in_flat_map. exists y.
      split; [apply (in_map snd) in Iy; exact Iy|]. eapply (proj2 seen_ld); eassumption.
Qed.
Theorem C56_node_map : forall io gen dir generalized m, exists qs, emits io gen dir generalized (node_map_frames m) qs /\
  (forall b n, stored m b n -> told io gen dir generalized qs b n) /\
  (forall s p r g, In (s, p, r, g) qs ->
    ((p = r_first \/ p = r_rest) /\ exists k, s = gen k) \/
    exists b n i, graph_named b g /\ stored m b n /\ n_id n = Some i /\ from_node io gen dir n i s p r).
Proof.
  intros io gen dir generalized m. destruct (C31_well_formed io gen dir generalized (node_map_frames m)) as (qs & E & _). exists qs. split; [exact E|]. split.
  - intros b n S. eapply frames_told; [exact E|]. intros q Q. apply node_map_ld. eauto.
  - eapply frames_only; [|exact E]. intros q. apply node_map_ld.
Qed.
Print Assumptions C56_node_map.
(** The nodes of the default graph and those of a named graph. *)
Example C56_example :
  let nd i t := (IIri i, (None, MkNode (Some (IIri i)) (Some [IIri t]) None None [] None)) in
  let m : nmap := ([nd "http://a/" "http://T"], [(IBlank "g", [nd "http://a/" "http://U"; nd "http://b/" "http://V"])]) in
  stored m (Some (IBlank "g")) (snd (snd (nd "http://b/" "http://V"))) /\
  rdf_quads ex_io ex_gen None false 20 (node_map_frames m) =
    Some [(VIri "http://a/", VIri (rdf "type"), RId (VIri "http://U"), Some (VBlank "g"));
          (VIri "http://b/", VIri (rdf "type"), RId (VIri "http://V"), Some (VBlank "g"));
          (VIri "http://a/", VIri (rdf "type"), RId (VIri "http://T"), None)].
Proof.
  cbv zeta. split; [|reflexivity]. right. exists (IBlank "g"). eexists. exists (IIri "http://b/"). eexists.
  split; [left; reflexivity|]. split; [right; left; reflexivity|]. apply SeSelf.
Qed.

(** ** C33 *)
Lemma append_inj_r a : forall b c, a +++ b = a +++ c -> b = c.
Proof. induction a as [|x a IH]; intros b c; cbn; [exact (fun H => H)|]. intros [= H]. apply IH, H. Qed.
Lemma length_app a b : String.length (a +++ b) = String.length a + String.length b.
Proof. induction a; cbn; [reflexivity|]. rewrite IHa. reflexivity. Qed.
Lemma append_inj a : forall a' b b', String.length b = String.length b' -> a +++ b = a' +++ b' -> a = a' /\ b = b'.
Proof.
  induction a as [|x a IH]; intros [|x' a'] b b' L E; cbn in E.
  - auto.
  - subst b. cbn in L. rewrite length_app in L. exfalso. lia.
  - subst b'. cbn in L. rewrite length_app in L. exfalso. lia.
  - injection E as -> E. destruct (IH _ _ _ L E) as [-> ->]. auto.
Qed.
Lemma dir_length d : String.length (dir_str d) = 3. Proof. destruct d; reflexivity. Qed.
Lemma dir_inj d d' : dir_str d = dir_str d' -> d = d'. Proof. destruct d, d'; intros E; (reflexivity || discriminate). Qed.
Lemma i18n_inj l d l' d' : i18n l d = i18n l' d' -> l = l' /\ d = d'.
Proof.
  unfold i18n. intros E. apply append_inj_r in E. destruct l as [l|], l' as [l'|].
  - destruct (append_inj l l' ("_" +++ dir_str d) ("_" +++ dir_str d')) as [-> E2]; [rewrite !length_app, !dir_length; reflexivity|exact E|].
    apply append_inj_r, dir_inj in E2. auto.
  - exfalso. apply (f_equal String.length) in E. rewrite !length_app, !dir_length in E. cbn in E. lia.
  - exfalso. apply (f_equal String.length) in E. rewrite !length_app, !dir_length in E. cbn in E. lia.
  - apply dir_inj in E. auto.
Qed.
(** Under the [i18n] datatype encoding: two directional strings with a well-formed or no language
    have the same RDF value only if they have the same text, language and direction; and the value
    is a literal with that text. *)
Theorem C33_partial : forall io gen s d k, ls_direction s = Some d -> good_tag io s ->
  exists u, value_rdf io gen (Some I18nDatatype) k (VLang s) = (Some (RLit (ls_data s) (TAny u)), k) /\
  forall s' d' k', ls_direction s' = Some d' ->
    fst (value_rdf io gen (Some I18nDatatype) k' (VLang s')) = Some (RLit (ls_data s) (TAny u)) ->
    ls_data s' = ls_data s /\ ls_language s' = ls_language s /\ d' = d.
Proof.
  intros io gen s d k Ed G. apply good_tag_dec in G. exists (i18n (ls_language s) d). cbn [value_rdf]. rewrite G, Ed. split; [reflexivity|].
  intros s' d' k' Ed'. rewrite Ed'. destruct (match ls_language s' with Some l => wf_lang io l | None => true end); [|discriminate].
  cbn [fst]. intros E. assert (E1 : ls_data s' = ls_data s) by (injection E; auto).
  assert (E2 : i18n (ls_language s') d' = i18n (ls_language s) d) by (exact (f_equal (fun o => match o with Some (RLit _ (TAny u)) => u | _ => "" end) E)).
  apply i18n_inj in E2. destruct E2 as [E2 E3]. auto.
Qed.
Print Assumptions C33_partial.
(** Under the compound literal encoding the text, language and direction are lost: documents that
    differ by them give the same quads. *)
Definition ex_dir (t : string) (l : option string) (d : direction) : list iobj :=
  [(None, ONode (MkNode (Some (IIri "http://s/")) None None None [(IIri "http://p", [(None, OVal (VLang (MkLS t l (Some d))))])] None))].
Theorem C33_refuted : forall io gen generalized qs t l d t' l' d',
  (forall x, l = Some x -> wf_lang io x = true) -> (forall x, l' = Some x -> wf_lang io x = true) ->
  emits io gen (Some CompoundLiteral) generalized (doc_frames (ex_dir t l d)) qs ->
  emits io gen (Some CompoundLiteral) generalized (doc_frames (ex_dir t' l' d')) qs.
Proof.
  intros io gen generalized qs t l d t' l' d' W W' [n E]. rewrite (rdf_quads_spec _ _ _ _ _ _ _ E).
  destruct (rdf_quads_are io gen (Some CompoundLiteral) generalized (doc_frames (ex_dir t' l' d'))) as [N H]. exists N. rewrite H by lia. f_equal.
  assert (V : forall t l d k, (forall x, l = Some x -> wf_lang io x = true) -> value_rdf io gen (Some CompoundLiteral) k (VLang (MkLS t l (Some d))) = (Some (RId (gen k)), S k)).
  { intros t0 l0 d0 k Hl. cbn [value_rdf ls_language ls_direction]. destruct l0 as [x|]; [rewrite (Hl x eq_refl)|]; reflexivity. }
  assert (X : forall t l d, (forall x, l = Some x -> wf_lang io x = true) ->
     RdfProofs.conv_all io gen (Some CompoundLiteral) generalized (frames_out (doc_frames (ex_dir t l d))) 0 = [(VIri "http://s/", VIri "http://p", RId (gen 0), None)]).
  { intros t0 l0 d0 Hl. cbn. unfold RdfProofs.conv, spo. cbn [lq_graph lq_subject lq_prop lq_object valid is_blank]. rewrite andb_false_r.
    cbn [ldobj_rdf object_rdf]. rewrite (V _ _ _ _ Hl). reflexivity. }
  rewrite !X by assumption. reflexivity.
Qed.
Print Assumptions C33_refuted.
(** And a string with an ill-formed language tag is dropped under both. *)
Theorem C33_tag_refuted : exists io s, ls_direction s = Some Rtl /\ forall gen dir k, value_rdf io gen dir k (VLang s) = (None, k).
Proof. exists ex_io, (MkLS "text" (Some "") (Some Rtl)). split; [reflexivity|]. intros gen dir k. reflexivity. Qed.
Print Assumptions C33_tag_refuted.
Example C33_example :
  rdf_quads ex_io ex_gen (Some I18nDatatype) false 20 (doc_frames (ex_dir "salaam" (Some "ar") Rtl)) =
    Some [(VIri "http://s/", VIri "http://p", RLit "salaam" (TAny "https://www.w3.org/ns/i18n#ar_rtl"), None)] /\
  rdf_quads ex_io ex_gen (Some CompoundLiteral) false 20 (doc_frames (ex_dir "salaam" (Some "ar") Rtl)) =
    Some [(VIri "http://s/", VIri "http://p", RId (ex_gen 0), None)].
Proof. split; reflexivity. Qed.

(** C75 and following: the application programming interface. *)
From Coq Require Import Permutation Lia.
From Verif Require Import Prelude Json Str Keyword Enums LangTag LangString Container Stack ContextSyntax Ctx Inverse Process
  IriSpec Object ObjectEq ObjectJson Compare Traverse Relabel RelabelProofs PropRelabel Flatten FlattenProofs FlattenSpec PropFlatten Rdf RdfProofs RdfSpec PropRdf
  Sound CompactIri Expand ExpandValue ExpandOk Compact Samples PropSyntax PropExpand Processor ProcessorProofs.

(** What the contexts of the application programming interface guarantee. *)
Lemma aprocess_sound io dl pf o c l b c' : id_laws io -> aprocess io dl pf o c l b = Ok c' -> sound io c -> sound io c'.
Proof.
  intros L H S. unfold aprocess in H. destruct (process_full io (context_loader io dl) pf c l b (jo_popts o)) as [c1|e] eqn:E; [|discriminate]. injection H as <-.
  exact (proj2 (C39_contexts_partial io L) _ _ _ _ _ _ _ E S).
Qed.
Lemma initial_sound io dl pf o d c : id_laws io -> initial_context io dl pf o d = Ok c -> sound io c.
Proof.
  intros L. unfold initial_context. generalize (proj1 (C39_contexts_partial io L) (or_else (jo_base o) (rd_url d))).
  generalize (ctx_new (or_else (jo_base o) (rd_url d))). intros c0 S0 H.
  destruct (jo_expand_context o) as [r|].
  - destruct (load_context io dl r) as [l|e]; [|discriminate]. cbn in H. destruct (aprocess io dl pf o c0 l (ac_orig c0)) as [c1|e] eqn:E; [|discriminate].
    pose proof (aprocess_sound _ _ _ _ _ _ _ _ L E S0) as S1. cbn in H. destruct (rd_context_url d) as [u|]; [|injection H as <-; exact S1].
    destruct (match context_loader io dl u with LdContext l => Ok l | _ => Err AContextLoading end) as [l'|e]; [|discriminate]. cbn in H. exact (aprocess_sound _ _ _ _ _ _ _ _ L H S1).
  - cbn in H. destruct (rd_context_url d) as [u|]; [|injection H as <-; exact S0].
    destruct (match context_loader io dl u with LdContext l => Ok l | _ => Err AContextLoading end) as [l'|e]; [|discriminate]. cbn in H. exact (aprocess_sound _ _ _ _ _ _ _ _ L H S0).
Qed.
Lemma api_expand_wf io fin rnd dl pf n o d l : id_laws io -> api_expand io fin rnd dl pf n o d = Ok l -> Forall (fun x => wf (snd x)) l /\ distinct same_i l.
Proof.
  intros L H. unfold api_expand in H. destruct (initial_context io dl pf o d) as [c|e] eqn:E; [|discriminate]. cbn in H.
  match type of H with map_err _ ?t = _ => destruct t as [l'|e] eqn:X; [|discriminate] end. injection H as <-.
  destruct (C39_partial _ _ _ _ _ _ _ _ _ _ _ L (initial_sound _ _ _ _ _ _ L E) X) as [F D]. split; [|exact D]. eapply Forall_impl; [|exact F]. intros x (_ & W & _). exact W.
Qed.

Lemma api_expand_no_panic io fin rnd dl pf n o d : api_expand io fin rnd dl pf n o d <> Err APanic.
Proof.
  assert (P : forall c l b, aprocess io dl pf o c l b <> Err APanic) by (intros c l b; unfold aprocess; destruct (process_full _ _ _ _ _ _ _); discriminate).
  assert (Q : forall r, load_context io dl r <> Err APanic) by (intros [u|x]; cbn; [destruct (context_loader io dl u)|]; discriminate).
  assert (I : initial_context io dl pf o d <> Err APanic).
  { unfold initial_context. generalize (ctx_new (or_else (jo_base o) (rd_url d))). intros c0.
    assert (R : forall c, match rd_context_url d with Some u => do l <- load_context io dl (RefIri u) ; aprocess io dl pf o c l (Some u) | None => Ok c end <> Err APanic).
    { intros c. destruct (rd_context_url d) as [u|]; [|discriminate]. specialize (Q (RefIri u)). destruct (load_context io dl (RefIri u)) as [l|e]; cbn [bind]; [apply P|congruence]. }
    destruct (jo_expand_context o) as [r|]; [|apply R]. specialize (Q r). destruct (load_context io dl r) as [l|e]; cbn [bind]; [|congruence].
    specialize (P c0 l (ac_orig c0)). destruct (aprocess io dl pf o c0 l (ac_orig c0)) as [c1|e]; cbn [bind]; [apply R|congruence]. }
  unfold api_expand. destruct (initial_context io dl pf o d) as [c|e]; cbn [bind]; [|congruence].
  match goal with |- map_err _ ?t <> _ => destruct t; discriminate end.
Qed.

(** ** C75 *)

(** Comparison of documents whose objects have no repeated keys: it never panics; it holds exactly
    if the documents are the same JSON up to the order of arrays and entries, and expand to the
    same objects in some order; it fails only if one of the expansions fails. *)
Theorem C75_compare : forall io fin rnd dl pf n o d e, id_laws io -> unique_keys (rd_document d) -> unique_keys (rd_document e) ->
  api_compare io fin rnd dl pf n o d e <> Err APanic /\
  (api_compare io fin rnd dl pf n o d e = Ok true <->
    jeq (rd_document d) (rd_document e) /\ exists a b b', api_expand io fin rnd dl pf n o d = Ok a /\ api_expand io fin rnd dl pf n o e = Ok b /\
      Permutation b b' /\ Forall2 same_i a b') /\
  (forall x, api_compare io fin rnd dl pf n o d e = Err x -> jeq (rd_document d) (rd_document e) /\
    (api_expand io fin rnd dl pf n o d = Err x \/ api_expand io fin rnd dl pf n o e = Err x)).
Proof.
  intros io fin rnd dl pf n o d e L Ud Ue. unfold api_compare. destruct (C04_json_compare _ _ Ud Ue) as (r & -> & Hr).
  destruct r.
  2:{ split; [discriminate|]. split; [|discriminate]. split; [discriminate|]. intros [J _]. apply Hr in J. discriminate. }
  pose proof (proj1 Hr eq_refl) as J. assert (NP : forall d', api_expand io fin rnd dl pf n o d' <> Err APanic) by (intros d'; apply api_expand_no_panic).
  destruct (api_expand io fin rnd dl pf n o d) as [a|x] eqn:Ea; cbn [bind].
  2:{ split; [intros X; apply (NP d); congruence|]. split; [split; [discriminate|intros (_ & a & b & b' & X & _); discriminate]|]. intros y [= <-]. auto. }
  destruct (api_expand io fin rnd dl pf n o e) as [b|x] eqn:Eb; cbn [bind].
  2:{ split; [intros X; apply (NP e); congruence|]. split; [split; [discriminate|intros (_ & a' & b & b' & _ & X & _); discriminate]|]. intros y [= <-]. auto. }
  split; [discriminate|]. split; [|discriminate].
  destruct (api_expand_wf _ _ _ _ _ _ _ _ _ L Ea) as [Wa Da]. destruct (api_expand_wf _ _ _ _ _ _ _ _ _ L Eb) as [Wb Db].
  assert (S : same_document fin rnd a b = true <-> reordered same_i a b).
  { unfold same_document. apply set_eqb_spec; [apply same_i_sym|apply same_i_trans|exact Da| |].
    - intros x y [E X]. f_equal. unfold iobj_words. rewrite E. f_equal. apply same_words_both, X.
    - intros x y I K. apply eqb_same; [exact (Forall_in _ _ _ Wa I)|exact (Forall_in _ _ _ Wb K)]. }
  split.
  - intros [= E]. apply S in E. destruct E as [b' P F]. split; [exact J|]. exists a, b, b'. auto.
  - intros (_ & a' & b0 & b' & [= <-] & [= <-] & P & F). f_equal. apply S. exists b'; assumption.
Qed.
Print Assumptions C75_compare.

(** Hence comparison is an equivalence, on the documents that can be expanded. *)
Theorem C75_equivalence : forall io fin rnd dl pf n o d e f, id_laws io ->
  unique_keys (rd_document d) -> unique_keys (rd_document e) -> unique_keys (rd_document f) ->
  (forall a, api_expand io fin rnd dl pf n o d = Ok a -> api_compare io fin rnd dl pf n o d d = Ok true) /\
  (api_compare io fin rnd dl pf n o d e = Ok true -> api_compare io fin rnd dl pf n o e d = Ok true) /\
  (api_compare io fin rnd dl pf n o d e = Ok true -> api_compare io fin rnd dl pf n o e f = Ok true -> api_compare io fin rnd dl pf n o d f = Ok true).
Proof.
  intros io fin rnd dl pf n o d e f L Ud Ue Uf. split; [|split].
  - intros a E. apply C75_compare; try assumption. split; [apply jeq_refl|]. exists a, a, a. split; [exact E|]. split; [exact E|]. split; [apply Permutation_refl|].
    apply Forall2_same. apply Forall_forall. intros x _. split; [reflexivity|apply same_refl].
  - intros C. apply C75_compare in C; try assumption. destruct C as (J & a & b & b' & Ea & Eb & P & F). apply C75_compare; try assumption. split; [apply jeq_sym; exact J|].
    destruct (reordered_sym same_i same_i a b (fun x y _ => same_i_sym x y) (Reordered _ _ _ _ P F)) as [a' P' F']. exists b, a, a'. auto.
  - intros C C'. apply C75_compare in C; try assumption. apply C75_compare in C'; try assumption.
    destruct C as (J & a & b & b' & Ea & Eb & P & F). destruct C' as (J' & b0 & c & c' & Eb0 & Ec & P' & F'). rewrite Eb in Eb0. injection Eb0 as <-.
    apply C75_compare; try assumption. split; [eapply jeq_trans; eassumption|].
    destruct (reordered_trans same_i same_i same_i a b c (fun x y z _ => same_i_trans x y z) (Reordered _ _ _ _ P F) (Reordered _ _ _ _ P' F')) as [c'' P'' F'']. exists a, c, c''. auto.
Qed.
Print Assumptions C75_equivalence.

Definition no_docs : dloader := fun _ => None.
Definition api_doc (j : json) : rdoc json := MkRdoc None None j.
Definition ex_compare (j k : json) : result bool aerr :=
  api_compare sample_iops sample_hash sample_hash no_docs 20 40 jopts_default (api_doc j) (api_doc k).
Definition ex_people (a b : json) (p q : string) : json :=
  JArr [JObj [("@id", JStr "http://a/"); ("http://x/p", a)]; JObj [(p, JStr "v"); (q, b)]].

(** Comparison is finer than equality of expansions: two documents with the same expansion compare
    as different if they are written differently. *)
Theorem C75_same_expansion_refuted : exists j k a,
  api_expand sample_iops sample_hash sample_hash no_docs 20 40 jopts_default (api_doc j) = Ok a /\
  api_expand sample_iops sample_hash sample_hash no_docs 20 40 jopts_default (api_doc k) = Ok a /\ a <> [] /\
  ex_compare j k = Ok false.
Proof.
  exists (JObj [("http://x/p", JStr "v")]), (JObj [("http://x/p", JArr [JStr "v"])]).
  eexists. split; [vm_compute; reflexivity|]. split; [vm_compute; reflexivity|]. split; [discriminate|vm_compute; reflexivity].
Qed.
Print Assumptions C75_same_expansion_refuted.

(** Reordered entries and array items compare as equal; reordered lists do not, although their JSON
    is the same up to order. *)
Example C75_example :
  let l a b := JArr [JObj [("http://x/p", JObj [("@list", JArr [JStr a; JStr b])])]] in
  let j := JArr [JObj [("@id", JStr "http://a/"); ("http://x/p", JArr [JStr "u"; JStr "v"])]; JObj [("http://x/q", JStr "w")]] in
  let k := JArr [JObj [("http://x/q", JStr "w")]; JObj [("http://x/p", JArr [JStr "v"; JStr "u"]); ("@id", JStr "http://a/")]] in
  ex_compare j k = Ok true /\ ex_compare (l "a" "b") (l "b" "a") = Ok false /\ ex_compare (l "a" "b") (l "a" "b") = Ok true /\
  unique_keys j /\ unique_keys k.
Proof.
  cbv zeta. split; [vm_compute; reflexivity|]. split; [vm_compute; reflexivity|]. split; [vm_compute; reflexivity|].
  split; repeat (constructor; cbn; try intuition discriminate).
Qed.

(** ** C76 *)

(** Identifiers that the document [d] gets from the generator. *)
Definition given (d : list iobj) (f : string -> id) (A : list id) (i : id) : Prop := In i A \/ exists b, named_in d (IBlank b) /\ i = f b.

(** The document that [to_rdf] gives is the expansion of its input, where blank nodes are renamed
    apart and anonymous nodes get fresh identifiers ([T]), and where numbers may be in canonical
    form; nothing is lost but duplicates.  Its quads can be enumerated; they state all that its nodes
    say, and nothing else but the cells of lists, the identifiers of which name nothing else. *)
Theorem C76_to_rdf : forall io fin rnd dl pf n ci ri gen o d D k, id_laws io -> never_repeats gen ->
  (forall doc j, api_expand io fin rnd dl pf n (unordered o) d = Ok doc -> named_in doc (of_vid (gen j)) -> exists b, gen j = VBlank b) ->
  api_to_rdf io fin rnd dl pf n ci gen o d = Ok (D, k) ->
  exists doc f A T, api_expand io fin rnd dl pf n (unordered o) d = Ok doc /\
    ren_doc f doc T A /\ no_confusion doc f A /\
    (forall x, In x D -> exists t, In t T /\ fst x = fst t /\ renumbered ci (snd t) (snd x)) /\
    (forall t, In t T -> exists x y, In x D /\ fst y = fst t /\ renumbered ci (snd t) (snd y) /\ same_i x y) /\
    (forall i, given doc f A i -> exists j, j < k /\ i = of_vid (gen j)) /\
    (forall i j, given doc f A i -> i <> of_vid (gen (k + j))) /\
    exists N qs, (forall fuel, N <= fuel -> api_quads ri gen o fuel (D, k) = Some qs) /\
      (forall a z m, occurs_in D a z m -> told ri (fun j => gen (k + j)) (jo_direction o) (jo_generalized o) qs a m) /\
      (forall s p r g, In (s, p, r, g) qs ->
        ((p = r_first \/ p = r_rest) /\ exists j, s = gen (k + j)) \/
        exists a z m i, graph_named a g /\ occurs_in D a z m /\ n_id m = Some i /\ from_node ri (fun j => gen (k + j)) (jo_direction o) m i s p r).
Proof.
  intros io fin rnd dl pf n ci ri gen o d D k L G Fr H. unfold api_to_rdf in H.
  destruct (api_expand io fin rnd dl pf n (unordered o) d) as [doc|e] eqn:Ed; [|discriminate]. cbn [bind] in H.
  assert (G' : PropRelabel.never_repeats (fun k => of_vid (gen k))).
  { intros i j E. apply G. destruct (gen i), (gen j); cbn in E; congruence. }
  destruct (relabel_state fin rnd (fun k => of_vid (gen k)) doc G' (api_expand_wf _ _ _ _ _ _ _ _ _ L Ed)) as (f & A & T & sf & E & C & [WT DT] & R & I1 & I2 & I3 & I4).
  { intros j N. destruct (Fr _ _ eq_refl N) as [b ->]. exists b. reflexivity. }
  unfold relabel_canon in H. rewrite E in H. injection H as HD Hk.
  assert (Sub : forall x, In x D -> exists t, In t T /\ fst x = fst t /\ renumbered ci (snd t) (snd x)).
  { intros x I. subst D. apply (collect_incl fin rnd _ []) in I. cbn [app] in I. apply in_map_iff in I. destruct I as (t & <- & I). exists t. split; [exact I|]. split; [reflexivity|]. apply canon_renumbered. }
  exists doc, f, A, T. split; [reflexivity|]. split; [exact R|]. split; [|split; [exact Sub|split; [|split; [|split]]]].
  - unfold no_confusion. split; [exact I1|]. split; [exact I2|]. split; [exact I3|]. intros i j Gi Nj Nb ->. destruct (I4 j Gi) as (k0 & _ & X). subst j. destruct (Fr _ _ eq_refl Nj) as [b X]. apply (Nb b). rewrite X. reflexivity.
  - intros t I.
    destruct (collect_covers fin rnd (map (fun x => (fst x, canon_o ci (snd x))) T) []) with (x := (fst t, canon_o ci (snd t))) as (x & Ix & Sx).
    + cbn [app]. apply Forall_mapped. eapply Forall_impl; [|exact WT]. intros y W. cbn. apply canon_wf, W.
    + cbn [app]. apply in_map_iff. exists t. auto.
    + exists x, (fst t, canon_o ci (snd t)). subst D. split; [exact Ix|]. split; [reflexivity|]. split; [apply canon_renumbered|exact Sx].
  - intros i Gi. destruct (I4 i Gi) as (j & Hj & X). exists j. subst k. auto.
  - intros i j Gi X. destruct (I4 i Gi) as (j' & Hj & Y). subst i. assert (E' : j' = k + j) by (apply G'; symmetry; exact Y). subst k. lia.
  - assert (Id : identified D).
    { intros a z m (x & Ix & O). destruct (Sub x Ix) as (t & It & Et & Rt). destruct (proj1 (renumbered_occurs ci) _ _ _ _ _ _ _ Rt O) as (m0 & O0 & Rm).
      rewrite (renumbered_id _ _ _ Rm). apply (idd_doc_identified T (ren_doc_idd _ _ _ _ R) a z m0). exists t. split; [exact It|]. rewrite <- Et. exact O0. }
    destruct (rdf_quads_are ri (fun j => gen (k + j)) (jo_direction o) (jo_generalized o) (doc_frames D)) as [N HN].
    destruct (C32_partial ri (fun j => gen (k + j)) (jo_direction o) (jo_generalized o) D Id) as (qs & [fuel Eq] & Ht).
    rewrite (rdf_quads_spec _ _ _ _ _ _ _ Eq) in Ht.
    exists N. eexists. split; [intros fuel' Hf; apply HN; exact Hf|]. split; [exact Ht|].
    apply (C55_only_the_document ri (fun j => gen (k + j)) (jo_direction o) (jo_generalized o) D). exists N. apply HN. lia.
Qed.
Print Assumptions C76_to_rdf.

Definition plain_ci : canon_io := MkCanon (fun x => if streq x "1.0" then "1" else x) (fun j => j).
Definition num_io : rdf_io := MkRdfIo (fun l => negb (streq l "")) (fun _ => "{}") (fun x => streq x "1") (fun n => "1.0E0").
Definition ex_to_rdf (j : json) : result (list iobj * nat) aerr :=
  api_to_rdf sample_iops sample_hash sample_hash no_docs 20 40 plain_ci ex_gen jopts_default (api_doc j).
Definition ex_quads (j : json) : option (list quad) :=
  match ex_to_rdf j with Ok t => api_quads num_io ex_gen jopts_default 60 t | Err _ => None end.

Example C76_example :
  let ls := JArr [JObj [("http://x/p", JObj [("@list", JArr [JNum "1.0"; JObj [("@id", JStr "_:b"); ("http://x/q", JStr "v")]])])];
                  JObj [("@id", JStr "_:b"); ("http://x/q", JStr "w")]] in
  (exists D, ex_to_rdf ls = Ok (D, 2) /\ length D = 2) /\
  ex_quads ls =
    Some [(VBlank "g", VIri "http://x/p", RId (VBlank "g00"), None);
          (VBlank "g00", VIri (rdf "first"), RLit "1" (TAny (xsd "integer")), None);
          (VBlank "g00", VIri (rdf "rest"), RId (VBlank "g000"), None);
          (VBlank "g000", VIri (rdf "first"), RId (VBlank "g0"), None);
          (VBlank "g000", VIri (rdf "rest"), RId (VIri (rdf "nil")), None);
          (VBlank "g0", VIri "http://x/q", RLit "v" (TAny (xsd "string")), None);
          (VBlank "g0", VIri "http://x/q", RLit "w" (TAny (xsd "string")), None)].
Proof. cbv zeta. split; [eexists; split; [vm_compute; reflexivity|reflexivity]|vm_compute; reflexivity]. Qed.

(** ** C77 *)

(** The RDF of a document does not depend on how its numbers are written: if the expansions of two
    documents only differ by numbers (and JSON literals) with the same canonical forms, the
    documents to serialize are the same, and so are the quads.  Missing: graphs and included nodes. *)
Theorem C77_partial : forall io fin rnd dl pf n ci ri gen o d e a b,
  api_expand io fin rnd dl pf n (unordered o) d = Ok a -> api_expand io fin rnd dl pf n (unordered o) e = Ok b ->
  Forall2 (fun x y => fst x = fst y /\ alike ci (snd x) (snd y)) a b ->
  exists t u, api_to_rdf io fin rnd dl pf n ci gen o d = Ok t /\ api_to_rdf io fin rnd dl pf n ci gen o e = Ok u /\
    t = u /\ forall fuel, api_quads ri gen o fuel t = api_quads ri gen o fuel u.
Proof.
  intros io fin rnd dl pf n ci ri gen o d e a b Ea Eb F. unfold api_to_rdf. rewrite Ea, Eb. cbn [bind].
  eexists. eexists. split; [reflexivity|]. split; [reflexivity|].
  match goal with |- ?x = ?y /\ _ => assert (E : x = y) end; [|split; [exact E|intros fuel; rewrite E; reflexivity]].
  unfold relabel_canon.
  destruct (alike_relabel_l ci (fun k => of_vid (gen k)) (assign_id (fun k => of_vid (gen k))) (collect_o fin rnd) (collect_n fin rnd) a b F env0) as [Q E].
  destruct (relabel_l _ _ _ _ env0 a) as [a' s], (relabel_l _ _ _ _ env0 b) as [b' s']. cbn in Q, E. subst s'. f_equal. f_equal.
  induction Q as [|x y a' b' [E R] Q IH]; [reflexivity|]. cbn. rewrite E, (proj1 (alike_canon ci) _ _ R). f_equal. exact IH.
Qed.
Print Assumptions C77_partial.

(** In a graph, or in an included node, numbers are left as they are written: the RDF then depends
    on it, as in [in_graph], where 1 and 1.0 do not have the same datatype. *)
Definition in_graph (x : string) : json :=
  JArr [JObj [("@id", JStr "http://x/g"); ("@graph", JArr [JObj [("@id", JStr "http://x/s"); ("http://x/p", JNum x)]])]].
Definition in_included (x : string) : json :=
  JArr [JObj [("@id", JStr "http://x/g"); ("@included", JArr [JObj [("@id", JStr "http://x/s"); ("http://x/p", JNum x)]])]].
Definition int_quad (g : option vid) : quad := (VIri "http://x/s", VIri "http://x/p", RLit "1" (TAny (xsd "integer")), g).
Definition double_quad (g : option vid) : quad := (VIri "http://x/s", VIri "http://x/p", RLit "1.0E0" (TAny (xsd "double")), g).
Theorem C77_refuted : canon_num plain_ci "1.0" = canon_num plain_ci "1" /\
  ex_quads (in_graph "1") = Some [int_quad (Some (VIri "http://x/g"))] /\ ex_quads (in_graph "1.0") = Some [double_quad (Some (VIri "http://x/g"))] /\
  ex_quads (in_included "1") = Some [int_quad None] /\ ex_quads (in_included "1.0") = Some [double_quad None].
Proof. repeat split; vm_compute; reflexivity. Qed.
Print Assumptions C77_refuted.
Example C77_example :
  let top x := JArr [JObj [("@id", JStr "http://x/s"); ("http://x/p", JNum x)]] in
  ex_quads (top "1") = Some [int_quad None] /\ ex_quads (top "1.0") = Some [int_quad None] /\
  alike_value plain_ci (VLit (LNum "1.0") None) (VLit (LNum "1") None).
Proof. split; [vm_compute; reflexivity|]. split; [vm_compute; reflexivity|]. constructor. reflexivity. Qed.

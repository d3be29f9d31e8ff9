(** C82: flattening, through the application programming interface. *)
From Coq Require Import Permutation Lia.
From Verif Require Import Prelude Json Str Keyword Enums LangTag LangString Container Stack ContextSyntax Ctx Inverse Process
  IriSpec Object ObjectEq ObjectJson ObjectJsonProofs PropObject Traverse Compare Relabel RelabelProofs PropRelabel Flatten FlattenProofs FlattenSpec FlattenEffect FlattenOutput PropFlatten FlattenWf Rdf Sound CompactIri Expand ExpandValue ExpandFuel ExpandOk BaseFree Laws Compact RoundTrip OrigFree
  Samples PropSyntax PropExpand PropCompactIri PropTrip PropCompact PropLaws PropLaws2 Processor ProcessorProofs PropProcessor PropProcessor2.

(** ** C82 *)

(** [out] is flat, and says what [doc] says once its blank nodes are renamed apart and its anonymous
    nodes named (the claims of C27 and C28). *)
Definition flattening (doc : list iobj) (out : list inode) : Prop :=
  flat_doc out /\ exists f A T, ren_doc f doc T A /\ no_confusion doc f A /\
    (forall a i p o, says (as_doc out) a i p o -> says T a i p o) /\
    (forall a i p o, says T a i p o -> exists o', says (as_doc out) a i p o' /\ same_i o' o) /\
    (forall a i t, says_type (as_doc out) a i t -> says_type T a i t) /\
    (forall a i t, says_type T a i t ->
      (forall z n z' n' ts ts', occurs_in T a z n -> n_id n = Some i -> n_types n = Some ts -> occurs_in T a z' n' -> n_id n' = Some i -> n_types n' = Some ts' -> ts = ts') ->
      (a = None \/ (exists p o, says T a i p o) \/ exists x n, occurs_in T a (Some x) n /\ n_id n = Some i) -> says_type (as_doc out) a i t).
Lemma flatten_flattening fin rnd pg pn po gen doc out : any_order pg -> (forall a, any_order (pn a)) -> any_order po ->
  never_repeats gen -> (forall k, named_in doc (gen k) -> exists b, gen k = IBlank b) ->
  flatten fin rnd pg pn po gen doc = Ok out -> flattening doc out.
Proof. intros Hg Hn Ho G Fr E. split; [exact (C27_flat fin rnd pg pn po gen doc out Hg Hn Ho E)|exact (C28_partial fin rnd pg pn po gen doc out Hg Hn Ho G Fr E)]. Qed.
(** No property, at any depth, is called like an entry of node objects (see C39_refuted). *)
Definition free_keys (doc : list iobj) : Prop :=
  forall x m p l, In x doc -> inside true (snd x) (ONode m) -> In (p, l) (n_props m) -> ~ In (id_str p) reserved.

(** Without a context the output is an array; its items, read one by one, are the nodes of a
    flattening of the expansion of the document.  Included nodes, which cannot be written in
    expanded form, are not an obstacle. *)
Theorem C82_flatten : forall io fin rnd rel dl pf n pg pn po gen o d doc j, any_order pg -> (forall a, any_order (pn a)) -> any_order po ->
  id_laws io -> never_repeats gen -> (forall k, named_in doc (gen k) -> exists b, gen k = IBlank b) -> (forall k, readable io (gen k)) ->
  api_expand io fin rnd dl pf n (unordered o) d = Ok doc -> free_keys doc ->
  api_flatten io fin rnd rel dl pf n pg pn po gen o None d = Ok j ->
  exists js out, j = JArr js /\ flattening doc out /\ Forall2 (fun y x => try_node_from_json io fin rnd y = Ok x) js out.
Proof.
  intros io fin rnd rel dl pf n pg pn po gen o d doc j Hg Hn Ho L G Fr Rg Ed Fk H. unfold api_flatten in H. rewrite Ed in H. cbn [bind] in H.
  destruct (flatten fin rnd pg pn po gen doc) as [out|e] eqn:E; [|discriminate]. cbn [map_err bind] in H. injection H as <-.
  exists (map inode_json out), out. split; [reflexivity|]. split; [eapply flatten_flattening; eassumption|].
  destruct (relabelled_gen gen doc G Fr) as (f & A & R & _ & Gi). set (T := fst (relabel_l gen (assign_id gen) ide ide env0 doc)) in *.
  assert (Wd : Forall (fun x => writable io (snd x)) doc).
  { unfold api_expand in Ed. destruct (initial_context io dl pf (unordered o) d) as [c|e] eqn:Ec; [|discriminate]. cbn [bind] in Ed.
    match type of Ed with map_err _ ?t = _ => destruct t as [l'|e] eqn:X; [|discriminate] end. injection Ed as ->.
    destruct (C39_partial _ _ _ _ _ _ _ _ _ _ _ L (initial_sound _ _ _ _ _ _ L Ec) X) as [F _]. apply Forall_forall. intros x I. destruct (Forall_in _ _ _ F I) as (Gx & _).
    apply (proj1 (good_writable io _ L) _ Gx). intros m p l. exact (Fk x m p l I). }
  assert (WT : Forall (fun x => writable io (snd x)) T).
  { apply Forall_forall. intros y I. destruct (each_given _ _ _ _ _ R I) as (x & B & J & [_ R'] & S). eapply (proj1 (ren_writable io f)); [exact (Forall_in _ _ _ Wd J)|exact R'| |].
    - apply Forall_forall. intros i K. destruct (Gi i (or_introl (S i K))) as (k & ->). apply Rg.
    - intros b Nb. destruct (Gi (f b)) as (k & ->); [right; exists b; split; [exists x; split; [exact J|exact Nb]|reflexivity]|apply Rg]. }
  pose proof (flatten_printable fin rnd pg pn po Hg Hn Ho gen doc out E io (ren_doc_idd _ _ _ _ R) WT) as P. pose proof (proj1 (flatten_wf fin rnd pg pn po Hg Hn Ho gen doc out E)) as W.
  clear - P W. induction out as [|[i x] out IH]; [constructor|]. inversion P; inversion W; subst. constructor; [|auto]. apply C24_node_partial; assumption.
Qed.
Print Assumptions C82_flatten.

(** With a context: the output, read at the same address, is such a flattening. *)
Theorem C82_compacted : forall io fin rnd rel dl pf n pg pn po gen o r u cu j doc l c1 b jv, any_order pg -> (forall a, any_order (pn a)) -> any_order po ->
  let own := match jo_base o with Some b => Some b | None => u end in
  let outer := match u with Some u => Some u | None => jo_base o end in
  id_laws io -> never_repeats gen -> (forall k, named_in doc (gen k) -> exists b, gen k = IBlank b) ->
  jo_vocab o = AKeep -> load_context io dl r = Ok l ->
  compaction_context io dl pf o u l = Ok (with_orig b c1) -> simple_context c1 ->
  reads_context io (context_loader io dl) pf (jo_xopts o) outer c1 (ctx_new own) (context_to_json l) ->
  api_expand io fin rnd dl pf n (unordered o) (MkRdoc u cu j) = Ok doc ->
  (forall out, flattening doc out -> flatten fin rnd pg pn po gen doc = Ok out ->
    Forall (fun x => kept io rel (jo_mode o) c1 x /\ full_node x) (as_doc out) /\ forall ix g, as_doc out <> [(ix, ONode (MkNode None None (Some g) None [] None))]) ->
  api_flatten io fin rnd rel dl pf n pg pn po gen o (Some r) (MkRdoc u cu j) = Ok jv -> json_size jv < n -> jo_expand_context o = None ->
  exists out doc', flattening doc out /\ api_expand io fin rnd dl pf n o (MkRdoc u None jv) = Ok doc' /\ Forall2 same_i (as_doc out) doc'.
Proof.
  intros io fin rnd rel dl pf n pg pn po gen o r u cu j doc l c1 b jv Hg Hn Ho own outer L G Fr VK EL EC SC RC ED HF EJ LN NE.
  unfold api_flatten in EJ. rewrite ED in EJ. cbn [bind rd_url] in EJ. destruct (flatten fin rnd pg pn po gen doc) as [out|e] eqn:E; [|discriminate]. cbn [map_err bind] in EJ.
  pose proof (flatten_flattening _ _ _ _ _ _ _ _ Hg Hn Ho G Fr E) as FF. destruct (HF out FF eq_refl) as [F NU].
  destruct (flatten_wf fin rnd pg pn po Hg Hn Ho gen doc out E) as [W D]. exists out. change (map (fun x => (fst x, ONode (snd x))) out) with (as_doc out) in EJ.
  unfold compact_expanded in EJ. rewrite EL in EJ. cbn [bind] in EJ. rewrite EC in EJ. cbn [bind] in EJ.
  match type of EJ with map_err _ ?t = _ => destruct t as [jv'|e] eqn:X; [|discriminate] end. injection EJ as ->.
  rewrite compact_orig in X.
  2:{ apply SC. }
  2:{ intros ap d Pd. apply (sd_context d). exact (prop_simple c1 SC ap d Pd). }
  destruct (C61_round_trip io (context_loader io dl) fin rnd pf (jo_xopts o) outer rel (jo_copts o) n (ctx_new own) c1 (context_to_json l) (as_doc out) jv (dl_iri io L) VK SC RC) as (doc' & N & S & EE); try assumption.
  { rewrite Forall_forall in *. intros x I. destruct (F x I) as [A B]. split; [exact A|]. split; [|exact B]. apply in_map_iff in I. destruct I as (y & <- & I). constructor. exact (W y I). }
  exists doc'. split; [exact FF|]. split; [|exact S]. unfold api_expand, initial_context. cbn [rd_url rd_context_url rd_document]. rewrite NE. cbn [bind].
  change (or_else (jo_base o) u) with own. change (or_else u (jo_base o)) with outer.
  specialize (EE (Nat.max N n) (Nat.le_max_l _ _)). unfold expand in *. rewrite (expand_stable _ _ _ _ _ _ _ n) in EE by (exact LN || apply Nat.le_max_r). rewrite EE. reflexivity.
Qed.
Print Assumptions C82_compacted.

(** Flattening fails only if the document cannot be expanded, if a node has two indexes in one
    graph, or if the result cannot be compacted. *)
Theorem C82_failures : forall io fin rnd rel dl pf n pg pn po gen o r d e, any_order pg -> (forall a, any_order (pn a)) -> any_order po ->
  never_repeats gen -> api_flatten io fin rnd rel dl pf n pg pn po gen o r d = Err e ->
  (forall doc k, api_expand io fin rnd dl pf n (unordered o) d = Ok doc -> named_in doc (gen k) -> exists b, gen k = IBlank b) ->
  api_expand io fin rnd dl pf n (unordered o) d = Err e \/
  exists doc, api_expand io fin rnd dl pf n (unordered o) d = Ok doc /\
   ((exists f A T i x y, ren_doc f doc T A /\ no_confusion doc f A /\ conflicting T /\ e = AFlatten (FConflict i x y) /\ x <> y) \/
    (exists out c, flattening doc out /\ r = Some c /\ compact_expanded io rel dl pf n o (rd_url d) c (as_doc out) = Err e)).
Proof.
  intros io fin rnd rel dl pf n pg pn po gen o r d e Hg Hn Ho G H Fr. unfold api_flatten in H.
  destruct (api_expand io fin rnd dl pf n (unordered o) d) as [doc|e'] eqn:Ed; [|left; cbn in H; injection H as ->; reflexivity].
  right. exists doc. split; [reflexivity|]. cbn [bind] in H. specialize (Fr doc). assert (Fr' : forall k, named_in doc (gen k) -> exists b, gen k = IBlank b) by (intros k; exact (Fr k eq_refl)).
  destruct (flatten fin rnd pg pn po gen doc) as [out|e'] eqn:E; cbn [map_err bind] in H.
  - right. destruct r as [c|]; [|discriminate]. exists out, c. split; [eapply flatten_flattening; eassumption|]. split; [reflexivity|exact H].
  - left. injection H as <-. destruct (C29_conflicts fin rnd pg pn po gen doc Hg Hn Ho G Fr') as (f & A & T & R & C & CT & X). destruct (X e' E) as (i & x & y & a & n0 & m & -> & Nxy & _).
    exists f, A, T, i, x, y. split; [exact R|]. split; [exact C|]. split; [apply CT; eauto|]. split; [reflexivity|exact Nxy].
Qed.
Print Assumptions C82_failures.

(** A generator that never repeats itself. *)
Fixpoint many (k : nat) : string := match k with O => "" | S k => String "b" (many k) end.
Definition gen_u (k : nat) : id := IBlank ("_:b" +++ many k).
Lemma gen_u_never : never_repeats gen_u.
Proof. intros j k [= E]. revert k E. induction j as [|j IH]; intros [|k]; cbn; try discriminate; [reflexivity|]. intros [= E]. f_equal. apply IH, E. Qed.
Lemma gen_u_readable k : readable sample_iops (gen_u k).
Proof. reflexivity. Qed.
Definition api_flatten_ex (o : jopts) (r : option (dref lcontext)) (d : rdoc json) : result json aerr :=
  api_flatten sample_iops sample_hash sample_hash sample_rel no_docs 20 40 keep_order (fun _ => keep_order) keep_order gen_u o r d.
(** An anonymous node, and an included node. *)
Definition c82_doc : json :=
  JObj [("@id", JStr "http://d/s"); ("http://x/q", JObj [("http://x/q", JStr "v")]); ("@included", JObj [("@id", JStr "_:t"); ("http://x/q", JObj [("@id", JStr "http://d/s")])])].
Definition c82_out : list inode :=
  let q := IIri "http://x/q" in
  [(None, MkNode (Some (IIri "http://d/s")) None None None [(q, [ref (IBlank "_:bb")])] None);
   (None, MkNode (Some (IBlank "_:b")) None None None [(q, [ref (IIri "http://d/s")])] None);
   (None, MkNode (Some (IBlank "_:bb")) None None None [(q, [str "v"])] None)].
Definition c82_expanded : list iobj :=
  let q := IIri "http://x/q" in
  [(None, ONode (MkNode (Some (IIri "http://d/s")) None None (Some [(None, MkNode (Some (IBlank "_:t")) None None None [(q, [ref (IIri "http://d/s")])] None)])
    [(q, [(None, ONode (MkNode None None None None [(q, [str "v"])] None))])] None))].
Lemma c82_ids : kept_id sample_iops sample_rel c81_context (IIri "http://d/s") /\ kept_id sample_iops sample_rel c81_context (IBlank "_:b") /\ kept_id sample_iops sample_rel c81_context (IBlank "_:bb").
Proof.
  split; [|split].
  - split; [reflexivity|]. split; [split|].
    + intros p d t x A P. apply c81_terms in A. destruct A as [-> ->]. discriminate P.
    + intros d k A. apply c81_terms in A. destruct A as [A _]. discriminate A.
    + intros b [= <-] _. cbv zeta. split; [reflexivity|]. split; [|repeat split; vm_compute; reflexivity].
      intros d k A. apply c81_terms in A. destruct A as [A _]. vm_compute in A. discriminate A.
    + intros (k & d & A & V). apply c81_terms in A. destruct A as [-> ->]. discriminate V.
  - split; try reflexivity; [exists "_", "b"; repeat split; vm_compute; (reflexivity || discriminate)|..].
    + intros k d A. apply c81_terms in A. destruct A as [-> ->]. discriminate.
    + discriminate.
    + intros p d t x A P. apply c81_terms in A. destruct A as [-> ->]. discriminate P.
  - split; try reflexivity; [exists "_", "bb"; repeat split; vm_compute; (reflexivity || discriminate)|..].
    + intros k d A. apply c81_terms in A. destruct A as [-> ->]. discriminate.
    + discriminate.
    + intros p d t x A P. apply c81_terms in A. destruct A as [-> ->]. discriminate P.
Qed.
Lemma c82_node i (x : iobj) : kept_id sample_iops sample_rel c81_context i -> kept sample_iops sample_rel JsonLd11 c81_context x ->
  kept_node sample_iops sample_rel JsonLd11 c81_context (None, MkNode (Some i) None None None [(IIri "http://x/q", [x])] None).
Proof.
  intros K Kx. constructor.
  - intros y [= <-]. exact K.
  - discriminate.
  - constructor.
  - constructor.
  - reflexivity.
  - constructor.
  - constructor; [|constructor]. split; [split; [|reflexivity]|split].
    + split; [reflexivity|]. split; [intros k d A _; apply c81_terms in A; destruct A as [-> ->]; reflexivity|intros d A; discriminate A|intros m y V; discriminate V|].
      intros p d t y A P. apply c81_terms in A. destruct A as [-> ->]. discriminate P.
    + split; intros k d A V C; apply c81_terms in A; destruct A as [-> ->]; discriminate C.
    + constructor; [exact Kx|constructor].
  - discriminate.
  - constructor.
  - intros _ E. discriminate E.
Qed.
Lemma c82_ref i : kept_id sample_iops sample_rel c81_context i -> kept sample_iops sample_rel JsonLd11 c81_context (ref i).
Proof.
  intros K. constructor. constructor; cbn [opt_list]; try apply Forall_nil; try discriminate; [intros y [= <-]; exact K|reflexivity|left; reflexivity].
Qed.
Lemma c82_kept : Forall (fun x => kept sample_iops sample_rel JsonLd11 c81_context x /\ full_node x) (as_doc c82_out).
Proof.
  destruct c82_ids as (K1 & K2 & K3). repeat (constructor; [split; [|eexists; split; reflexivity]; constructor; apply c82_node; [assumption|]|]); [apply c82_ref, K3|apply c82_ref, K1| |constructor].
  constructor. split; discriminate.
Qed.
Example C82_example :
  let d := MkRdoc (Some "http://d/") None in
  let jv := JObj [("@context", c81_json); ("@graph", JArr [JObj [("@id", JStr "s"); ("q", JObj [("@id", JStr "_:bb")])];
    JObj [("@id", JStr "_:b"); ("q", JObj [("@id", JStr "s")])]; JObj [("@id", JStr "_:bb"); ("q", JStr "v")]])] in
  api_flatten_ex jopts_default None (d c82_doc) =
    Ok (JArr [JObj [("@id", JStr "http://d/s"); ("http://x/q", JArr [JObj [("@id", JStr "_:bb")]])];
              JObj [("@id", JStr "_:b"); ("http://x/q", JArr [JObj [("@id", JStr "http://d/s")]])];
              JObj [("@id", JStr "_:bb"); ("http://x/q", JArr [JObj [("@value", JStr "v")]])]]) /\
  flattening c82_expanded c82_out /\
  api_flatten_ex jopts_default (Some (local c81_json)) (d c82_doc) = Ok jv /\
  exists out doc', flattening c82_expanded out /\ api_ex no_docs jopts_default (d jv) = Ok doc' /\ Forall2 same_i (as_doc out) doc'.
Proof.
  cbv zeta. assert (Fr : forall k, named_in c82_expanded (gen_u k) -> exists b, gen_u k = IBlank b) by (intros k _; eexists; reflexivity).
  assert (KO : forall A, any_order (@keep_order A)) by (intros A l; apply Permutation_refl).
  split; [vm_compute; reflexivity|]. split.
  { apply (flatten_flattening sample_hash sample_hash keep_order (fun _ => keep_order) keep_order gen_u); [apply KO|intros a; apply KO|apply KO|exact gen_u_never|exact Fr|vm_compute; reflexivity]. }
  split; [vm_compute; reflexivity|].
  refine (C82_compacted sample_iops sample_hash sample_hash sample_rel no_docs 20 40 keep_order (fun _ => keep_order) keep_order gen_u jopts_default (local c81_json) (Some "http://d/") None c82_doc c82_expanded c81_local c81_context None _
    (KO _) (fun _ => KO _) (KO _) sample_id_laws gen_u_never Fr eq_refl _ _ c81_simple _ _ _ _ _ eq_refl).
  - vm_compute; reflexivity.
  - vm_compute; reflexivity.
  - split; [reflexivity|]. exists c81_local. split; vm_compute; reflexivity.
  - vm_compute; reflexivity.
  - intros out _ E. assert (out = c82_out) as ->. { assert (X : flatten sample_hash sample_hash keep_order (fun _ => keep_order) keep_order gen_u c82_expanded = Ok c82_out) by (vm_compute; reflexivity). congruence. }
    split; [exact c82_kept|discriminate].
  - vm_compute; reflexivity.
  - vm_compute; lia.
Qed.

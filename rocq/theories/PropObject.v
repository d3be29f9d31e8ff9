(** Expanded objects: equality, hashing and the JSON form. *)
From Verif Require Import Prelude Json Enums LangTag LangString Str Keyword Container ContextSyntax Ctx Process Samples Object ObjectEq ObjectJson ObjectJsonProofs.

(** ** C23 *)

(** Multisets of any element type whose equality [e] decides an equivalence [R]. *)
Theorem C23_multiset {A} (e : A -> A -> bool) (R : A -> A -> Prop) :
  (forall x, R x x) -> (forall x y, R x y -> R y x) -> (forall x y z, R x y -> R y z -> R x z) ->
  (forall x y, e x y = true <-> R x y) ->
  (forall a b, compare_unordered e a b = true <-> exists b', Permutation b b' /\ Forall2 R a b') /\
  (forall a, compare_unordered e a a = true) /\
  (forall a b, compare_unordered e a b = compare_unordered e b a) /\
  (forall a b c, compare_unordered e a b = true -> compare_unordered e b c = true -> compare_unordered e a c = true) /\
  (forall fin f, (forall x y, R x y -> f x = f y) -> forall a b, compare_unordered e a b = true -> sum_words fin f a = sum_words fin f b).
Proof.
  intros Re Sy Tr H.
  assert (S : forall a b, compare_unordered e a b = true <-> reordered R a b).
  { intros a b. apply compare_unordered_spec; [apply equiv_trans; assumption|]. intros; apply H. }
  split; [|split; [|split; [|split]]].
  - intros a b. rewrite S. split; [intros [m P F]; eauto|intros (m & P & F); exists m; assumption].
  - intros a. apply S, reordered_refl, Forall_forall. auto.
  - intros a b. apply eq_true_iff_eq. rewrite !S. split; apply reordered_sym; auto.
  - intros a b c. rewrite !S. apply reordered_trans. intros x y z _. apply Tr.
  - intros fin f Hf a b. rewrite S. apply sum_words_same. auto.
Qed.
Print Assumptions C23_multiset.

(** Multisets of indexed objects, the ones of the crate, for every hasher. *)
Theorem C23_objects fin rnd : forall a b, Forall (fun x => wf (snd x)) a -> Forall (fun x => wf (snd x)) b ->
  (compare_unordered (iobj_eqb fin rnd) a b = true <-> exists b', Permutation b b' /\ Forall2 same_i a b') /\
  compare_unordered (iobj_eqb fin rnd) a b = compare_unordered (iobj_eqb fin rnd) b a /\
  (compare_unordered (iobj_eqb fin rnd) a b = true -> sum_words fin (iobj_words fin) a = sum_words fin (iobj_words fin) b).
Proof.
  assert (S : forall a b, Forall (fun x => wf (snd x)) a -> Forall (fun x => wf (snd x)) b ->
    (compare_unordered (iobj_eqb fin rnd) a b = true <-> reordered same_i a b)).
  { intros a b Wa Wb. apply compare_unordered_spec; [apply equiv_trans; [apply same_i_sym|apply same_i_trans]|].
    intros x y I J. unfold iobj_eqb, same_i. rewrite andb_true_iff, opt_streq.
    rewrite (proj1 (eqb_both fin rnd) _ _ (Forall_in _ _ _ Wa I) (Forall_in _ _ _ Wb J)). reflexivity. }
  intros a b Wa Wb. split; [|split].
  - rewrite S by assumption. split; [intros [m P F]; eauto|intros (m & P & F); exists m; assumption].
  - apply eq_true_iff_eq. rewrite !S by assumption. split; apply reordered_sym; intros x y _; apply same_i_sym.
  - rewrite S by assumption. apply sum_words_same. intros x y _ [E X]. unfold iobj_words. rewrite E, (proj1 (same_words_both fin) _ _ X). reflexivity.
Qed.
Print Assumptions C23_objects.

(** Equality of single objects and nodes is exactly [same], an equivalence, and equal objects have equal hashes. *)
Theorem C23_object fin rnd :
  (forall a b, wf a -> wf b -> (obj_eqb fin rnd a b = true <-> same a b)) /\
  (forall a b, wf_node a -> wf_node b -> (node_eqb fin rnd a b = true <-> same_node a b)) /\
  (forall a, wf a -> obj_eqb fin rnd a a = true) /\
  (forall a b, wf a -> wf b -> obj_eqb fin rnd a b = obj_eqb fin rnd b a) /\
  (forall a b c, wf a -> wf b -> wf c -> obj_eqb fin rnd a b = true -> obj_eqb fin rnd b c = true -> obj_eqb fin rnd a c = true) /\
  (forall a b, wf a -> wf b -> obj_eqb fin rnd a b = true -> obj_words fin a = obj_words fin b).
Proof.
  destruct (eqb_both fin rnd) as [Eo En]. split; [exact Eo|]. split; [exact En|]. split; [|split; [|split]].
  - intros a W. apply Eo; [exact W|exact W|apply same_refl].
  - intros a b Wa Wb. apply eq_true_iff_eq. rewrite !Eo by assumption. split; apply same_sym.
  - intros a b c Wa Wb Wc. rewrite !Eo by assumption. apply same_trans.
  - intros a b Wa Wb. rewrite Eo by assumption. apply same_words_both.
Qed.
Print Assumptions C23_object.

(** The hypothesis of these theorems holds of everything the parser of expanded documents returns. *)
Theorem C23_parsed io fin rnd j i o : try_from_json io fin rnd j = Ok (i, o) -> wf o.
Proof. intros H. exact (proj1 (parse_wf io fin rnd _) _ _ H). Qed.
Print Assumptions C23_parsed.

Definition ex_val (s : string) : iobj := (None, OVal (VLit (LStr s) None)).
Definition ex_node (vs ws : list iobj) : obj :=
  ONode (MkNode (Some (IIri "http://s/")) (Some [IIri "http://c/"; IIri "http://d/"]) None None [(IIri "http://p/", vs); (IIri "http://q/", ws)] None).
Example C23_example :
  let fin := fun w => N.of_nat (length w) in
  obj_eqb fin fin (ex_node [ex_val "a"; ex_val "b"; ex_val "a"] []) (ex_node [ex_val "a"; ex_val "a"; ex_val "b"] []) = true /\
  obj_eqb fin fin (ex_node [ex_val "a"; ex_val "b"; ex_val "a"] []) (ex_node [ex_val "a"; ex_val "b"; ex_val "b"] []) = false /\
  obj_eqb fin fin (OVal (VLang (MkLS "x" (Some "EN") None))) (OVal (VLang (MkLS "x" (Some "en") None))) = true /\
  obj_eqb fin fin (OList [ex_val "a"; ex_val "b"]) (OList [ex_val "b"; ex_val "a"]) = false.
Proof. vm_compute. auto. Qed.

(** ** C24 *)

(** Missing: objects with included nodes, or an empty [types] list, or identifiers and property
    keys whose text reads as something else (an [Id::Invalid] holding an IRI, a property called
    "@id"); [printable] excludes them.  The refutations below show that the first two are lost. *)
Theorem C24_partial io fin rnd i o : printable io o -> wf o -> try_from_json io fin rnd (iobj_json (i, o)) = Ok (i, o).
Proof. intros P W. apply (round_trip_both io fin rnd); [assumption|assumption|apply le_n]. Qed.
Print Assumptions C24_partial.

Theorem C24_node_partial io fin rnd i n : printable_node io n -> wf_node n -> try_node_from_json io fin rnd (inode_json (i, n)) = Ok (i, n).
Proof.
  intros P W. destruct (proj2 (round_trip_both io fin rnd) n P W) as (m & E & NI & _ & X).
  unfold try_node_from_json, inode_json. cbn [fst snd]. rewrite E. pose proof (index_size i m NI) as L.
  destruct (json_size (with_index i (JObj m))) as [|k] eqn:S; [pose proof (json_pos (with_index i (JObj m))); lia|].
  rewrite parse_n_S, index_parse by exact NI. rewrite X; [reflexivity|exact L].
Qed.
Print Assumptions C24_node_partial.

(** The parser itself never gives up for lack of depth: objects of any nesting are read. *)
Theorem C24_any_depth io fin rnd j : try_from_json io fin rnd j <> Err JFuel /\ try_node_from_json io fin rnd j <> Err JFuel.
Proof. apply try_no_fuel. Qed.
Print Assumptions C24_any_depth.

(** [Node::into_json] writes included nodes under "@include", which is read back as a property. *)
Definition ex_included : obj :=
  ONode (MkNode (Some (IIri "http://s/")) None None (Some [(None, node_new (Some (IIri "http://i/")))]) [] None).
Theorem C24_refuted fin rnd : exists o, wf o /\
  (forall o', try_from_json sample_iops fin rnd (iobj_json (None, o)) = Ok (None, o') -> ~ same o o') /\
  (exists o', try_from_json sample_iops fin rnd (iobj_json (None, o)) = Ok (None, o')).
Proof.
  exists ex_included. split; [repeat constructor|]. split; [|eexists; vm_compute; reflexivity].
  intros o' H. vm_compute in H. injection H as <-. intros S. inversion S as [|? ? N|]; subst. inversion N as [? ? ? ? ? ? ? ? ? ? ? ? ? B]; subst. inversion B.
Qed.
Print Assumptions C24_refuted.
(** A node with an empty list of types comes back without list of types, which is not equal. *)
Theorem C24_types_refuted fin rnd : exists o, wf o /\ printable sample_iops (ONode (node_new None)) /\
  try_from_json sample_iops fin rnd (iobj_json (None, o)) = Ok (None, ONode (node_new None)) /\ obj_eqb fin rnd o (ONode (node_new None)) = false.
Proof.
  exists (ONode (MkNode None (Some []) None None [] None)). split; [repeat constructor|]. split.
  - constructor. constructor; try constructor; discriminate.
  - split; reflexivity.
Qed.
Print Assumptions C24_types_refuted.

Example C24_example :
  let o := ONode (MkNode (Some (IIri "http://s/")) (Some [IIri "http://c/"; IBlank "_:b"]) (Some [(Some "g", ex_node [] [])]) None
     [(IIri "http://p/", [(Some "1", OList [ex_val "a"; (None, OVal (VLang (MkLS "x" (Some "EN") (Some Rtl))))])])]
     (Some [(IIri "http://r/", [(None, node_new (Some (IBlank "_:c")))])])) in
  let fin := fun w => N.of_nat (length w) in
  try_from_json sample_iops fin fin (iobj_json (Some "ix", o)) = Ok (Some "ix", o) /\ json_size (iobj_json (Some "ix", o)) = 29.
Proof. vm_compute. auto. Qed.

(** ** C53 *)
Theorem C53_reserialize io fin rnd j i o : try_from_json io fin rnd j = Ok (i, o) -> plain o ->
  try_from_json io fin rnd (iobj_json (i, o)) = Ok (i, o).
Proof.
  intros H P. apply C24_partial.
  - exact (proj1 (parse_printable io fin rnd _) _ _ H P).
  - exact (C23_parsed io fin rnd j i o H).
Qed.
Print Assumptions C53_reserialize.
Definition ex_doc : json :=
  JObj [("@id", JStr "http://s/"); ("@index", JStr "ix"); ("@type", JArr [JStr "http://c/"; JStr "_:b"; JStr "odd"]);
        ("@graph", JArr [JObj [("@id", JStr "_:x")]; JObj [("@id", JStr "_:x")]]);
        ("http://p/", JArr [JObj [("@value", JStr "v"); ("@language", JStr "en")]; JObj [("@list", JArr [JObj [("@value", JBool true)]])]])].
Example C53_example : let fin := fun w => N.of_nat (length w) in
  exists i o, try_from_json sample_iops fin fin ex_doc = Ok (i, o) /\ plain o /\ i = Some "ix" /\
    iobj_json (i, o) <> ex_doc /\ try_from_json sample_iops fin fin (iobj_json (i, o)) = Ok (i, o).
Proof.
  eexists _, _. split; [vm_compute; reflexivity|]. split; [repeat constructor; discriminate|]. split; [reflexivity|].
  split; [vm_compute; discriminate|vm_compute; reflexivity].
Qed.

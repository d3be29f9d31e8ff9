(** The main node of a document: C99. *)
From Verif Require Import Prelude Json Enums LangTag LangString Str Keyword Container ContextSyntax Ctx Object ObjectEq ObjectJson Relabel RelabelProofs MapIds Processor
  PropRelabel MainNode.

(** ** C99 *)

(** The main node is the only node at the root; there is none when no node is, or several are. *)
Theorem C99_only : forall d, match main_node d with
  | Some n => only_node d n
  | None => (forall x, In x d -> ~ is_a_node x) \/ many_nodes d
  end.
Proof. intros d. destruct (main_node d) as [n|] eqn:E; [apply main_only|apply main_none]; exact E. Qed.
Print Assumptions C99_only.
Theorem C99_found : forall d n, only_node d n -> main_node d = Some n.
Proof. intros d n. apply main_only. Qed.
Print Assumptions C99_found.

(** Relabelling and identification keep it: it is the same node with new names, and there is none where there was none. *)
Definition same_main (f : string -> id) (d d' : list iobj) (A : list id) : Prop :=
  match main_node d, main_node d' with
  | Some n, Some n' => exists B, ren_node f n n' B /\ incl B A
  | None, None => True
  | _, _ => False
  end.
Theorem C99_relabel : forall fin rnd gen d, never_repeats gen -> wf_doc d ->
  (forall k, named_in d (gen k) -> exists b, gen k = IBlank b) ->
  exists f A, same_main f d (relabel fin rnd gen d) A /\ (forall b b', named_in d (IBlank b) -> named_in d (IBlank b') -> f b = f b' -> b = b') /\ NoDup A.
Proof.
  intros fin rnd gen d G W Fr. destruct (C26_partial fin rnd gen d G W Fr) as (f & A & R & I & N & _). exists f, A. split; [exact (ren_main _ _ _ _ R)|]. split; [exact I|exact N].
Qed.
Print Assumptions C99_relabel.
Theorem C99_identify : forall fin rnd gen d, never_repeats gen -> wf_doc d -> (forall k, ~ named_in d (gen k)) ->
  exists A, same_main IBlank d (identify fin rnd gen d) A /\ NoDup A.
Proof.
  intros fin rnd gen d G W Fr. destruct (C54_identify fin rnd gen d G W Fr) as (A & R & N & _). exists A. split; [exact (ren_main _ _ _ _ R)|exact N].
Qed.
Print Assumptions C99_identify.

(** Mapping identifiers and putting literals in canonical form keep a main node, *)
Theorem C99_map_ids : forall fin rnd f g d n, main_node d = Some n -> main_node (doc_ids fin rnd f g d) = Some (node_ids fin rnd f g n).
Proof. intros fin rnd f g d n. apply (main_mapped fin rnd (iobj_hash fin rnd) (obj_ids fin rnd f g)). intros [v|m|l]; [discriminate|reflexivity|discriminate]. Qed.
Print Assumptions C99_map_ids.
Theorem C99_canonicalize : forall fin rnd ci d n, main_node d = Some n -> main_node (canonicalize fin rnd ci d) = Some (canon_n ci n).
Proof. intros fin rnd ci d n. apply (main_mapped fin rnd _ (canon_o ci)). intros [v|m|l]; [discriminate|reflexivity|discriminate]. Qed.
Print Assumptions C99_canonicalize.

(** but may give one to a document that has none, by making two nodes equal. *)
Definition c99_node (u : string) : iobj := (None, ONode (node_new (Some (IIri u)))).
Theorem C99_appears_refuted : exists fin rnd f g d, wf_doc d /\ many_nodes d /\ main_node d = None /\ main_node (doc_ids fin rnd f g d) <> None.
Proof.
  exists word_fin, word_fin, (fun s => s), (fun _ => IIri "http://c/"), [c99_node "http://a/"; c99_node "http://b/"]. split; [|split; [|split; [reflexivity|vm_compute; discriminate]]].
  - split.
    + repeat constructor.
    + constructor; [|repeat constructor]. constructor; [|constructor]. intros [_ S]. inversion S as [|? ? X|]; subst. inversion X.
  - exists [], (c99_node "http://a/"), [], (c99_node "http://b/"), []. split; [reflexivity|]. split; eexists; reflexivity.
Qed.
Print Assumptions C99_appears_refuted.

(** The document with a value and a list of nodes beside its main node. *)
Definition c99_doc (o : list iobj) : list iobj := [(None, OVal (VLit (LStr "v") None)); (Some "i", ONode (node_new None)); (None, OList o)].
Example C99_example : main_node (c99_doc [c99_node "http://a/"]) = Some (node_new None) /\
  main_node (relabel word_fin word_fin gen_b (c99_doc [c99_node "http://a/"])) = Some (node_new (Some (IBlank "_:g0"))) /\
  main_node (c99_node "http://a/" :: c99_doc []) = None /\ main_node [(None, OList [c99_node "http://a/"])] = None.
Proof. repeat split; vm_compute; reflexivity. Qed.

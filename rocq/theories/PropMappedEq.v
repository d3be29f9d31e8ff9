(** C83: equality up to a mapping of blank node identifiers. *)
From Verif Require Import Prelude Json Enums LangTag LangString Str Keyword Container ContextSyntax Ctx Object ObjectEq MappedEq.

(** Two objects are equal under [f] exactly when the second is the first with its blank nodes
    renamed by [f], up to the order of sets and of properties, types aside. *)
Theorem C83_partial : forall f a b, obj_meq f a b = true <-> same (bare_o (put f a)) (bare_o b).
Proof. intros f. exact (proj1 (meq_both f)). Qed.
Print Assumptions C83_partial.

Theorem C83_node_partial : forall f a b, node_meq f a b = true <-> same_node (bare_n (put_node f a)) (bare_n b).
Proof. intros f. exact (proj2 (meq_both f)). Qed.
Print Assumptions C83_node_partial.

Theorem C83_document_partial : forall f a b,
  doc_meq f a b = true <-> reordered same_i (map (fun x => (fst x, bare_o (put f (snd x)))) a) (map (fun x => (fst x, bare_o (snd x))) b).
Proof. intros f a b. apply set_meq. apply Forall_forall. intros x _. exact (proj1 (meq_both f) (snd x)). Qed.
Print Assumptions C83_document_partial.

(** A renamed copy is always found equal. *)
Theorem C83_copy : forall f a b, same (put f a) b -> obj_meq f a b = true.
Proof. intros f a b S. apply C83_partial. apply same_bare_both, S. Qed.
Print Assumptions C83_copy.

(** Without types, an object found equal is a renamed copy. *)
Theorem C83_untyped : forall f a b, no_types a -> no_types b -> (obj_meq f a b = true <-> same (put f a) b).
Proof.
  intros f a b A B. rewrite C83_partial, (proj1 no_types_bare b B), (proj1 no_types_bare _ (proj1 (no_types_put f) a A)). reflexivity.
Qed.
Print Assumptions C83_untyped.

(** With types it may not be one: types are not compared. *)
Definition c83_node (ts : option (list id)) (ps : list (id * list iobj)) : obj := ONode (MkNode None ts None None ps None).
Theorem C83_types_refuted : exists a b, obj_meq (fun x => x) a b = true /\ ~ same (put (fun x => x) a) b.
Proof.
  exists (c83_node (Some [IIri "http://x/A"]) []), (c83_node (Some [IIri "http://x/B"]) []). split; [reflexivity|].
  cbn. intros S. inversion S as [|? ? N|]; subst. inversion N; subst.
  match goal with T : both _ (Some _) (Some _) |- _ => inversion T as [|? ? O]; subst end.
  destruct (reordered_in _ _ _ (IIri "http://x/A") O) as (y & [<-|[]] & E); [left; reflexivity|discriminate E].
Qed.

(** Two different blank nodes may be mapped to the same one. *)
Definition c83_ref (b : string) : iobj := (None, ONode (MkNode (Some (IBlank b)) None None None [] None)).
Definition c83_map (b : string) : string := if streq b "_:a" then "_:x" else "_:y".
Example C83_example :
  let a := c83_node None [(IIri "http://x/p", [c83_ref "_:a"; c83_ref "_:b"]); (IIri "http://x/q", [c83_ref "_:a"])] in
  let b := c83_node None [(IIri "http://x/q", [c83_ref "_:x"]); (IIri "http://x/p", [c83_ref "_:y"; c83_ref "_:x"])] in
  let c := c83_node None [(IIri "http://x/q", [c83_ref "_:y"]); (IIri "http://x/p", [c83_ref "_:y"; c83_ref "_:x"])] in
  obj_meq c83_map a b = true /\ obj_meq c83_map a c = false /\ obj_meq (fun x => x) a b = false.
Proof. repeat split; vm_compute; reflexivity. Qed.

(** Properties of linked data: C86. *)
From Verif Require Import Prelude Json Enums LangTag LangString Str Keyword Container ContextSyntax Ctx
  Object ObjectEq ObjectJson CompactIri Expand ExpandOk Rdf Samples PropObject PropExpand LinkedData LinkedDataProofs LinkedDataMore.

(** ** C86 *)

(** The linked data of an expanded document, serialized: exactly what remains of it. *)
Theorem C86_exact : forall io fin rnd e, Forall (fun x => ordinary (snd x)) e ->
  serialize io fin rnd (doc_data io e) = Ok (oset fin rnd (map (fun x => (None, remains_top io fin rnd (snd x))) e)).
Proof. exact serialize_exact. Qed.
Print Assumptions C86_exact.

(** A document comes back if and only if nothing in it is of the kinds that are lost. *)
Theorem C86_round_trip : forall io fin rnd e, Forall (fun x => ordinary (snd x) /\ wf (snd x)) e -> distinct same_i e ->
  (serialize io fin rnd (doc_data io e) = Ok e <-> Forall (fun x => fst x = None /\ kept io (snd x)) e).
Proof. exact serialize_kept. Qed.
Print Assumptions C86_round_trip.

(** Data whose predicates are identifiers, whose nodes are not literals and whose lists have
    nothing but items can be serialized. *)
Theorem C86_proper : forall io fin rnd d,
  Forall (fun g => match fst g with GNamed r => not_literal r | GDefault => True end /\ Forall proper (snd g)) d ->
  exists e, serialize io fin rnd d = Ok e.
Proof. exact serialize_proper. Qed.
Print Assumptions C86_proper.

(** The kinds of errors. *)
Theorem C86_errors : forall io fin rnd p os e,
  (forall i, p <> Some (DId i)) ->
  serialize_node io fin rnd (MkSubj None ((EPred p, os) :: e)) = Err SInvalidPredicate /\
  serialize_node io fin rnd (MkSubj None ((ERev p, os) :: e)) = Err SInvalidPredicate /\
  (forall l, serialize_node io fin rnd (MkSubj (Some (DLit l)) e) = Err SInvalidNode) /\
  (forall l, serialize io fin rnd [(GNamed (Some (DLit l)), os)] = Err SInvalidGraph).
Proof. intros io fin rnd [[i|l]|] os e N; [contradiction (N i eq_refl)|repeat split; reflexivity|repeat split; reflexivity]. Qed.
Print Assumptions C86_errors.

(** Lists: an object is never serialized into a list, whatever the data. *)
Theorem C86_never_a_list : forall io fin rnd s l, serialize_object io fin rnd s <> Ok (OList l).
Proof. exact never_a_list. Qed.
Print Assumptions C86_never_a_list.

(** A subject with any predicates, repeated or not: the references of all [rdf:type] predicates are
    its types, in order, and of the other predicates the last one counts. *)
Theorem C86_predicates : forall io fin rnd i (ps : list (id * list subj)) n,
  serialize_node io fin rnd (MkSubj (Some (DId i)) (map (fun e => (EPred (Some (DId (fst e))), snd e)) ps)) = Ok n ->
  exists es, Forall2 (fun e x => fst x = fst e /\ map_r (serialize_object io fin rnd) (snd e) = Ok (snd x)) ps es /\
    n_id n = Some i /\ n_graph n = None /\ n_included n = None /\ n_reverse n = None /\ NoDup (map fst (n_props n)) /\
    opt_list (n_types n) = flat_map (fun e => if id_eqb (fst e) (IIri (rdf "type")) then references (snd e) else []) es /\
    forall p l, p <> IIri (rdf "type") -> (In (p, l) (n_props n) <-> exists os, is_last p os es /\ l = map (fun o => (None, o)) os).
Proof.
  intros io fin rnd i ps n H. unfold serialize_node in H. rewrite ser_eq in H. cbn [ser_of r_node] in H. unfold visit_node in H.
  destruct (pred_visits io fin rnd ps _ _ H) as (es & F & ->). exists es. split; [exact F|]. exact (add_all_spec es i).
Qed.
Print Assumptions C86_predicates.
(** The objects of [rdf:first] are all kept, and the last one is there twice; in what follows
    [rdf:rest], included nodes and reverse properties are errors. *)
Theorem C86_first : forall io fin rnd os l o, map_r (serialize_object io fin rnd) os = Ok (l ++ [o]) ->
  serialize_object io fin rnd (MkSubj None [(iri_pred (rdf "first"), os)]) =
  Ok (ONode (MkNode None None None None [(IIri (rdf "first"), map (fun x => (None, x)) (l ++ [o; o]))] None)).
Proof. exact first_objects. Qed.
Print Assumptions C86_first.
Theorem C86_rest_errors : forall io fin rnd os vs r p,
  serialize_object io fin rnd (MkSubj None [(iri_pred (rdf "rest"), [MkSubj r ((EIncl, os) :: vs)])]) = Err SListInclude /\
  serialize_object io fin rnd (MkSubj None [(iri_pred (rdf "rest"), [MkSubj r ((ERev p, os) :: vs)])]) = Err SListReverse.
Proof. intros. split; reflexivity. Qed.
Print Assumptions C86_rest_errors.

(** *** What does not hold *)
Definition sample_ldops : ldops := MkLd (fun t => negb (streq t "!")) (fun n => if contains_char "." n then None else Some n)
  (fun n => (n +++ "E0")%string) (fun t n => if streq t (xsd "integer") then Some (XNum n t) else None) (fun _ => true).
Definition sample_ld (e : list iobj) : result (list iobj) serr := serialize sample_ldops sample_hash sample_hash (doc_data sample_ldops e).
Definition a_node (ps : list (id * list iobj)) : obj := ONode (MkNode (Some (IIri "http://a/s")) None None None ps None).
Definition a_str (s : string) : obj := OVal (VLit (LStr s) None).

Ltac shape := repeat match goal with
  | |- wf _ => constructor | |- wf_node _ => constructor | |- kept _ _ => constructor | |- kept_node _ _ => constructor
  | |- ordinary _ => constructor | |- ordinary_node _ => constructor | |- ordinary_key _ => repeat split; discriminate
  | |- Forall _ _ => constructor | |- _ /\ _ => split | |- NoDup _ => constructor | |- distinct _ _ => constructor
  | |- ~ In _ _ => cbn; intuition discriminate
  | |- forall j, _ = Some j -> _ => intros j E; inversion E; subst; reflexivity
  | _ => cbn; intuition congruence end.
(** A list of values comes back as nodes with none of the values. *)
Theorem C86_list_refuted : exists l : list iobj, Forall (fun x => kept sample_ldops (snd x)) l /\
  sample_ld [(None, a_node [(IIri "http://a/p", [(None, OList l)])])] =
    Ok [(None, a_node [(IIri "http://a/p", [(None, ONode (MkNode None None None None
      [(IIri (rdf "first"), []); (IIri (rdf "rest"), [(None, ONode (node_new None)); (None, OList [(None, OVal (VLit LNull None))])])] None))])])].
Proof. exists [(None, a_str "x")]. split; [repeat constructor|vm_compute; reflexivity]. Qed.
Print Assumptions C86_list_refuted.
(** Indexes, directions, types of booleans, nulls and the graph of a node that has properties. *)
Theorem C86_lost_refuted :
  sample_ld [(Some "i", a_node [])] = Ok [(None, a_node [])] /\
  sample_ld [(None, a_node [(IIri "http://a/p", [(None, OVal (VLang (MkLS "x" (Some "ar") (Some Rtl))))])])] =
    Ok [(None, a_node [(IIri "http://a/p", [(None, OVal (VLang (MkLS "x" (Some "ar") None)))])])] /\
  sample_ld [(None, a_node [(IIri "http://a/p", [(None, OVal (VLit (LBool true) (Some "http://a/T"))); (None, OVal (VLit LNull None)); (None, OVal (VLit (LNum "1.5") None))])])] =
    Ok [(None, a_node [(IIri "http://a/p", [(None, OVal (VLit (LBool true) None)); (None, a_str "null"); (None, OVal (VLit (LStr "1.5E0") (Some (xsd "double"))))])])] /\
  sample_ld [(None, ONode (MkNode (Some (IIri "http://a/s")) None (Some [(None, a_node [])]) None [(IIri "http://a/p", [(None, a_str "x")])] None))] =
    Ok [(None, a_node [(IIri "http://a/p", [(None, a_str "x")])])].
Proof. repeat split; vm_compute; reflexivity. Qed.
Print Assumptions C86_lost_refuted.
(** The property [rdf:type] becomes a type. *)
Theorem C86_type_refuted : exists o, wf o /\ kept sample_ldops o /\ sample_ld [(None, o)] <> Ok [(None, o)].
Proof.
  exists (a_node [(IIri (rdf "type"), [(None, ONode (node_new (Some (IIri "http://a/T"))))])]).
  split; [shape|]. split; [shape|vm_compute; discriminate].
Qed.
Print Assumptions C86_type_refuted.
(** An anonymous node whose [rdf:rest] has reverse properties is an error, though it is an
    expanded document that has nothing lost. *)
Theorem C86_rest_refuted : exists o, wf o /\ kept sample_ldops o /\
  sample_ld [(None, a_node [(IIri "http://a/p", [(None, o)])])] = Err SListReverse.
Proof.
  exists (ONode (MkNode None None None None [(IIri (rdf "rest"), [(None, ONode (MkNode None None None None [] (Some [(IIri "http://a/q", [])])))])] None)).
  split; [shape|]. split; [shape|vm_compute; reflexivity].
Qed.
Print Assumptions C86_rest_refuted.

(** *** Example *)
Definition c86_doc : list iobj :=
  [(None, ONode (MkNode (Some (IBlank "_:b")) (Some [IIri "http://a/T"; IIri "http://a/U"]) None (Some [(None, node_new (Some (IIri "http://a/i")))])
     [(IIri "http://a/p", [(None, OVal (VLang (MkLS "x" (Some "en") None))); (None, OVal (VLit (LNum "12") None)); (None, a_node [])]);
      (IIri "http://a/q", [(None, OVal (VLit (LStr "1") (Some "http://a/D"))); (None, OVal (VJson (JArr [JNull])))])]
     (Some [(IIri "http://a/r", [(None, node_new None)])])));
   (None, ONode (MkNode (Some (IIri "http://a/g")) None (Some [(None, a_node [(IIri "http://a/p", [(None, OVal (VLit (LBool true) None))])])]) None [] None))].
Example C86_example : sample_ld c86_doc = Ok c86_doc.
Proof. vm_compute. reflexivity. Qed.
Example C86_example_kept : Forall (fun x => ordinary (snd x) /\ fst x = None /\ kept sample_ldops (snd x)) c86_doc.
Proof. shape. Qed.
(** A repeated predicate and a repeated [rdf:type]. *)
Example C86_example_predicates :
  let t s := [MkSubj (Some (DId (IIri s))) []] in let v s := [MkSubj (Some (DLit (DXsd (XStr s)))) []] in
  serialize_node sample_ldops sample_hash sample_hash (MkSubj (Some (DId (IIri "http://a/s")))
    [(iri_pred (rdf "type"), t "http://a/T"); (iri_pred "http://a/p", v "x"); (iri_pred (rdf "type"), t "http://a/U"); (iri_pred "http://a/p", v "y")]) =
  Ok (MkNode (Some (IIri "http://a/s")) (Some [IIri "http://a/T"; IIri "http://a/U"]) None None [(IIri "http://a/p", [(None, a_str "y")])] None).
Proof. vm_compute. reflexivity. Qed.
(** A type with something else in it remains a property. *)
Example C86_example_type :
  serialize_node sample_ldops sample_hash sample_hash (MkSubj (Some (DId (IIri "http://a/s")))
    [(iri_pred (rdf "type"), [MkSubj (Some (DId (IIri "http://a/T"))) [(iri_pred "http://a/p", [])]])]) =
  Ok (MkNode (Some (IIri "http://a/s")) None None None
    [(IIri (rdf "type"), [(None, ONode (MkNode (Some (IIri "http://a/T")) None None None [(IIri "http://a/p", [])] None))])] None).
Proof. vm_compute. reflexivity. Qed.

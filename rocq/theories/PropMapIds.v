(** C89: mapping the identifiers of a document. *)
From Verif Require Import Prelude Json Enums LangTag LangString Str Keyword Container ContextSyntax Ctx Object ObjectEq ObjectJson MapIds MapIdsProofs.

(** An expanded document: a set of objects. *)
Definition well_formed (d : list iobj) : Prop := Forall (fun x => wf (snd x)) d /\ distinct same_i d.
Definition node_of (d : list iobj) (n : node) : Prop := exists x, In x d /\ inside (snd x) n.
Definition same_doc (d e : list iobj) : Prop := reordered same_i d e.

Section Doc.
  Variables (fin rnd : list word -> N) (f : string -> string) (g : id -> id).
  Lemma doc_cover d : Forall wfi (doc_ids fin rnd f g d) /\ distinct same_i (doc_ids fin rnd f g d) /\
    (forall x, In x (doc_ids fin rnd f g d) -> exists y, In y d /\ x = iobj_ids fin rnd f g y) /\
    (forall y, In y d -> exists x, In x (doc_ids fin rnd f g d) /\ same_i x (iobj_ids fin rnd f g y)).
  Proof.
    destruct (iset_facts fin rnd _ (ids_wfi fin rnd f g d)) as (A1 & A2 & A3 & A4). repeat split; auto.
    - intros x I. apply A3, in_map_iff in I. destruct I as (y & E & I). eauto.
    - intros y I. apply A4, List.in_map, I.
  Qed.
End Doc.

(** Whatever the mappings, the result is a document again: sets have no two equal elements,
    properties occur once. *)
Theorem C89_well_formed : forall fin rnd f g d, well_formed (doc_ids fin rnd f g d).
Proof. intros. split; apply doc_cover. Qed.
Print Assumptions C89_well_formed.

(** Mappings that keep identifiers apart rename, in place, and do nothing else. *)
Theorem C89_renamed : forall fin rnd f g d, (forall a b, f a = f b -> a = b) -> (forall a b, g a = g b -> a = b) ->
  well_formed d -> doc_ids fin rnd f g d = map (renamed_i f g) d.
Proof.
  intros fin rnd f g d Hf Hg [W D]. unfold doc_ids.
  assert (E : map (iobj_ids fin rnd f g) d = map (renamed_i f g) d).
  { apply map_ext_in. intros x I. unfold iobj_ids, renamed_i. f_equal. apply (renamed_both fin rnd f g Hf Hg), (Forall_in _ _ _ W I). }
  rewrite (collect_set_distinct _ _ same_i wfi (ieqb fin rnd)); [exact E|apply ids_wfi|].
  rewrite E. eapply distinct_map; [|exact D]. intros x y [E' X]. split; [exact E'|]. apply (renamed_same_both f g Hf Hg), X.
Qed.
Print Assumptions C89_renamed.

Theorem C89_identity : forall fin rnd d, well_formed d -> doc_ids fin rnd (fun u => u) (fun i => i) d = d.
Proof.
  intros fin rnd d W. rewrite C89_renamed; auto. apply map_id_in. intros [i x] _. unfold renamed_i. cbn. f_equal. apply renamed_id_both.
Qed.
Print Assumptions C89_identity.

(** Equal documents stay equal. *)
Theorem C89_same : forall fin rnd f g d e, same_doc d e -> same_doc (doc_ids fin rnd f g d) (doc_ids fin rnd f g e).
Proof.
  intros fin rnd f g d e S. apply reordered_cover in S; [|apply same_i_sym]. destruct S as [H K].
  apply iset_reordered; try apply ids_wfi.
  - intros x I. apply in_map_iff in I. destruct I as (y & <- & I). destruct (H y I) as (z & J & E & S). exists (iobj_ids fin rnd f g z).
    split; [apply List.in_map, J|]. split; [exact E|]. apply ids_same_both, S.
  - intros x I. apply in_map_iff in I. destruct I as (y & <- & I). destruct (K y I) as (z & J & E & S). exists (iobj_ids fin rnd f g z).
    split; [apply List.in_map, J|]. split; [exact E|]. apply ids_same_both, S.
Qed.
Print Assumptions C89_same.

(** Mapping twice is mapping once with the composition, even if identifiers are merged. *)
Theorem C89_compose : forall fin rnd f1 f2 g1 g2 d,
  same_doc (doc_ids fin rnd f2 g2 (doc_ids fin rnd f1 g1 d)) (doc_ids fin rnd (fun u => f2 (f1 u)) (fun i => g2 (g1 i)) d).
Proof.
  intros. destruct (doc_cover fin rnd f1 g1 d) as (_ & _ & I1 & C1). apply iset_reordered; try apply ids_wfi.
  - intros x I. apply in_map_iff in I. destruct I as (y & <- & I). apply I1 in I. destruct I as (z & I & ->).
    eexists. split; [apply List.in_map, I|]. split; [reflexivity|]. apply compose_both.
  - intros x I. apply in_map_iff in I. destruct I as (z & <- & I). destruct (C1 z I) as (y & J & E & S).
    eexists. split; [apply List.in_map, J|]. split; [exact E|]. cbn. eapply same_trans; [apply ids_same_both, S|]. apply compose_both.
Qed.
Print Assumptions C89_compose.

(** A mapping that can be undone is undone. *)
Theorem C89_undone : forall fin rnd f f' g g' d, (forall u, f' (f u) = u) -> (forall i, g' (g i) = i) -> well_formed d ->
  same_doc (doc_ids fin rnd f' g' (doc_ids fin rnd f g d)) d.
Proof.
  intros fin rnd f f' g g' d F G W. rewrite <- (C89_identity fin rnd d W) at 2.
  assert (E : doc_ids fin rnd (fun u => f' (f u)) (fun i => g' (g i)) d = doc_ids fin rnd (fun u => u) (fun i => i) d).
  { unfold doc_ids. f_equal. apply map_ext. intros x. unfold iobj_ids. f_equal. apply ids_ext_both; assumption. }
  rewrite <- E. apply C89_compose.
Qed.
Print Assumptions C89_undone.

(** Nothing is lost: what a node says is said, with mapped identifiers, in the result. *)
Theorem C89_kept : forall fin rnd f g d n c, node_of d n -> says n c ->
  exists n' c', node_of (doc_ids fin rnd f g d) n' /\ same_node (node_ids fin rnd f g n) n' /\ says n' c' /\ same_fact (fact_ids fin rnd f g c) c'.
Proof.
  intros fin rnd f g d n c (x & I & H) S. destruct (proj1 (inside_kept_both fin rnd f g) _ _ H) as (m & K & X).
  destruct (proj2 (proj2 (proj2 (doc_cover fin rnd f g d))) x I) as (y & J & Y). apply same_i_sym in Y. destruct Y as [_ Y].
  destruct (proj1 inside_same_both _ _ _ Y K) as (m' & K' & X').
  destruct (says_kept fin rnd f g n c S) as (c1 & S1 & F1).
  assert (X'' : same_node (node_ids fin rnd f g n) m') by (eapply same_trans_both; eassumption).
  destruct (says_same _ _ _ X'' S1) as (c2 & S2 & F2). exists m', c2. repeat split; auto.
  - exists y. auto.
  - clear -F1 F2. destruct F1; inversion F2; subst; constructor; try (eapply same_i_trans; eassumption); eapply same_in_trans; eassumption.
Qed.
Print Assumptions C89_kept.

(** Nothing is added: every node of the result is a mapped node, and says what this node says. *)
Theorem C89_only : forall fin rnd f g d n', node_of (doc_ids fin rnd f g d) n' ->
  exists n, node_of d n /\ n' = node_ids fin rnd f g n /\ forall c', says n' c' -> exists c, says n c /\ c' = fact_ids fin rnd f g c.
Proof.
  intros fin rnd f g d n' (x & I & H). destruct (proj1 (proj2 (proj2 (doc_cover fin rnd f g d))) x I) as (y & J & ->).
  destruct (proj1 (inside_only_both fin rnd f g) _ _ H) as (n & K & ->). exists n. split; [exists y; auto|]. split; [reflexivity|]. apply says_only.
Qed.
Print Assumptions C89_only.

(** A hash function with many collisions. *)
Definition size_hash (l : list word) : N := N.of_nat (length l).
(** Two properties become one, two nodes of a graph become one, a datatype is mapped. *)
Definition merge (i : id) : id := match i with IIri "http://a/q" => IIri "http://a/p" | IBlank "_:c" => IBlank "_:b" | _ => i end.
Definition merge_iri (u : string) : string := if streq u "http://a/t" then "http://a/u" else u.
Definition sample_ids : list iobj :=
  [(None, ONode (MkNode (Some (IBlank "_:c")) (Some [IIri "http://a/q"]) None None
      [(IIri "http://a/p", [(None, OVal (VLit (LStr "1") (Some "http://a/t")))]); (IIri "http://a/r", []);
       (IIri "http://a/q", [(Some "i", OVal (VLit (LStr "2") None))])] None));
   (None, ONode (MkNode (Some (IIri "http://a/g")) None
      (Some [(None, ONode (node_new (Some (IBlank "_:b")))); (None, ONode (node_new (Some (IBlank "_:c"))))]) None [] None))].
Example C89_example : doc_ids size_hash size_hash merge_iri merge sample_ids =
  [(None, ONode (MkNode (Some (IBlank "_:b")) (Some [IIri "http://a/p"]) None None
      [(IIri "http://a/p", [(None, OVal (VLit (LStr "1") (Some "http://a/u"))); (Some "i", OVal (VLit (LStr "2") None))]); (IIri "http://a/r", [])] None));
   (None, ONode (MkNode (Some (IIri "http://a/g")) None
      (Some [(None, ONode (node_new (Some (IBlank "_:b"))))]) None [] None))].
Proof. vm_compute. reflexivity. Qed.
(** The values of merged properties may come in another order than in one step. *)
Theorem C89_order_refuted : exists f1 f2 g1 g2 d, well_formed d /\
  doc_ids size_hash size_hash f2 g2 (doc_ids size_hash size_hash f1 g1 d) <> doc_ids size_hash size_hash (fun u => f2 (f1 u)) (fun i => g2 (g1 i)) d.
Proof.
  exists (fun u => u), (fun u => u), merge, (fun _ => IIri "http://a/p"),
    [(None, ONode (MkNode None None None None [(IIri "http://a/p", [(None, OVal (VLit (LStr "1") None))]);
       (IIri "http://a/r", [(None, OVal (VLit (LStr "2") None))]); (IIri "http://a/q", [(None, OVal (VLit (LStr "3") None))])] None))].
  split.
  - split; [|repeat constructor]. constructor; [|constructor]. cbn. constructor. constructor; cbn; try constructor; cbn; repeat constructor; cbn; intuition discriminate.
  - vm_compute. discriminate.
Qed.
Print Assumptions C89_order_refuted.

(** C25: what the traversal of an expanded document visits. *)
From Verif Require Import Prelude Json Enums LangTag LangString Str Keyword Container ContextSyntax Ctx Object ObjectEq Traverse.

(** The identifiers [blank_ids] gives, for a traversal giving [l]. *)
Definition visited (l : list frag) (x : obj) : Prop := exists f, In f l /\ frag_ref f = Some x.
Definition reported (l : list frag) (b : string) : Prop := In b (flat_map blank_of l).
Lemma reported_spec l b : reported l b <-> exists f, In f l /\ frag_id f = Some (IBlank b).
Proof.
  unfold reported. rewrite in_flat_map. split; intros (f & I & H); exists f; split; try exact I; unfold blank_of in *.
  - destruct (frag_id f) as [[u|c|s]|]; try contradiction. cbn in H. destruct H as [->|[]]. reflexivity.
  - rewrite H. left. reflexivity.
Qed.

(** Exactly the values, lists and nodes not inside a list are visited; an item of the traversal is
    given for each of them, once.  Missing for C25: items of lists. *)
Theorem C25_partial : forall d, exists l, yields (doc_stack d) l /\
  (forall x, visited l x <-> exists y, In y d /\ inside false (snd y) x) /\
  length (filter is_obj l) = list_sum (map (fun y => ocount (snd y)) d).
Proof.
  intros d. destruct (traverse_doc d) as (l & Y & M & C). exists l. split; [exact Y|]. split; [|exact C].
  intros x. unfold visited. split.
  - intros (f & I & E). apply M in I. destruct I as (y & I & R). exists y. split; [exact I|]. exact (reach_fwithin _ _ _ R E).
  - intros (y & I & W). destruct (fwithin_reach x (FIObj y) (good_iobj y) W) as (g & R & E). exists g. split; [apply M; eauto|exact E].
Qed.
Print Assumptions C25_partial.

(** The blank node identifiers reported are exactly those of nodes, types and properties outside
    lists.  Missing for C25: lists, and names of reverse properties. *)
Theorem C25_blank_partial : forall d, exists l, yields (doc_stack d) l /\ forall b, reported l b <-> mentions false false d b.
Proof.
  intros d. destruct (traverse_doc d) as (l & Y & M & _). exists l. split; [exact Y|].
  intros b. rewrite reported_spec. unfold mentions. split.
  - intros (f & I & E). apply M in I. destruct I as (y & I & R). destruct (reach_fids _ _ _ R E) as [[]|(n & W & O)]. exists y, n. auto.
  - intros (y & n & I & W & O). destruct (fids_reach b (FIObj y) (good_iobj y)) as (g & R & E); [right; exists n; auto|].
    exists g. split; [apply M; eauto|exact E].
Qed.
Print Assumptions C25_blank_partial.

(** Whatever the traversal gives is determined: two traversals of a document agree. *)
Theorem C25_deterministic : forall st l l', yields st l -> yields st l' -> l = l'.
Proof. exact yields_det. Qed.
Print Assumptions C25_deterministic.

(** C25 as stated, for documents in which every list is empty and no reverse property is named by
    a blank node. *)
Definition no_items (d : list iobj) : Prop := forall y l, In y d -> inside true (snd y) (OList l) -> l = [].
Definition no_blank_reverse (d : list iobj) : Prop :=
  forall y n p b, In y d -> inside true (snd y) (ONode n) -> In p (opt_list (n_reverse n)) -> fst p <> IBlank b.
Lemma inside_trans r o n x : inside r o (ONode n) -> inside_node r n x -> inside r o x
with inside_node_trans r m n x : inside_node r m (ONode n) -> inside_node r n x -> inside_node r m x.
Proof.
  - intros W V. inversion W as [|l y z E I W'|m z W']; subst.
    + constructor. exact V.
    + eapply InList; [reflexivity|eassumption|]. eapply inside_trans; eassumption.
    + constructor. eapply inside_node_trans; eassumption.
  - intros W V. inversion W as [? y ? I W'|? y ? I W'|? p y ? I J W'|? p y ? I J W']; subst.
    + eapply InGraph; [eassumption|]. eapply inside_trans; eassumption.
    + eapply InIncluded; [eassumption|]. eapply inside_trans; eassumption.
    + eapply InProp; [eassumption|eassumption|]. eapply inside_trans; eassumption.
    + eapply InReverse; [eassumption|eassumption|]. eapply inside_trans; eassumption.
Qed.
Lemma inside_no_items r o x : inside r o x -> (forall l, inside r o (OList l) -> l = []) -> inside false o x
with inside_node_no_items r n x : inside_node r n x -> (forall l, inside_node r n (OList l) -> l = []) -> inside_node false n x.
Proof.
  - intros W H. destruct W as [o|l y x E I W|n x W].
    + constructor.
    + rewrite (H l (InSelf r (OList l))) in I. destruct I.
    + constructor. apply (inside_node_no_items r); [exact W|]. intros l V. apply H. constructor. exact V.
  - intros W H. destruct W as [n y x I W|n y x I W|n p y x I J W|n p y x I J W].
    + eapply InGraph; [eassumption|]. apply (inside_no_items r); [exact W|]. intros l V. apply H. eapply InGraph; eassumption.
    + eapply InIncluded; [eassumption|]. apply (inside_no_items r); [exact W|]. intros l V. apply H. eapply InIncluded; eassumption.
    + eapply InProp; [eassumption|eassumption|]. apply (inside_no_items r); [exact W|]. intros l V. apply H. eapply InProp; eassumption.
    + eapply InReverse; [eassumption|eassumption|]. apply (inside_no_items r); [exact W|]. intros l V. apply H. eapply InReverse; eassumption.
Qed.
Theorem C25_without_lists : forall d, no_items d -> no_blank_reverse d -> exists l, yields (doc_stack d) l /\
  (forall x, visited l x <-> exists y, In y d /\ inside true (snd y) x) /\
  (forall b, reported l b <-> mentions true true d b).
Proof.
  intros d N R. destruct (C25_partial d) as (l & Y & V & _). destruct (C25_blank_partial d) as (l' & Y' & B).
  rewrite <- (yields_det _ _ _ Y Y') in B. exists l. split; [exact Y|]. split.
  - intros x. rewrite V. split; intros (y & I & W); exists y; (split; [exact I|]).
    + apply inside_mono, W.
    + apply (inside_no_items true); [exact W|]. intros k U. exact (N y k I U).
  - intros b. rewrite B. split.
    + intros (y & n & I & W & O). exists y, n. split; [exact I|]. split; [apply inside_mono, W|]. unfold own_id in *. intuition congruence.
    + intros (y & n & I & W & O). exists y, n. split; [exact I|]. split.
      * apply (inside_no_items true); [exact W|]. intros k U. exact (N y k I U).
      * destruct O as [O|[O|[O|[_ O]]]]; [left; exact O|right; left; exact O|right; right; left; exact O|].
        apply in_map_iff in O. destruct O as (p & E & J). exfalso. exact (R y n p b I W J E).
Qed.
Print Assumptions C25_without_lists.

(** A document: a node [_:a] with a graph, an included node, a property whose value is a list
    holding the node [_:c], and the reverse property [_:r]. *)
Definition leaf (b : string) : node := MkNode (Some (IBlank b)) None None None [] None.
Definition trav_doc : list iobj :=
  [(None, ONode (MkNode (Some (IBlank "_:a")) (Some [IBlank "_:t"; IIri "http://t/"]) (Some [(None, ONode (leaf "_:g"))]) (Some [(Some "i", leaf "_:i")])
     [(IBlank "_:p", [(None, OVal (VLit (LStr "v") None)); (None, OList [(None, ONode (leaf "_:c"))])])]
     (Some [(IBlank "_:r", [(None, leaf "_:q")])])))].

(** C25 is false: neither the node [_:c] is visited, nor [_:c] or [_:r] reported. *)
Theorem C25_refuted : exists d l n, yields (doc_stack d) l /\
  (exists y, In y d /\ inside true (snd y) (ONode n)) /\ ~ visited l (ONode n) /\
  (mentions true true d "_:c" /\ ~ reported l "_:c") /\ (mentions false true d "_:r" /\ ~ reported l "_:r").
Proof.
  exists trav_doc, (fst (run 100 (doc_stack trav_doc))), (leaf "_:c").
  assert (In1 : forall r, r = true -> inside r (snd (hd (None, OList []) trav_doc)) (ONode (leaf "_:c"))).
  { intros r ->. constructor. eapply InProp; [left; reflexivity|right; left; reflexivity|]. eapply InList; [reflexivity|left; reflexivity|]. constructor. }
  split; [exists 100; vm_compute; reflexivity|]. split; [eexists; split; [left; reflexivity|]; apply In1; reflexivity|].
  split; [|split; split].
  - intros (f & I & E).
    assert (F : Forall (fun f => match frag_ref f with Some (ONode (MkNode (Some (IBlank b)) _ _ _ _ _)) => String.eqb b "_:c" = false | _ => True end)
                (fst (run 100 (doc_stack trav_doc)))) by (vm_compute; repeat constructor).
    pose proof (Forall_in _ _ _ F I) as H. cbn beta in H. rewrite E in H. discriminate H.
  - eexists; exists (leaf "_:c"). split; [left; reflexivity|]. split; [apply In1; reflexivity|]. left. reflexivity.
  - intros H. vm_compute in H. intuition discriminate.
  - eexists; eexists. split; [left; reflexivity|]. split; [constructor|]. right; right; right. split; [reflexivity|]. left. reflexivity.
  - intros H. vm_compute in H. intuition discriminate.
Qed.
Print Assumptions C25_refuted.

Example C25_example : exists l, yields (doc_stack trav_doc) l /\ flat_map blank_of l = ["_:p"; "_:q"; "_:i"; "_:g"; "_:t"; "_:a"]
  /\ length (filter is_obj l) = 6.
Proof. exists (fst (run 100 (doc_stack trav_doc))). split; [exists 100; vm_compute; reflexivity|]. split; vm_compute; reflexivity. Qed.

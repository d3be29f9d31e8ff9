(** What a document says, independently of how it is nested; and the effect of the operations of
    flattening on each node. *)
From Verif Require Import Prelude Json Enums LangTag LangString Str Keyword Container ContextSyntax Ctx Object ObjectEq ObjectJson Traverse Relabel RelabelProofs Flatten FlattenProofs.

(** ** Specification *)
(** [occurs_in d b z n]: the node object [n], with index [z], occurs in the document, in the graph
    named [b] ([None] for the default graph). *)
Inductive occurs : option id -> option string -> obj -> option id -> option string -> node -> Prop :=
| OcNode a x n b z m : occurs_node a x n b z m -> occurs a x (ONode n) b z m
| OcList a x l y b z m : In y l -> occurs a (fst y) (snd y) b z m -> occurs a x (OList l) b z m
with occurs_node : option id -> option string -> node -> option id -> option string -> node -> Prop :=
| OcSelf a x n : occurs_node a x n a x n
| OcGraph a x n i y b z m : n_id n = Some i -> In y (opt_list (n_graph n)) -> occurs (Some i) (fst y) (snd y) b z m -> occurs_node a x n b z m
| OcIncluded a x n y b z m : In y (opt_list (n_included n)) -> occurs_node a (fst y) (snd y) b z m -> occurs_node a x n b z m
| OcProp a x n p y b z m : In p (n_props n) -> In y (snd p) -> occurs a (fst y) (snd y) b z m -> occurs_node a x n b z m
| OcReverse a x n p y b z m : In p (opt_list (n_reverse n)) -> In y (snd p) -> occurs_node a (fst y) (snd y) b z m -> occurs_node a x n b z m.
Definition occurs_in (d : list iobj) (b : option id) (z : option string) (n : node) : Prop :=
  exists y, In y d /\ occurs None (fst y) (snd y) b z n.

(** A statement of a graph: the subject, the property and the object, where nodes are given by
    their identifiers. *)
Definition reference (i : id) : iobj := (None, ONode (node_new (Some i))).
Definition says (d : list iobj) (a : option id) (i p : id) (o : iobj) : Prop :=
  exists z n, occurs_in d a z n /\
    ((n_id n = Some i /\ exists l y, In (p, l) (n_props n) /\ In y l /\ o = ref_i y) \/
     (exists l y j, In (p, l) (opt_list (n_reverse n)) /\ In y l /\ n_id (snd y) = Some i /\ n_id n = Some j /\ o = reference j)).
Definition says_type (d : list iobj) (a : option id) (i t : id) : Prop :=
  exists z n, occurs_in d a z n /\ n_id n = Some i /\ In t (opt_list (n_types n)).
(** Two different indexes for one node of one graph. *)
Definition conflicting (d : list iobj) : Prop :=
  exists a i n m x y, occurs_in d a (Some x) n /\ occurs_in d a (Some y) m /\ n_id n = Some i /\ n_id m = Some i /\ x <> y.
(** Every node has an identifier. *)
Definition identified (d : list iobj) : Prop := forall a z n, occurs_in d a z n -> exists i, n_id n = Some i.

(** A value, a reference, or a list of those. *)
Inductive flat_value : iobj -> Prop :=
| FvVal x v : flat_value (x, OVal v)
| FvRef i : flat_value (reference i)
| FvList x l : Forall flat_value l -> flat_value (x, OList l).

(** ** Relabelled documents are identified *)
Lemma each_in {X Y} (R : X -> Y -> list id -> Prop) l l' A y : each R l l' A -> In y l' -> exists x B, In x l /\ R x y B.
Proof.
  induction 1 as [|x y' l l' A B R' E IH]; [intros []|]. intros [<-|I]; [exists x, A; split; [left; reflexivity|exact R']|].
  destruct (IH I) as (x' & B' & I' & R''). exists x', B'. split; [right; exact I'|exact R''].
Qed.
Lemma each_opt_in {X Y} (R : X -> Y -> list id -> Prop) o o' A y : each_opt R o o' A -> In y (opt_list o') -> exists x B, In x (opt_list o) /\ R x y B.
Proof. intros [|l l' A' E]; [intros []|]. apply (each_in _ _ _ _ _ E). Qed.
(** Every node inside has an identifier. *)
Definition idd (o : obj) : Prop := forall m, inside true o (ONode m) -> exists i, n_id m = Some i.
Lemma occurs_inside : (forall o a x b z m, occurs a x o b z m -> inside true o (ONode m)) /\
  (forall n a x b z m, occurs_node a x n b z m -> m = n \/ inside_node true n (ONode m)).
Proof.
  assert (L : forall n m : node, m = n \/ inside_node true n (ONode m) -> inside true (ONode n) (ONode m)) by (intros n m [->|H]; constructor; exact H).
  apply (obj_node_ind (fun o => forall a x b z m, occurs a x o b z m -> inside true o (ONode m))
    (fun n => forall a x b z m, occurs_node a x n b z m -> m = n \/ inside_node true n (ONode m))).
  - intros v a x b z m O. inversion O.
  - intros n IH a x b z m O. inversion O; subst. apply L. eapply IH; eassumption.
  - intros l IH a x b z m O. inversion O as [|? ? ? y ? ? ? I O']; subst. eapply InList; [reflexivity|exact I|]. exact (Forall_in _ _ _ IH I _ _ _ _ _ O').
  - intros i ts g inc ps rs Hg Hi Hp Hr a x b z m O.
    inversion O as [|? ? ? ? y ? ? ? E I O'|? ? ? y ? ? ? I O'|? ? ? p y ? ? ? I J O'|? ? ? p y ? ? ? I J O']; subst; cbn [n_id n_graph n_included n_props n_reverse] in *; [left; reflexivity|right..].
    + eapply InGraph; [exact I|]. exact (Forall_in _ _ _ Hg I _ _ _ _ _ O').
    + eapply InIncluded; [exact I|]. apply L. exact (Forall_in _ _ _ Hi I _ _ _ _ _ O').
    + eapply InProp; [exact I|exact J|]. exact (Forall_in _ _ _ (Forall_in _ _ _ Hp I) J _ _ _ _ _ O').
    + eapply InReverse; [exact I|exact J|]. apply L. exact (Forall_in _ _ _ (Forall_in _ _ _ Hr I) J _ _ _ _ _ O').
Qed.
Lemma ren_identified f : (forall o' o A, ren f o o' A -> idd o') /\ (forall n' n A, ren_node f n n' A -> idd (ONode n')).
Proof.
  apply (obj_node_ind (fun o' => forall o A, ren f o o' A -> idd o') (fun n' => forall n A, ren_node f n n' A -> idd (ONode n'))).
  - intros v o A R m O. inversion O.
  - intros n IH o A R. inversion R; subst. eapply IH; eassumption.
  - intros l IH o A R m O. inversion R as [| |? ? ? E]; inversion O as [|? y ? _ I O'|]; subst.
    destruct (each_in _ _ _ _ _ E I) as (y' & B & _ & _ & R'). exact (Forall_in _ _ _ IH I _ _ R' _ O').
  - intros i ts g inc ps rs Hg Hi Hp Hr o A R m O.
    inversion R as [? ? ? ? ? ? ? ? ? ? ? Ai Ag An Ap Ar Ri Rg Rn Rp Rr]; subst.
    inversion O as [|? y ? _ I O'|? ? O']; subst; [inversion Ri; subst; cbn; eauto|].
    inversion O' as [? y ? I O''|? y ? I O''|? p y ? I J O''|? p y ? I J O'']; subst; cbn [n_id n_graph n_included n_props n_reverse] in *.
    + destruct (each_opt_in _ _ _ _ _ Rg I) as (y' & B & _ & _ & R'). exact (Forall_in _ _ _ Hg I _ _ R' _ O'').
    + destruct (each_opt_in _ _ _ _ _ Rn I) as (y' & B & _ & _ & R'). exact (Forall_in _ _ _ Hi I _ _ R' _ O'').
    + destruct (each_in _ _ _ _ _ Rp I) as (p' & B & _ & _ & R'). destruct (each_in _ _ _ _ _ R' J) as (y' & B' & _ & _ & R'').
      exact (Forall_in _ _ _ (Forall_in _ _ _ Hp I) J _ _ R'' _ O'').
    + destruct (each_opt_in _ _ _ _ _ Rr I) as (p' & B & _ & _ & R'). destruct (each_in _ _ _ _ _ R' J) as (y' & B' & _ & _ & R'').
      exact (Forall_in _ _ _ (Forall_in _ _ _ Hr I) J _ _ R'' _ O'').
Qed.
Definition idd_doc (d : list iobj) : Prop := Forall (fun x => idd (snd x)) d.
Lemma ren_doc_idd f d d' A : ren_doc f d d' A -> idd_doc d'.
Proof. intros R. apply Forall_forall. intros y I. destruct (each_in _ _ _ _ _ R I) as (x & B & _ & _ & R'). exact (proj1 (ren_identified f) _ _ _ R'). Qed.
Lemma idd_doc_identified d : idd_doc d -> identified d.
Proof. intros F a z n (y & I & O). apply (Forall_in _ _ _ F I). eapply occurs_inside, O. Qed.

(** ** The operations are those of the occurrences *)
(** The operations of one occurrence. *)
Definition own_ops (a : option id) (x : option string) (n : node) : list op :=
  let i := the_id n in
  [ODeclare a i x]
  ++ match n_types n with Some l => [OTypes a i l] | None => [] end
  ++ match n_graph n with Some l => [OGraph i; OEntry a i (map ref_i l)] | None => [] end
  ++ map (fun p => OProps a i (fst p) (map ref_i (snd p))) (n_props n)
  ++ flat_map (fun p => map (fun y => OProps a (the_id (snd y)) (fst p) [reference i]) (snd p)) (opt_list (n_reverse n)).
Lemma tr_in : (forall o, idd o -> forall a x q, In q (tr_o a x o) <-> exists b z m, occurs a x o b z m /\ In q (own_ops b z m)) /\
  (forall n, idd (ONode n) -> forall a x q, In q (tr_n a x n) <-> exists b z m, occurs_node a x n b z m /\ In q (own_ops b z m)).
Proof.
  apply (obj_node_ind
    (fun o => idd o -> forall a x q, In q (tr_o a x o) <-> exists b z m, occurs a x o b z m /\ In q (own_ops b z m))
    (fun n => idd (ONode n) -> forall a x q, In q (tr_n a x n) <-> exists b z m, occurs_node a x n b z m /\ In q (own_ops b z m))).
  - intros v _ a x q. split; [intros []|]. intros (b & z & m & O & _). inversion O.
  - intros n IH Id a x q. change (tr_o a x (ONode n)) with (tr_n a x n). rewrite (IH Id).
    split; intros (b & z & m & O & I); exists b, z, m; (split; [|exact I]); [constructor; exact O|inversion O; subst; assumption].
  - intros l IH Id a x q. change (tr_o a x (OList l)) with (flat_map (fun y => tr_o a (fst y) (snd y)) l). rewrite in_flat_map.
    assert (IH' : forall y, In y l -> forall a x q, In q (tr_o a x (snd y)) <-> exists b z m, occurs a x (snd y) b z m /\ In q (own_ops b z m)).
    { intros y J. apply (Forall_in _ _ _ IH J). intros m H. apply Id. eapply InList; [reflexivity|exact J|exact H]. }
    split.
    + intros (y & J & I). apply (IH' y J) in I. destruct I as (b & z & m & O & I). exists b, z, m. split; [econstructor; eassumption|exact I].
    + intros (b & z & m & O & I). inversion O as [|? ? ? y ? ? ? J O']; subst. exists y. split; [exact J|]. apply (IH' y J). eauto.
  - intros i ts g inc ps rs Hg Hi Hp Hr Id a x q.
    destruct (Id (MkNode i ts g inc ps rs) (InSelf _ _)) as (i' & Ei). cbn in Ei. subst i. rename i' into i. rewrite tr_mk_eq.
    assert (Hg' : forall y, In y (opt_list g) -> forall a x q, In q (tr_o a x (snd y)) <-> exists b z m, occurs a x (snd y) b z m /\ In q (own_ops b z m)).
    { intros y J. apply (Forall_in _ _ _ Hg J). intros m H. apply Id. constructor. eapply InGraph; [exact J|exact H]. }
    assert (Hi' : forall y, In y (opt_list inc) -> forall a x q, In q (tr_n a x (snd y)) <-> exists b z m, occurs_node a x (snd y) b z m /\ In q (own_ops b z m)).
    { intros y J. apply (Forall_in _ _ _ Hi J). intros m H. apply Id. constructor. eapply InIncluded; [exact J|exact H]. }
    assert (Hp' : forall p y, In p ps -> In y (snd p) -> forall a x q, In q (tr_o a x (snd y)) <-> exists b z m, occurs a x (snd y) b z m /\ In q (own_ops b z m)).
    { intros p y K J. apply (Forall_in _ _ _ (Forall_in _ _ _ Hp K) J). intros m H. apply Id. constructor. eapply InProp; [exact K|exact J|exact H]. }
    assert (Hr' : forall p y, In p (opt_list rs) -> In y (snd p) -> forall a x q, In q (tr_n a x (snd y)) <-> exists b z m, occurs_node a x (snd y) b z m /\ In q (own_ops b z m)).
    { intros p y K J. apply (Forall_in _ _ _ (Forall_in _ _ _ Hr K) J). intros m H. apply Id. constructor. eapply InReverse; [exact K|exact J|exact H]. }
    assert (Own : forall q, In q (own_ops a x (MkNode (Some i) ts g inc ps rs)) -> exists b z m, occurs_node a x (MkNode (Some i) ts g inc ps rs) b z m /\ In q (own_ops b z m)).
    { intros q0 I. do 3 eexists. split; [apply OcSelf|exact I]. }
    unfold own_ops in Own. cbn [the_id n_id n_types n_graph n_props n_reverse] in Own.
    split.
    + intros I. rewrite !in_app_iff in I. destruct I as [I|[I|[I|[I|[I|I]]]]].
      * apply Own. rewrite !in_app_iff. tauto.
      * apply Own. rewrite !in_app_iff. tauto.
      * destruct g as [l|]; [|cbn in *; contradiction]. destruct I as [I|I]; [apply Own; rewrite !in_app_iff; right; right; left; left; exact I|].
        apply in_app_or in I. destruct I as [I|[I|[]]]; [|apply Own; rewrite !in_app_iff; right; right; left; right; left; exact I].
        apply in_flat_map in I. destruct I as (y & J & I). apply (Hg' y J) in I. destruct I as (b & z & m & O & I). exists b, z, m. split; [|exact I].
        eapply (OcGraph a x _ i y); [reflexivity|exact J|exact O].
      * destruct inc as [l|]; [|cbn in *; contradiction]. apply in_flat_map in I. destruct I as (y & J & I). apply (Hi' y J) in I. destruct I as (b & z & m & O & I). exists b, z, m. split; [|exact I].
        eapply OcIncluded; [exact J|exact O].
      * apply in_flat_map in I. destruct I as (p & K & I). apply in_app_or in I. destruct I as [I|[I|[]]].
        -- apply in_flat_map in I. destruct I as (y & J & I). apply (Hp' p y K J) in I. destruct I as (b & z & m & O & I). exists b, z, m. split; [|exact I].
           eapply OcProp; [exact K|exact J|exact O].
        -- apply Own. rewrite !in_app_iff. right; right; right; left. apply in_map_iff. eauto.
      * destruct rs as [l|]; [|cbn in *; contradiction]. apply in_flat_map in I. destruct I as (p & K & I). apply in_flat_map in I. destruct I as (y & J & I).
        apply in_app_or in I. destruct I as [I|[I|[]]].
        -- apply (Hr' p y K J) in I. destruct I as (b & z & m & O & I). exists b, z, m. split; [|exact I]. eapply OcReverse; [exact K|exact J|exact O].
        -- apply Own. rewrite !in_app_iff. right; right; right; right. apply in_flat_map. exists p. split; [exact K|]. apply in_map_iff. exists y. split; [exact I|exact J].
    + intros (b & z & m & O & I).
      inversion O as [|? ? ? j y ? ? ? E J O'|? ? ? y ? ? ? J O'|? ? ? p y ? ? ? K J O'|? ? ? p y ? ? ? K J O']; subst; cbn [n_id n_graph n_included n_props n_reverse] in *.
      * unfold own_ops in I. cbn [the_id n_id n_types n_graph n_props n_reverse] in I. rewrite !in_app_iff. rewrite !in_app_iff in I. destruct I as [I|[I|[I|[I|I]]]].
        -- auto.
        -- auto.
        -- right; right; left. destruct g as [l|]; [|cbn in *; contradiction]. destruct I as [I|[I|[]]]; [left; exact I|right; apply in_or_app; right; left; exact I].
        -- right; right; right; right; left. apply in_map_iff in I. destruct I as (p & <- & K). apply in_flat_map. exists p. split; [exact K|]. apply in_or_app. right. left. reflexivity.
        -- right; right; right; right; right. destruct rs as [l|]; [|cbn in *; contradiction]. apply in_flat_map in I. destruct I as (p & K & I). apply in_flat_map. exists p. split; [exact K|].
           apply in_map_iff in I. destruct I as (y & <- & J). apply in_flat_map. exists y. split; [exact J|]. apply in_or_app. right. left. reflexivity.
      * injection E as <-. rewrite !in_app_iff. right; right; left. destruct g as [l|]; [|cbn in *; contradiction]. right. apply in_or_app. left. apply in_flat_map. exists y. split; [exact J|].
        apply (Hg' y J). eauto.
      * rewrite !in_app_iff. right; right; right; left. destruct inc as [l|]; [|cbn in *; contradiction]. apply in_flat_map. exists y. split; [exact J|]. apply (Hi' y J). eauto.
      * rewrite !in_app_iff. right; right; right; right; left. apply in_flat_map. exists p. split; [exact K|]. apply in_or_app. left. apply in_flat_map. exists y. split; [exact J|].
        apply (Hp' p y K J). eauto.
      * rewrite !in_app_iff. right; right; right; right; right. destruct rs as [l|]; [|cbn in *; contradiction]. apply in_flat_map. exists p. split; [exact K|]. apply in_flat_map. exists y. split; [exact J|].
        apply in_or_app. left. apply (Hr' p y K J). eauto.
Qed.
Lemma tr_doc_in d q : idd_doc d -> (In q (tr_doc d) <-> exists b z m, occurs_in d b z m /\ In q (own_ops b z m)).
Proof.
  intros Id. unfold tr_doc. rewrite in_flat_map. split.
  - intros (y & J & I). apply (proj1 tr_in _ (Forall_in _ _ _ Id J)) in I. destruct I as (b & z & m & O & I). exists b, z, m. split; [exists y; auto|exact I].
  - intros (b & z & m & (y & J & O) & I). exists y. split; [exact J|]. apply (proj1 tr_in _ (Forall_in _ _ _ Id J)). eauto.
Qed.
Lemma occurs_trans : (forall o a x b z n c w k, occurs a x o b z n -> occurs_node b z n c w k -> occurs a x o c w k) /\
  (forall m a x b z n c w k, occurs_node a x m b z n -> occurs_node b z n c w k -> occurs_node a x m c w k).
Proof.
  apply (obj_node_ind (fun o => forall a x b z n c w k, occurs a x o b z n -> occurs_node b z n c w k -> occurs a x o c w k)
    (fun m => forall a x b z n c w k, occurs_node a x m b z n -> occurs_node b z n c w k -> occurs_node a x m c w k)).
  - intros v a x b z n c w k O. inversion O.
  - intros m IH a x b z n c w k O O'. inversion O; subst. constructor. eapply IH; eassumption.
  - intros l IH a x b z n c w k O O'. inversion O as [|? ? ? y ? ? ? I O2]; subst. econstructor; [exact I|]. eapply (Forall_in _ _ _ IH I); eassumption.
  - intros i ts g inc ps rs Hg Hi Hp Hr a x b z n c w k O O'.
    inversion O as [|? ? ? j y ? ? ? E J O2|? ? ? y ? ? ? J O2|? ? ? p y ? ? ? K J O2|? ? ? p y ? ? ? K J O2]; subst; [exact O'|..].
    + eapply OcGraph; [exact E|exact J|]. eapply (Forall_in _ _ _ Hg J); eassumption.
    + eapply OcIncluded; [exact J|]. eapply (Forall_in _ _ _ Hi J); eassumption.
    + eapply OcProp; [exact K|exact J|]. eapply (Forall_in _ _ _ (Forall_in _ _ _ Hp K) J); eassumption.
    + eapply OcReverse; [exact K|exact J|]. eapply (Forall_in _ _ _ (Forall_in _ _ _ Hr K) J); eassumption.
Qed.
(** The operations say what the document says. *)
Lemma reverse_occurs d a z n p l y : occurs_in d a z n -> In (p, l) (opt_list (n_reverse n)) -> In y l -> occurs_in d a (fst y) (snd y).
Proof.
  intros (t & It & O) K J. exists t. split; [exact It|]. eapply (proj1 occurs_trans); [exact O|]. eapply OcReverse; [exact K|exact J|]. constructor.
Qed.
Lemma props_said d a i p ws y : idd_doc d -> In (OProps a i p ws) (tr_doc d) -> In y ws -> says d a i p y.
Proof.
  intros Id I J. apply (tr_doc_in d _ Id) in I. destruct I as (b & z & n & O & I). destruct (idd_doc_identified d Id b z n O) as (k & Ek).
  unfold own_ops in I. rewrite !in_app_iff in I. destruct I as [I|[I|[I|[I|I]]]].
  - destruct I as [I|[]]; discriminate.
  - destruct (n_types n); [destruct I as [I|[]]; discriminate|contradiction].
  - destruct (n_graph n); [destruct I as [I|[I|[]]]; discriminate|contradiction].
  - apply in_map_iff in I. destruct I as ([q l] & I & K). cbn [fst snd] in I. injection I as -> Ei -> <-. apply in_map_iff in J. destruct J as (y' & <- & J).
    unfold the_id in Ei. rewrite Ek in Ei. subst k. exists z, n. split; [exact O|]. left. split; [exact Ek|]. exists l, y'. auto.
  - apply in_flat_map in I. destruct I as ([q l] & K & I). apply in_map_iff in I. destruct I as (y' & I & J'). cbn [fst snd] in *. injection I as -> Ei -> <-. destruct J as [<-|[]].
    exists z, n. split; [exact O|]. right. exists l, y', k. split; [exact K|]. split; [exact J'|].
    destruct (idd_doc_identified d Id _ _ _ (reverse_occurs d a z n p l y' O K J')) as (j & Y). unfold the_id in *. rewrite Y in Ei. rewrite Ek. subst j. auto.
Qed.
Lemma said_props d a i p y : idd_doc d -> says d a i p y -> exists ws, In (OProps a i p ws) (tr_doc d) /\ In y ws.
Proof.
  intros Id (z & n & O & [(Ei & l & y' & K & J & ->)|(l & y' & j & K & J & Ei & Ej & ->)]).
  - exists (map ref_i l). split; [|apply in_map, J]. apply (tr_doc_in d _ Id). exists a, z, n. split; [exact O|]. unfold own_ops. rewrite !in_app_iff. right; right; right; left.
    apply in_map_iff. exists (p, l). unfold the_id. rewrite Ei. auto.
  - exists [reference j]. split; [|left; reflexivity]. apply (tr_doc_in d _ Id). exists a, z, n. split; [exact O|]. unfold own_ops. rewrite !in_app_iff. right; right; right; right.
    apply in_flat_map. exists (p, l). split; [exact K|]. apply in_map_iff. exists y'. unfold the_id. rewrite Ei, Ej. auto.
Qed.
Lemma types_ops d a i ts : idd_doc d -> (In (OTypes a i ts) (tr_doc d) <-> exists z n, occurs_in d a z n /\ n_id n = Some i /\ n_types n = Some ts).
Proof.
  intros Id. rewrite (tr_doc_in d _ Id). split.
  - intros (b & z & n & O & I). destruct (idd_doc_identified d Id b z n O) as (k & Ek). unfold own_ops in I. rewrite !in_app_iff in I. destruct I as [I|[I|[I|[I|I]]]].
    + destruct I as [I|[]]; discriminate.
    + destruct (n_types n) as [l|] eqn:Et; [|contradiction]. destruct I as [I|[]]. injection I as -> <- ->. exists z, n. unfold the_id. rewrite Ek. auto.
    + destruct (n_graph n); [destruct I as [I|[I|[]]]; discriminate|contradiction].
    + apply in_map_iff in I. destruct I as (? & I & _). discriminate.
    + apply in_flat_map in I. destruct I as (? & _ & I). apply in_map_iff in I. destruct I as (? & I & _). discriminate.
  - intros (z & n & O & Ei & Et). exists a, z, n. split; [exact O|]. unfold own_ops, the_id. rewrite Ei, Et, !in_app_iff. right; left; left. reflexivity.
Qed.
Lemma declare_ops d a i x : idd_doc d -> (In (ODeclare a i x) (tr_doc d) <-> exists n, occurs_in d a x n /\ n_id n = Some i).
Proof.
  intros Id. rewrite (tr_doc_in d _ Id). split.
  - intros (b & z & n & O & I). destruct (idd_doc_identified d Id b z n O) as (k & Ek). unfold own_ops in I. rewrite !in_app_iff in I. destruct I as [I|[I|[I|[I|I]]]].
    + destruct I as [I|[]]. injection I as -> <- ->. exists n. unfold the_id. rewrite Ek. auto.
    + destruct (n_types n); [destruct I as [I|[]]; discriminate|contradiction].
    + destruct (n_graph n); [destruct I as [I|[I|[]]]; discriminate|contradiction].
    + apply in_map_iff in I. destruct I as (? & I & _). discriminate.
    + apply in_flat_map in I. destruct I as (? & _ & I). apply in_map_iff in I. destruct I as (? & I & _). discriminate.
  - intros (n & O & Ei). exists a, x, n. split; [exact O|]. unfold own_ops, the_id. rewrite Ei. left. reflexivity.
Qed.

(** Traversal of expanded documents: crates/core/src/object/mod.rs 981-1155, node/mod.rs 735-1179,
    value.rs 356-605, list.rs 186-196. *)
From Verif Require Import Prelude Json Enums LangTag LangString Str Keyword Container ContextSyntax Ctx Object ObjectEq.

(** ** Fragments *)

(** [json_syntax::FragmentRef] (external): the fragments of a JSON value. *)
Inductive jfrag : Type := JFVal (j : json) | JFEntry (k : string) (j : json) | JFKey (k : string).
(** value.rs 356-436: an entry and its value; the key is the name of the constructor. *)
Inductive ventry : Type := VEVal (v : value) | VEType (t : option string) | VELang (l : string) | VEDir (d : direction).
(** value.rs 519-531. *)
Inductive vfrag : Type := VFEntry (e : ventry) | VFKey (e : ventry) | VFValue (e : ventry) | VFJson (j : jfrag).
(** node/mod.rs 801-808, 836-843. *)
Inductive nentry : Type :=
| NEId (i : id) | NEType (l : list id) | NEGraph (l : list iobj) | NEIncluded (l : list inode)
| NEReverse (l : list (id * list inode)) | NEProp (k : id) (l : list iobj).
(** node/mod.rs 1086-1098. *)
Inductive nfrag : Type := NFEntry (e : nentry) | NFKey (e : nentry) | NFValue (e : nentry) | NFType (i : id).
(** mod.rs 981-1014; of list fragments only the entry is ever made. *)
Inductive frag : Type :=
| FIndexEntry (s : string) | FIndexKey | FIndexValue (s : string)
| FObj (o : obj) | FIObj (x : iobj) | FNode (n : node) | FINode (x : inode) | FINodes (l : list inode)
| FVal (f : vfrag) | FList (l : list iobj) | FNodeF (f : nfrag).

(** mod.rs 1017-1025 ([FragmentRef::into_ref]). *)
Definition frag_ref (f : frag) : option obj :=
  match f with
  | FObj o => Some o | FIObj x => Some (snd x) | FNode n => Some (ONode n) | FINode x => Some (ONode (snd x))
  | _ => None
  end.
(** mod.rs 1027-1033, value.rs 534-539, node/mod.rs 1101-1108 ([FragmentRef::into_id]). *)
Definition frag_id (f : frag) : option id :=
  match f with
  | FVal (VFValue (VEType (Some t))) => Some (IIri t)
  | FNodeF (NFKey (NEProp k _)) => Some k
  | FNodeF (NFValue (NEId i)) => Some i
  | FNodeF (NFType i) => Some i
  | _ => None
  end.

(** value.rs 237-257: the entries of a value object (["@type"] of a JSON literal is [None] here). *)
Definition value_entries (v : value) : list ventry :=
  match v with
  | VLit _ t => VEVal v :: match t with Some t => [VEType (Some t)] | None => [] end
  | VLang s => VEVal v :: match ls_language s with Some l => [VELang l] | None => [] end
                 ++ match ls_direction s with Some d => [VEDir d] | None => [] end
  | VJson _ => [VEVal v; VEType None]
  end.
(** node/mod.rs 453-462, 910-954. *)
Definition node_entries_of (n : node) : list nentry :=
  match n with
  | MkNode i ts g inc ps rs =>
      match i with Some i => [NEId i] | None => [] end ++ match ts with Some l => [NEType l] | None => [] end
      ++ match g with Some l => [NEGraph l] | None => [] end ++ match inc with Some l => [NEIncluded l] | None => [] end
      ++ match rs with Some l => [NEReverse l] | None => [] end ++ map (fun p => NEProp (fst p) (snd p)) ps
  end.
(** [json_syntax::FragmentRef::sub_fragments] (external). *)
Definition jsub (f : jfrag) : list jfrag :=
  match f with
  | JFVal (JArr l) => map JFVal l
  | JFVal (JObj m) => map (fun e => JFEntry (fst e) (snd e)) m
  | JFEntry k j => [JFKey k; JFVal j]
  | _ => []
  end.
(** value.rs 564-601. *)
Definition vsub (f : vfrag) : list vfrag :=
  match f with
  | VFEntry e => [VFKey e; VFValue e]
  | VFValue (VEVal (VJson j)) => map VFJson (match j with JArr _ | JObj _ => jsub (JFVal j) | _ => [] end)
  | VFJson f => map VFJson (jsub f)
  | _ => []
  end.
(** node/mod.rs 822-831, 1133-1139, 1155-1179. *)
Definition nsub (f : nfrag) : list frag :=
  match f with
  | NFEntry e => [FNodeF (NFKey e); FNodeF (NFValue e)]
  | NFValue (NEType l) => map (fun t => FNodeF (NFType t)) (rev l)
  | NFValue (NEGraph l) => map FIObj l
  | NFValue (NEIncluded l) => map FINode l
  | NFValue (NEReverse l) => map (fun p => FINodes (snd p)) l
  | NFValue (NEProp _ l) => map FIObj l
  | _ => []
  end.
(** mod.rs 371-376, 1084-1100 (the entries of a value come last first). *)
Definition osub (o : obj) : list frag :=
  match o with
  | OList l => [FList l]
  | OVal v => map (fun e => FVal (VFEntry e)) (rev (value_entries v))
  | ONode n => map (fun e => FNodeF (NFEntry e)) (node_entries_of n)
  end.
Definition index_sub (i : option string) : list frag := match i with Some s => [FIndexEntry s] | None => [] end.
(** mod.rs 1061-1075, 1111-1130: list fragments have no sub-fragment. *)
Definition fsub (f : frag) : list frag :=
  match f with
  | FIndexEntry s => [FIndexKey; FIndexValue s]
  | FObj o => osub o
  | FIObj x => index_sub (fst x) ++ osub (snd x)
  | FNode n => osub (ONode n)
  | FINode x => index_sub (fst x) ++ osub (ONode (snd x))
  | FINodes l => map FINode l
  | FVal f => map FVal (vsub f)
  | FNodeF f => nsub f
  | FIndexKey | FIndexValue _ | FList _ => []
  end.

(** mod.rs 1143-1155 ([Traverse::next]): the top of the stack is the head of the list.  [n] calls
    to [next], giving the items and the stack left. *)
Fixpoint run (n : nat) (st : list frag) : list frag * list frag :=
  match n, st with
  | O, _ | _, [] => ([], st)
  | S n', f :: st' => let (l, r) := run n' (rev (fsub f) ++ st') in (f :: l, r)
  end.
(** The iterator started on [st] ends after giving [l]. *)
Definition yields (st l : list frag) : Prop := exists n, run n st = (l, []).
(** expanded.rs 56-58: the items of a document are pushed in order. *)
Definition doc_stack (d : list iobj) : list frag := rev (map FIObj d).
(** expanded.rs 204-211. *)
Definition blank_of (f : frag) : list string :=
  match frag_id f with Some (IBlank b) => [b] | _ => [] end.

(** ** Specification *)

(** [inside r o x]: the object [x] is [o] or occurs in it, at any depth; with [r = true] items of
    lists count. *)
Inductive inside (r : bool) : obj -> obj -> Prop :=
| InSelf o : inside r o o
| InList l y x : r = true -> In y l -> inside r (snd y) x -> inside r (OList l) x
| InNode n x : inside_node r n x -> inside r (ONode n) x
with inside_node (r : bool) : node -> obj -> Prop :=
| InGraph n y x : In y (opt_list (n_graph n)) -> inside r (snd y) x -> inside_node r n x
| InIncluded n y x : In y (opt_list (n_included n)) -> inside r (ONode (snd y)) x -> inside_node r n x
| InProp n p y x : In p (n_props n) -> In y (snd p) -> inside r (snd y) x -> inside_node r n x
| InReverse n p y x : In p (opt_list (n_reverse n)) -> In y (snd p) -> inside r (ONode (snd y)) x -> inside_node r n x.
(** The identifiers of a node itself; [k = true] counts the names of its reverse properties. *)
Definition own_id (k : bool) (n : node) (i : id) : Prop :=
  n_id n = Some i \/ In i (opt_list (n_types n)) \/ In i (map fst (n_props n)) \/ (k = true /\ In i (map fst (opt_list (n_reverse n)))).
(** [b] is a blank node identifier occurring in the document. *)
Definition mentions (r k : bool) (d : list iobj) (b : string) : Prop :=
  exists x n, In x d /\ inside r (snd x) (ONode n) /\ own_id k n (IBlank b).

(** The number of objects in an object (itself included), not counting items of lists. *)
Fixpoint ocount (o : obj) : nat :=
  S (match o with ONode n => ncount n | _ => 0 end)
with ncount (n : node) : nat :=
  match n with
  | MkNode i ts g inc ps rs =>
      (match g with Some l => list_sum (map (fun x => ocount (snd x)) l) | None => 0 end)
      + (match inc with Some l => list_sum (map (fun x => S (ncount (snd x))) l) | None => 0 end)
      + list_sum (map (fun p => list_sum (map (fun x => ocount (snd x)) (snd p))) ps)
      + (match rs with Some l => list_sum (map (fun p => list_sum (map (fun x => S (ncount (snd x))) (snd p))) l) | None => 0 end)
  end.

(** ** The traversal gives what is reachable by sub-fragments, once *)
Inductive reach (f : frag) : frag -> Prop :=
| ReachSelf : reach f f
| ReachSub s g : In s (fsub f) -> reach s g -> reach f g.
Definition done (f : frag) (l : list frag) : Prop :=
  forall n st, run (length l + n) (f :: st) = (l ++ fst (run n st), snd (run n st)).
Definition is_obj (f : frag) : bool := match frag_ref f with Some _ => true | None => false end.
Definition ecount (e : nentry) : nat :=
  match e with
  | NEGraph l | NEProp _ l => list_sum (map (fun x => ocount (snd x)) l)
  | NEIncluded l => list_sum (map (fun x => S (ncount (snd x))) l)
  | NEReverse l => list_sum (map (fun p => list_sum (map (fun x => S (ncount (snd x))) (snd p))) l)
  | NEId _ | NEType _ => 0
  end.
Definition fcount (f : frag) : nat :=
  match f with
  | FObj o => ocount o | FIObj x => ocount (snd x) | FNode n => S (ncount n) | FINode x => S (ncount (snd x))
  | FINodes l => list_sum (map (fun x => S (ncount (snd x))) l)
  | FNodeF (NFEntry e) | FNodeF (NFValue e) => ecount e
  | _ => 0
  end.
Lemma list_sum_map_add {A} (f g : A -> nat) l : list_sum (map (fun x => f x + g x) l) = list_sum (map f l) + list_sum (map g l).
Proof. induction l as [|x l IH]; [reflexivity|]. change (f x + g x + list_sum (map (fun x => f x + g x) l) = (f x + list_sum (map f l)) + (g x + list_sum (map g l))). lia. Qed.
Lemma list_sum_zero {A} (f : A -> nat) l : (forall x, In x l -> f x = 0) -> list_sum (map f l) = 0.
Proof. induction l as [|x l IH]; intros H; [reflexivity|]. change (f x + list_sum (map f l) = 0). rewrite (H x (or_introl eq_refl)), IH; [reflexivity|]. intros; apply H; right; assumption. Qed.
Lemma fcount_step f : fcount f = (if is_obj f then 1 else 0) + list_sum (map fcount (fsub f)).
Proof.
  assert (On : forall n, S (ncount n) = 1 + list_sum (map fcount (osub (ONode n)))).
  { intros [i ts g inc ps rs]. cbn [osub node_entries_of]. rewrite !map_app, !list_sum_app. f_equal. cbn [ncount].
    rewrite !map_map. destruct i, ts, g, inc, rs; cbn [map list_sum fold_right fcount ecount]; unfold iobj, inode; lia. }
  assert (Oo : forall o, ocount o = 1 + list_sum (map fcount (osub o))).
  { intros [v|n|l]; [| |reflexivity].
    - cbn [osub ocount]. rewrite map_map. rewrite list_sum_zero; [reflexivity|]. intros; reflexivity.
    - change (ocount (ONode n)) with (S (ncount n)). apply On. }
  assert (Ix : forall i l, list_sum (map fcount (index_sub i ++ l)) = list_sum (map fcount l)) by (intros [i|] l; reflexivity).
  destruct f as [s| |s|o|x|n|x|l|f|l|f]; try reflexivity.
  - exact (Oo o).
  - cbn [fsub]. rewrite Ix. exact (Oo (snd x)).
  - exact (On n).
  - cbn [fsub]. rewrite Ix. exact (On (snd x)).
  - cbn [fsub fcount]. rewrite map_map. reflexivity.
  - cbn [fsub fcount]. rewrite map_map, list_sum_zero; [reflexivity|]. intros [|e|e|j] I; reflexivity.
  - destruct f as [e|e|e|i]; [|reflexivity| |reflexivity].
    + cbn [fsub nsub map fcount list_sum fold_right is_obj frag_ref]. lia.
    + destruct e; cbn [fsub nsub fcount ecount is_obj frag_ref]; rewrite ?map_map; try reflexivity.
      rewrite list_sum_zero; [reflexivity|]. intros; reflexivity.
Qed.

Definition good (f : frag) : Prop :=
  exists l, done f l /\ (forall g, In g l <-> reach f g) /\ length (filter is_obj l) = fcount f.
Lemma run_nil n : run n [] = ([], []). Proof. destruct n; reflexivity. Qed.
(** A stack of finished fragments. *)
Lemma good_all fs : Forall good fs -> exists l, (forall n st, run (length l + n) (fs ++ st) = (l ++ fst (run n st), snd (run n st))) /\
  (forall g, In g l <-> exists s, In s fs /\ reach s g) /\ length (filter is_obj l) = list_sum (map fcount fs).
Proof.
  induction 1 as [|f fs G F IH].
  - exists []. split; [|split; [|reflexivity]].
    + intros n st. cbn. destruct (run n st); reflexivity.
    + intros g. split; [intros []|intros (s & [] & _)].
  - destruct G as (l & D & M & C), IH as (l' & D' & M' & C'). exists (l ++ l'). split; [|split].
    + intros n st. rewrite app_length. replace (length l + length l' + n) with (length l + (length l' + n)) by lia.
      cbn [app]. rewrite D, D'. cbn. rewrite app_assoc. reflexivity.
    + intros g. rewrite in_app_iff, M, M'. split.
      * intros [R|(s & I & R)]; [exists f; split; [left; reflexivity|exact R]|exists s; split; [right; exact I|exact R]].
      * intros (s & [->|I] & R); [left; exact R|right; eauto].
    + rewrite filter_app, app_length, C, C'. reflexivity.
Qed.
Lemma list_sum_rev l : list_sum (rev l) = list_sum l.
Proof. induction l as [|x l IH]; [reflexivity|]. cbn [rev]. rewrite list_sum_app, IH. change (list_sum [x]) with (x + 0). change (list_sum (x :: l)) with (x + list_sum l). lia. Qed.
Lemma good_step f : (forall s, In s (fsub f) -> good s) -> good f.
Proof.
  intros H. destruct (good_all (rev (fsub f))) as (l & D & M & C).
  { apply Forall_forall. intros s I. rewrite <- in_rev in I. apply H, I. }
  exists (f :: l). split; [|split].
  - intros n st. cbn [length plus run]. rewrite D. reflexivity.
  - intros g. cbn. rewrite M. split.
    + intros [->|(s & I & R)]; [constructor|]. rewrite <- in_rev in I. econstructor; eassumption.
    + intros R. destruct R as [|s g I R]; [auto|]. right. exists s. split; [rewrite <- in_rev; exact I|exact R].
  - rewrite fcount_step. cbn [filter]. rewrite <- (list_sum_rev (map fcount (fsub f))), <- map_rev, <- C.
    destruct (is_obj f); reflexivity.
Qed.

Lemma good_leaf f : fsub f = [] -> good f.
Proof. intros E. apply good_step. rewrite E. intros s []. Qed.
Lemma good_json j : good (FVal (VFJson (JFVal j))).
Proof.
  induction j as [| | | |l IH|m IH] using json_ind'; try (apply good_leaf; reflexivity).
  - apply good_step. cbn. rewrite !map_map. intros s I. apply in_map_iff in I. destruct I as (j & <- & I). exact (Forall_in _ _ _ IH I).
  - apply good_step. cbn. rewrite !map_map. intros s I. apply in_map_iff in I. destruct I as ([k j] & <- & I). cbn.
    apply good_step. cbn. intros s [<-|[<-|[]]]; [apply good_leaf; reflexivity|]. exact (Forall_in _ _ _ IH I).
Qed.
Lemma good_ventry e : good (FVal (VFEntry e)).
Proof.
  apply good_step. cbn. intros s [<-|[<-|[]]]; [apply good_leaf; reflexivity|].
  destruct e as [[l t|s|j]| | |]; try (apply good_leaf; reflexivity). apply good_step.
  intros s I. cbn [fsub vsub] in I. rewrite map_map in I. apply in_map_iff in I. destruct I as (f & <- & I).
  destruct j; cbn in I; try tauto.
  - apply in_map_iff in I. destruct I as (j & <- & _). apply good_json.
  - apply in_map_iff in I. destruct I as ([k j] & <- & _). cbn. apply good_step. cbn. intros s [<-|[<-|[]]]; [apply good_leaf; reflexivity|apply good_json].
Qed.
Lemma good_nentry e : (forall s, In s (fsub (FNodeF (NFValue e))) -> good s) -> good (FNodeF (NFEntry e)).
Proof. intros H. apply good_step. cbn. intros s [<-|[<-|[]]]; [apply good_leaf; reflexivity|]. apply good_step, H. Qed.
Lemma good_index i l : (forall s, In s l -> good s) -> forall s, In s (index_sub i ++ l) -> good s.
Proof.
  intros H s I. apply in_app_or in I. destruct I as [I|I]; [|auto]. destruct i as [i|]; [|destruct I]. destruct I as [<-|[]].
  apply good_step. cbn. intros s [<-|[<-|[]]]; apply good_leaf; reflexivity.
Qed.
Lemma good_objects : (forall o s, In s (osub o) -> good s) /\ (forall n s, In s (osub (ONode n)) -> good s).
Proof.
  apply (obj_node_ind (fun o => forall s, In s (osub o) -> good s) (fun n => forall s, In s (osub (ONode n)) -> good s)).
  - intros v s I. cbn in I. apply in_map_iff in I. destruct I as (e & <- & _). apply good_ventry.
  - intros n IH. exact IH.
  - intros l _ s I. destruct I as [<-|[]]. apply good_leaf. reflexivity.
  - intros i ts g inc ps rs Hg Hi Hp Hr s I. cbn [osub node_entries_of] in I. apply in_map_iff in I. destruct I as (e & <- & I).
    assert (Go : forall x : iobj, (forall s, In s (osub (snd x)) -> good s) -> good (FIObj x)) by (intros x H; apply good_step; apply good_index, H).
    assert (Gn : forall x : inode, (forall s, In s (osub (ONode (snd x))) -> good s) -> good (FINode x)) by (intros x H; apply good_step; apply good_index, H).
    apply good_nentry. repeat (apply in_app_or in I; destruct I as [I|I]).
    + destruct i; [destruct I as [<-|[]]|destruct I]. intros s [].
    + destruct ts; [destruct I as [<-|[]]|destruct I]. cbn. intros s J. apply in_map_iff in J. destruct J as (t & <- & _). apply good_leaf. reflexivity.
    + destruct g; [destruct I as [<-|[]]|destruct I]. cbn. intros s J. apply in_map_iff in J. destruct J as (x & <- & J). apply Go, (Forall_in _ _ _ Hg J).
    + destruct inc; [destruct I as [<-|[]]|destruct I]. cbn. intros s J. apply in_map_iff in J. destruct J as (x & <- & J). apply Gn, (Forall_in _ _ _ Hi J).
    + destruct rs; [destruct I as [<-|[]]|destruct I]. cbn. intros s J. apply in_map_iff in J. destruct J as (p & <- & J). apply good_step. cbn.
      intros s K. apply in_map_iff in K. destruct K as (x & <- & K). apply Gn, (Forall_in _ _ _ (Forall_in _ _ _ Hr J) K).
    + apply in_map_iff in I. destruct I as (p & <- & I). cbn. intros s J. apply in_map_iff in J. destruct J as (x & <- & J).
      apply Go, (Forall_in _ _ _ (Forall_in _ _ _ Hp I) J).
Qed.
Lemma good_iobj x : good (FIObj x). Proof. apply good_step, good_index. apply good_objects. Qed.

(** The traversal of a document ends, and gives the fragments reachable from its objects. *)
Lemma traverse_doc d : exists l, yields (doc_stack d) l /\ (forall g, In g l <-> exists x, In x d /\ reach (FIObj x) g) /\
  length (filter is_obj l) = list_sum (map (fun x => ocount (snd x)) d).
Proof.
  destruct (good_all (doc_stack d)) as (l & D & M & C).
  { apply Forall_forall. intros s I. unfold doc_stack in I. rewrite <- in_rev in I. apply in_map_iff in I. destruct I as (x & <- & _). apply good_iobj. }
  exists l. split; [|split].
  - exists (length l). specialize (D 0 []). rewrite app_nil_r, Nat.add_0_r in D. rewrite D. cbn. rewrite app_nil_r. reflexivity.
  - intros g. rewrite M. unfold doc_stack. split.
    + intros (s & I & R). rewrite <- in_rev in I. apply in_map_iff in I. destruct I as (x & <- & I). eauto.
    + intros (x & I & R). exists (FIObj x). split; [|exact R]. rewrite <- in_rev. apply in_map, I.
  - rewrite C. unfold doc_stack. rewrite map_rev, list_sum_rev, map_map. reflexivity.
Qed.
Lemma run_more n : forall st l m, run n st = (l, []) -> run (n + m) st = (l, []).
Proof.
  induction n as [|n IH]; intros st l m E; [cbn in E; injection E as <- ->; apply run_nil|].
  destruct st as [|f st]; [cbn in E; injection E as <-; reflexivity|]. cbn in E |- *.
  destruct (run n (rev (fsub f) ++ st)) as [l' r] eqn:R. injection E as <- ->. rewrite (IH _ _ m R). reflexivity.
Qed.
Lemma yields_det st l l' : yields st l -> yields st l' -> l = l'.
Proof. intros [n E] [m E']. apply (run_more n st l m) in E. apply (run_more m st l' n) in E'. rewrite Nat.add_comm in E'. congruence. Qed.

(** ** What is reachable *)
(** [within f x]: what the specification says is in the part of the document [f] stands for. *)
Definition ewithin (e : nentry) (x : obj) : Prop :=
  match e with
  | NEGraph l | NEProp _ l => exists y, In y l /\ inside false (snd y) x
  | NEIncluded l => exists y, In y l /\ inside false (ONode (snd y)) x
  | NEReverse l => exists p y, In p l /\ In y (snd p) /\ inside false (ONode (snd y)) x
  | _ => False
  end.
Definition fwithin (f : frag) (x : obj) : Prop :=
  match f with
  | FObj o => inside false o x | FIObj y => inside false (snd y) x
  | FNode n => inside false (ONode n) x | FINode y => inside false (ONode (snd y)) x
  | FINodes l => exists y, In y l /\ inside false (ONode (snd y)) x
  | FNodeF (NFEntry e) | FNodeF (NFValue e) => ewithin e x
  | _ => False
  end.
Lemma entry_in n e : In e (node_entries_of n) <->
  (exists i, n_id n = Some i /\ e = NEId i) \/ (exists l, n_types n = Some l /\ e = NEType l) \/
  (exists l, n_graph n = Some l /\ e = NEGraph l) \/ (exists l, n_included n = Some l /\ e = NEIncluded l) \/
  (exists l, n_reverse n = Some l /\ e = NEReverse l) \/ (exists p, In p (n_props n) /\ e = NEProp (fst p) (snd p)).
Proof.
  destruct n as [i ts g inc ps rs]. cbn [node_entries_of n_id n_types n_graph n_included n_reverse n_props]. rewrite !in_app_iff, in_map_iff.
  assert (O : forall {A} (o : option A) (c : A -> nentry), In e match o with Some x => [c x] | None => [] end <-> exists x, o = Some x /\ e = c x).
  { intros A o c. destruct o as [x|]; cbn; split.
    - intros [<-|[]]. eauto.
    - intros (y & E & ->). injection E as <-. auto.
    - intros [].
    - intros (y & E & _). discriminate. }
  rewrite !O. assert (P : (exists x, NEProp (fst x) (snd x) = e /\ In x ps) <-> (exists p, In p ps /\ e = NEProp (fst p) (snd p))).
  { split; intros (p & H & K); exists p; auto. }
  rewrite P. tauto.
Qed.
Lemma node_within n x : (exists e, In e (node_entries_of n) /\ ewithin e x) <-> inside_node false n x.
Proof.
  split.
  - intros (e & I & W). apply entry_in in I. destruct I as [(i & _ & ->)|[(l & _ & ->)|[(l & E & ->)|[(l & E & ->)|[(l & E & ->)|(p & I & ->)]]]]]; cbn in W; try tauto.
    + destruct W as (y & I & W). apply (InGraph false n y x); [rewrite E; exact I|exact W].
    + destruct W as (y & I & W). apply (InIncluded false n y x); [rewrite E; exact I|exact W].
    + destruct W as (p & y & I & J & W). apply (InReverse false n p y x); [rewrite E; exact I|exact J|exact W].
    + destruct W as (y & J & W). apply (InProp false n p y x); assumption.
  - intros W. inversion W as [? y ? I W'|? y ? I W'|? p y ? I J W'|? p y ? I J W']; subst.
    + destruct (n_graph n) as [l|] eqn:E; [|destruct I]. exists (NEGraph l). split; [apply entry_in; eauto 8|]. cbn. eauto.
    + destruct (n_included n) as [l|] eqn:E; [|destruct I]. exists (NEIncluded l). split; [apply entry_in; eauto 9|]. cbn. eauto.
    + exists (NEProp (fst p) (snd p)). split; [apply entry_in; do 5 right; eauto|]. cbn. eauto.
    + destruct (n_reverse n) as [l|] eqn:E; [|destruct I]. exists (NEReverse l). split; [apply entry_in; do 4 right; left; eauto|]. cbn. eauto.
Qed.
Lemma inside_cases o x : inside false o x <-> x = o \/ exists n, o = ONode n /\ inside_node false n x.
Proof.
  split.
  - intros W. inversion W as [|? ? ? E|n ? W']; subst; [auto|discriminate|eauto].
  - intros [->|(n & -> & W)]; [constructor|constructor; exact W].
Qed.
Lemma fwithin_step f x : fwithin f x <-> frag_ref f = Some x \/ exists s, In s (fsub f) /\ fwithin s x.
Proof.
  assert (On : forall n, inside_node false n x <-> exists s, In s (osub (ONode n)) /\ fwithin s x).
  { intros n. rewrite <- node_within. cbn [osub]. split.
    - intros (e & I & W). exists (FNodeF (NFEntry e)). split; [apply in_map_iff; eauto|exact W].
    - intros (s & I & W). apply in_map_iff in I. destruct I as (e & <- & I). eauto. }
  assert (Oo : forall o, inside false o x <-> Some o = Some x \/ exists s, In s (osub o) /\ fwithin s x).
  { intros o. rewrite inside_cases. split.
    - intros [->|(n & -> & W)]; [auto|]. right. apply On, W.
    - intros [E|(s & I & W)]; [injection E as ->; auto|]. destruct o as [v|n|l].
      + cbn in I. apply in_map_iff in I. destruct I as (e & <- & _). destruct W.
      + right. exists n. split; [reflexivity|]. apply On. eauto.
      + destruct I as [<-|[]]. destruct W. }
  assert (Ix : forall i l, (exists s, In s (index_sub i ++ l) /\ fwithin s x) <-> exists s, In s l /\ fwithin s x).
  { intros i l. split; intros (s & I & W).
    - apply in_app_or in I. destruct I as [I|I]; [|eauto]. destruct i; [destruct I as [<-|[]]|destruct I]. destruct W.
    - exists s. split; [apply in_or_app; right; exact I|exact W]. }
  assert (Mp : forall {A} (c : A -> frag) l, (exists s, In s (map c l) /\ fwithin s x) <-> exists y, In y l /\ fwithin (c y) x).
  { intros A c l. split.
    - intros (s & I & W). apply in_map_iff in I. destruct I as (y & <- & I). eauto.
    - intros (y & I & W). exists (c y). split; [apply in_map, I|exact W]. }
  destruct f as [s| |s|o|y|n|y|l|f|l|f]; cbn [frag_ref fsub fwithin].
  - split; [intros []|]. intros [E|(t & [<-|[<-|[]]] & W)]; [discriminate|destruct W|destruct W].
  - split; [intros []|]. intros [E|(t & [] & _)]. discriminate.
  - split; [intros []|]. intros [E|(t & [] & _)]. discriminate.
  - apply Oo.
  - rewrite Ix. apply Oo.
  - apply (Oo (ONode n)).
  - rewrite Ix. apply (Oo (ONode (snd y))).
  - rewrite Mp. cbn. split; [auto|]. intros [E|H]; [discriminate|exact H].
  - rewrite Mp. split; [intros []|]. intros [E|(y & _ & [])]. discriminate.
  - split; [intros []|]. intros [E|(t & [] & _)]. discriminate.
  - destruct f as [e|e|e|i]; cbn [fwithin].
    + cbn [nsub]. split.
      * intros W. right. exists (FNodeF (NFValue e)). split; [right; left; reflexivity|exact W].
      * intros [E|(t & [<-|[<-|[]]] & W)]; [discriminate|destruct W|exact W].
    + split; [intros []|]. intros [E|(t & [] & _)]. discriminate.
    + destruct e; cbn [nsub ewithin].
      * split; [intros []|]. intros [E|(t & [] & _)]. discriminate.
      * rewrite Mp. split; [intros []|]. intros [E|(y & _ & [])]. discriminate.
      * rewrite Mp. cbn. split; [auto|]. intros [E|H]; [discriminate|exact H].
      * rewrite Mp. cbn. split; [auto|]. intros [E|H]; [discriminate|exact H].
      * rewrite Mp. cbn. split.
        -- intros (p & y & I & J & W). right. exists p. split; [exact I|]. eauto.
        -- intros [E|(p & I & y & J & W)]; [discriminate|]. exists p, y. auto.
      * rewrite Mp. cbn. split; [auto|]. intros [E|H]; [discriminate|exact H].
    + split; [intros []|]. intros [E|(t & [] & _)]. discriminate.
Qed.

Definition eids (e : nentry) (i : id) : Prop :=
  match e with NEId j => i = j | NEType l => In i l | NEProp k _ => i = k | _ => False end.
Definition lids (f : frag) (i : id) : Prop :=
  match f with
  | FNodeF (NFEntry e) => eids e i
  | FNodeF (NFKey (NEProp k _)) => i = k
  | FNodeF (NFValue (NEId j)) => i = j
  | FNodeF (NFValue (NEType l)) => In i l
  | FNodeF (NFType j) => i = j
  | _ => False
  end.
Definition fids (f : frag) (i : id) : Prop := lids f i \/ exists n, fwithin f (ONode n) /\ own_id false n i.
Lemma entry_ids n i : own_id false n i <-> exists e, In e (node_entries_of n) /\ eids e i.
Proof.
  unfold own_id. split.
  - intros [E|[I|[I|[E _]]]]; [| | |discriminate].
    + exists (NEId i). split; [apply entry_in; eauto|reflexivity].
    + destruct (n_types n) as [l|] eqn:E; [|destruct I]. exists (NEType l). split; [apply entry_in; eauto|exact I].
    + apply in_map_iff in I. destruct I as (p & <- & I). exists (NEProp (fst p) (snd p)). split; [apply entry_in; do 5 right; eauto|reflexivity].
  - intros (e & I & W). apply entry_in in I. destruct I as [(j & E & ->)|[(l & E & ->)|[(l & E & ->)|[(l & E & ->)|[(l & E & ->)|(p & I & ->)]]]]]; cbn in W; try tauto.
    + subst. auto.
    + right. left. rewrite E. exact W.
    + subst. right. right. left. apply in_map, I.
Qed.
Lemma fids_step f b : fids f (IBlank b) <-> frag_id f = Some (IBlank b) \/ exists s, In s (fsub f) /\ fids s (IBlank b).
Proof.
  assert (W : forall s, In s (fsub f) -> forall n, fwithin s (ONode n) -> own_id false n (IBlank b) -> fids f (IBlank b)).
  { intros s I n W O. right. exists n. split; [apply fwithin_step; eauto|exact O]. }
  assert (V : forall s, In s (fsub f) -> fids s (IBlank b) -> lids s (IBlank b) \/ fids f (IBlank b)).
  { intros s I [L|(n & F & O)]; [auto|right; eauto]. }
  split.
  - intros [L|(n & F & O)].
    + destruct f as [s| |s|o|y|n|y|l|f|l|f]; try destruct L. destruct f as [e|e|e|i].
      * cbn in L. right. destruct e as [j|l|l|l|l|k l]; cbn in L; try tauto; cbn [fsub nsub].
        -- eexists. split; [right; left; reflexivity|]. left. exact L.
        -- eexists. split; [right; left; reflexivity|]. left. exact L.
        -- eexists. split; [left; reflexivity|]. left. exact L.
      * destruct e; try destruct L. auto.
      * destruct e as [j|l|l|l|l|k l]; try destruct L; [auto|]. cbn in L. right. exists (FNodeF (NFType (IBlank b))).
        split; [|left; reflexivity]. cbn. apply in_map_iff. exists (IBlank b). split; [reflexivity|]. rewrite <- in_rev. exact L.
      * cbn in L. subst. auto.
    + apply fwithin_step in F. destruct F as [E|(s & I & F)].
      * right. assert (X : exists e, In e (node_entries_of n) /\ eids e (IBlank b)) by (apply entry_ids, O). destruct X as (e & I & X).
        exists (FNodeF (NFEntry e)). split; [|left; exact X].
        assert (J : In (FNodeF (NFEntry e)) (osub (ONode n))) by (cbn [osub]; apply (in_map (fun e => FNodeF (NFEntry e))), I).
        destruct f as [s| |s|o|y|m|y|l|f|l|f]; try discriminate E; cbn [frag_ref] in E; injection E as E; cbn [fsub]; subst; auto; try (apply in_or_app; right).
        -- rewrite E. exact J.
        -- exact J.
      * right. exists s. split; [exact I|]. right. eauto.
  - intros [E|(s & I & F)].
    + destruct f as [s| |s|o|y|m|y|l|f|l|f]; try discriminate E.
      * destruct f as [e|e|[v|[t|]|l|d]|j]; discriminate E.
      * left. destruct f as [e|e|e|i]; try discriminate E; [destruct e; try discriminate E|destruct e; try discriminate E|]; cbn in E; injection E as ->; reflexivity.
    + destruct (V s I F) as [L|H]; [|exact H]. clear V.
      destruct s as [s| |s|o|y|m|y|l|g|l|g]; try destruct L.
      assert (X : forall n, In (FNodeF g) (osub (ONode n)) -> own_id false n (IBlank b)).
      { intros n J. cbn in J. apply in_map_iff in J. destruct J as (e & E & J). injection E as <-. apply entry_ids. eauto. }
      assert (Y : forall o, In (FNodeF g) (osub o) -> exists n, o = ONode n /\ own_id false n (IBlank b)).
      { intros [v|n|l] J; [|eauto|].
        - cbn in J. apply in_map_iff in J. destruct J as (e & E & _). discriminate.
        - destruct J as [J|[]]. discriminate. }
      assert (Z : forall i l, In (FNodeF g) (index_sub i ++ l) -> In (FNodeF g) l).
      { intros i l J. apply in_app_or in J. destruct J as [J|J]; [|exact J]. destruct i; [destruct J as [J|[]]; discriminate|destruct J]. }
      destruct f as [s| |s|o|y|m|y|l|f|l|f].
      * destruct I as [I|[I|[]]]; discriminate.
      * destruct I. 
      * destruct I.
      * destruct (Y _ I) as (n & -> & O). right. exists n. split; [apply InSelf|exact O].
      * apply Z in I. destruct (Y _ I) as (n & E & O). right. exists n. split; [|exact O]. cbn. rewrite E. apply InSelf.
      * right. exists m. split; [apply InSelf|exact (X _ I)].
      * apply Z in I. right. exists (snd y). split; [apply InSelf|exact (X _ I)].
      * cbn in I. apply in_map_iff in I. destruct I as (y & E & _). discriminate.
      * cbn in I. apply in_map_iff in I. destruct I as (y & E & _). discriminate.
      * destruct I.
      * left. destruct f as [e|e|e|i]; cbn [fsub nsub] in I.
        -- destruct I as [E|[E|[]]]; injection E as <-; destruct e; cbn in L |- *; tauto.
        -- destruct I.
        -- destruct e as [j|l|l|l|l|k l]; cbn in I; try tauto; apply in_map_iff in I; destruct I as (y & E & I); try discriminate.
           injection E as <-. cbn in L |- *. subst. rewrite <- in_rev in I. exact I.
        -- destruct I.
Qed.

Lemma reach_fwithin f g x : reach f g -> frag_ref g = Some x -> fwithin f x.
Proof. induction 1 as [|f s g I R IH]; intros E; apply fwithin_step; eauto. Qed.
Lemma reach_fids f g b : reach f g -> frag_id g = Some (IBlank b) -> fids f (IBlank b).
Proof. induction 1 as [|f s g I R IH]; intros E; apply fids_step; eauto. Qed.
(** Conversely, by recursion on the (finite) traversal. *)
Lemma good_ind (P : frag -> Prop) : (forall f, (forall s, In s (fsub f) -> P s) -> P f) -> forall f, good f -> P f.
Proof.
  intros H f (l & D & M & _). specialize (D 0 []). rewrite Nat.add_0_r in D. cbn in D. rewrite app_nil_r in D.
  assert (A : forall n st l, run n st = (l, []) -> Forall P st).
  { induction n as [|n IH]; intros st l0 E; [cbn in E; injection E as _ ->; constructor|].
    destruct st as [|g st]; [constructor|]. cbn in E. destruct (run n (rev (fsub g) ++ st)) as [l' r] eqn:R. injection E as _ ->.
    pose proof (IH _ _ R) as F. apply Forall_app in F. destruct F as [F G]. constructor; [|exact G]. apply H. intros s I.
    apply (Forall_in _ _ _ F). rewrite <- in_rev. exact I. }
  pose proof (A _ _ _ D) as F. inversion F; assumption.
Qed.
Lemma fwithin_reach x f : good f -> fwithin f x -> exists g, reach f g /\ frag_ref g = Some x.
Proof.
  intros G. revert f G. apply (good_ind (fun f => fwithin f x -> exists g, reach f g /\ frag_ref g = Some x)). intros f IH W.
  apply fwithin_step in W. destruct W as [E|(s & I & W)]; [exists f; split; [constructor|exact E]|].
  destruct (IH s I W) as (g & R & E). exists g. split; [econstructor; eassumption|exact E].
Qed.
Lemma fids_reach b f : good f -> fids f (IBlank b) -> exists g, reach f g /\ frag_id g = Some (IBlank b).
Proof.
  intros G. revert f G. apply (good_ind (fun f => fids f (IBlank b) -> exists g, reach f g /\ frag_id g = Some (IBlank b))). intros f IH W.
  apply fids_step in W. destruct W as [E|(s & I & W)]; [exists f; split; [constructor|exact E]|].
  destruct (IH s I W) as (g & R & E). exists g. split; [econstructor; eassumption|exact E].
Qed.

(** ** Removing the restriction *)
Lemma inside_mono r o x : inside false o x -> inside r o x
with inside_node_mono r n x : inside_node false n x -> inside_node r n x.
Proof.
  - intros [o'|l y x' E|n x' W]; [constructor|discriminate|constructor; apply inside_node_mono, W].
  - intros [n' y x' I W|n' y x' I W|n' p y x' I J W|n' p y x' I J W].
    + eapply InGraph; [eassumption|apply inside_mono, W].
    + eapply InIncluded; [eassumption|apply inside_mono, W].
    + eapply InProp; [eassumption|eassumption|apply inside_mono, W].
    + eapply InReverse; [eassumption|eassumption|apply inside_mono, W].
Qed.

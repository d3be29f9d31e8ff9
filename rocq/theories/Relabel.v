(** Giving identifiers to nodes: crates/core/src/object/node/mod.rs 131-178, 636-705,
    object/mod.rs 136-153, 436-450, object/list.rs 122-136, document/expanded.rs 68-80, 132-145,
    flattening/environment.rs. *)
From Verif Require Import Prelude Json Enums LangTag LangString Str Keyword Container ContextSyntax Ctx Object ObjectEq ObjectJson.

(** [rdf_types::Generator] (external): the [k]-th call to [next] gives [gen k].  The state is the
    number of calls made and the map from blank node identifiers to the identifiers given. *)
Definition env : Type := nat * list (string * id).
Definition env0 : env := (0, []).
Definition gen_next (gen : nat -> id) (s : env) : id * env := (gen (fst s), (S (fst s), snd s)).
(** environment.rs 27-37; [HashMap::entry(b).or_insert_with] of node/mod.rs 648-652. *)
Definition assign (gen : nat -> id) (s : env) (b : string) : id * env :=
  match assoc b (snd s) with
  | Some i => (i, s)
  | None => (gen (fst s), (S (fst s), (b, gen (fst s)) :: snd s))
  end.
(** node/mod.rs 663-671: an identifier that is not blank is kept. *)
Definition assign_id (gen : nat -> id) (s : env) (i : id) : id * env :=
  match i with IBlank b => assign gen s b | _ => (i, s) end.
(** node/mod.rs 142-178 (identify): no identifier is replaced. *)
Definition keep_id (s : env) (i : id) : id * env := (i, s).

(** Iteration over a collection with a state. *)
Definition map_st {S A B} (f : S -> A -> B * S) : S -> list A -> list B * S :=
  fix go (s : S) (l : list A) : list B * S :=
    match l with
    | [] => ([], s)
    | x :: l' => let (y, s1) := f s x in let (l1, s2) := go s1 l' in (y :: l1, s2)
    end.

Section Relabel.
  Variable gen : nat -> id.
  (** What is done with an identifier: [assign_id gen] to relabel, [keep_id] to identify. *)
  Variable asg : env -> id -> id * env.
  (** How the elements of a set are collected again ([FromIterator] of [IndexSet]). *)
  Variable co : list iobj -> list iobj.
  Variable cn : list inode -> list inode.

  (** object/mod.rs 136-153, 436-450, list.rs 122-136, node/mod.rs 131-178, 636-705. *)
  Fixpoint relabel_o (s : env) (o : obj) {struct o} : obj * env :=
    match o with
    | OVal v => (OVal v, s)
    | ONode n => let (n', s') := relabel_n s n in (ONode n', s')
    | OList l => let (l', s') := map_st (fun s x => let (o', s') := relabel_o s (snd x) in ((fst x, o'), s')) s l in (OList l', s')
    end
  with relabel_n (s : env) (n : node) {struct n} : node * env :=
    match n with
    | MkNode i ts g inc ps rs =>
        let (i', s1) := match i with Some i => asg s i | None => gen_next gen s end in
        let (ts', s2) := match ts with
                         | Some l => let (l', s') := map_st asg s1 l in (Some l', s')
                         | None => (None, s1)
                         end in
        let (g', s3) := match g with
                        | Some l => let (l', s') := map_st (fun s x => let (o', s') := relabel_o s (snd x) in ((fst x, o'), s')) s2 l in (Some (co l'), s')
                        | None => (None, s2)
                        end in
        let (inc', s4) := match inc with
                          | Some l => let (l', s') := map_st (fun s x => let (o', s') := relabel_n s (snd x) in ((fst x, o'), s')) s3 l in (Some (cn l'), s')
                          | None => (None, s3)
                          end in
        let (ps', s5) := map_st (fun s p => let (l', s') := map_st (fun s x => let (o', s') := relabel_o s (snd x) in ((fst x, o'), s')) s (snd p) in ((fst p, l'), s')) s4 ps in
        let (rs', s6) := match rs with
                         | Some l => let (l', s') := map_st (fun s p => let (l', s') := map_st (fun s x => let (o', s') := relabel_n s (snd x) in ((fst x, o'), s')) s (snd p) in ((fst p, l'), s')) s5 l in (Some l', s')
                         | None => (None, s5)
                         end in
        (MkNode (Some i') ts' g' inc' ps' rs', s6)
    end.
  Lemma relabel_node_eq s n : relabel_o s (ONode n) = let (n', s') := relabel_n s n in (ONode n', s'). Proof. reflexivity. Qed.
  Lemma relabel_list_eq s l : relabel_o s (OList l) =
    let (l', s') := map_st (fun s x => let (o', s') := relabel_o s (snd x) in ((fst x, o'), s')) s l in (OList l', s').
  Proof. reflexivity. Qed.
  Lemma relabel_mk_eq s i ts g inc ps rs : relabel_n s (MkNode i ts g inc ps rs) =
        let (i', s1) := match i with Some i => asg s i | None => gen_next gen s end in
        let (ts', s2) := match ts with
                         | Some l => let (l', s') := map_st asg s1 l in (Some l', s')
                         | None => (None, s1)
                         end in
        let (g', s3) := match g with
                        | Some l => let (l', s') := map_st (fun s x => let (o', s') := relabel_o s (snd x) in ((fst x, o'), s')) s2 l in (Some (co l'), s')
                        | None => (None, s2)
                        end in
        let (inc', s4) := match inc with
                          | Some l => let (l', s') := map_st (fun s x => let (o', s') := relabel_n s (snd x) in ((fst x, o'), s')) s3 l in (Some (cn l'), s')
                          | None => (None, s3)
                          end in
        let (ps', s5) := map_st (fun s p => let (l', s') := map_st (fun s x => let (o', s') := relabel_o s (snd x) in ((fst x, o'), s')) s (snd p) in ((fst p, l'), s')) s4 ps in
        let (rs', s6) := match rs with
                         | Some l => let (l', s') := map_st (fun s p => let (l', s') := map_st (fun s x => let (o', s') := relabel_n s (snd x) in ((fst x, o'), s')) s (snd p) in ((fst p, l'), s')) s5 l in (Some l', s')
                         | None => (None, s5)
                         end in
        (MkNode (Some i') ts' g' inc' ps' rs', s6).
  Proof. reflexivity. Qed.
  (** expanded.rs 76-80, 140-145. *)
  Definition relabel_l (s : env) (d : list iobj) : list iobj * env :=
    map_st (fun s x => let (o', s') := relabel_o s (snd x) in ((fst x, o'), s')) s d.
End Relabel.

(** Collecting into an [IndexSet], with any hashers [fin] and [rnd]. *)
Definition collect_o (fin rnd : list word -> N) (l : list iobj) : list iobj :=
  fold_left (set_insert (fun x => rnd (iobj_words fin x)) (iobj_eqb fin rnd)) l [].
Definition collect_n (fin rnd : list word -> N) (l : list inode) : list inode :=
  fold_left (set_insert (fun x => rnd (inode_words fin x)) (inode_eqb fin rnd)) l [].
(** expanded.rs 132-145 ([ExpandedDocument::relabel_with]). *)
Definition relabel (fin rnd : list word -> N) (gen : nat -> id) (d : list iobj) : list iobj :=
  collect_o fin rnd (fst (relabel_l gen (assign_id gen) (collect_o fin rnd) (collect_n fin rnd) env0 d)).
(** expanded.rs 66-80 ([ExpandedDocument::identify_all_with]). *)
Definition identify (fin rnd : list word -> N) (gen : nat -> id) (d : list iobj) : list iobj :=
  collect_o fin rnd (fst (relabel_l gen keep_id (collect_o fin rnd) (collect_n fin rnd) env0 d)).

(** ** Specification *)

(** [Each R l l' A]: the elements are related one to one by [R], and [A] collects what [R] gives. *)
Inductive each {X Y} (R : X -> Y -> list id -> Prop) : list X -> list Y -> list id -> Prop :=
| EachNil : each R [] [] []
| EachCons x y l l' A B : R x y A -> each R l l' B -> each R (x :: l) (y :: l') (A ++ B).
Inductive each_opt {X Y} (R : X -> Y -> list id -> Prop) : option (list X) -> option (list Y) -> list id -> Prop :=
| EachNone : each_opt R None None []
| EachSome l l' A : each R l l' A -> each_opt R (Some l) (Some l') A.
(** [f] renames blank node identifiers; other identifiers are kept. *)
Definition ren_id (f : string -> id) (i : id) : id := match i with IBlank b => f b | _ => i end.
(** [ren f o o' A]: [o'] is [o] where every blank node identifier [b] used as an identifier of a
    node or as a type is replaced by [f b], and every node without identifier is given one; [A]
    lists the identifiers given.  Nothing else differs. *)
Inductive ren_node_id (f : string -> id) : option id -> option id -> list id -> Prop :=
| RenId i : ren_node_id f (Some i) (Some (ren_id f i)) []
| RenAnon i : ren_node_id f None (Some i) [i].
Inductive ren (f : string -> id) : obj -> obj -> list id -> Prop :=
| RenVal v : ren f (OVal v) (OVal v) []
| RenNode n n' A : ren_node f n n' A -> ren f (ONode n) (ONode n') A
| RenList l l' A : each (fun x y A => fst x = fst y /\ ren f (snd x) (snd y) A) l l' A -> ren f (OList l) (OList l') A
with ren_node (f : string -> id) : node -> node -> list id -> Prop :=
| RenMk i i' ts g g' inc inc' ps ps' rs rs' Ai Ag An Ap Ar :
    ren_node_id f i i' Ai ->
    each_opt (fun x y A => fst x = fst y /\ ren f (snd x) (snd y) A) g g' Ag ->
    each_opt (fun x y A => fst x = fst y /\ ren_node f (snd x) (snd y) A) inc inc' An ->
    each (fun p q A => fst p = fst q /\ each (fun x y A => fst x = fst y /\ ren f (snd x) (snd y) A) (snd p) (snd q) A) ps ps' Ap ->
    each_opt (fun p q A => fst p = fst q /\ each (fun x y A => fst x = fst y /\ ren_node f (snd x) (snd y) A) (snd p) (snd q) A) rs rs' Ar ->
    ren_node f (MkNode i ts g inc ps rs) (MkNode i' (option_map (map (ren_id f)) ts) g' inc' ps' rs') (Ai ++ Ag ++ An ++ Ap ++ Ar).
Definition ren_doc (f : string -> id) (d d' : list iobj) (A : list id) : Prop :=
  each (fun x y A => fst x = fst y /\ ren f (snd x) (snd y) A) d d' A.

(** [named o i]: [i] is the identifier of a node, or a type, at any depth. *)
Inductive named : obj -> id -> Prop :=
| NmNode n i : named_node n i -> named (ONode n) i
| NmList l x i : In x l -> named (snd x) i -> named (OList l) i
with named_node : node -> id -> Prop :=
| NmId n i : n_id n = Some i -> named_node n i
| NmType n i : In i (opt_list (n_types n)) -> named_node n i
| NmGraph n x i : In x (opt_list (n_graph n)) -> named (snd x) i -> named_node n i
| NmIncluded n x i : In x (opt_list (n_included n)) -> named_node (snd x) i -> named_node n i
| NmProp n p x i : In p (n_props n) -> In x (snd p) -> named (snd x) i -> named_node n i
| NmReverse n p x i : In p (opt_list (n_reverse n)) -> In x (snd p) -> named_node (snd x) i -> named_node n i.
Definition named_in (d : list iobj) (i : id) : Prop := exists x, In x d /\ named (snd x) i.

(** Expanded objects: crates/core/src/object/{mod,value,list}.rs, object/node/mod.rs,
    node/properties.rs, node/reverse_properties.rs, indexed.rs. *)
From Verif Require Import Prelude Json Enums LangTag LangString Str Keyword Container ContextSyntax Ctx.

(** value.rs 52-64 ([Literal]); numbers are kept as their text ([NumberBuf]). *)
Inductive lit : Type := LNull | LBool (b : bool) | LNum (n : string) | LStr (s : string).
(** value.rs 123-132 ([Value]). *)
Inductive value : Type := VLit (l : lit) (t : option string) | VLang (s : lang_string) | VJson (j : json).

(** mod.rs 96-105 ([Object]) and node/mod.rs 36-66 ([Node]).  [Indexed<T>] (indexed.rs 10-16) is
    the pair of the index and the value; an [IndexSet] or a [Multiset] is the list of its
    elements in order; an [IndexMap] the list of its entries in order. *)
Inductive obj : Type :=
| OVal (v : value)
| ONode (n : node)
| OList (l : list (option string * obj))
with node : Type :=
| MkNode (i : option id) (ts : option (list id)) (g : option (list (option string * obj)))
    (inc : option (list (option string * node))) (ps : list (id * list (option string * obj)))
    (rs : option (list (id * list (option string * node)))).

Definition iobj : Type := option string * obj.
Definition inode : Type := option string * node.

Definition n_id n := match n with MkNode i _ _ _ _ _ => i end.
Definition n_types n := match n with MkNode _ t _ _ _ _ => t end.
Definition n_graph n := match n with MkNode _ _ g _ _ _ => g end.
Definition n_included n := match n with MkNode _ _ _ i _ _ => i end.
Definition n_props n := match n with MkNode _ _ _ _ p _ => p end.
Definition n_reverse n := match n with MkNode _ _ _ _ _ r => r end.

(** node/mod.rs 78-100. *)
Definition node_new (i : option id) : node := MkNode i None None None [] None.

(** The elements of an optional collection. *)
Definition opt_list {A} (o : option (list A)) : list A := match o with Some l => l | None => [] end.

Section Induction.
  Variable P : obj -> Prop.
  Variable Q : node -> Prop.
  Hypothesis Hval : forall v, P (OVal v).
  Hypothesis Hnode : forall n, Q n -> P (ONode n).
  Hypothesis Hlist : forall l, Forall (fun x => P (snd x)) l -> P (OList l).
  Hypothesis Hmk : forall i ts g inc ps rs,
    Forall (fun x => P (snd x)) (opt_list g) ->
    Forall (fun x => Q (snd x)) (opt_list inc) ->
    Forall (fun p => Forall (fun x => P (snd x)) (snd p)) ps ->
    Forall (fun p => Forall (fun x => Q (snd x)) (snd p)) (opt_list rs) ->
    Q (MkNode i ts g inc ps rs).

  Fixpoint obj_ind' (o : obj) : P o :=
    match o with
    | OVal v => Hval v
    | ONode n => Hnode n (node_ind' n)
    | OList l => Hlist l ((fix go (l : list iobj) : Forall (fun x => P (snd x)) l :=
        match l with [] => Forall_nil _ | x :: l' => Forall_cons x (obj_ind' (snd x)) (go l') end) l)
    end
  with node_ind' (n : node) : Q n :=
    match n with
    | MkNode i ts g inc ps rs =>
        Hmk i ts g inc ps rs
          (match g with
           | Some l => (fix go (l : list iobj) : Forall (fun x => P (snd x)) l :=
               match l with [] => Forall_nil _ | x :: l' => Forall_cons x (obj_ind' (snd x)) (go l') end) l
           | None => Forall_nil _ end)
          (match inc with
           | Some l => (fix go (l : list inode) : Forall (fun x => Q (snd x)) l :=
               match l with [] => Forall_nil _ | x :: l' => Forall_cons x (node_ind' (snd x)) (go l') end) l
           | None => Forall_nil _ end)
          ((fix gop (ps : list (id * list iobj)) : Forall (fun p => Forall (fun x => P (snd x)) (snd p)) ps :=
             match ps with
             | [] => Forall_nil _
             | p :: ps' => Forall_cons p ((fix go (l : list iobj) : Forall (fun x => P (snd x)) l :=
                 match l with [] => Forall_nil _ | x :: l' => Forall_cons x (obj_ind' (snd x)) (go l') end) (snd p)) (gop ps')
             end) ps)
          (match rs with
           | Some rs => (fix gop (ps : list (id * list inode)) : Forall (fun p => Forall (fun x => Q (snd x)) (snd p)) ps :=
             match ps with
             | [] => Forall_nil _
             | p :: ps' => Forall_cons p ((fix go (l : list inode) : Forall (fun x => Q (snd x)) l :=
                 match l with [] => Forall_nil _ | x :: l' => Forall_cons x (node_ind' (snd x)) (go l') end) (snd p)) (gop ps')
             end) rs
           | None => Forall_nil _ end)
    end.

  Lemma obj_node_ind : (forall o, P o) /\ (forall n, Q n).
  Proof. split; [exact obj_ind'|exact node_ind']. Qed.
End Induction.

(** ** Equality and hashing *)

(** node/multiset.rs 162-182 ([compare_unordered]): each item of [a] takes the first free equal
    item of [b]; the items of [b] still free are kept in order. *)
Definition take_first {B} (e : B -> bool) : list B -> option (list B) :=
  fix go (l : list B) : option (list B) :=
    match l with
    | [] => None
    | y :: l' => if e y then Some l' else option_map (cons y) (go l')
    end.
Definition match_all {A B} (e : A -> B -> bool) : list A -> list B -> bool :=
  fix go (a : list A) (free : list B) : bool :=
    match a with
    | [] => true
    | x :: a' => match take_first (e x) free with Some free' => go a' free' | None => false end
    end.
Definition compare_unordered {A B} (e : A -> B -> bool) (a : list A) (b : list B) : bool :=
  Nat.eqb (length a) (length b) && match_all e a b.
(** multiset.rs 184-190. *)
Definition compare_unordered_opt {A B} (e : A -> B -> bool) (a : option (list A)) (b : option (list B)) : bool :=
  match a, b with
  | Some a, Some b => compare_unordered e a b
  | None, None => true
  | _, _ => false
  end.

Definition indexed_eqb {A B} (e : A -> B -> bool) (x : option string * A) (y : option string * B) : bool :=
  opt_eqb streq (fst x) (fst y) && e (snd x) (snd y).

(** [IndexMap] equality: same length and every entry of [a] is found in [b]. *)
Fixpoint get_id {A} (k : id) (l : list (id * A)) : option A :=
  match l with [] => None | (k', v) :: l' => if id_eqb k k' then Some v else get_id k l' end.
Definition map_eqb {A B} (e : A -> B -> bool) (a : list (id * A)) (b : list (id * B)) : bool :=
  Nat.eqb (length a) (length b)
  && forallb (fun p => match get_id (fst p) b with Some w => e (snd p) w | None => false end) a.

(** [IndexSet] equality: same length and every element of [a] is in [b]; membership is decided
    by the hash and then by equality. *)
Definition set_eqb {A} (h : A -> N) (e : A -> A -> bool) (a b : list A) : bool :=
  Nat.eqb (length a) (length b)
  && forallb (fun x => existsb (fun y => N.eqb (h x) (h y) && e x y) b) a.

(** Derived equalities of value.rs 50, 121 and lang_string.rs 8. *)
Definition lit_eqb (a b : lit) : bool :=
  match a, b with
  | LNull, LNull => true
  | LBool x, LBool y => Bool.eqb x y
  | LNum x, LNum y | LStr x, LStr y => streq x y
  | _, _ => false
  end.
Definition ls_eqb (a b : lang_string) : bool :=
  streq (ls_data a) (ls_data b) && opt_eqb lang_eqb (ls_language a) (ls_language b)
  && opt_eqb direction_eqb (ls_direction a) (ls_direction b).
Definition value_eqb (a b : value) : bool :=
  match a, b with
  | VLit l t, VLit m u => lit_eqb l m && opt_eqb streq t u
  | VLang s, VLang t => ls_eqb s t
  | VJson x, VJson y => json_eqb x y
  | _, _ => false
  end.

(** What is written to a [Hasher]. *)
Inductive word : Type := WDisc (n : N) | WStr (s : string) | WBytes (l : list byte) | WBool (b : bool) | WU64 (n : N) | WLen (n : nat) | WJson (j : json).

Definition opt_words {A} (f : A -> list word) (o : option A) : list word :=
  match o with Some x => WDisc 1 :: f x | None => [WDisc 0] end.
(** id.rs 45-52. *)
Definition id_words (i : id) : list word :=
  match i with IIri s => [WDisc 0; WStr s] | IBlank s => [WDisc 1; WStr s] | IInvalid s => [WStr s] end.
Definition lit_words (l : lit) : list word :=
  match l with LNull => [WDisc 0] | LBool b => [WDisc 1; WBool b] | LNum n => [WDisc 2; WStr n] | LStr s => [WDisc 3; WStr s] end.
(** syntax/src/lang.rs: language tags are hashed in lower case. *)
Definition lang_words (l : string) : list word := [WBytes (ci_hash_bytes (list_ascii_of_string l))].
Definition dir_words (d : direction) : list word := [WDisc (match d with Ltr => 0 | Rtl => 1 end)].
Definition value_words (v : value) : list word :=
  match v with
  | VLit l t => WDisc 0 :: lit_words l ++ opt_words (fun s => [WStr s]) t
  | VLang s => WDisc 1 :: WStr (ls_data s) :: opt_words lang_words (ls_language s) ++ opt_words dir_words (ls_direction s)
  | VJson j => [WDisc 2; WJson j]
  end.

Section Hash.
  (** [DefaultHasher::new()] applied to what is written ([fin]), and the hasher of an [IndexSet]
      ([rnd]): any functions. *)
  Variables (fin rnd : list word -> N).

  (** utils/hash.rs 4-62, multiset.rs 192-204: the sum of the hashes of the elements. *)
  Definition two64 : N := 18446744073709551616.
  Definition sum_words {A} (f : A -> list word) (l : list A) : list word :=
    [WU64 (fold_left (fun h x => N.modulo (h + fin (f x)) two64) l 0%N)].
  Definition sum_words_opt {A} (f : A -> list word) (o : option (list A)) : list word :=
    match o with Some l => sum_words f l | None => [] end.
  Definition index_words (i : option string) : list word := opt_words (fun s => [WStr s]) i.

  (** Derived on [Object], [List], [Indexed]; node/mod.rs 1200-1210 on [Node]. *)
  Fixpoint obj_words (o : obj) : list word :=
    match o with
    | OVal v => WDisc 0 :: value_words v
    | ONode n => WDisc 1 :: node_words n
    | OList l => WDisc 2 :: WLen (length l) :: flat_map (fun x => index_words (fst x) ++ obj_words (snd x)) l
    end
  with node_words (n : node) : list word :=
    match n with
    | MkNode i ts g inc ps rs =>
        opt_words id_words i
        ++ sum_words_opt id_words ts
        ++ sum_words_opt (fun x => index_words (fst x) ++ obj_words (snd x)) g
        ++ sum_words_opt (fun x => index_words (fst x) ++ node_words (snd x)) inc
        ++ sum_words (fun p => id_words (fst p) ++ sum_words (fun x => index_words (fst x) ++ obj_words (snd x)) (snd p)) ps
        ++ opt_words (sum_words (fun p => id_words (fst p) ++ sum_words (fun x => index_words (fst x) ++ node_words (snd x)) (snd p))) rs
    end.

  Definition iobj_words (x : iobj) := index_words (fst x) ++ obj_words (snd x).
  Definition inode_words (x : inode) := index_words (fst x) ++ node_words (snd x).

  (** mod.rs 91-95 (derived), list.rs 9-17 (derived), node/mod.rs 707-716, properties.rs 18-23,
      reverse_properties.rs 18-25 (derived on [IndexMap]s of [Multiset]s). *)
  Fixpoint obj_eqb (a b : obj) {struct a} : bool :=
    match a, b with
    | OVal v, OVal w => value_eqb v w
    | ONode n, ONode m => node_eqb n m
    | OList l, OList m => list_eqb (fun x y => opt_eqb streq (fst x) (fst y) && obj_eqb (snd x) (snd y)) l m
    | _, _ => false
    end
  with node_eqb (a b : node) {struct a} : bool :=
    match a, b with
    | MkNode i ts g inc ps rs, MkNode i' ts' g' inc' ps' rs' =>
        opt_eqb id_eqb i i'
        && compare_unordered_opt id_eqb ts ts'
        && match g, g' with
           | Some l, Some m => set_eqb (fun x => rnd (iobj_words x)) (fun x y => opt_eqb streq (fst x) (fst y) && obj_eqb (snd x) (snd y)) l m
           | None, None => true
           | _, _ => false
           end
        && match inc, inc' with
           | Some l, Some m => set_eqb (fun x => rnd (inode_words x)) (fun x y => opt_eqb streq (fst x) (fst y) && node_eqb (snd x) (snd y)) l m
           | None, None => true
           | _, _ => false
           end
        && map_eqb (compare_unordered (fun x y => opt_eqb streq (fst x) (fst y) && obj_eqb (snd x) (snd y))) ps ps'
        && match rs, rs' with
           | Some l, Some m => map_eqb (compare_unordered (fun x y => opt_eqb streq (fst x) (fst y) && node_eqb (snd x) (snd y))) l m
           | None, None => true
           | _, _ => false
           end
    end.
End Hash.

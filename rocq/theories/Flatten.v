(** Flattening: crates/core/src/flattening/{mod,node_map,environment}.rs,
    object/node/properties.rs 109-162. *)
From Verif Require Import Prelude Json Enums LangTag LangString Str Keyword Container ContextSyntax Ctx Object ObjectEq ObjectJson Relabel.

(** node_map.rs 15-20, and the [unwrap]s of node_map.rs 357-475. *)
Inductive ferr : Type := FConflict (i : id) (defined conflicting : string) | FPanic.

(** node_map.rs 147-157, 24-41: a [HashMap] is the list of its entries. *)
Definition graph : Type := list (id * inode).
Definition nmap : Type := graph * list (id * graph).
Definition nmap0 : nmap := ([], []).

Fixpoint set_id {A} (k : id) (v : A) (l : list (id * A)) : list (id * A) :=
  match l with
  | [] => [(k, v)]
  | (k', w) :: l' => if id_eqb k k' then (k', v) :: l' else (k', w) :: set_id k v l'
  end.
(** node_map.rs 57-70. *)
Definition get_graph (m : nmap) (a : option id) : option graph :=
  match a with None => Some (fst m) | Some i => get_id i (snd m) end.
Definition set_graph (m : nmap) (a : option id) (g : graph) : nmap :=
  match a with None => (g, snd m) | Some i => (fst m, set_id i g (snd m)) end.
(** node_map.rs 72-76. *)
Definition declare_graph (m : nmap) (i : id) : nmap :=
  match get_id i (snd m) with Some _ => m | None => (fst m, snd m ++ [(i, [])]) end.
(** node_map.rs 179-206. *)
Definition declare_node (g : graph) (i : id) (index : option string) : result graph ferr :=
  match get_id i g with
  | Some (Some x, n) =>
      match index with
      | Some y => if streq x y then Ok g else Err (FConflict i x y)
      | None => Ok g
      end
  | Some (None, n) => match index with Some y => Ok (set_id i (Some y, n) g) | None => Ok g end
  | None => Ok (g ++ [(i, (index, node_new (Some i)))])
  end.

Section Flatten.
  Variables (fin rnd : list word -> N).

  (** mod.rs 383-393, 454-456, node/mod.rs 627-633. *)
  Definition equivalent (x y : iobj) : bool :=
    opt_eqb streq (fst x) (fst y) &&
    match snd x, snd y with
    | OVal v, OVal w => value_eqb v w
    | ONode n, ONode m => match n_id n, n_id m with Some _, Some _ => node_eqb fin rnd n m | _, _ => false end
    | _, _ => false
    end.
  (** properties.rs 144-158: the loop of [insert_all_unique], and [insert_unique]. *)
  Definition add_unique (l : list iobj) (v : iobj) : list iobj :=
    if forallb (fun x => negb (equivalent x v)) l then l ++ [v] else l.
  Fixpoint insert_all_unique (k : id) (v : list iobj) (l : list (id * list iobj)) : list (id * list iobj) :=
    match l with
    | [] => [(k, fold_left add_unique v [])]
    | (k', w) :: l' => if id_eqb k k' then (k', fold_left add_unique v w) :: l' else (k', w) :: insert_all_unique k v l'
    end.

  (** [graph_mut(active_graph).unwrap()], then [f]. *)
  Definition in_graph (m : nmap) (a : option id) (f : graph -> result graph ferr) : result nmap ferr :=
    match get_graph m a with Some g => do g' <- f g ; Ok (set_graph m a g') | None => Err FPanic end.
  (** [graph_mut(active_graph).unwrap().get_mut(&id).unwrap()], then [f]. *)
  Definition in_node (m : nmap) (a : option id) (i : id) (f : node -> node) : result nmap ferr :=
    in_graph m a (fun g => match get_id i g with Some x => Ok (set_id i (fst x, f (snd x)) g) | None => Err FPanic end).
  Definition set_types (ts : list id) (n : node) : node := match n with MkNode i _ g inc ps rs => MkNode i (Some ts) g inc ps rs end.
  Definition set_graph_entry (l : option (list iobj)) (n : node) : node := match n with MkNode i ts _ inc ps rs => MkNode i ts l inc ps rs end.
  (** node_map.rs 400-403 ([IndexSet::extend]). *)
  Definition extend_graph (l : list iobj) (n : node) : node :=
    set_graph_entry (Some (match n_graph n with
                           | Some old => fold_left (set_insert (fun x => rnd (iobj_words fin x)) (iobj_eqb fin rnd)) l old
                           | None => l
                           end)) n.
  Definition add_props (p : id) (l : list iobj) (n : node) : node :=
    match n with MkNode i ts g inc ps rs => MkNode i ts g inc (insert_all_unique p l ps) rs end.

  Definition state : Type := env * nmap.
  Definition map_r_st {S A B E} (f : S -> A -> result (B * S) E) : S -> list A -> result (list B * S) E :=
    fix go (s : S) (l : list A) : result (list B * S) E :=
      match l with
      | [] => Ok ([], s)
      | x :: l' => match f s x with
                   | Err e => Err e
                   | Ok (y, s1) => match go s1 l' with Err e => Err e | Ok (l1, s2) => Ok (y :: l1, s2) end
                   end
      end.

  Section Extend.
    Variable gen : nat -> id.

    (** node_map.rs 317-353 ([extend_node_map]) and 357-475 ([extend_node_map_from_node]), which
        gives the identifier of the node. *)
    Fixpoint extend_o (s : state) (a : option id) (x : option string) (o : obj) {struct o} : result (iobj * state) ferr :=
      match o with
      | OVal v => Ok ((x, OVal v), s)
      | OList l => do (l', s') <- map_r_st (fun s y => extend_o s a (fst y) (snd y)) s l ; Ok ((x, OList l'), s')
      | ONode n => do (i, s') <- extend_n s a x n ; Ok ((None, ONode (node_new (Some i))), s')
      end
    with extend_n (s : state) (a : option id) (x : option string) (n : node) {struct n} : result (id * state) ferr :=
      match n with
      | MkNode i ts g inc ps rs =>
          let (i, e) := match i with Some i => assign_id gen (fst s) i | None => gen_next gen (fst s) end in
          do m <- in_graph (snd s) a (fun gr => declare_node gr i x) ;
          do s <- match ts with
                  | Some l => let (l', e) := map_st (assign_id gen) e l in do m <- in_node m a i (set_types l') ; Ok (e, m)
                  | None => Ok (e, m)
                  end ;
          do s <- match g with
                  | Some l =>
                      do (l', s) <- map_r_st (fun s y => extend_o s (Some i) (fst y) (snd y)) (fst s, declare_graph (snd s) i) l ;
                      do m <- in_node (snd s) a i (extend_graph (collect_o fin rnd l')) ; Ok (fst s, m)
                  | None => Ok s
                  end ;
          do s <- match inc with
                  | Some l => do (_, s) <- map_r_st (fun s y => extend_n s a (fst y) (snd y)) s l ; Ok s
                  | None => Ok s
                  end ;
          do (_, s) <- map_r_st (fun s p =>
                         do (l', s) <- map_r_st (fun s y => extend_o s a (fst y) (snd y)) s (snd p) ;
                         do m <- in_node (snd s) a i (add_props (fst p) l') ; Ok (tt, (fst s, m))) s ps ;
          do s <- match rs with
                  | Some l =>
                      do (_, s) <- map_r_st (fun s p =>
                                     do (_, s) <- map_r_st (fun s y =>
                                                    do (j, s) <- extend_n s a (fst y) (snd y) ;
                                                    do m <- in_node (snd s) a j (add_props (fst p) [(None, ONode (node_new (Some i)))]) ; Ok (tt, (fst s, m))) s (snd p) ;
                                     Ok (tt, s)) s l ; Ok s
                  | None => Ok s
                  end ;
          Ok (i, s)
      end.
    (** node_map.rs 297-308. *)
    Definition node_map (d : list iobj) : result nmap ferr :=
      do (_, s) <- map_r_st (fun s y => extend_o s None (fst y) (snd y)) (env0, nmap0) d ; Ok (snd s).
  End Extend.

  (** ** The flattened document *)
  Definition node_empty (n : node) : bool :=
    match n with MkNode _ None None None [] None => true | _ => false end.
  (** mod.rs 88-94. *)
  Definition filter_graph (x : inode) : list inode :=
    match fst x with None => if node_empty (snd x) then [] else [x] | Some _ => [x] end.
  (** mod.rs 96-105. *)
  Definition filter_sub_graph (x : inode) : list iobj :=
    match snd x with
    | MkNode i ts _ _ ps _ =>
        match fst x, ps with None, [] => [] | _, _ => [(fst x, ONode (MkNode i ts None None ps None))] end
    end.
  (** mod.rs 107-180: [pg], [pn], [po] are the orders in which the graphs, the nodes of each graph
      and the resulting nodes come: those of the hash maps, or sorted. *)
  Section Output.
    Variables (pg : list (id * graph) -> list (id * graph)) (pn : option id -> graph -> graph) (po : list inode -> list inode).
    Definition attach (g : graph) (ig : id * graph) : result graph ferr :=
      do g' <- declare_node g (fst ig) None ;
      match get_id (fst ig) g' with
      | Some x => Ok (set_id (fst ig) (fst x, set_graph_entry (Some (collect_o fin rnd (flat_map (fun e => filter_sub_graph (snd e)) (pn (Some (fst ig)) (snd ig))))) (snd x)) g')
      | None => Err FPanic
      end.
    Fixpoint attach_all (g : graph) (l : list (id * graph)) : result graph ferr :=
      match l with [] => Ok g | ig :: l' => do g' <- attach g ig ; attach_all g' l' end.
    Definition flatten_map (m : nmap) : result (list inode) ferr :=
      do g <- attach_all (fst m) (pg (snd m)) ;
      Ok (po (flat_map (fun e => filter_graph (snd e)) (pn None g))).
    (** mod.rs 60-84. *)
    Definition flatten (gen : nat -> id) (d : list iobj) : result (list inode) ferr :=
      do m <- node_map gen d ; flatten_map m.
  End Output.
End Flatten.

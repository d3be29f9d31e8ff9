(** Editing the properties of a node: crates/core/src/object/node/properties.rs 56-190,
    reverse_properties.rs 53-190, multiset.rs 53-100, 146-154.
    The two files are the same code, for objects and for nodes: [A] is the type of the values and
    [eqv] their [equivalent]. *)
From Verif Require Import Prelude Json Enums LangTag LangString Str Keyword Container ContextSyntax Ctx Object ObjectEq ObjectJson Flatten.

(** node/mod.rs 627-633, 727-731. *)
Definition equivalent_node (fin rnd : list word -> N) (x y : inode) : bool :=
  opt_eqb streq (fst x) (fst y) &&
  match n_id (snd x), n_id (snd y) with Some _, Some _ => node_eqb fin rnd (snd x) (snd y) | _, _ => false end.

(** The calls that edit properties. *)
Inductive edit (A : Type) : Type :=
| Insert (k : id) (v : A)
| InsertUnique (k : id) (v : A)
| InsertAll (k : id) (vs : list A)
| InsertAllUnique (k : id) (vs : list A)
| SetTo (k : id) (vs : list A)
| ExtendUnique (l : list (id * list A))
| Extend (l : list (id * list A))
| Remove (k : id)
| Clear.
Arguments Insert {A}. Arguments InsertUnique {A}. Arguments InsertAll {A}. Arguments InsertAllUnique {A}.
Arguments SetTo {A}. Arguments ExtendUnique {A}. Arguments Extend {A}. Arguments Remove {A}. Arguments Clear {A}.

Section Edit.
  Context {A : Type}.
  Variable eqv : A -> A -> bool.
  Definition pmap : Type := list (id * list A).

  (** An [IndexMap] is the list of its entries, in order; [get_mut] then a change of the value. *)
  Fixpoint change (k : id) (f : list A -> list A) (l : pmap) : pmap :=
    match l with
    | [] => []
    | (k', w) :: l' => if id_eqb k k' then (k', f w) :: l' else (k', w) :: change k f l'
    end.
  (** [IndexMap::swap_remove]: the last entry takes the place of the removed one. *)
  Fixpoint swap_remove (k : id) (l : pmap) : pmap :=
    match l with
    | [] => []
    | (k', w) :: l' =>
        if id_eqb k k' then match rev l' with [] => [] | e :: r => e :: rev r end
        else (k', w) :: swap_remove k l'
    end.
  (** properties.rs 101-107 ([Multiset::singleton] and [Multiset::insert]). *)
  Definition p_insert (k : id) (v : A) (l : pmap) : pmap :=
    match get_id k l with Some _ => change k (fun w => w ++ [v]) l | None => l ++ [(k, [v])] end.
  (** properties.rs 113-115, 146-148, 155-157. *)
  Definition push_new (w : list A) (v : A) : list A := if forallb (fun x => negb (eqv x v)) w then w ++ [v] else w.
  (** properties.rs 111-119. *)
  Definition p_insert_unique (k : id) (v : A) (l : pmap) : pmap :=
    match get_id k l with Some _ => change k (fun w => push_new w v) l | None => l ++ [(k, [v])] end.
  (** properties.rs 123-133. *)
  Definition p_insert_all (k : id) (vs : list A) (l : pmap) : pmap :=
    match get_id k l with Some _ => change k (fun w => w ++ vs) l | None => l ++ [(k, vs)] end.
  (** properties.rs 139-162. *)
  Definition p_insert_all_unique (k : id) (vs : list A) (l : pmap) : pmap :=
    match get_id k l with Some _ => change k (fun w => fold_left push_new vs w) l | None => l ++ [(k, fold_left push_new vs [])] end.
  (** properties.rs 164-166 ([IndexMap::insert]). *)
  Definition p_set (k : id) (vs : list A) (l : pmap) : pmap :=
    match get_id k l with Some _ => change k (fun _ => vs) l | None => l ++ [(k, vs)] end.
  Definition apply (l : pmap) (e : edit A) : pmap :=
    match e with
    | Insert k v => p_insert k v l
    | InsertUnique k v => p_insert_unique k v l
    | InsertAll k vs => p_insert_all k vs l
    | InsertAllUnique k vs => p_insert_all_unique k vs l
    | SetTo k vs => p_set k vs l
    (** properties.rs 168-176. *)
    | ExtendUnique m => fold_left (fun r p => p_insert_all_unique (fst p) (snd p) r) m l
    (** properties.rs 188-199, 234-243: [from_iter] from nothing and [extend]. *)
    | Extend m => fold_left (fun r p => p_insert_all (fst p) (snd p) r) m l
    (** properties.rs 180-185. *)
    | Remove k => swap_remove k l
    (** properties.rs 60-63. *)
    | Clear => []
    end.
  Definition run_edits (h : list (edit A)) : pmap := fold_left apply h [].
  (** properties.rs 67-97. *)
  Definition p_contains (k : id) (l : pmap) : bool := match get_id k l with Some _ => true | None => false end.
  Definition p_get (k : id) (l : pmap) : list A := match get_id k l with Some w => w | None => [] end.
  Definition p_get_any (k : id) (l : pmap) : option A := match get_id k l with Some w => hd_error w | None => None end.
  (** properties.rs 180-185: what [remove] returns. *)
  Definition p_removed (k : id) (l : pmap) : option (list A) := get_id k l.
End Edit.

(** ** Specification *)
Section Spec.
  Context {A : Type}.
  (** The edit ends what was said of [k] before. *)
  Definition forgets (k : id) (e : edit A) : Prop := e = Clear \/ e = Remove k \/ exists vs, e = SetTo k vs.
  (** The edits that matter for [k]: all, or those from the last one that forgets [k]. *)
  Inductive lately (k : id) (h : list (edit A)) : list (edit A) -> Prop :=
  | LatelyAll : Forall (fun e => ~ forgets k e) h -> lately k h h
  | LatelySince h1 e h2 : h = h1 ++ e :: h2 -> forgets k e -> Forall (fun e => ~ forgets k e) h2 -> lately k h (e :: h2).
  Definition given_for (k : id) (l : list (id * list A)) : list A :=
    flat_map (fun p => if id_eqb k (fst p) then snd p else []) l.
  (** The values an edit offers for [k], in order, and whether they are offered only if new. *)
  Definition offers (k : id) (e : edit A) : list (bool * A) :=
    match e with
    | Insert k' v => if id_eqb k k' then [(false, v)] else []
    | InsertUnique k' v => if id_eqb k k' then [(true, v)] else []
    | InsertAll k' vs => if id_eqb k k' then map (pair false) vs else []
    | InsertAllUnique k' vs => if id_eqb k k' then map (pair true) vs else []
    | SetTo k' vs => if id_eqb k k' then map (pair false) vs else []
    | ExtendUnique l => map (pair true) (given_for k l)
    | Extend l => map (pair false) (given_for k l)
    | Remove _ | Clear => []
    end.
  (** The edit is about [k], even if it offers nothing. *)
  Definition mentions (k : id) (e : edit A) : Prop :=
    match e with
    | Insert k' _ | InsertUnique k' _ | InsertAll k' _ | InsertAllUnique k' _ | SetTo k' _ => k = k'
    | ExtendUnique l | Extend l => In k (map fst l)
    | Remove _ | Clear => False
    end.
  (** Which offers are taken: all but those made only if new and equivalent to one already taken. *)
  Definition taken (eqv : A -> A -> bool) (l : list (bool * A)) (flags : list bool) : Prop :=
    length flags = length l /\
    forall i u v, nth_error l i = Some (u, v) ->
      (nth_error flags i = Some false <->
       u = true /\ exists j u' w, j < i /\ nth_error l j = Some (u', w) /\ nth_error flags j = Some true /\ eqv w v = true).
  Definition selected (l : list (bool * A)) (flags : list bool) : list A :=
    map (fun p => snd (fst p)) (filter (fun p => snd p) (combine l flags)).
End Spec.

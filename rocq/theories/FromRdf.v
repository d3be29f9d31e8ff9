(** Building an expanded document from RDF quads: crates/core/src/serialization.rs.
    Simplification: a resource is an RDF term (the interpretation is the identity; a resource has
    exactly one term), and the iteration order of maps and sets is that of insertion. *)
From Verif Require Import Prelude Json Enums LangTag LangString Str Keyword Container ContextSyntax Ctx Object ObjectJson Relabel Rdf.
From Coq Require Import NArith.

Definition vid_eqb (a b : vid) : bool :=
  match a, b with VIri u, VIri v => streq u v | VBlank u, VBlank v => streq u v | _, _ => false end.
Definition ltype_eqb (a b : ltype) : bool :=
  match a, b with TAny u, TAny v => streq u v | TLang u, TLang v => streq u v | _, _ => false end.
Definition rval_eqb (a b : rval) : bool :=
  match a, b with RId i, RId j => vid_eqb i j | RLit s t, RLit s' t' => streq s s' && ltype_eqb t t' | _, _ => false end.

(** 185-195 ([RdfType]); [None] is [RdfType::List]. *)
Definition rdf_type : Type := option rval.
Definition type_eqb (a b : rdf_type) : bool :=
  match a, b with None, None => true | Some x, Some y => rval_eqb x y | _, _ => false end.
(** 63-72, 95-101 ([SerList], [SerResource], [SerGraph]). *)
Inductive sres : Type :=
| MkSr (types : list rdf_type) (props : list (rval * list rval)) (graph : option (list (rval * sres)))
    (first rest reverse_rest : list rval) (values : option (list rval)) (references : N).
Definition sgraph : Type := list (rval * sres).
Definition sr_types r := match r with MkSr x _ _ _ _ _ _ _ => x end.
Definition sr_props r := match r with MkSr _ x _ _ _ _ _ _ => x end.
Definition sr_graph r := match r with MkSr _ _ x _ _ _ _ _ => x end.
Definition sr_first r := match r with MkSr _ _ _ x _ _ _ _ => x end.
Definition sr_rest r := match r with MkSr _ _ _ _ x _ _ _ => x end.
Definition sr_reverse r := match r with MkSr _ _ _ _ _ x _ _ => x end.
Definition sr_values r := match r with MkSr _ _ _ _ _ _ x _ => x end.
Definition sr_refs r := match r with MkSr _ _ _ _ _ _ _ x => x end.
(** 74-83, 103-113. *)
Definition sr_new : sres := MkSr [] [] None [] [] [] None 0.

Definition add {A} (e : A -> A -> bool) (x : A) (l : list A) : list A := if existsb (e x) l then l else l ++ [x].
Fixpoint add_at (p o : rval) (l : list (rval * list rval)) : list (rval * list rval) :=
  match l with
  | [] => [(p, [o])]
  | (q, v) :: l' => if rval_eqb p q then (q, add rval_eqb o v) :: l' else (q, v) :: add_at p o l'
  end.
Definition set_types x r := match r with MkSr _ b c d e f g h => MkSr x b c d e f g h end.
Definition set_props x r := match r with MkSr a _ c d e f g h => MkSr a x c d e f g h end.
Definition set_graph x r := match r with MkSr a b _ d e f g h => MkSr a b x d e f g h end.
Definition set_first x r := match r with MkSr a b c _ e f g h => MkSr a b c x e f g h end.
Definition set_rest x r := match r with MkSr a b c d _ f g h => MkSr a b c d x f g h end.
Definition set_reverse x r := match r with MkSr a b c d e _ g h => MkSr a b c d e x g h end.
Definition set_values x r := match r with MkSr a b c d e f _ h => MkSr a b c d e f x h end.
Definition set_refs x r := match r with MkSr a b c d e f g _ => MkSr a b c d e f g x end.

Definition is_nil {A} (l : list A) : bool := match l with [] => true | _ :: _ => false end.
Definition is_one {A} (l : list A) : bool := match l with [_] => true | _ => false end.
(** 85-93, 115-128. *)
Definition sr_is_empty (r : sres) : bool :=
  is_nil (sr_types r) && is_nil (sr_props r) && match sr_graph r with None => true | Some _ => false end
  && (is_nil (sr_first r) && is_nil (sr_rest r)).
Definition sr_is_list_node (r : sres) : bool :=
  forallb (fun t => match t with None => true | Some _ => false end) (sr_types r)
  && is_nil (sr_props r) && match sr_graph r with None => true | Some _ => false end
  && (is_one (sr_first r) && is_one (sr_rest r)).

(** 146-157: lookup, and [resource_mut] followed by a change. *)
Fixpoint s_get (k : rval) (g : sgraph) : option sres :=
  match g with [] => None | (k', r) :: g' => if rval_eqb k k' then Some r else s_get k g' end.
Fixpoint s_mut (k : rval) (f : sres -> sres) (g : sgraph) : sgraph :=
  match g with
  | [] => [(k, f sr_new)]
  | (k', r) :: g' => if rval_eqb k k' then (k', f r) :: g' else (k', r) :: s_mut k f g'
  end.

(** 160-183 ([rdf_property]). *)
Inductive rdf_prop : Type := PType | PFirst | PRest.
Definition rdf_property (p : vid) : option rdf_prop :=
  match p with
  | VIri u => if streq u (rdf "type") then Some PType else if streq u (rdf "first") then Some PFirst
              else if streq u (rdf "rest") then Some PRest else None
  | VBlank _ => None
  end.
(** 197-212. *)
Definition rdf_type_of (o : rval) : rdf_type :=
  match o with RId (VIri u) => if streq u (rdf "List") then None else Some o | _ => Some o end.
(** 214-216. *)
Definition is_anonymous (r : rval) : bool := match r with RId (VBlank _) => true | _ => false end.
(** 230-235. *)
Record rdf_terms : Type := MkTerms { tm_list : option rval; tm_first : option rval; tm_rest : option rval }.

(** [usize::MAX] on a 64 bits machine. *)
Definition usize_max : N := 18446744073709551615.
(** 262-307: the effect of a quad on its graph, on [nil] and on the terms. *)
Definition quad_graph (s p : vid) (o : rval) (g : sgraph) : sgraph :=
  let g :=
    match rdf_property p with
    | Some PType => s_mut (RId s) (fun r => set_types (add type_eqb (rdf_type_of o) (sr_types r)) r) g
    | Some PFirst => s_mut (RId s) (fun r => set_first (add rval_eqb o (sr_first r)) r) g
    | Some PRest =>
        s_mut o (fun r => set_reverse (add rval_eqb (RId p) (sr_reverse r)) r)
          (s_mut (RId s) (fun r => set_rest (add rval_eqb o (sr_rest r)) r) g)
    | None => s_mut (RId s) (fun r => set_props (add_at (RId p) o (sr_props r)) r) g
    end in
  s_mut o (fun r => set_refs (if rval_eqb (RId p) o then usize_max else N.min (sr_refs r + 1) usize_max) r) g.
Definition quad_terms (p : vid) (o : rval) (t : rdf_terms) : rdf_terms :=
  match rdf_property p with
  | Some PType => MkTerms (match rdf_type_of o with None => Some o | Some _ => tm_list t end) (Some (RId p)) (tm_rest t)
  | Some PFirst => MkTerms (tm_list t) (Some (RId p)) (tm_rest t)
  | Some PRest => MkTerms (tm_list t) (tm_first t) (Some (RId p))
  | None => t
  end.
Definition quad_nil (p : vid) (o : rval) (nil : option rval) : option rval :=
  match rdf_property p, nil with
  | Some PRest, None => match o with RId (VIri u) => if streq u (rdf "nil") then Some o else None | _ => None end
  | _, _ => nil
  end.
(** 29-61 ([SerDataset]). *)
Definition dataset : Type := list (rval * sgraph) * sgraph.
Fixpoint named_mut (k : rval) (f : sgraph -> sgraph) (l : list (rval * sgraph)) : list (rval * sgraph) :=
  match l with
  | [] => [(k, f [])]
  | (k', g) :: l' => if rval_eqb k k' then (k', f g) :: l' else (k', g) :: named_mut k f l'
  end.
Definition graph_mut (a : option vid) (f : sgraph -> sgraph) (d : dataset) : dataset :=
  match a with Some a => (named_mut (RId a) f (fst d), snd d) | None => (fst d, f (snd d)) end.
Record sstate : Type := MkSs { ss_data : dataset; ss_nil : option rval; ss_terms : rdf_terms }.
Definition quad_step (st : sstate) (q : quad) : sstate :=
  match q with
  | (s, p, o, a) => MkSs (graph_mut a (quad_graph s p o) (ss_data st)) (quad_nil p o (ss_nil st)) (quad_terms p o (ss_terms st))
  end.
Definition fold_into_default (d : dataset) : sgraph :=
  fold_left (fun g e => s_mut (fst e) (set_graph (Some (snd e))) g) (fst d) (snd d).

(** 218-228, panics, and running out of fuel. *)
Inductive ser_err : Type := SInvalidJson | SInvalidBoolean | SInvalidNumber | SPanic | SFuel.

(** 321-341: going up a list. *)
Fixpoint list_up (fuel : nat) (g : sgraph) (head_id : rval) (head : sres) (values : list rval) : result (rval * list rval) ser_err :=
  match fuel with
  | O => Err SFuel
  | S n =>
      match sr_first head, sr_reverse head with
      | x :: _, parent :: _ =>
          let values := values ++ [x] in
          let stop := Ok (head_id, rev values) in
          if is_anonymous parent then
            match s_get parent g with
            | Some r => if N.eqb (sr_refs r) 1 && sr_is_list_node r then list_up n g parent r values else stop
            | None => stop
            end
          else stop
      | _, _ => Err SPanic
      end
  end.
(** 311-352 *)
Definition find_lists (fuel : nat) (g : sgraph) (nil : option rval) : result (list (rval * list rval)) ser_err :=
  match nil with
  | None => Ok []
  | Some n =>
      match s_get n g with
      | None => Ok []
      | Some r =>
          fold_left (fun acc i =>
            do l <- acc ;
            if is_anonymous i then
              match s_get i g with
              | Some h => if N.eqb (sr_refs h) 1 && sr_is_list_node h then do x <- list_up fuel g i h [] ; Ok (l ++ [x]) else Ok l
              | None => Ok l
              end
            else Ok l) (sr_reverse r) (Ok [])
      end
  end.

(** 632-648 ([id_of]). *)
Definition id_of_vid (v : vid) : id := match v with VIri u => IIri u | VBlank b => IBlank b end.
Definition id_of (r : rval) : option id := match r with RId v => Some (id_of_vid v) | RLit _ _ => None end.

Record ser_io : Type := MkSerIo {
  (** [json_syntax::Value::parse_str] and [NumberBuf::from_str]. *)
  json_parse : string -> option json;
  is_number : string -> bool
}.
Section Render.
  Variables (io : ser_io) (fin rnd : list word -> N) (terms : rdf_terms).

  (** 670-715. *)
  Definition literal_value (s : string) (t : ltype) : result value ser_err :=
    match t with
    | TAny u =>
        if streq u (rdf "JSON") then match json_parse io s with Some j => Ok (VJson j) | None => Err SInvalidJson end
        else if streq u (xsd "boolean") then
          if streq s "true" || streq s "1" then Ok (VLit (LBool true) (Some u))
          else if streq s "false" || streq s "0" then Ok (VLit (LBool false) (Some u)) else Err SInvalidBoolean
        else if streq u (xsd "integer") || streq u (xsd "double") then
          if is_number io s then Ok (VLit (LNum s) (Some u)) else Err SInvalidNumber
        else if streq u (xsd "string") then Ok (VLit (LStr s) None)
        else Ok (VLit (LStr s) (Some u))
    | TLang l => Ok (VLang (MkLS s (Some l) None))
    end.
  (** 612-630, 666-669. *)
  Definition render_reference (r : rval) : result iobj ser_err :=
    match r with
    | RId v => Ok (None, ONode (node_new (Some (id_of_vid v))))
    | RLit s t => do v <- literal_value s t ; Ok (None, OVal v)
    end.
  (** Unwrapping. *)
  Definition unwrap {A} (o : option A) : result A ser_err := match o with Some x => Ok x | None => Err SPanic end.

  (** 394-519 ([render_object]). *)
  Fixpoint render_object (fuel : nat) (g : sgraph) (i : rval) (r : sres) : result iobj ser_err :=
    match fuel with
    | O => Err SFuel
    | S n =>
        (* 577-610 *)
        let or_reference (g : sgraph) (x : rval) :=
          match s_get x g with
          | Some r => if N.eqb (sr_refs r) 1 && negb (sr_is_empty r) then render_object n g x r else render_reference x
          | None => render_reference x
          end in
        (* 522-575 *)
        let insert_property (p : rval) (xs : list rval) (ps : list (id * list iobj)) :=
          match id_of p with
          | None => Ok ps
          | Some p => fold_left (fun acc x => do ps <- acc ; do o <- or_reference g x ; Ok (insert_all p [o] ps)) xs (Ok ps)
          end in
        if sr_is_empty r then render_reference i
        else
          match sr_values r with
          | Some vs => do l <- map_r (or_reference g) vs ; Ok (None, OList l)
          | None =>
              do ts <- map_r (fun t => match t with None => unwrap (tm_list terms) | Some o => Ok o end) (sr_types r) ;
              let ts := flat_map (fun o => match id_of o with Some i => [i] | None => [] end) ts in
              do gr <- match sr_graph r with
                       | Some g' =>
                           do l <- map_r (fun e => render_object n g' (fst e) (snd e))
                             (filter (fun e => negb (N.eqb (sr_refs (snd e)) 1) && negb (sr_is_empty (snd e))) g') ;
                           Ok (Some (collect_o fin rnd l))
                       | None => Ok None
                       end ;
              do ps <- fold_left (fun acc e => do ps <- acc ; insert_property (fst e) (snd e) ps) (sr_props r) (Ok []) ;
              do ps <- (if is_nil (sr_first r) then Ok ps else do p <- unwrap (tm_first terms) ; insert_property p (sr_first r) ps) ;
              do ps <- (if is_nil (sr_rest r) then Ok ps else do p <- unwrap (tm_rest terms) ; insert_property p (sr_rest r) ps) ;
              Ok (None, ONode (MkNode (id_of i) (if is_nil ts then None else Some ts) gr None ps None))
          end
    end.
End Render.
(** 238-369 ([ExpandedDocument::from_interpreted_quads_in]). *)
Definition from_quads (io : ser_io) (fin rnd : list word -> N) (fuel : nat) (qs : list quad) : result (list iobj) ser_err :=
  let st := fold_left quad_step qs (MkSs ([], []) None (MkTerms None None None)) in
  let g := fold_into_default (ss_data st) in
  do lists <- find_lists fuel g (ss_nil st) ;
  let g := fold_left (fun g e => s_mut (fst e) (set_values (Some (snd e))) g) lists g in
  do l <- map_r (fun e => render_object io fin rnd (ss_terms st) fuel g (fst e) (snd e))
    (filter (fun e => negb (N.eqb (sr_refs (snd e)) 1) && negb (sr_is_empty (snd e))) g) ;
  Ok (collect_o fin rnd l).

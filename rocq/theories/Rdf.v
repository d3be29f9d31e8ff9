(** RDF quads of a document: crates/core/src/rdf/mod.rs, rdf/quad.rs, quad.rs. *)
From Verif Require Import Prelude Json Enums LangTag LangString Str Keyword Container ContextSyntax Ctx Object Flatten.

(** [rdf_types]: identifiers (id.rs 13 [ValidId]), literals and objects (mod.rs 637). *)
Inductive vid : Type := VIri (u : string) | VBlank (b : string).
Inductive ltype : Type := TAny (u : string) | TLang (l : string).
Inductive rval : Type := RId (i : vid) | RLit (s : string) (t : ltype).
Definition triple : Type := vid * vid * rval.
Definition quad : Type := triple * option vid.

(** mod.rs 17-30. *)
Definition rdf (s : string) : string := "http://www.w3.org/1999/02/22-rdf-syntax-ns#" +++ s.
Definition xsd (s : string) : string := "http://www.w3.org/2001/XMLSchema#" +++ s.
(** mod.rs 48-68 ([RdfDirection]). *)
Inductive rdf_direction : Type := I18nDatatype | CompoundLiteral.
(** id.rs 361-370 ([TryFrom<&Id> for &ValidId]). *)
Definition valid (i : id) : option vid :=
  match i with IIri u => Some (VIri u) | IBlank b => Some (VBlank b) | IInvalid _ => None end.
Definition is_blank (i : vid) : bool := match i with VBlank _ => true | VIri _ => false end.

(** mod.rs 625-632. *)
Definition i18n (l : option string) (d : direction) : string :=
  "https://www.w3.org/ns/i18n#" +++ match l with Some l => l +++ "_" +++ dir_str d | None => dir_str d end.

(** ** JSON-LD quads (quad.rs) *)
(** quad.rs 12-28. *)
Inductive ldprop : Type := LType | LProp (p : id).
Inductive ldobj : Type := LObj (o : obj) | LNode (n : node) | LRef (i : id).
Record ldquad : Type := MkLq { lq_graph : option id; lq_subject : id; lq_prop : ldprop; lq_object : ldobj }.
(** quad.rs 66-109: an iterator is the list of what is left. *)
Inductive frame : Type :=
| FrObjects (g : option id) (l : list iobj)
| FrNodes (g : option id) (l : list inode)
| FrTypes (g : option id) (s : id) (l : list id)
| FrProps (g : option id) (s : id) (l : list (id * list iobj))
| FrReverse (g : option id) (n : node) (l : list (id * list inode))
| FrPropObjects (g : option id) (s p : id) (l : list iobj)
| FrSubjects (g : option id) (n : node) (p : id) (l : list inode).
(** quad.rs 129-160; the top of the stack is the head of the list. *)
Definition push_node (g : option id) (n : node) (st : list frame) : list frame :=
  match n with
  | MkNode (Some i) ts gr inc ps rs =>
      match ts with Some l => [FrTypes g i l] | None => [] end
      ++ [FrProps g i ps]
      ++ match rs with Some l => [FrReverse g n l] | None => [] end
      ++ match inc with Some l => [FrNodes g l] | None => [] end
      ++ match gr with Some l => [FrObjects (Some i) l] | None => [] end ++ st
  | MkNode None _ _ _ _ _ => st
  end.
(** quad.rs 119-127. *)
Definition push_object (g : option id) (o : obj) (st : list frame) : list frame :=
  match o with ONode n => push_node g n st | OList l => FrObjects g l :: st | OVal _ => st end.
(** quad.rs 162-300: one turn of the loop. *)
Definition ld_step (f : frame) (st : list frame) : option ldquad * list frame :=
  match f with
  | FrObjects g (x :: l) => (None, push_object g (snd x) (FrObjects g l :: st))
  | FrNodes g (x :: l) => (None, push_node g (snd x) (FrNodes g l :: st))
  | FrTypes g s (t :: l) => (Some (MkLq g s LType (LRef t)), FrTypes g s l :: st)
  | FrProps g s (p :: l) => (None, FrPropObjects g s (fst p) (snd p) :: FrProps g s l :: st)
  | FrReverse g n (p :: l) => (None, FrSubjects g n (fst p) (snd p) :: FrReverse g n l :: st)
  | FrPropObjects g s p (x :: l) => (Some (MkLq g s (LProp p) (LObj (snd x))), push_object g (snd x) (FrPropObjects g s p l :: st))
  | FrSubjects g n p (x :: l) =>
      (match n_id (snd x) with Some i => Some (MkLq g i (LProp p) (LNode n)) | None => None end,
       push_node g (snd x) (FrSubjects g n p l :: st))
  | FrObjects _ [] | FrNodes _ [] | FrTypes _ _ [] | FrProps _ _ [] | FrReverse _ _ [] | FrPropObjects _ _ _ [] | FrSubjects _ _ _ [] => (None, st)
  end.
(** [Quads::next]; [None]: not finished after [fuel] turns. *)
Fixpoint ld_next (fuel : nat) (st : list frame) : option (option ldquad * list frame) :=
  match fuel with
  | O => None
  | S n => match st with
           | [] => Some (None, [])
           | f :: st' => match ld_step f st' with
                         | (Some q, st2) => Some (Some q, st2)
                         | (None, st2) => ld_next n st2
                         end
           end
  end.
(** quad.rs 34-60. *)
Definition doc_frames (d : list iobj) : list frame := [FrObjects None d].
Definition flattened_frames (d : list inode) : list frame := [FrNodes None d].
Definition node_map_frames (m : nmap) : list frame :=
  rev (FrNodes None (map snd (fst m)) :: map (fun g => FrNodes (Some (fst g)) (map snd (snd g))) (snd m)).

(** External functions: well-formedness of language tags ([langtag]), printing of JSON values
    ([json_syntax]), tests and printing of numbers ([json_number], [pretty_dtoa]). *)
Record rdf_io : Type := MkRdfIo {
  wf_lang : string -> bool;
  json_print : json -> string;
  is_i64 : string -> bool;
  double_print : string -> string
}.

Section Rdf.
  Variables (io : rdf_io) (gen : nat -> vid) (dir : option rdf_direction) (generalized : bool).

  (** ** Values (mod.rs 134-327) *)
  (** [rdf_types::Generator]: [k] is the number of identifiers generated so far. *)
  Definition value_rdf (k : nat) (v : value) : option rval * nat :=
    match v with
    | VJson j => (Some (RLit (json_print io j) (TAny (rdf "JSON"))), k)
    | VLang s =>
        let plain := match ls_language s with
                     | Some l => RLit (ls_data s) (TLang l)
                     | None => RLit (ls_data s) (TAny (xsd "string"))
                     end in
        if match ls_language s with Some l => wf_lang io l | None => true end then
          match ls_direction s with
          | Some d => match dir with
                      | Some I18nDatatype => (Some (RLit (ls_data s) (TAny (i18n (ls_language s) d))), k)
                      | Some CompoundLiteral => (Some (RId (gen k)), S k)
                      | None => (Some plain, k)
                      end
          | None => (Some plain, k)
          end
        else (None, k)
    | VLit l t =>
        let (s, preferred) :=
          match l with
          | LBool b => (if b then "true" else "false", Some (xsd "boolean"))
          | LNull => ("null", None)
          | LNum n => if is_i64 io n && negb (match t with Some t => streq t (xsd "double") | None => false end)
                      then (n, Some (xsd "integer")) else (double_print io n, Some (xsd "double"))
          | LStr s => (s, None)
          end in
        let ty := match t with Some t => t | None => match preferred with Some t => t | None => xsd "string" end end in
        (Some (RLit s (TAny ty)), k)
    end.
  (** mod.rs 33-40, 333-337. *)
  Definition id_rdf (i : option id) : option rval :=
    match i with Some i => match valid i with Some v => Some (RId v) | None => None end | None => None end.
  (** mod.rs 339-384: the value, and the triples that describe it (those of a list; literals have
      none, all the [triples] of mod.rs 150-325 being [None]). *)
  Definition object_rdf (k : nat) (o : obj) : option (rval * option (vid * list iobj)) * nat :=
    match o with
    | OVal v => let (r, k') := value_rdf k v in (option_map (fun r => (r, None)) r, k')
    | ONode n => (option_map (fun r => (r, None)) (id_rdf (n_id n)), k)
    | OList [] => (Some (RId (VIri (rdf "nil")), None), k)
    | OList l => (Some (RId (gen k), Some (gen k, l)), S k)
    end.
  (** mod.rs 391-412. *)
  Definition ldobj_rdf (k : nat) (o : ldobj) : option (rval * option (vid * list iobj)) * nat :=
    match o with
    | LObj o => object_rdf k o
    | LNode n => (option_map (fun r => (r, None)) (id_rdf (n_id n)), k)
    | LRef i => (option_map (fun r => (r, None)) (id_rdf (Some i)), k)
    end.

  (** ** Lists (mod.rs 414-620) *)
  (** mod.rs 419-423, 514-517: [head_ref], [previous] and what is left of the list; the pending
      triple and the stack of nested lists. *)
  Record nested : Type := MkNested { ns_head : option vid; ns_prev : option vid; ns_rest : list iobj }.
  Definition lstate : Type := option triple * list nested.
  Definition list_triples (h : vid) (l : list iobj) : lstate := (None, [MkNested (Some h) None l]).
  (** mod.rs 560-617 with 437-455: one turn of the loop; [inl]: [next] returns. *)
  Definition lt_step (k : nat) (s : lstate) : (option triple * lstate * nat) + (lstate * nat) :=
    match s with
    | (Some t, st) => inl (Some t, (None, st), k)
    | (None, []) => inl (None, s, k)
    | (None, MkNested h prev [] :: st) =>
        match prev with
        | Some p => inl (Some (p, VIri (rdf "rest"), RId (VIri (rdf "nil"))), (None, st), k)
        | None => inr (None, st, k)
        end
    | (None, MkNested h prev (x :: l) :: st) =>
        let (i, k1) := match h with Some h => (h, k) | None => (gen k, S k) end in
        let (v, k2) := object_rdf k1 (snd x) in
        let st' := MkNested None (Some i) l :: st in
        match v with
        | Some (r, t) =>
            let st2 := match t with Some (h', l') => MkNested (Some h') None l' :: st' | None => st' end in
            let pending := Some (i, VIri (rdf "first"), r) in
            match prev with
            | Some p => inl (Some (p, VIri (rdf "rest"), RId i), (pending, st2), k2)
            | None => inr (pending, st2, k2)
            end
        | None => inr (None, st', k2)
        end
    end.
  Fixpoint lt_next (fuel : nat) (k : nat) (s : lstate) : option (option triple * lstate * nat) :=
    match fuel with
    | O => None
    | S n => match lt_step k s with inl r => Some r | inr (s', k') => lt_next n k' s' end
    end.
  (** mod.rs 612-616 ([ListTriplesWith]): the whole iterator. *)
  Fixpoint lt_all (fuel : nat) (k : nat) (s : lstate) : option (list triple * nat) :=
    match fuel with
    | O => None
    | S n => match lt_next n k s with
             | Some (Some t, s', k') => match lt_all n k' s' with Some (l, k2) => Some (t :: l, k2) | None => None end
             | Some (None, _, k') => Some ([], k')
             | None => None
             end
    end.

  (** ** The quads (rdf/quad.rs 51-129) *)
  Record qstate : Type := MkQs { qs_gen : nat; qs_compound : option (option vid * lstate); qs_quads : list frame }.
  (** rdf/quad.rs 83-104: graph, subject and predicate of a JSON-LD quad; [None]: skipped. *)
  Definition spo (q : ldquad) : option (option vid * vid * vid) :=
    match match lq_graph q with Some g => match valid g with Some v => Some (Some v) | None => None end | None => Some None end with
    | None => None
    | Some g =>
        match valid (lq_subject q) with
        | None => None
        | Some s =>
            match match lq_prop q with LType => Some (VIri (rdf "type")) | LProp p => valid p end with
            | None => None
            | Some p => if negb generalized && is_blank p then None else Some (g, s, p)
            end
        end
    end.
  Fixpoint q_next (fuel : nat) (s : qstate) : option (option quad * qstate) :=
    match fuel with
    | O => None
    | S n =>
        (* 83-126 *)
        let from_quads (s : qstate) :=
          match ld_next n (qs_quads s) with
          | None => None
          | Some (None, st) => Some (None, MkQs (qs_gen s) (qs_compound s) st)
          | Some (Some q, st) =>
              let skip := q_next n (MkQs (qs_gen s) (qs_compound s) st) in
              match spo q with
              | None => skip
              | Some (g, sb, p) =>
                  match ldobj_rdf (qs_gen s) (lq_object q) with
                  | (Some (r, t), k) =>
                      let c := match t with Some (h, l) => Some (g, list_triples h l) | None => qs_compound s end in
                      Some (Some (sb, p, r, g), MkQs k c st)
                  | (None, k) => q_next n (MkQs k (qs_compound s) st)
                  end
              end
          end in
        match qs_compound s with
        | Some (g, ls) =>
            match lt_next n (qs_gen s) ls with
            | None => None
            | Some (Some (sb, p, o), ls', k) =>
                let s' := MkQs k (Some (g, ls')) (qs_quads s) in
                if generalized || negb (is_blank p) then Some (Some (sb, p, o, g), s') else from_quads s'
            | Some (None, _, k) => from_quads (MkQs k None (qs_quads s))
            end
        | None => from_quads s
        end
    end.
  Fixpoint q_all (fuel : nat) (s : qstate) : option (list quad) :=
    match fuel with
    | O => None
    | S n => match q_next n s with
             | Some (Some q, s') => option_map (cons q) (q_all n s')
             | Some (None, _) => Some []
             | None => None
             end
    end.
  (** rdf/quad.rs 158-245, all the quads of a document. *)
  Definition rdf_quads (fuel : nat) (fs : list frame) : option (list quad) := q_all fuel (MkQs 0 None fs).
End Rdf.

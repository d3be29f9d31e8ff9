(** What is loaded decides the answer: C100. *)
From Verif Require Import Prelude Json Enums LangTag LangString Str Keyword Container Stack ContextSyntax Ctx Process Object ObjectEq ObjectJson Expand CompactIri Compact
  Relabel Flatten Rdf Processor Samples PropExpand PropProcessor PropProcessor2 Store StoreExpand StoreApi.

(** ** C100 *)

(** Context processing, expansion and compaction, when they succeed, depend on finitely many contexts. *)
Theorem C100_contexts : forall io ld pf c lc b o r, process_full io ld pf c lc b o = Ok r ->
  exists urls, (forall u, In u urls -> exists l, ld u = LdContext l) /\
    forall ld', (forall u, In u urls -> ld' u = ld u) -> process_full io ld' pf c lc b o = Ok r.
Proof. intros io ld pf c lc b o r. apply (process_owes io ld pf c lc b o r). Qed.
Print Assumptions C100_contexts.

(** The operations of the processor, on documents and contexts given by value or by reference. *)
Inductive operation : Type :=
| OpExpand (r : dref json)
| OpCompact (x : dref lcontext) (r : dref json)
| OpCompare (r r' : dref json)
| OpFlatten (gen : nat -> id) (x : option (dref lcontext)) (r : dref json)
| OpToRdf (ci : canon_io) (gen : nat -> vid) (r : dref json).
Inductive answer : Type := AnDocument (d : list iobj) | AnJson (j : json) | AnBool (b : bool) | AnRdf (t : list iobj * nat).
Section Run.
Variables (io : iops) (fin rnd : list word -> N) (rel : string -> string -> string) (pf n : nat).
Variables (pg : list (id * graph) -> list (id * graph)) (pn : option id -> graph -> graph) (po : list inode -> list inode).
Definition run (op : operation) (o : jopts) (dl : dloader) : result answer aerr :=
  match op with
  | OpExpand r => do d <- ref_expand io fin rnd dl pf n o r ; Ok (AnDocument d)
  | OpCompact x r => do j <- ref_compact io fin rnd rel dl pf n o x r ; Ok (AnJson j)
  | OpCompare r r' => do b <- ref_compare io fin rnd dl pf n o r r' ; Ok (AnBool b)
  | OpFlatten gen x r => do d <- load_doc dl r ; do j <- api_flatten io fin rnd rel dl pf n pg pn po gen o x d ; Ok (AnJson j)
  | OpToRdf ci gen r => do d <- load_doc dl r ; do t <- api_to_rdf io fin rnd dl pf n ci gen o d ; Ok (AnRdf t)
  end.
End Run.

Lemma run_owes io fin rnd rel pf n pg pn po op o dl : owes is_loaded dl (run io fin rnd rel pf n pg pn po op o dl) (fun s => run io fin rnd rel pf n pg pn po op o s).
Proof.
  destruct op; cbn [run].
  - refine (owes_bind _ _ _ _ _ _ _ _); [|intros; apply owes_refl]. unfold ref_expand. refine (owes_bind _ _ _ _ _ _ _ _); [apply sa_doc|intros; apply sa_expand].
  - refine (owes_bind _ _ _ _ _ _ _ _); [|intros; apply owes_refl]. unfold ref_compact. refine (owes_bind _ _ _ _ _ _ _ _); [apply sa_doc|intros; apply sa_compact].
  - refine (owes_bind _ _ _ _ _ _ _ _); [|intros; apply owes_refl]. unfold ref_compare. refine (owes_bind _ _ _ _ _ _ _ _); [apply sa_doc|intros].
    refine (owes_bind _ _ _ _ _ _ _ _); [apply sa_doc|intros; apply sa_compare].
  - refine (owes_bind _ _ _ _ _ _ _ _); [apply sa_doc|intros]. refine (owes_bind _ _ _ _ _ _ _ _); [apply sa_flatten|intros; apply owes_refl].
  - refine (owes_bind _ _ _ _ _ _ _ _); [apply sa_doc|intros]. refine (owes_bind _ _ _ _ _ _ _ _); [apply sa_to_rdf|intros; apply owes_refl].
Qed.

(** An operation that succeeds has used finitely many documents, all of which were loaded: with any loader that gives the
    same documents for their URLs, whatever it gives for others, the answer is the same. *)
Theorem C100_finite : forall io fin rnd rel pf n pg pn po op o dl a, run io fin rnd rel pf n pg pn po op o dl = Ok a ->
  exists urls, (forall u, In u urls -> exists d, dl u = Some d) /\
    forall dl', (forall u, In u urls -> dl' u = dl u) -> run io fin rnd rel pf n pg pn po op o dl' = Ok a.
Proof. intros io fin rnd rel pf n pg pn po op o dl a. apply (run_owes io fin rnd rel pf n pg pn po op o dl a). Qed.
Print Assumptions C100_finite.

(** So it may be repeated with a map of preloaded documents in place of the loader. *)
Theorem C100_preloaded : forall io fin rnd rel pf n pg pn po op o dl a, run io fin rnd rel pf n pg pn po op o dl = Ok a ->
  exists m, (forall u d, In (u, d) m -> dl u = Some d) /\ run io fin rnd rel pf n pg pn po op o (map_loader m) = Ok a.
Proof. intros io fin rnd rel pf n pg pn po op o dl a. apply (owes_preloaded _ _ _ _ (run_owes io fin rnd rel pf n pg pn po op o dl)). Qed.
Print Assumptions C100_preloaded.

(** A loader that gives more documents gives the same answers; what needs no loader is the same with any. *)
Theorem C100_more : forall io fin rnd rel pf n pg pn po op o dl dl' a, (forall u d, dl u = Some d -> dl' u = Some d) ->
  run io fin rnd rel pf n pg pn po op o dl = Ok a -> run io fin rnd rel pf n pg pn po op o dl' = Ok a.
Proof. intros io fin rnd rel pf n pg pn po op o dl dl' a L. apply (owes_more _ _ _ _ _ (run_owes io fin rnd rel pf n pg pn po op o dl) L). Qed.
Print Assumptions C100_more.
Theorem C100_none : forall io fin rnd rel pf n pg pn po op o dl a,
  run io fin rnd rel pf n pg pn po op o none_loader = Ok a -> run io fin rnd rel pf n pg pn po op o dl = Ok a.
Proof. intros io fin rnd rel pf n pg pn po op o dl a. apply C100_more. discriminate. Qed.
Print Assumptions C100_none.

(** *** Instances *)
Definition c100_run (op : operation) (dl : dloader) : result answer aerr :=
  run sample_iops sample_hash sample_hash (fun _ u => u) 20 40 (fun l => l) (fun _ l => l) (fun l => l) op jopts_default dl.
Definition c100_docs : list (string * rdoc json) :=
  [("http://d/", MkRdoc (Some "http://d/") None (JObj [("@context", JStr "http://c/"); ("p", JStr "v")]));
   ("http://c/", context_doc [("p", JStr "http://q/")]); ("http://e/", context_doc [("p", JStr "http://r/")])].
Definition c100_op : operation := OpExpand (RefIri "http://d/").

(** Failures do depend on documents that were not loaded. *)
Theorem C100_failures_refuted : exists op dl dl' e a, (forall u d, dl u = Some d -> dl' u = Some d) /\ c100_run op dl = Err e /\ c100_run op dl' = Ok a.
Proof.
  exists c100_op, none_loader, (map_loader c100_docs). eexists. eexists. split; [discriminate|]. split; vm_compute; reflexivity.
Qed.
Print Assumptions C100_failures_refuted.

Example C100_example : c100_run c100_op (map_loader c100_docs) = Ok (AnDocument (node_q "http://q/")) /\
  c100_run c100_op (map_loader (firstn 2 c100_docs)) = Ok (AnDocument (node_q "http://q/")) /\
  (exists e, c100_run c100_op (map_loader (firstn 1 c100_docs)) = Err e) /\
  c100_run (OpExpand (RefLoaded (MkRdoc None None (JObj [("http://q/", JStr "v")])))) none_loader = Ok (AnDocument (node_q "http://q/")).
Proof. split; [vm_compute; reflexivity|]. split; [vm_compute; reflexivity|]. split; [eexists; vm_compute; reflexivity|vm_compute; reflexivity]. Qed.

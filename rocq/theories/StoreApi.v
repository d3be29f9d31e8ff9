(** The documents that the operations of the processor depend on: used for C100. *)
From Verif Require Import Prelude Json Enums LangTag LangString Str Keyword Container Stack ContextSyntax Ctx Process Object ObjectEq ObjectJson Expand CompactIri Compact
  Relabel Flatten Rdf Processor Store StoreExpand.

(** core/src/loader/map.rs 12-19, 21-28: a [HashMap] or [BTreeMap] as a loader. *)
Definition map_loader (m : list (string * rdoc json)) : dloader := fun u => assoc u m.
(** core/src/loader/none.rs 18-23 ([NoLoader]). *)
Definition none_loader : dloader := fun _ => None.

Definition is_loaded (x : option (rdoc json)) : Prop := exists d, x = Some d.

(** ** Proof *)
Section Api.
Variables (io : iops) (fin rnd : list word -> N) (rel : string -> string -> string) (dl : dloader) (pf n : nat).
Notation ow := (owes is_loaded dl).
Ltac bnd := refine (owes_bind _ _ _ _ _ _ _ _).
Ltac same := first [apply owes_refl | apply owes_err].

Lemma lift {A E} (x : result A E) y : owes is_context (context_loader io dl) x y -> ow x (fun s => y (context_loader io s)).
Proof.
  intros H a E0. destruct (H a E0) as (us & G & S). exists us. split.
  - intros u I. destruct (G u I) as (l & L). unfold context_loader in L. destruct (dl u) as [d|]; [exists d; reflexivity|discriminate].
  - intros s T. apply S. intros u I. unfold context_loader. rewrite (T u I). reflexivity.
Qed.
Lemma sa_doc r : ow (load_doc dl r) (fun s => load_doc s r).
Proof.
  unfold load_doc. destruct r as [u|d]; [|same]. intros a H. destruct (dl u) as [d|] eqn:E; [|discriminate]. exists [u]. split.
  - intros v [<-|[]]. exists d. exact E.
  - intros s T. rewrite (T u (or_introl eq_refl)), E. exact H.
Qed.
Lemma sa_context r : ow (load_context io dl r) (fun s => load_context io s r).
Proof.
  unfold load_context. destruct r as [u|d]; [|same]. intros a H. destruct (context_loader io dl u) as [| |l] eqn:E; try discriminate. exists [u]. split.
  - intros v [<-|[]]. unfold context_loader in E. destruct (dl u) as [d|]; [exists d; reflexivity|discriminate].
  - intros s T. assert (X : context_loader io s u = context_loader io dl u) by (unfold context_loader; rewrite (T u (or_introl eq_refl)); reflexivity). rewrite X, E. exact H.
Qed.
Lemma sa_process o c l b : ow (aprocess io dl pf o c l b) (fun s => aprocess io s pf o c l b).
Proof. unfold aprocess. apply owes_map_err, (lift _ (fun s => process_full io s pf c l b (jo_popts o))), process_owes. Qed.
Lemma sa_initial o d : ow (initial_context io dl pf o d) (fun s => initial_context io s pf o d).
Proof.
  unfold initial_context. bnd.
  - destruct (jo_expand_context o); [|same]. bnd; [apply sa_context|intros l; apply sa_process].
  - intros c. destruct (rd_context_url d); [|same]. bnd; [apply sa_context|intros l; apply sa_process].
Qed.
Lemma sa_expand o d : ow (api_expand io fin rnd dl pf n o d) (fun s => api_expand io fin rnd s pf n o d).
Proof.
  unfold api_expand. bnd; [apply sa_initial|]. intros c. apply owes_map_err.
  apply (lift _ (fun s => expand io s fin rnd pf (jo_xopts o) (or_else (rd_url d) (jo_base o)) n c (rd_document d))), expand_owes.
Qed.
Lemma sa_compact_expanded o url r doc : ow (compact_expanded io rel dl pf n o url r doc) (fun s => compact_expanded io rel s pf n o url r doc).
Proof.
  unfold compact_expanded. bnd; [apply sa_context|]. intros l. bnd; [unfold compaction_context; bnd; [apply sa_process|intros; same]|]. intros c. apply owes_map_err.
  apply (lift _ (fun s => compact io s rel pf (jo_copts o) n c (context_to_json l) doc)), compact_owes.
Qed.
Lemma sa_compact o r d : ow (api_compact io fin rnd rel dl pf n o r d) (fun s => api_compact io fin rnd rel s pf n o r d).
Proof. unfold api_compact. bnd; [apply sa_expand|]. intros doc. apply sa_compact_expanded. Qed.
Lemma sa_flatten pg pn po gen o r d : ow (api_flatten io fin rnd rel dl pf n pg pn po gen o r d) (fun s => api_flatten io fin rnd rel s pf n pg pn po gen o r d).
Proof. unfold api_flatten. bnd; [apply sa_expand|]. intros doc. bnd; [same|]. intros out. destruct r; [apply sa_compact_expanded|same]. Qed.
Lemma sa_compare o d e : ow (api_compare io fin rnd dl pf n o d e) (fun s => api_compare io fin rnd s pf n o d e).
Proof.
  unfold api_compare. destruct (Compare.compare (rd_document d) (rd_document e)) as [[]|]; try same. bnd; [apply sa_expand|]. intros a. bnd; [apply sa_expand|]. intros b. same.
Qed.
Lemma sa_to_rdf ci gen o d : ow (api_to_rdf io fin rnd dl pf n ci gen o d) (fun s => api_to_rdf io fin rnd s pf n ci gen o d).
Proof. unfold api_to_rdf. bnd; [apply sa_expand|]. intros doc. same. Qed.
Lemma sa_ref {A E} (f : aerr -> E) r (x : rdoc json -> result A E) y : (forall d, ow (x d) (fun s => y s d)) ->
  ow (do d <- map_err f (load_doc dl r) ; x d) (fun s => do d <- map_err f (load_doc s r) ; y s d).
Proof. intros H. bnd; [apply owes_map_err, sa_doc|exact H]. Qed.
End Api.

(** What [owes] says, for preloaded documents and for larger sources. *)
Lemma owes_preloaded {A E} dl (x : result A E) y a : owes is_loaded dl x y -> x = Ok a ->
  exists m, (forall u d, In (u, d) m -> dl u = Some d) /\ y (map_loader m) = Ok a.
Proof.
  intros H X. destruct (H a X) as (us & G & S). exists (flat_map (fun u => match dl u with Some d => [(u, d)] | None => [] end) us). split.
  - intros u d I. apply in_flat_map in I. destruct I as (v & _ & I). destruct (dl v) as [d'|] eqn:E'; [|contradiction]. destruct I as [I|[]]. injection I as -> ->. exact E'.
  - apply S. intros u I. destruct (G u I) as (d & D). rewrite D. clear -I D. unfold map_loader. induction us as [|v us IH]; [contradiction|]. cbn [flat_map].
    destruct (dl v) as [d'|] eqn:V; cbn [app].
    + cbn. destruct (streq_spec u v) as [->|N]; [congruence|]. apply IH. destruct I as [<-|I]; [congruence|exact I].
    + apply IH. destruct I as [<-|I]; [congruence|exact I].
Qed.
Lemma owes_more {A E} dl dl' (x : result A E) y a : owes is_loaded dl x y -> (forall u d, dl u = Some d -> dl' u = Some d) -> x = Ok a -> y dl' = Ok a.
Proof. intros H L X. destruct (H a X) as (us & G & S). apply S. intros u I. destruct (G u I) as (d & D). rewrite D. apply L, D. Qed.

(** The causes of the errors of context processing: C106. *)
From Verif Require Import Prelude Str Keyword Enums LangTag Container Stack ContextSyntax Ctx Process Samples Cyclic Blame.

(** ** C106 *)

(** Every error of context processing has its cause in the local context or in a loaded one. *)
Theorem C106_cause : forall io ld n a lc b o e, process_full io ld n a lc b o = Err e -> blame io ld o lc b e.
Proof. intros io ld n a lc b o e H. exact (process_blame io ld n a lc ps_new b o e H). Qed.
Print Assumptions C106_cause.

(** A definition without [@import] and [@propagate] carries the cause itself. *)
Lemma own_cause io ld n a d b o e : process_full io ld n a (LOne (CEDef d)) b o = Err e -> cd_propagate d = None -> cd_import d = None ->
  e = EFuel \/ cause io ld (po_mode o) (po_vocab o) b d None e.
Proof.
  intros H PR U. unfold process_full, process_context in H. destruct n as [|n]; [left; injection H as <-; reflexivity|right].
  cbn [engine e_process] in H. unfold process_body, propagate_of in H. rewrite PR in H. cbn [bind entries_of process_entries] in H.
  destruct (process_def io ld (engine io ld n) (if (negb (po_propagate o) && match ac_prev a with None => true | Some _ => false end)%bool then set_previous a a else a) d ps_new b o)
    as [c|e'] eqn:E; [discriminate H|]. injection H as ->. apply def_blame in E. destruct E as (i & IM & C).
  destruct i as [i|]; [|exact C]. destruct (IM i eq_refl) as [N _]. exfalso. exact (N U).
Qed.

(** In particular, a definition whose entries only give identifiers, in processing mode 1.1 and with the default policy, can only
    fail for these reasons. *)
Definition plain_entries (d : cdef tdef) : Prop :=
  d = def_of (cd_bindings d) /\
  forall k v, assoc k (cd_bindings d) = Some v -> k <> "" /\ (v = NNull \/ (exists s, v = NSome (TSimple s)) \/ exists i, v = NSome (TExpanded (te_id_only i))).
Theorem C106_plain : forall io ld n a d b e, plain_entries d -> process_full io ld n a (LOne (CEDef d)) b popts_default = Err e ->
  match e with
  | EInvalidIriMapping => exists k v, assoc k (cd_bindings d) = Some v /\ te_id (expanded_of v) <> Some NNull
  | EInvalidKeywordAlias => exists k v i, assoc k (cd_bindings d) = Some v /\ te_id (expanded_of v) = Some (NSome i)
  | EInvalidTermDefinition => exists k, uses d None k ""
  | ECyclicIriMapping => has_cycle d None \/ exists k, skipped d None k
  | EProtectedTermRedefinition => cd_bindings d <> []
  | EFuel => True
  | _ => False
  end.
Proof.
  intros io ld n a d b e [D P] H.
  assert (NU : cd_import d = None) by (rewrite D; reflexivity).
  assert (X : e = EFuel \/ cause io ld JsonLd11 AKeep b d None e).
  { apply own_cause in H; [exact H|rewrite D; reflexivity|exact NU]. }
  destruct X as [-> |X]; [exact I|].
  assert (G : forall k v, entry_in d None k v -> assoc k (cd_bindings d) = Some v) by (intros k v [E|(_ & i' & E & _)]; [exact E|discriminate E]).
  assert (S : forall Q, some_entry d None Q -> exists k v, assoc k (cd_bindings d) = Some v /\ Q k (expanded_of v) /\
    te_type (expanded_of v) = None /\ te_reverse (expanded_of v) = None /\ te_container (expanded_of v) = None /\ te_context (expanded_of v) = None /\
    te_protected (expanded_of v) = None /\ te_nest (expanded_of v) = None /\ te_index (expanded_of v) = None /\ te_prefix (expanded_of v) = None /\ te_propagate (expanded_of v) = None).
  { intros Q (k & v & E & HQ). apply G in E. exists k, v. split; [exact E|]. split; [exact HQ|].
    destruct (P k v E) as [_ [->|[[s ->]|[x ->]]]]; cbn; repeat split. }
  assert (NF : forall A (f : cdef tdef -> option A), f (def_of (cd_bindings d)) = None -> ~ has f d None).
  { intros A f E [Y|(i' & Y & _)]; [|discriminate Y]. apply Y. rewrite D. exact E. }
  assert (NS : forall A (f : cdef tdef -> option A) w, f (def_of (cd_bindings d)) = None -> ~ says f d None w).
  { intros A f w E [Y|(_ & i' & Y & _)]; [|discriminate Y]. rewrite D, E in Y. discriminate Y. }
  destruct e; cbn [cause] in X.
  all: try exact I; try (destruct X; fail); try (exact X).
  all: try (destruct X as [X _]; discriminate X).
  all: try (destruct X as [X _]; rewrite NU in X; apply X; reflexivity).
  all: try (revert X; apply NF; reflexivity).
  all: try (destruct X as (u & X & _); revert X; apply NS; reflexivity).
  all: try (destruct X as (u & X); revert X; apply NS; reflexivity).
  - destruct X as [[X _]|[X _]]; [rewrite NU in X; apply X; reflexivity|discriminate X].
  - destruct X as (_ & u & X & _). rewrite NU in X. discriminate X.
  - destruct X as [[v X]|[X|X]].
    + apply G in X. destruct (P "" v X) as [N _]. exfalso. apply N. reflexivity.
    + exact X.
    + exfalso. apply S in X. destruct X as (k & v & _ & X & E1 & E2 & E3 & E4 & E5 & E6 & E7 & E8 & E9). rewrite E4, E5, E6, E7, E8, E9 in X.
      destruct X as [[X _]|[X|[X|X]]]; [discriminate X| | |]; apply X; reflexivity.
  - apply S in X. destruct X as (k & v & _ & X & E1 & _). apply X, E1.
  - apply S in X. destruct X as (k & v & _ & [X _] & _ & E2 & _). apply X, E2.
  - apply S in X. destruct X as (k & v & E & X & _ & E2 & _). exists k, v. split; [exact E|]. destruct X as [X|X]; [exfalso; apply X, E2|exact X].
  - apply S in X. destruct X as (k & v & E & (_ & x & X & _) & _). exists k, v, x. auto.
  - apply S in X. destruct X as (k & v & _ & [_ X] & _ & _ & E3 & _). apply X, E3.
  - destruct X as [_ X]. apply S in X. destruct X as (k & v & _ & [_ X] & _ & _ & _ & E4 & _). apply X, E4.
  - apply S in X. destruct X as (k & v & E & _). intros N. rewrite N in E. discriminate E.
  - discriminate X.
  - destruct X as [X|X]; [discriminate X|]. apply S in X. destruct X as (k & v & _ & X & _ & _ & _ & E4 & _ & _ & _ & E8 & _). rewrite E4, E8 in X.
    destruct X as [X|[_ X]]; [discriminate X|apply X; reflexivity].
Qed.
Print Assumptions C106_plain.

(** Contexts, the error they give, and nothing else wrong with them. *)
Definition c106_run (mo : mode) (act : action) (d : cdef tdef) := process_full sample_iops no_loader 20 (ctx_new None) (LOne (CEDef d)) None (MkOpts mo false true act).
Example C106_example :
  c106_run JsonLd11 AKeep (def_of [("a", NSome (TSimple "b"))]) = Err EInvalidIriMapping /\
  c106_run JsonLd11 AKeep (def_of [("a", NSome (TExpanded (te_id_only (NSome (TIdKeyword KContext)))))]) = Err EInvalidKeywordAlias /\
  c106_run JsonLd11 AKeep (def_of [("", NSome (TSimple "http://x/"))]) = Err EInvalidTermDefinition /\
  c106_run JsonLd11 AKeep (def_of [(":x", NSome (TExpanded (te_id_only (NSome (TIdTerm ":x")))))]) = Err EInvalidTermDefinition /\
  uses (def_of [(":x", NSome (TExpanded (te_id_only (NSome (TIdTerm ":x")))))]) None ":x" "" /\
  c106_run JsonLd11 AKeep (def_of [("a", NSome (TSimple "a:x"))]) = Err ECyclicIriMapping /\
  c106_run JsonLd11 ADrop (MkDef None None None None None None None None (Some (NSome "http://v/")) [("a", NSome (TSimple "b"))]) = Err EPanic /\
  c106_run JsonLd11 AReject (MkDef None None None None None None None None (Some (NSome "http://v/")) [("a", NSome (TSimple "b"))]) = Err EForbiddenVocab /\
  process_full sample_iops no_loader 20 (ctx_new None) (LOne (CEIri "rel")) None popts_default = Err ELoadingDocumentFailed /\
  process_full sample_iops no_loader 20 (ctx_new None) (LOne (CEIri "rel")) (Some "http://b/") popts_default = Err EContextLoadingFailed.
Proof.
  repeat match goal with |- _ /\ _ => split end; try (vm_compute; reflexivity).
  eapply uses_own; [left; reflexivity|reflexivity|discriminate|]. exists "x". repeat split. discriminate.
Qed.

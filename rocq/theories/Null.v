(** Null contexts, contexts ending in null. *)
From Verif Require Import Prelude Str Keyword Enums LangTag Container Stack ContextSyntax Ctx Process ProcessRel.

(** Some term, or [@type], is protected. *)
Definition protected_item (c : actx) : Prop :=
  (exists k d, In (k, d) (ac_defs c) /\ nd_protected d = true) \/ ac_type c = Some true.

Lemma protected_items_spec c : has_protected_items c = true <-> protected_item c.
Proof.
  unfold has_protected_items, protected_item. rewrite orb_true_iff, existsb_exists. split.
  - intros [([k d] & H1 & H2)|H]; [left; eauto|right]. destruct (ac_type c) as [[]|]; congruence.
  - intros [(k & d & H1 & H2)|H]; [left; exists (k, d); auto|right]. rewrite H. reflexivity.
Qed.

(** The newly initialised context. *)
Definition initial (base : option string) (prev : option actx) (c : actx) : Prop :=
  ac_orig c = base /\ ac_base c = base /\ ac_vocab c = None /\ ac_lang c = None /\ ac_dir c = None /\
  ac_defs c = [] /\ ac_type c = None /\ ac_prev c = prev.

Lemma null_spec a c o :
  (process_null a c o = Err EInvalidContextNullification <-> po_override o = false /\ protected_item c) /\
  (~ (po_override o = false /\ protected_item c) ->
   exists c', process_null a c o = Ok c' /\ initial (ac_orig a) (if po_propagate o then None else Some c) c').
Proof.
  unfold process_null. rewrite <- protected_items_spec.
  destruct (po_override o) eqn:O, (has_protected_items c) eqn:P; cbn [negb andb]; split;
    try (split; [discriminate|intros [? ?]; discriminate]); try (intros _; eexists; split; [reflexivity|];
      destruct (po_propagate o); repeat split).
  - split; auto.
  - intros H. exfalso. apply H. auto.
Qed.

Lemma entries_null_last io ld r es a c rs b o :
  process_entries io ld r (es ++ [CENull]) a c rs b o =
  do c' <- process_entries io ld r es a c rs b o ; process_null a c' o.
Proof.
  revert c rs. induction es as [|e es IH]; intros c rs; cbn [app process_entries].
  - cbn [bind]. destruct (process_null a c o); reflexivity.
  - destruct (match e with CENull => _ | CEIri i => _ | CEDef d => _ end) as [[c' rs']|err]; cbn [bind]; [apply IH|reflexivity].
Qed.

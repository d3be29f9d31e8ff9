(** Context processing does not panic, except in two documented cases. *)
From Verif Require Import Prelude Str Keyword Enums LangTag Container Stack ContextSyntax Ctx Process ProcessRel NoErr Termination.

(** No definition, at any depth of scoped contexts, has both [@prefix: true] and
    [@id: null]. *)
Definition prefix_has_id (d : cdef tdef) : Prop :=
  forall k e, In (k, NSome (TExpanded e)) (cd_bindings d) -> te_prefix e = Some true -> te_id e <> Some NNull.
Definition prefixes_have_id (lc : lcontext) : Prop := forall d, occurs d lc -> prefix_has_id d.

Definition ep : EPanic = EFuel \/ EPanic = EPanic := or_intror eq_refl.

Lemma m_get_entry m k v : m_get m (KKey k) = Some (EvDef v) ->
  In (k, v) (cd_bindings (m_base m)) \/ exists i, m_imported m = Some i /\ In (k, v) (cd_bindings i).
Proof.
  assert (A : forall (l : list (string * nullable tdef)) v, assoc k l = Some v -> In (k, v) l).
  { induction l as [|[x w] l IH]; cbn; [discriminate|]. intros w'. destruct (streq_spec k x) as [->|].
    - intros H. injection H as ->. left. reflexivity.
    - intros H. right. auto. }
  unfold m_get, def_get. destruct (assoc k (cd_bindings (m_base m))) as [w|] eqn:E; cbn [option_map or_else].
  - intros H. injection H as ->. left. apply A, E.
  - destruct (m_imported m) as [i|]; [|discriminate]. destruct (assoc k (cd_bindings i)) as [w|] eqn:E'; [|discriminate].
    cbn. intros H. injection H as ->. right. exists i. split; [reflexivity|]. apply A, E'.
Qed.

Definition good_def (d : cdef tdef) : Prop := prefix_has_id d /\ forall lc, scoped lc d -> prefixes_have_id lc.
Definition good_merged (m : merged) : Prop := good_def (m_base m) /\ forall i, m_imported m = Some i -> good_def i.

Lemma good_entry lc d : prefixes_have_id lc -> In (CEDef d) (entries_of lc) -> good_def d.
Proof.
  intros H Hd. split; [apply H; constructor; exact Hd|]. intros lc' Hs d' Hd'. apply H. econstructor 2; eassumption.
Qed.

Lemma no_panic io ld n : (forall u lc, ld u = LdContext lc -> prefixes_have_id lc) ->
  (forall a lc rs b o, prefixes_have_id lc -> po_vocab o <> ADrop ->
     e_process (engine io ld n) a lc rs b o <> Err EPanic) /\
  (forall s m k rs b p o, good_merged m -> po_vocab o <> ADrop ->
     e_define (engine io ld n) s m k rs b p o <> Err EPanic).
Proof.
  intros HL. induction n as [|n [IHp IHd]]; [split; discriminate|]. split.
  - intros a lc rs b o HG HV. cbn [engine e_process]. unfold process_body. apply bind_noerr.
    { unfold propagate_of. destruct lc as [[| |d]|]; try discriminate. destruct (cd_propagate d); [destruct (is_10 o)|]; discriminate. }
    intros o' Ho. assert (HV' : po_vocab o' <> ADrop).
    { unfold propagate_of in Ho. destruct lc as [[| |d]|]; try (injection Ho as <-; exact HV).
      destruct (cd_propagate d); [destruct (is_10 o); [discriminate|]|]; injection Ho as <-; exact HV. }
    match goal with |- process_entries _ _ _ _ _ ?c _ _ _ <> _ => generalize c as c1 end.
    assert (HE : forall d, In (CEDef d) (entries_of lc) -> good_def d) by (intros d; apply good_entry; exact HG).
    clear HG. revert HE rs. induction (entries_of lc) as [|e es IHes]; intros HE rs c1; cbn [process_entries]; [discriminate|].
    apply bind_noerr; [|intros [c2 rs2] _; apply IHes; intros d Hd; apply HE; right; exact Hd].
    destruct e as [|i|d].
    + apply bind_noerr; [|discriminate]. unfold process_null. destruct (_ && _)%bool; discriminate.
    + unfold process_iri. destruct (resolve_iri io i b) as [u|]; [|discriminate].
      destruct (ps_push rs u) as [[] rs2]; [|discriminate].
      destruct (ld u) as [| |lc'] eqn:Lu; try discriminate.
      apply bind_noerr; [|discriminate]. apply IHp; [apply (HL u), Lu|exact HV'].
    + apply bind_noerr; [|discriminate]. unfold process_def.
      destruct (match cd_version d with Some _ => _ | None => _ end); [discriminate|].
      apply bind_noerr.
      { unfold import_of. destruct (cd_import d); [|discriminate]. destruct (is_10 o'); [discriminate|].
        destruct (resolve_iri io s b) as [u|]; [|discriminate].
        destruct (ld u) as [| |[[| |i']|]]; try discriminate. destruct (cd_import i'); discriminate. }
      intros i Ei. assert (GM : good_merged (MkMerged d i)).
      { split; [apply HE; left; reflexivity|]. cbn [m_imported]. intros i' ->. apply import_def in Ei.
        destruct Ei as (x & u & _ & _ & Hu & _). eapply good_entry; [apply (HL u), Hu|left; reflexivity]. }
      unfold process_merged. apply bind_noerr; [|intros c2 _; apply bind_noerr; [|intros c3 _; apply bind_noerr; [|intros c4 _]]].
      * unfold process_base. destruct (ps_is_empty rs); [|discriminate]. destruct (m_field cd_base _) as [[|x]|]; try discriminate.
        destruct (iri_ok io x); [discriminate|]. destruct (resolve_iri io x _); discriminate.
      * unfold process_vocab. destruct (m_field cd_vocab _) as [[|x]|]; try discriminate.
        apply bind_noerr; [apply (simple_noerr io EPanic ep)|]. intros t _. destruct t as [[]|]; discriminate.
      * unfold process_direction. destruct (m_field cd_direction _); [destruct (is_10 o')|]; discriminate.
      * unfold define_all. apply bind_noerr; [|intros s1 _; apply bind_noerr; [|discriminate]].
        -- destruct (m_field cd_type _); [apply IHd; assumption|discriminate].
        -- revert s1. generalize (m_keys (MkMerged d i)) as ks. induction ks as [|k ks IHk]; intros s; cbn [define_keys]; [discriminate|].
           apply bind_noerr; [apply IHd; assumption|]. intros; apply IHk.
  - intros s m k rs b p o [G1 G2] HV. cbn [engine e_define].
    apply (define_body_noerr io EPanic ep (engine io ld n) m rs o (fun _ => True)); auto.
    + intros s1 k1 s2 H. eapply define_grows; exact H.
    + intros s1 k1 _. apply IHd; [split; assumption|exact HV].
    + intros v c lc M C. apply IHp; [|exact HV]. destruct k as [k|k].
      * destruct (m_get_scoped _ _ _ _ M C) as [H|(i & Hi & H)]; [apply G1, H|apply (G2 i Hi), H].
      * exfalso. unfold m_get, or_else in M. destruct (m_imported m) as [i|]; destruct k; cbn in M;
          repeat match type of M with context [option_map _ ?x] => destruct x; cbn in M end; discriminate.
    + intros v _ M P. destruct k as [k|k].
      * apply m_get_entry in M. destruct v as [|[x|e]]; try discriminate P. cbn [expanded_of] in *.
        destruct M as [M|(i & Hi & M)]; [exact (proj1 G1 k e M P)|exact (proj1 (G2 i Hi) k e M P)].
      * exfalso. unfold m_get, or_else in M. destruct (m_imported m) as [i|]; destruct k; cbn in M;
          repeat match type of M with context [option_map _ ?x] => destruct x; cbn in M end; discriminate.
Qed.

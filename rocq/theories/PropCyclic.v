(** Cyclic IRI mapping errors mean cycles: C105. *)
From Coq Require Import Relation_Operators Operators_Properties.
From Verif Require Import Prelude Str Keyword Enums LangTag Container Stack ContextSyntax Ctx Process Samples Cyclic.

(** ** C105 *)

(** If processing a context reports a cyclic IRI mapping, then one of the definitions at hand (given or loaded, with what it
    imports) has a term that uses itself, directly or not, or a term whose [@id] or [@reverse] has the form of a keyword. *)
Theorem C105_cause : forall io ld n a lc b o, process_full io ld n a lc b o = Err ECyclicIriMapping ->
  exists d i, at_hand ld lc d /\ imported ld d i /\ (has_cycle d i \/ exists k, skipped d i k).
Proof. intros io ld n a lc b o H. exact (process_faulty io ld n a lc ps_new b o H). Qed.
Print Assumptions C105_cause.

(** Definitions in which no term uses itself, and no value has the form of a keyword, never give this error: neither to
    context processing, nor to the definition of a single term. *)
Theorem C105_never : forall io ld n a lc b o,
  (forall d i, at_hand ld lc d -> imported ld d i -> ~ has_cycle d i /\ forall k, ~ skipped d i k) ->
  process_full io ld n a lc b o <> Err ECyclicIriMapping.
Proof.
  intros io ld n a lc b o H E. destruct (C105_cause _ _ _ _ _ _ _ E) as (d & i & A & I & R). destruct (H d i A I) as [N S].
  destruct R as [R|[k R]]; [exact (N R)|exact (S k R)].
Qed.
Print Assumptions C105_never.

(** A rank that decreases along the uses of terms excludes cycles: a way to check the condition. *)
Theorem C105_ranked : forall d i (rank : string -> nat), (forall k k', uses d i k k' -> rank k' < rank k) -> ~ has_cycle d i.
Proof.
  intros d i rank H [k C]. assert (L : forall x y, clos_trans string (uses d i) x y -> rank y < rank x).
  { intros x y T. induction T as [x y U|x y z _ I1 _ I2]; [apply H, U|]. eapply PeanoNat.Nat.lt_trans; eassumption. }
  exact (PeanoNat.Nat.lt_irrefl _ (L k k C)).
Qed.
Print Assumptions C105_ranked.

(** Cycles alone are not the cause: a term that was skipped, and that another one uses, is reported as a cycle, in whichever
    order they come; without the use the context is accepted. *)
Definition odd_term : string * nullable tdef := ("a", NSome (TExpanded (te_id_only (NSome (TIdTerm "@odd"))))).
Definition user_term : string * nullable tdef := ("b", NSome (TSimple "a:x")).
Definition c105_run (l : list (string * nullable tdef)) := process_full sample_iops no_loader 20 (ctx_new None) (lc_of l) None popts_default.
Theorem C105_skipped_refuted : ~ has_cycle (def_of [odd_term; user_term]) None /\ ~ has_cycle (def_of [user_term; odd_term]) None /\
  c105_run [odd_term; user_term] = Err ECyclicIriMapping /\ c105_run [user_term; odd_term] = Err ECyclicIriMapping /\
  c105_run [odd_term] = Ok (ctx_new None).
Proof.
  assert (R : forall l, l = [odd_term; user_term] \/ l = [user_term; odd_term] -> ~ has_cycle (def_of l) None).
  { intros l L. apply (C105_ranked _ _ (fun s => if streq s "b" then 2 else if streq s "a:x" then 1 else if streq s "a" then 1 else 0)).
    assert (G : forall k v, entry_in (def_of l) None k v -> k = "a" /\ v = snd odd_term \/ k = "b" /\ v = snd user_term).
    { intros k v [E|(_ & i & E & _)]; [|discriminate E]. destruct L as [-> | ->]; cbn in E.
      - destruct (streq_spec k "a") as [->|_]; [injection E as <-; auto|]. destruct (streq_spec k "b") as [->|_]; [injection E as <-; auto|discriminate E].
      - destruct (streq_spec k "b") as [->|_]; [injection E as <-; auto|]. destruct (streq_spec k "a") as [->|_]; [injection E as <-; auto|discriminate E]. }
    intros k k' [v s E X N|v s E X N|v s E X Y Z N|v E X Y N]; destruct (G k v E) as [[-> ->]|[-> ->]]; cbn in *; try discriminate.
    - injection Y as <-. destruct N as [N _]. discriminate N.
    - injection Y as <-. destruct N as [_ [<-|(x & W & _)]]; [cbn; auto|]. cbn in W. injection W as <- <-. cbn. auto.
    - destruct N as (x & W & _). discriminate W.
    - destruct N as (x & W & _). discriminate W. }
  split; [apply R; auto|]. split; [apply R; auto|]. split; [vm_compute; reflexivity|]. split; [vm_compute; reflexivity|]. vm_compute. reflexivity.
Qed.
Print Assumptions C105_skipped_refuted.

(** Terms that use one another, with and without a cycle. *)
Example C105_example :
  c105_run [("a", NSome (TSimple "b:x")); ("b", NSome (TSimple "a:y"))] = Err ECyclicIriMapping /\
  has_cycle (def_of [("a", NSome (TSimple "b:x")); ("b", NSome (TSimple "a:y"))]) None /\
  c105_run [("a", NSome (TSimple "b:x")); ("b", NSome (TSimple "http://b/"))]
  = Ok (ctx_of [("a", ndef_of "http://b/x" false false); ("b", ndef_of "http://b/" true false)]).
Proof.
  split; [vm_compute; reflexivity|]. split; [|vm_compute; reflexivity]. exists "a". apply t_trans with "b"; apply t_step.
  - eapply uses_id; [left; reflexivity|reflexivity|reflexivity|discriminate|]. split; [reflexivity|right]. exists "x". repeat split. discriminate.
  - eapply uses_id; [left; reflexivity|reflexivity|reflexivity|discriminate|]. split; [reflexivity|right]. exists "y". repeat split. discriminate.
Qed.

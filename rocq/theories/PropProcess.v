(** Property theorems: C09 (remote contexts) and C10 (term dependencies). *)
From Coq Require Import Relation_Operators.
From Verif Require Import Prelude Str Keyword Enums LangTag Container Stack ContextSyntax Ctx Process
  ProcessMono ProcessRel Termination ProcessExt Cycles Samples.

(** ** C09 *)

(** Partial: proved when documents reached through [@import] contain no scoped context with
    an [@import]; without this the claim is false ([C09_refuted]).  The graph of contexts
    (cyclic or not) is arbitrary: [U] is a finite list of the URLs the loader answers.  The
    fuel [N] does not depend on the active context, on the stack or on the options, and more
    fuel does not change the result. *)
Theorem C09_terminates_partial : forall io ld U lc b,
  (forall u lc, ld u = LdContext lc -> In u U) ->
  (forall u lc, ld u = LdContext lc -> import_once io ld lc) ->
  import_once io ld lc ->
  exists N, forall n a rs o, N <= n ->
    process_context io ld n a lc rs b o <> Err EFuel /\
    process_context io ld n a lc rs b o = process_context io ld N a lc rs b o.
Proof.
  intros io ld U lc b HU HA HL. destruct (process_terminates io ld U lc) with (b := b) as [N HN]; auto.
  - intros u lc' H. apply import_once_acc. eapply HA; exact H.
  - apply import_once_acc, HL.
  - exists N. intros n a rs o H. split; [apply HN, H|]. apply process_fuel_irrelevant; apply HN; lia.
Qed.
Print Assumptions C09_terminates_partial.

(** Whatever the amount of fuel, two completed runs give the same result. *)
Theorem C09_result_unique : forall io ld n m a lc rs b o,
  process_context io ld n a lc rs b o <> Err EFuel -> process_context io ld m a lc rs b o <> Err EFuel ->
  process_context io ld n a lc rs b o = process_context io ld m a lc rs b o.
Proof. exact process_fuel_irrelevant. Qed.
Print Assumptions C09_result_unique.

(** No URL of the inclusion chain is loaded again: what the loader would answer for these
    URLs is irrelevant. *)
Theorem C09_chain_not_loaded : forall io ld ld' n a lc rs b o,
  (forall u lc, ld u = LdContext lc -> import_free lc) -> import_free lc ->
  (forall u, ps_cycle rs u = false -> ld u = ld' u) ->
  process_context io ld n a lc rs b o = process_context io ld' n a lc rs b o.
Proof. intros. apply ext_loader; assumption. Qed.
Print Assumptions C09_chain_not_loaded.

(** A document importing itself through a scoped context is processed forever. *)
Definition import_loop : lcontext :=
  LOne (CEDef (MkDef None (Some "http://a/") None None None None None None None [])).
Definition looping_def : cdef tdef :=
  def_of [("t", NSome (TExpanded (MkTExp (Some NNull) None (Some import_loop) None None None None None None None None None)))].
Definition looping_loader : loader :=
  fun u => if streq u "http://a/" then LdContext (LOne (CEDef looping_def)) else LdFail.

Definition loop_merged : merged :=
  MkMerged (MkDef None (Some "http://a/") None None None None None None None []) (Some looping_def).

Lemma loop_define r c rs b p o : po_mode o = JsonLd11 ->
  (forall a o, po_mode o = JsonLd11 -> e_process r a import_loop rs b o = Err EFuel) ->
  define_body sample_iops r (c, []) loop_merged (KKey "t") rs b p o = Err EFuel.
Proof.
  intros HM H. unfold define_body. cbn [fst snd dget].
  change (streq "t" "") with false. cbv iota. unfold m_get, def_get, loop_merged.
  cbn [m_base m_imported cd_bindings looping_def def_of assoc]. change (streq "t" "t") with true.
  cbn [option_map or_else]. unfold define_normal. cbn [expanded_of]. unfold define_protected.
  cbn [te_protected bind]. unfold define_type. cbn [te_type te_reverse bind]. unfold define_mapping.
  cbn [te_id id_differs bind]. unfold define_rest, define_container, define_index, define_context.
  cbn [te_container te_index te_context bind fst snd]. unfold is_10. rewrite HM, H; [reflexivity|exact HM].
Qed.

Lemma loop_process r c rs b o :
  (forall p, e_define r (c, []) loop_merged (KKey "t") rs b p o = Err EFuel) ->
  process_merged sample_iops r c loop_merged rs b o = Err EFuel.
Proof.
  intros H. unfold process_merged.
  assert (E : process_base sample_iops c loop_merged rs = Ok c) by (unfold process_base; destruct (ps_is_empty rs); reflexivity).
  rewrite E. cbn [bind]. change (process_vocab sample_iops c loop_merged o) with (@Ok actx cerr c).
  cbn [bind]. change (process_language c loop_merged) with c. change (process_direction c loop_merged o) with (@Ok actx cerr c).
  cbn [bind]. unfold define_all. change (m_keys loop_merged) with ["t"]. change (m_field cd_type loop_merged) with (@None dtype).
  cbn [bind define_keys]. rewrite H. reflexivity.
Qed.

Lemma import_loop_runs n : forall a rs b o, po_mode o = JsonLd11 ->
  e_process (engine sample_iops looping_loader n) a import_loop rs b o = Err EFuel.
Proof.
  induction n as [n IH] using lt_wf_ind. intros a rs b o HM. destruct n as [|n]; [reflexivity|].
  cbn [engine e_process]. unfold process_body, import_loop, propagate_of. cbn [cd_propagate bind entries_of process_entries].
  generalize (if (negb (po_propagate o) && match ac_prev a with Some _ => false | None => true end)%bool then set_previous a a else a) as c.
  intros c. unfold process_def, import_of, is_10. rewrite HM. cbn [cd_version cd_import].
  assert (R : resolve_iri sample_iops "http://a/" b = Some "http://a/") by (destruct b; reflexivity). rewrite R.
  change (looping_loader "http://a/") with (LdContext (LOne (CEDef looping_def))).
  cbv iota beta. match goal with |- context [match cd_import looping_def with Some _ => ?x | None => ?y end] =>
    change (match cd_import looping_def with Some _ => x | None => y end) with y end.
  cbn [bind]. fold loop_merged.
  rewrite loop_process; [reflexivity|]. intros p. destruct n as [|n]; [reflexivity|].
  cbn [engine e_define]. apply loop_define; [exact HM|]. intros a' o' HM'. apply IH; [lia|exact HM'].
Qed.

Theorem C09_refuted : exists io ld U lc,
  (forall u lc, ld u = LdContext lc -> In u U) /\
  forall n a b, process_full io ld n a lc b popts_default = Err EFuel.
Proof.
  exists sample_iops, looping_loader, ["http://a/"], import_loop. split.
  - intros u lc. unfold looping_loader. destruct (streq_spec u "http://a/") as [->|]; [left; reflexivity|discriminate].
  - intros. apply import_loop_runs. reflexivity.
Qed.
Print Assumptions C09_refuted.

(** Two documents that include each other. *)
Example C09_example :
  let ld := fun u => if streq u "http://a/" then LdContext (LMany [CEIri "http://b/"; CEDef (def_of [("x", NSome (TSimple "http://x/"))])])
                     else if streq u "http://b/" then LdContext (LMany [CEIri "http://a/"; CEDef (def_of [("y", NSome (TSimple "http://y/"))])])
                     else LdFail in
  (forall u lc, ld u = LdContext lc -> In u ["http://a/"; "http://b/"]) /\
  process_full sample_iops ld 5 (ctx_new None) (LOne (CEIri "http://a/")) None popts_default
  = Ok (ctx_of [("x", ndef_of "http://x/" true false); ("y", ndef_of "http://y/" true false)]).
Proof.
  split; [|vm_compute; reflexivity]. intros u lc. destruct (streq_spec u "http://a/") as [->|]; [cbn; auto|].
  destruct (streq_spec u "http://b/") as [->|]; [cbn; auto|discriminate].
Qed.

(** ** C10 *)

(** Partial: as for C09, proved for local contexts whose imported documents contain no scoped
    context with an [@import]; in particular for every local context when nothing can be
    loaded ([C10_terminates_local]). *)
Theorem C10_terminates_partial : forall io ld U lc b,
  (forall u lc, ld u = LdContext lc -> In u U) ->
  (forall u lc, ld u = LdContext lc -> import_once io ld lc) ->
  import_once io ld lc ->
  exists N, forall n a o, N <= n -> process_full io ld n a lc b o <> Err EFuel.
Proof.
  intros io ld U lc b HU HA HL. destruct (C09_terminates_partial io ld U lc b HU HA HL) as [N HN].
  exists N. intros n a o H. apply (HN n a ps_new o H).
Qed.
Print Assumptions C10_terminates_partial.

Theorem C10_terminates_local : forall io ld lc b,
  (forall u lc, ld u <> LdContext lc) ->
  exists N, forall n a o, N <= n -> process_full io ld n a lc b o <> Err EFuel.
Proof.
  intros io ld lc b H. apply (C10_terminates_partial io ld []).
  - intros u l E. exfalso. eapply H, E.
  - intros u l E. exfalso. eapply H, E.
  - intros d x b' u i l _ _ _ E. exfalso. eapply H, E.
Qed.
Print Assumptions C10_terminates_local.

Lemma path_set {A} (R : A -> A -> Prop) x z : clos_trans_1n A R x z ->
  exists l, In x l /\ forall y, In y l -> exists y', (y' = z \/ In y' l) /\ R y y'.
Proof.
  induction 1 as [x y H|x y z H _ (l & H1 & H2)].
  - exists [x]. split; [left; reflexivity|]. intros y' [<-|[]]. exists y. auto.
  - exists (x :: l). split; [left; reflexivity|]. intros y' [<-|H'].
    + exists y. split; [right; right; exact H1|exact H].
    + destruct (H2 y' H') as (y2 & [->|H3] & H4); [exists z|exists y2]; split; auto. right. right. exact H3.
Qed.

(** A definition with a term that depends on itself, directly or not, is never processed
    successfully. *)
Theorem C10_cycle_never_succeeds : forall io ld n a lc d es rs b o c' k,
  entries_of lc = CEDef d :: es -> cd_import d = None ->
  clos_trans_1n string (depends io a d) k k ->
  process_context io ld n a lc rs b o <> Ok c'.
Proof.
  intros io ld n a lc d es rs b o c' k HE HI HC.
  destruct (path_set _ _ _ HC) as (l & H1 & H2).
  pose (S := fun x => existsb (streq x) l).
  assert (HS : forall x, S x = true <-> In x l).
  { intros x. unfold S. rewrite existsb_exists. split.
    - intros (y & Hy & E). destruct (streq_spec x y) as [->|]; [exact Hy|discriminate].
    - intros Hx. exists x. split; [exact Hx|apply streq_refl]. }
  apply (cycle_process io ld n a lc d es rs b o c' S k HE HI); [|apply HS, H1].
  intros x Hx. apply HS in Hx. destruct (H2 x Hx) as (y & Hy & HR). exists y. split; [|exact HR].
  apply HS. destruct Hy as [->|Hy]; [exact H1|exact Hy].
Qed.
Print Assumptions C10_cycle_never_succeeds.

(** If every entry of the definition is a term whose [@id] mentions another term of the
    definition (every dependency path runs into a cycle), the result is the cyclic IRI mapping
    error. *)
Theorem C10_cycle_error : forall io ld U d b,
  (forall u lc, ld u = LdContext lc -> In u U) ->
  (forall u lc, ld u = LdContext lc -> import_once io ld lc) ->
  import_once io ld (LOne (CEDef d)) ->
  d = MkDef None None None None None None None None None (cd_bindings d) -> cd_bindings d <> [] ->
  exists N, forall n a o, N <= n -> all_cyclic io a d ->
    process_full io ld n a (LOne (CEDef d)) b o = Err ECyclicIriMapping.
Proof.
  intros io ld U d b HU HA HL HD HN.
  destruct (C10_terminates_partial io ld U _ b HU HA HL) as [N H]. exists N. intros n a o Hn HC.
  destruct (cyclic_process io ld n a d b o HD HC HN) as [E|E]; [|exact E]. exfalso. exact (H n a o Hn E).
Qed.
Print Assumptions C10_cycle_error.

Theorem C10_refuted : exists io ld U lc,
  (forall u lc, ld u = LdContext lc -> In u U) /\
  forall n a b, process_full io ld n a lc b popts_default = Err EFuel.
Proof. exact C09_refuted. Qed.
Print Assumptions C10_refuted.

Definition cyclic_sample : list (string * nullable tdef) :=
  [("a", NSome (TSimple "b:x")); ("b", NSome (TSimple "c:y")); ("c", NSome (TSimple "a:z"))].
Example C10_example :
  clos_trans_1n string (depends sample_iops (ctx_new None) (def_of cyclic_sample)) "a" "a" /\
  all_cyclic sample_iops (ctx_new None) (def_of cyclic_sample) /\
  process_full sample_iops no_loader 9 (ctx_new None) (lc_of cyclic_sample) None popts_default = Err ECyclicIriMapping /\
  process_full sample_iops no_loader 9 (ctx_new None)
    (lc_of [("a", NSome (TSimple "b:x")); ("b", NSome (TSimple "http://b/"))]) None popts_default
  = Ok (ctx_of [("a", ndef_of "http://b/x" false false); ("b", ndef_of "http://b/" true false)]).
Proof.
  assert (M : forall p x, In (p, x) [("b", "x"); ("c", "y"); ("a", "z")] ->
    mentions sample_iops (ctx_new None) (def_of cyclic_sample) (p +++ ":" +++ x) p).
  { intros p x [H|[H|[H|[]]]]; injection H as <- <-; apply men_prefix; try discriminate; reflexivity. }
  split; [|split; [|split; [vm_compute; reflexivity|vm_compute; reflexivity]]].
  - apply t1n_trans with (y := "b").
    { eapply dep_id; [reflexivity|reflexivity|reflexivity|discriminate|apply (M "b" "x"); cbn; auto]. }
    apply t1n_trans with (y := "c").
    { eapply dep_id; [reflexivity|reflexivity|reflexivity|discriminate|apply (M "c" "y"); cbn; auto]. }
    apply t1n_step. eapply dep_id; [reflexivity|reflexivity|reflexivity|discriminate|apply (M "a" "z"); cbn; auto].
  - intros k v. cbn [cd_bindings def_of cyclic_sample assoc].
    destruct (streq_spec k "a") as [->|_]; [|destruct (streq_spec k "b") as [->|_]; [|destruct (streq_spec k "c") as [->|_]; [|discriminate]]];
      intros H; injection H as <-; (split; [discriminate|split; [repeat split|]]).
    + exists "b:x", "b". repeat split; try discriminate. apply (M "b" "x"); cbn; auto.
    + exists "c:y", "c". repeat split; try discriminate. apply (M "c" "y"); cbn; auto.
    + exists "a:z", "a". repeat split; try discriminate. apply (M "a" "z"); cbn; auto.
Qed.

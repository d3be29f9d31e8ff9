(** Property theorems: C11 (protected terms), C12 (null contexts), C13 (keywords). *)
From Verif Require Import Prelude Str Keyword Enums LangTag Container Stack Json ContextSyntax ContextSyntaxProofs
  Ctx Process ProcessRel Protected Null Samples.

(** ** C11 *)

(** Partial: proved when no entry for the term, in the local context or in a loaded one, is a
    reverse property or maps it to a keyword-like string; these are the two cases where the
    claim is false ([C11_refuted_reverse], [C11_refuted_keyword_like]). *)
Theorem C11_protected_partial : forall io ld n a lc rs b o c' k d,
  po_override o = false -> ctx_all (comparable_in k) lc -> load_all ld (comparable_in k) ->
  get_normal a k = Some d -> nd_protected d = true ->
  process_context io ld n a lc rs b o = Ok c' -> still_defined k d c'.
Proof. exact process_protected. Qed.
Print Assumptions C11_protected_partial.

(** The definition of [@type]: no condition. *)
Theorem C11_protected_type : forall io ld n a lc rs b o c',
  po_override o = false -> ac_type a = Some true ->
  process_context io ld n a lc rs b o = Ok c' -> ac_type c' = Some true.
Proof. exact process_protected_type. Qed.
Print Assumptions C11_protected_type.

Definition te_reverse_only (s : string) : texp lcontext :=
  MkTExp None None None (Some s) None None None None None None None None.

Theorem C11_refuted_reverse : exists io ld n a lc c' d d',
  get_normal a "t" = Some d /\ nd_protected d = true /\
  process_full io ld n a lc None popts_default = Ok c' /\
  get_normal c' "t" = Some d' /\ nd_value d = iri_term "http://t/" /\ nd_value d' = iri_term "http://r/" /\
  nd_reverse d' = true /\ nd_protected d' = false.
Proof.
  exists sample_iops, no_loader, 5, (ctx_of [("t", ndef_of "http://t/" false true)]),
    (lc_of [("t", NSome (TExpanded (te_reverse_only "http://r/")))]).
  eexists. eexists. eexists. split; [reflexivity|]. split; [reflexivity|]. split; [vm_compute; reflexivity|].
  split; [reflexivity|]. repeat split.
Qed.
Print Assumptions C11_refuted_reverse.

Theorem C11_refuted_keyword_like : exists io ld n a lc c' d,
  get_normal a "t" = Some d /\ nd_protected d = true /\
  process_full io ld n a lc None popts_default = Ok c' /\ get_normal c' "t" = None.
Proof.
  exists sample_iops, no_loader, 5, (ctx_of [("t", ndef_of "http://t/" false true)]),
    (lc_of [("t", NSome (TSimple "@foo"))]).
  eexists. eexists. split; [reflexivity|]. split; [reflexivity|]. split; [vm_compute; reflexivity|]. reflexivity.
Qed.
Print Assumptions C11_refuted_keyword_like.

(** The same definition is accepted and stays protected, another one is an error. *)
Example C11_example :
  let a := ctx_of [("t", ndef_of "http://t/" true true)] in
  process_full sample_iops no_loader 5 a (lc_of [("t", NSome (TSimple "http://t/"))]) None popts_default = Ok a /\
  ctx_all (comparable_in "t") (lc_of [("t", NSome (TSimple "http://t/"))]) /\
  process_full sample_iops no_loader 5 a (lc_of [("t", NSome (TSimple "http://u/"))]) None popts_default
  = Err EProtectedTermRedefinition.
Proof.
  cbv zeta. split; [vm_compute; reflexivity|]. split; [|vm_compute; reflexivity].
  intros d [H|[]] v Hv. injection H as <-. injection Hv as <-. split; [reflexivity|].
  intros s H. injection H as <-. right. reflexivity.
Qed.

(** ** C12 *)

(** The null context is refused exactly when something is protected; otherwise the result
    carries the original base IRI only (and, when [propagate] is off, the previous context). *)
Theorem C12_null : forall io ld n a b o,
  (process_full io ld (S n) a (LOne CENull) b o = Err EInvalidContextNullification <->
   po_override o = false /\ protected_item a) /\
  (~ (po_override o = false /\ protected_item a) ->
   exists c', process_full io ld (S n) a (LOne CENull) b o = Ok c' /\
     exists p, initial (ac_orig a) p c' /\ (po_propagate o = true -> p = None)).
Proof.
  intros io ld n a b o. unfold process_full, process_context. cbn [engine e_process].
  unfold process_body. cbn [propagate_of bind entries_of process_entries].
  set (c := if (negb (po_propagate o) && _)%bool then _ else a).
  assert (HP : protected_item c <-> protected_item a).
  { unfold c. destruct (_ && _)%bool; [|reflexivity]. reflexivity. }
  destruct (null_spec a c o) as [N1 N2]. split.
  - rewrite <- HP, <- N1. destruct (process_null a c o) as [c'|e]; cbn [bind]; [split; discriminate|].
    split; intros H; injection H as <-; reflexivity.
  - rewrite <- HP. intros H. destruct (N2 H) as (c' & E & I). exists c'. rewrite E. cbn [bind]. split; [reflexivity|].
    eexists. split; [exact I|]. intros ->. reflexivity.
Qed.
Print Assumptions C12_null.

(** A context ending with null: the entries before are processed (their errors are reported),
    then everything is forgotten, unless something is protected. *)
Theorem C12_null_last : forall io ld n a es b o,
  po_propagate o = true ->
  match process_full io ld (S n) a (LMany es) b o with
  | Err e => process_full io ld (S n) a (LMany (es ++ [CENull])) b o = Err e
  | Ok c =>
      (po_override o = false /\ protected_item c ->
       process_full io ld (S n) a (LMany (es ++ [CENull])) b o = Err EInvalidContextNullification) /\
      (~ (po_override o = false /\ protected_item c) -> exists c',
       process_full io ld (S n) a (LMany (es ++ [CENull])) b o = Ok c' /\ initial (ac_orig a) None c')
  end.
Proof.
  intros io ld n a es b o HP. unfold process_full, process_context. cbn [engine e_process].
  unfold process_body. cbn [propagate_of bind entries_of]. rewrite HP. cbn [negb andb].
  rewrite entries_null_last. destruct (process_entries _ _ _ es _ _ _ _ _) as [c|e]; cbn [bind]; [|reflexivity].
  destruct (null_spec a c o) as [N1 N2]. split.
  - intros H. apply N1, H.
  - intros H. destruct (N2 H) as (c' & E & I). rewrite HP in I. eauto.
Qed.
Print Assumptions C12_null_last.

Example C12_example :
  let a := MkCtx (Some "http://o/") (Some "http://b/") None (Some "en") None None [("t", ndef_of "http://t/" false true)] None in
  protected_item a /\
  process_full sample_iops no_loader 3 a (LOne CENull) None popts_default = Err EInvalidContextNullification /\
  process_full sample_iops no_loader 3 a (LOne CENull) None (with_override popts_default) = Ok (ctx_new (Some "http://o/")).
Proof.
  cbv zeta. split; [|split; reflexivity]. left. exists "t", (ndef_of "http://t/" false true). cbn. auto.
Qed.

(** ** C13 *)

Lemma assoc_app {A} k (l l' : list (string * A)) :
  assoc k (l ++ l') = match assoc k l with Some v => Some v | None => assoc k l' end.
Proof. induction l as [|[x v] l IH]; cbn; [reflexivity|]. destruct (streq k x); auto. Qed.

Lemma parsed_entry_not_bound f j d k : p_entry (parse_all f j) = Ok (CEDef d) -> In k definition_entries ->
  assoc k (cd_bindings d) = None.
Proof.
  intros H Hk. destruct j; cbn in H; try discriminate H.
  { destruct (f s); discriminate H. }
  destruct (foldm _ _ _) as [d'|] eqn:E; [|discriminate]. injection H as <-.
  assert (G : forall A B (g : A -> B -> result A ctx_err) (I : A -> Prop) l a a',
     (forall a b a', I a -> g a b = Ok a' -> I a') -> I a -> foldm g a l = Ok a' -> I a').
  { intros A B g I l0 a0 a' Hg. revert a0. induction l0 as [|x l0 IH]; intros a0 Ha Hf; cbn in Hf.
    - injection Hf as <-. exact Ha.
    - destruct (g a0 x) as [a1|] eqn:Ex; [|discriminate]. cbn in Hf. eapply IH; [|exact Hf]. eapply Hg; eassumption. }
  eapply (G _ _ _ (fun d => assoc k (cd_bindings d) = None)); [| |exact E]; [|reflexivity].
  clear - Hk. intros [ba im la di pg pt ty ve vo bi] [[x v] p] e'. cbn [cd_bindings]. intros HB H.
  unfold cdef_step in H.
  destruct (kw_of_str x) as [[]|] eqn:K;
    try (match type of H with bind ?y _ = _ => destruct y as [z|]; [|discriminate] end; injection H as <-; exact HB);
    (match type of H with bind ?y _ = _ => destruct y as [z|]; [|discriminate] end; cbn [bind] in H;
     destruct (assoc x bi); [discriminate|]; injection H as <-; cbn [cd_bindings];
     rewrite assoc_app, HB; cbn [assoc]; destruct (streq_spec k x) as [->|]; [|reflexivity]; exfalso;
     cbn in Hk; repeat destruct Hk as [<-|Hk]; try discriminate K; exact Hk).
Qed.

Lemma parsed_not_bound f j lc k : context_of_json f j = Ok lc -> In k definition_entries -> ctx_all (not_bound k) lc.
Proof.
  intros H Hk d Hd. unfold context_of_json in H.
  assert (One : forall e, p_entry (parse_all f j) = Ok e -> In (CEDef d) [e] -> not_bound k d).
  { intros e He [->|[]]. eapply parsed_entry_not_bound; eassumption. }
  destruct j as [| | | |l|o].
  5:{ cbn [parse_all p_ctx] in H. destruct (mapm p_entry (map (parse_all f) l)) as [es|] eqn:E; [|discriminate].
    injection H as <-. cbn [entries_of] in Hd.
    assert (X : exists j, p_entry (parse_all f j) = Ok (CEDef d)).
    { clear - E Hd. revert es E Hd. induction l as [|j l IH]; intros es E Hd; cbn in E.
      - injection E as <-. destruct Hd.
      - destruct (p_entry (parse_all f j)) as [e|] eqn:Ej; [|discriminate]. cbn in E.
        destruct (mapm p_entry (map (parse_all f) l)) as [es'|]; [|discriminate]. cbn in E. injection E as <-.
        destruct Hd as [->|Hd]; eauto. }
    destruct X as [j X]. eapply parsed_entry_not_bound; eassumption. }
  all: match type of H with p_ctx ?x = _ => change (p_ctx x) with (bind (p_entry x) (fun e => Ok (LOne e))) in H end;
    match type of H with bind ?y _ = _ => destruct y as [e|] eqn:E; [|discriminate] end;
    injection H as <-; exact (One e eq_refl Hd).
Qed.

(** Partial: the nine keywords that are entries of a context definition ([@base], [@import],
    [@language], [@direction], [@propagate], [@protected], [@type], [@version], [@vocab]) are
    never given a term definition by contexts that come from JSON.  The other keywords are
    ([C13_refuted]).  For [@type] there remains [ac_type], which holds a protected flag only. *)
Theorem C13_definition_entries_partial : forall io ld f n a j lc rs b o c' k,
  In k definition_entries -> context_of_json f j = Ok lc ->
  (forall u lc, ld u = LdContext lc -> exists j, context_of_json f j = Ok lc) ->
  get_normal a k = None -> process_context io ld n a lc rs b o = Ok c' -> get_normal c' k = None.
Proof.
  intros io ld f n a j lc rs b o c' k Hk Hj Hl Ha H.
  eapply process_not_bound; [| |exact Ha|exact H].
  - eapply parsed_not_bound; eassumption.
  - intros u lc' E. destruct (Hl u lc' E) as [j' Hj']. eapply parsed_not_bound; eassumption.
Qed.
Print Assumptions C13_definition_entries_partial.

Theorem C13_refuted : exists io ld n j lc c' d,
  context_of_json (iri_ref_ok io) j = Ok lc /\
  process_full io ld n (ctx_new None) lc None popts_default = Ok c' /\
  get_normal c' (kw_str KId) = Some d /\ nd_value d = iri_term "http://x/".
Proof.
  exists sample_iops, no_loader, 5, (JObj [("@id", JStr "http://x/")]). eexists. eexists. eexists.
  split; [vm_compute; reflexivity|]. split; [vm_compute; reflexivity|]. split; reflexivity.
Qed.
Print Assumptions C13_refuted.

Example C13_example :
  exists lc, context_of_json (fun _ => true) (JObj [("@type", JObj [("@container", JStr "@set"); ("@protected", JBool true)])]) = Ok lc /\
  process_full sample_iops no_loader 5 (ctx_new None) lc None popts_default
  = Ok (set_type (ctx_new None) (Some true)).
Proof. eexists. split; [vm_compute; reflexivity|]. vm_compute. reflexivity. Qed.

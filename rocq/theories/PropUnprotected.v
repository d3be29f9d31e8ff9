(** Errors about protection need protection: C107. *)
From Verif Require Import Prelude Str Keyword Enums LangTag Container Stack ContextSyntax Ctx Process Samples Null Cyclic Unprotected.

(** ** C107 *)

Lemma np_spec c : np c <-> ~ protected_item c.
Proof. rewrite np_iff, <- protected_items_spec. destruct (has_protected_items c); split; congruence. Qed.

(** If nothing in the active context is protected, and no definition at hand marks anything as protected, then processing
    reports neither the redefinition of a protected term nor the nullification of a protected context, *)
Theorem C107_no_error : forall io ld n a lc b o, ~ protected_item a -> (forall d i, at_hand ld lc d -> imported ld d i -> unmarked d i) ->
  process_full io ld n a lc b o <> Err EProtectedTermRedefinition /\ process_full io ld n a lc b o <> Err EInvalidContextNullification.
Proof.
  intros io ld n a lc b o N U. pose proof (process_sf io ld n a lc ps_new b o (proj2 (np_spec a) N) U) as X. unfold process_full.
  destruct (process_context io ld n a lc ps_new b o) as [c|e]; [split; discriminate|]. destruct X as [X Y]. split; congruence.
Qed.
Print Assumptions C107_no_error.

(** and nothing in the context it gives is protected. *)
Theorem C107_result : forall io ld n a lc b o c, ~ protected_item a -> (forall d i, at_hand ld lc d -> imported ld d i -> unmarked d i) ->
  process_full io ld n a lc b o = Ok c -> ~ protected_item c.
Proof.
  intros io ld n a lc b o c N U E. pose proof (process_sf io ld n a lc ps_new b o (proj2 (np_spec a) N) U) as X. unfold process_full in E.
  rewrite E in X. apply np_spec, X.
Qed.
Print Assumptions C107_result.

(** So contexts that mark nothing can be processed one after another, each from the context the previous one gave. *)
Theorem C107_chain : forall io ld n b o lcs a, ~ protected_item a -> (forall lc d i, In lc lcs -> at_hand ld lc d -> imported ld d i -> unmarked d i) ->
  let r := fold_left (fun r lc => match r with Ok c => process_full io ld n c lc b o | Err e => Err e end) lcs (Ok a) in
  match r with Ok c => ~ protected_item c | Err e => e <> EProtectedTermRedefinition /\ e <> EInvalidContextNullification end.
Proof.
  intros io ld n b o lcs a N U. cbv zeta.
  assert (E : forall l e, fold_left (fun r lc => match r with Ok c => process_full io ld n c lc b o | Err e => Err e end) l (@Err actx cerr e) = Err e) by (induction l as [|x l IH]; auto).
  revert a N U. induction lcs as [|lc l IH]; intros a N U; [exact N|]. cbn [fold_left].
  assert (UL : forall d i, at_hand ld lc d -> imported ld d i -> unmarked d i) by (intros d i; apply U; left; reflexivity).
  pose proof (C107_no_error io ld n a lc b o N UL) as X. pose proof (fun c => C107_result io ld n a lc b o c N UL) as Y.
  destruct (process_full io ld n a lc b o) as [c|e]; [|rewrite E; split; intros ->; [apply (proj1 X)|apply (proj2 X)]; reflexivity].
  apply IH; [apply Y; reflexivity|]. intros lc' d i I. apply U. right. exact I.
Qed.
Print Assumptions C107_chain.

(** Each of the conditions is needed: the flag of a definition, of a term, of [@type], of an imported definition, and the
    active context. Without them the same contexts are accepted. *)
Definition c107_def (p : option bool) (t : option dtype) (im : option string) (v : nullable tdef) : lcontext :=
  LOne (CEDef (MkDef None im None None None p t None None [("a", v)])).
Definition c107_loader (p : option bool) : loader := fun u => if streq u "http://i/" then LdContext (c107_def p None None (NSome (TSimple "http://x/"))) else LdFail.
Definition c107_run ld (lc lc' : lcontext) : result actx cerr :=
  do c <- process_full sample_iops ld 20 (ctx_new None) lc None popts_default ; process_full sample_iops ld 20 c lc' None popts_default.
Definition c107_term (p : option bool) : nullable tdef := NSome (TExpanded (MkTExp (Some (NSome (TIdTerm "http://x/"))) None None None None None None None None None None p)).
Definition c107_other : lcontext := c107_def None None None (NSome (TSimple "http://y/")).
Definition c107_typed (p : option bool) : lcontext := LOne (CEDef (MkDef None None None None None None (Some (MkDType p)) None None [])).
Definition c107_importing : lcontext := LOne (CEDef (MkDef None (Some "http://i/") None None None None None None None [])).
Definition c107_null : result actx cerr := Ok (ctx_new None).
Example C107_example :
  (forall p, c107_run no_loader (c107_def p None None (NSome (TSimple "http://x/"))) c107_other
    = if opt_eqb Bool.eqb p (Some true) then Err EProtectedTermRedefinition else Ok (ctx_of [("a", ndef_of "http://y/" true false)])) /\
  (forall p, c107_run no_loader (c107_def None None None (c107_term p)) c107_other
    = if opt_eqb Bool.eqb p (Some true) then Err EProtectedTermRedefinition else Ok (ctx_of [("a", ndef_of "http://y/" true false)])) /\
  (forall p, c107_run no_loader (c107_typed p) (LOne CENull) = if opt_eqb Bool.eqb p (Some true) then Err EInvalidContextNullification else c107_null) /\
  (forall p, c107_run (c107_loader p) c107_importing (LOne CENull) = if opt_eqb Bool.eqb p (Some true) then Err EInvalidContextNullification else c107_null).
Proof. repeat split; intros [[]|]; vm_compute; reflexivity. Qed.

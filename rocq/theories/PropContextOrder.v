(** The order of the terms of a context: C96. *)
From Verif Require Import Prelude Str Keyword Enums LangTag Container Stack ContextSyntax Ctx Process ProcessRel Created Samples ContextOrder.

(** ** C96 *)

(** A context definition accepted with its terms in two orders gives the same active context: the same settings and the
    same definition for every term, whatever the fuel. *)
Theorem C96_order : forall io ld n n' a d d' rs b o c c', same_terms d d' -> plain_terms io a b o d ->
  process_context io ld n a (LOne (CEDef d)) rs b o = Ok c -> process_context io ld n' a (LOne (CEDef d')) rs b o = Ok c' -> same_context c c'.
Proof. exact order_same. Qed.
Print Assumptions C96_order.

(** *** What the conditions are for *)
Definition c96_def (protected : option bool) (l : list (string * nullable tdef)) : cdef tdef := MkDef None None None None None protected None None None l.
Definition c96_run (a : actx) (d : cdef tdef) (b : option string) (override : bool) : result actx cerr :=
  process_full sample_iops no_loader 9 a (LOne (CEDef d)) b (MkOpts JsonLd11 override true AKeep).
Definition c96_foo : string * nullable tdef := ("foo", NSome (TSimple "http://f/")).
Definition c96_bar : string * nullable tdef := ("bar", NSome (TSimple "foo:x")).
Definition c96_scoped : string * nullable tdef :=
  ("t", NSome (TExpanded (MkTExp (Some (NSome (TIdTerm "http://t/"))) None (Some (LOne (CEDef (c96_def None [("q", NSome (TSimple "foo"))])))) None None None None None None None None None))).
Definition c96_user : string * nullable tdef := ("u", NSome (TSimple "t:x")).
Lemma c96_same p x y l : same_terms (c96_def p (x :: y :: l)) (c96_def p (y :: x :: l)).
Proof. constructor; try reflexivity. apply perm_swap. Qed.
Lemma differ k (f : option ndef -> bool) c c' : f (get_normal c k) = true -> f (get_normal c' k) = false -> ~ same_context c c'.
Proof. intros X Y (_ & _ & H). rewrite (H k) in X. congruence. Qed.

(** A scoped context is tried in the context as it is when the term is defined, so that one order is refused. *)
Theorem C96_accepted_refuted : exists d d' c, same_terms d d' /\ plain_terms sample_iops (ctx_new None) None popts_default d /\
  c96_run (ctx_new None) d None false = Ok c /\ c96_run (ctx_new None) d' None false = Err EInvalidScopedContext.
Proof.
  exists (c96_def None [c96_foo; c96_scoped]), (c96_def None [c96_scoped; c96_foo]). eexists. split; [apply c96_same|]. split.
  - constructor; auto; cbn [cd_bindings c96_def map fst c96_foo c96_scoped cd_protected]; try discriminate; try reflexivity.
    + repeat (constructor; [cbn; intuition discriminate|]). constructor.
    + intros k v [E|[E|[]]]; injection E as <- <-; intros (s & Es & _ & K); injection Es as <-; discriminate K.
    + intros k v x [E|[E|[]]]; injection E as <- <-; discriminate.
  - split; vm_compute; reflexivity.
Qed.
Print Assumptions C96_accepted_refuted.
(** A term that another one needs before its turn misses the [@protected] of the context, *)
Definition is_prot (d : option ndef) : bool := match d with Some d => nd_protected d | None => false end.
Theorem C96_protected_refuted : exists d d' c c', same_terms d d' /\
  c96_run (ctx_new None) d None false = Ok c /\ c96_run (ctx_new None) d' None false = Ok c' /\ ~ same_context c c'.
Proof.
  exists (c96_def (Some true) [c96_foo; c96_bar]), (c96_def (Some true) [c96_bar; c96_foo]). eexists. eexists. split; [apply c96_same|]. split; [vm_compute; reflexivity|].
  split; [vm_compute; reflexivity|]. apply (differ "foo" is_prot); reflexivity.
Qed.
Print Assumptions C96_protected_refuted.
(** and the URL of the context; *)
Definition has_url (d : option ndef) : bool := match d with Some d => match nd_base_url d with Some _ => true | None => false end | None => false end.
Theorem C96_url_refuted : exists d d' c c', same_terms d d' /\
  c96_run (ctx_new (Some "http://a/")) d (Some "http://u/") false = Ok c /\ c96_run (ctx_new (Some "http://a/")) d' (Some "http://u/") false = Ok c' /\ ~ same_context c c'.
Proof.
  exists (c96_def None [c96_foo; c96_scoped; c96_user]), (c96_def None [c96_foo; c96_user; c96_scoped]). eexists. eexists.
  split; [constructor; try reflexivity; apply perm_skip, perm_swap|]. split; [vm_compute; reflexivity|]. split; [vm_compute; reflexivity|]. apply (differ "t" has_url); reflexivity.
Qed.
Print Assumptions C96_url_refuted.
(** nor is it allowed to override a protected term. *)
Definition c96_active : actx := match c96_run (ctx_new None) (c96_def (Some true) [c96_foo]) None false with Ok c => c | Err _ => ctx_new None end.
Theorem C96_override_refuted : exists a d d' c, same_terms d d' /\ c96_run a d None true = Ok c /\ c96_run a d' None true = Err EProtectedTermRedefinition.
Proof.
  exists c96_active, (c96_def None [("foo", NSome (TSimple "http://g/")); c96_bar]), (c96_def None [c96_bar; ("foo", NSome (TSimple "http://g/"))]). eexists.
  split; [apply c96_same|]. split; vm_compute; reflexivity.
Qed.
Print Assumptions C96_override_refuted.

(** An instance: the terms [bar] and [z] are written before or after those they use. *)
Definition c96_z : string * nullable tdef := ("z", NSome (TSimple "bar")).
Definition c96_w : string * nullable tdef := ("w", NSome (TExpanded (MkTExp None (Some (NSome (TTyTerm "bar"))) None (Some "foo:r") None None None None None None None None))).
Definition c96_some (r : result actx cerr) : actx := match r with Ok c => c | Err _ => ctx_new None end.
Definition c96_d : cdef tdef := c96_def None [c96_w; c96_z; c96_bar; c96_foo].
Definition c96_d' : cdef tdef := c96_def None [c96_foo; c96_bar; c96_z; c96_w].
Definition c96_c : actx := Eval vm_compute in c96_some (c96_run (ctx_new None) c96_d (Some "http://u/") false).
Definition c96_c' : actx := Eval vm_compute in c96_some (c96_run (ctx_new None) c96_d' (Some "http://u/") false).
Lemma c96_run_process a d b : c96_run a d b false = process_context sample_iops no_loader 9 a (LOne (CEDef d)) ps_new b (MkOpts JsonLd11 false true AKeep).
Proof. reflexivity. Qed.
Lemma c96_c_run : c96_run (ctx_new None) c96_d (Some "http://u/") false = Ok c96_c.
Proof. vm_compute. reflexivity. Qed.
Lemma c96_c'_run : c96_run (ctx_new None) c96_d' (Some "http://u/") false = Ok c96_c'.
Proof. vm_compute. reflexivity. Qed.
Lemma c96_d_same : same_terms c96_d c96_d'.
Proof. constructor; try reflexivity. exact (Permutation_rev [c96_w; c96_z; c96_bar; c96_foo]). Qed.
Lemma c96_d_plain : plain_terms sample_iops (ctx_new None) (Some "http://u/") (MkOpts JsonLd11 false true AKeep) c96_d.
Proof.
  constructor; unfold c96_d; cbn [cd_import po_override cd_bindings c96_def map fst c96_foo c96_bar c96_z c96_w cd_protected]; try discriminate; try reflexivity; try (left; reflexivity).
  - repeat (constructor; [cbn; intuition discriminate|]). constructor.
  - right. intros k v [E1|[E1|[E1|[E1|[]]]]]; injection E1 as <- <-; reflexivity.
  - intros k v [E1|[E1|[E1|[E1|[]]]]]; injection E1 as <- <-; try (intros (s & Es & _ & K); injection Es as <-; discriminate K). cbn. discriminate.
  - intros k v x [E1|[E1|[E1|[E1|[]]]]]; injection E1 as <- <-; discriminate.
Qed.
Example C96_example : same_terms c96_d c96_d' /\ plain_terms sample_iops (ctx_new None) (Some "http://u/") (MkOpts JsonLd11 false true AKeep) c96_d /\
  c96_run (ctx_new None) c96_d (Some "http://u/") false = Ok c96_c /\
  c96_run (ctx_new None) c96_d' (Some "http://u/") false = Ok c96_c' /\
  c96_c <> c96_c' /\ same_context c96_c c96_c' /\ option_map nd_value (get_normal c96_c "z") = Some (Some (TmId (IIri "http://f/x"))).
Proof.
  split; [exact c96_d_same|]. split; [exact c96_d_plain|]. split; [exact c96_c_run|]. split; [exact c96_c'_run|]. split; [|split].
  - intros H. apply (f_equal (fun c => map fst (ac_defs c))) in H. discriminate H.
  - pose proof c96_c_run as E. pose proof c96_c'_run as E'. rewrite c96_run_process in E, E'.
    exact (C96_order _ _ _ _ _ _ _ _ _ _ _ _ c96_d_same c96_d_plain E E').
  - reflexivity.
Qed.

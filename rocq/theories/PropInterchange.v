(** Active contexts that answer alike: C97. *)
From Verif Require Import Prelude Str Keyword Enums LangTag LangString Container Stack ContextSyntax Ctx Process ProcessRel Json Object ObjectJson Inverse
  CompactIri CompactIriProofs Expand Compact Samples PropObject PropExpand PropCompactIri ContextOrder PropContextOrder Interchange InterchangeCompact.

(** ** C97 *)

(** Whatever the order in which the definitions of an active context are stored, a local context is refused with the same
    error, or gives active contexts that answer alike. *)
Theorem C97_process : forall io ld n c c' lc b o, answers_alike c c' ->
  match process_full io ld n c lc b o, process_full io ld n c' lc b o with
  | Ok r, Ok r' => answers_alike r r'
  | Err e, Err e' => e = e'
  | _, _ => False
  end.
Proof. intros io ld n c c' lc b o H. destruct (process_alike io ld n c c' lc b o H); [assumption|reflexivity]. Qed.
Print Assumptions C97_process.

(** Expansion gives the very same result. *)
Theorem C97_expand : forall io ld fin rnd pf o base n c c' doc, answers_alike c c' ->
  expand io ld fin rnd pf o base n c doc = expand io ld fin rnd pf o base n c' doc.
Proof. intros. apply expand_alike. assumption. Qed.
Print Assumptions C97_expand.

(** So does compaction, if no two compact IRIs compete in the contexts it uses. *)
Theorem C97_compact : forall io ld rel pf o n c c' j doc, answers_alike c c' -> (forall c1, used io ld pf c c1 -> settled c1) ->
  compact io ld rel pf o n c j doc = compact io ld rel pf o n c' j doc.
Proof. intros. apply compact_alike; assumption. Qed.
Print Assumptions C97_compact.

(** Context processing defines no term twice, at any depth. *)
Theorem C97_once : forall io ld n base lc b o c, process_full io ld n (ctx_new base) lc b o = Ok c -> answers_alike c c.
Proof. intros io ld n base lc b o c H. pose proof (C97_process io ld n _ _ lc b o (al_new base)) as P. rewrite H in P. exact P. Qed.
Print Assumptions C97_once.

(** Hence a document expands alike in the contexts that two orders of the terms of a context definition give (C96). *)
Theorem C97_terms : forall io ld fin rnd pf xo base m n n' a d d' b o c c' doc, same_terms d d' -> plain_terms io a b o d -> answers_alike a a ->
  process_full io ld n a (LOne (CEDef d)) b o = Ok c -> process_full io ld n' a (LOne (CEDef d')) b o = Ok c' ->
  expand io ld fin rnd pf xo base m c doc = expand io ld fin rnd pf xo base m c' doc.
Proof.
  intros io ld fin rnd pf xo base m n n' a d d' b o c c' doc S P A H H'. apply C97_expand.
  pose proof (C97_process io ld n _ _ (LOne (CEDef d)) b o A) as Q. rewrite H in Q.
  pose proof (C97_process io ld n' _ _ (LOne (CEDef d')) b o A) as Q'. rewrite H' in Q'.
  destruct (C96_order _ _ _ _ _ _ _ _ _ _ _ _ S P H H') as ((E1 & E2 & E3 & E4 & E5 & E6) & T & G).
  constructor; auto; [exact (al_once Q)|exact (al_once Q')|]. rewrite <- E6. exact (al_prev Q).
Qed.
Print Assumptions C97_terms.

(** Otherwise the order of the definitions decides what compaction writes. *)
Definition c97_b : string * ndef := ("b", ndef_of "http://x/" true false).
Definition c97_aa : string * ndef := ("aa", ndef_of "http://x/" true false).
Definition c97_doc : list iobj := [(None, ONode (MkNode None None None None [(IIri "http://x/y", [(None, OVal (VLit (LStr "v") None))])] None))].
Theorem C97_compact_refuted : exists c c' doc v v', answers_alike c c' /\
  compact sample_iops no_loader sample_rel 20 copts_default 20 c (JObj []) doc = Ok v /\
  compact sample_iops no_loader sample_rel 20 copts_default 20 c' (JObj []) doc = Ok v' /\ v <> v'.
Proof.
  exists (ctx_of [c97_b; c97_aa]), (ctx_of [c97_aa; c97_b]), c97_doc. eexists. eexists. split; [|split; [vm_compute; reflexivity|split; [vm_compute; reflexivity|discriminate]]].
  constructor; try reflexivity; cbn; try (repeat (constructor; [cbn; intuition discriminate|]); constructor).
  intros k. unfold get_normal. cbn. destruct (streq_spec k "b") as [->|]; [reflexivity|]. destruct (streq k "aa"); reflexivity.
Qed.
Print Assumptions C97_compact_refuted.

(** An instance: the two contexts of the example of C96. *)
Lemma one_prefix c : (forall p q d e, In (p, d) (ac_defs c) -> In (q, e) (ac_defs c) -> nd_prefix d = true -> nd_prefix e = true -> (p, d) = (q, e)) -> settled c.
Proof.
  intros H var nv. destruct (string_dec (by_prefixes c var nv) "") as [E|E]; [left; apply by_prefixes_none, E|].
  right. destruct (by_prefixes_unbeaten _ _ _ E) as [U _]. exists (by_prefixes c var nv). split; [exact U|]. intros k K. left.
  destruct U as (p & d & t & x & I & P & V & W & _ & -> & _). destruct K as (q & e & u & y & J & Q & V' & W' & _ & -> & _).
  specialize (H _ _ _ _ I J P Q). injection H as <- <-. rewrite V in V'. injection V' as <-. rewrite W in W'. apply app_inj_str in W'. subst y. reflexivity.
Qed.
Lemma c97_alike : answers_alike c96_c c96_c'.
Proof.
  pose proof c96_c_run as E. pose proof c96_c'_run as E'. rewrite c96_run_process in E, E'.
  destruct (C96_order _ _ _ _ _ _ _ _ _ _ _ _ c96_d_same c96_d_plain E E') as ((E1 & E2 & E3 & E4 & E5 & E6) & T & G).
  constructor; auto; cbn; repeat (constructor; [cbn; intuition discriminate|]); constructor.
Qed.
Lemma c97_used c : used sample_iops no_loader 20 c96_c c -> c = c96_c.
Proof.
  induction 1 as [|c p _ -> E|dc c k d lc po c' _ -> _ _ G L _]; [reflexivity|discriminate E|].
  apply get_in in G. cbn in G. repeat (destruct G as [G|G]; [injection G as <- <-; discriminate L|]). contradiction.
Qed.
Lemma c97_settled c : used sample_iops no_loader 20 c96_c c -> settled c.
Proof.
  intros U. rewrite (c97_used _ U). apply one_prefix. intros p q d e I J P Q. cbn in I, J.
  repeat (destruct I as [I|I]; [injection I as <- <-; try discriminate P|]); [..|contradiction].
  all: repeat (destruct J as [J|J]; [injection J as <- <-; try discriminate Q; try reflexivity|]); contradiction.
Qed.
Definition c97_json : json := JObj [("@id", JStr "foo:s"); ("bar", JArr [JStr "a"; JStr "b"]); ("w", JObj [("@id", JStr "foo:o"); ("foo:n", JStr "c")])].
Definition c97_expand (c : actx) : result (list iobj) xerr := expand sample_iops no_loader sample_hash sample_hash 20 xopts_default None 20 c c97_json.
Definition c97_compact (c : actx) (l : list iobj) : result json kerr := compact sample_iops no_loader sample_rel 20 copts_default 20 c (JObj []) l.
Example C97_example : c96_c <> c96_c' /\ answers_alike c96_c c96_c' /\ c97_expand c96_c = c97_expand c96_c' /\
  exists l, c97_expand c96_c = Ok l /\ l <> [] /\ c97_compact c96_c l = c97_compact c96_c' l /\
    c97_compact c96_c l = Ok (JObj [("@id", JStr "foo:s"); ("w", JObj [("@id", JStr "foo:o"); ("foo:n", JStr "c")]); ("z", JArr [JStr "a"; JStr "b"])]).
Proof.
  split; [intros H; apply (f_equal (fun c => map fst (ac_defs c))) in H; discriminate H|]. split; [exact c97_alike|].
  split; [exact (C97_expand _ _ _ _ _ _ _ _ _ _ _ c97_alike)|]. eexists. split; [vm_compute; reflexivity|]. split; [discriminate|].
  split; [exact (C97_compact _ _ _ _ _ _ _ _ _ _ c97_alike c97_settled)|]. vm_compute. reflexivity.
Qed.

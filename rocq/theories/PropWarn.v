(** Warnings about identifiers and keys: C104. *)
From Verif Require Import Prelude Str Keyword Enums LangTag Container Stack ContextSyntax Ctx Process Json Object Expand Samples Warn.

(** ** C104 *)

(** Warnings do not change results: neither of the expansion of an identifier, nor of the keys of an element. *)
Theorem C104_results : forall io, (forall c v dr vo, fst (expand_iri_w io c v dr vo) = expand_iri_simple io c v dr vo) /\
  (forall o c m, fst (entries_w io o c m) = expand_entries io o c m).
Proof. intros io. split; [apply iri_erase|apply entries_erase]. Qed.
Print Assumptions C104_results.

(** A warning is given exactly for the strings that have no meaning; it is a single one, naming the string, and the string is
    returned as it is, as an invalid identifier. *)
Theorem C104_warned : forall io c v dr vo,
  (snd (expand_iri_w io c v dr vo) <> [] <-> exists s, v = NSome (XStr s) /\ meaningless io c s dr vo) /\
  (forall s, v = NSome (XStr s) -> meaningless io c s dr vo -> expand_iri_w io c v dr vo = (Ok (Some (TmId (IInvalid s))), [s])).
Proof.
  intros io c v dr vo. split.
  - split; [apply warned_meaningless|]. intros (s & -> & M). rewrite (meaningless_warned _ _ _ _ _ M). discriminate.
  - intros s -> M. apply meaningless_warned, M.
Qed.
Print Assumptions C104_warned.

(** An invalid identifier comes with a warning, or it is the label [_:], or the context gives it: as the value of a term, or
    after a prefix or the vocabulary. *)
Theorem C104_invalid : forall io c s dr vo i, expand_iri_simple io c (NSome (XStr s)) dr vo = Ok (Some (TmId (IInvalid i))) ->
  (i = s /\ snd (expand_iri_w io c (NSome (XStr s)) dr vo) = [s]) \/ silent io c s vo i.
Proof.
  intros io c s dr vo i H. rewrite <- iri_erase in H. destruct (warn_list io c (NSome (XStr s)) dr vo) as [E|(s' & X & _ & E)].
  - right. destruct (expand_iri_w io c (NSome (XStr s)) dr vo) as [r w] eqn:D. cbn [fst snd] in *. subst r w. eapply invalid_silent, D.
  - injection X as <-. left. rewrite E in H |- *. injection H as <-. split; reflexivity.
Qed.
Print Assumptions C104_invalid.

(** The keys of an element whose expansion succeeds: the malformed IRIs warned about are those of its keys that have no meaning,
    in their order; an empty key and keys that are blank node identifiers are warned about, and nothing else is. *)
Theorem C104_keys : forall io o c m es w, entries_w io o c m = (Ok es, w) ->
  (exists sel, (forall k, sel k = true <-> kw_of_str k = None /\ meaningless io c k false (Some (xo_vocab o))) /\
     malformed w = filter sel (map fst m)) /\
  (In WEmptyTerm w <-> In "" (map fst m)) /\
  (forall b, In (WBlankNodeIdProperty b) w <-> exists k v, In (k, TmId (IBlank b), v) es).
Proof.
  intros io o c m es w H. split; [exact (entries_malformed io o c m es w H)|]. split.
  - rewrite (entries_ok_keys io o c m es w H). rewrite in_map_iff. split.
    + intros (k & v & I & W). apply (proj1 (in_key_w io o c k WEmptyTerm)) in W. exists (k, v). auto.
    + intros ([k v] & E & I). exists k, v. split; [exact I|]. apply in_key_w. exact E.
  - intros b. rewrite (entries_ok_keys io o c m es w H).
    assert (E : forall k v, In (k, TmId (IBlank b), v) es <-> In (k, v) m /\ fst (key_w io o c k) = Ok (Some (TmId (IBlank b)))).
    { revert es w H. induction m as [|[k v] m IH]; intros es w H k' v'; cbn [entries_w] in H.
      - injection H as <- _. split; [intros []|intros [[] _]].
      - destruct (key_w io o c k) as [[t|e] w1] eqn:K; [|discriminate H]. destruct (entries_w io o c m) as [[es'|e] w2]; [|discriminate H].
        injection H as <- _. specialize (IH es' w2 eq_refl k' v'). destruct t as [t|]; cbn [In]; rewrite IH; split.
        + intros [X|[X Y]]; [injection X as <- -> <-; rewrite K; auto|auto].
        + intros [[X|X] Y]; [injection X as <- <-; rewrite K in Y; injection Y as ->; auto|auto].
        + intros [X Y]; auto.
        + intros [[X|X] Y]; [injection X as <- <-; rewrite K in Y; discriminate Y|auto]. }
    assert (K : forall k, In (WBlankNodeIdProperty b) (snd (key_w io o c k)) <-> fst (key_w io o c k) = Ok (Some (TmId (IBlank b)))).
    { intros k. rewrite in_key_w, key_erase. unfold xkey, xiri. destruct (expand_iri_simple _ _ _ _ _); cbn; split; intros X; congruence. }
    split; intros (k & v & X).
    + exists k, v. apply E. destruct X as [X Y]. split; [exact X|]. apply K, Y.
    + exists k, v. apply E in X. destruct X as [X Y]. split; [exact X|]. apply K, Y.
Qed.
Print Assumptions C104_keys.

(** Not every invalid identifier comes with a warning: a key may be lost without one. *)
Theorem C104_invalid_refuted : exists c m es, entries_w sample_iops xopts_default c m = (Ok es, []) /\
  exists k i v, In (k, TmId (IInvalid i), v) es.
Proof.
  exists (MkCtx None None (Some (TmId (IIri "http://x/"))) None None None [] None), [("a b", JStr "v")]. eexists.
  split; [vm_compute; reflexivity|]. exists "a b", "http://x/a b", (JStr "v"). left. reflexivity.
Qed.
Print Assumptions C104_invalid_refuted.

Example C104_example :
  entries_w sample_iops xopts_default (ctx_of [("t", ndef_of "http://x/t" true false)])
    [("t", JNull); ("plain", JNull); ("", JNull); ("_:b", JNull); ("@id", JNull); ("@odd", JNull); ("t:x", JNull); ("no:a b", JNull)]
  = (Ok [("t", TmId (IIri "http://x/t"), JNull); ("plain", TmId (IInvalid "plain"), JNull); ("", TmId (IInvalid ""), JNull);
         ("_:b", TmId (IBlank "_:b"), JNull); ("@id", TmKw KId, JNull); ("@odd", TmNull, JNull); ("t:x", TmId (IIri "http://x/tx"), JNull);
         ("no:a b", TmId (IInvalid "no:a b"), JNull)],
     [WMalformedIri "plain"; WEmptyTerm; WMalformedIri ""; WBlankNodeIdProperty "_:b"; WMalformedIri "no:a b"]).
Proof. vm_compute. reflexivity. Qed.

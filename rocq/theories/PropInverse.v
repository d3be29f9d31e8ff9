(** Property theorems: C16 (term selection), C17 (cache of the inverse context). *)
From Coq Require Import Permutation.
From Verif Require Import Prelude Keyword Enums LangTag Container Ctx Inverse Samples.

(** ** C16 *)

(** The term selected is the least one, by length and then bytes, among the definitions that
    answer the first answerable request of the first possible container. *)
Theorem C16_selected : forall c v cs s k,
  select (inverse_of c) v cs s = Some k <-> selected c v cs (requests s) k.
Proof. exact select_spec. Qed.
Print Assumptions C16_selected.

(** Nothing is selected only if there is no candidate at all. *)
Theorem C16_nothing : forall c v cs s, select (inverse_of c) v cs s = None <->
  forall cn q k, In cn cs -> In q (requests s) -> ~ candidate c v cn q k.
Proof. exact select_none. Qed.
Print Assumptions C16_nothing.

(** The order in which the hash map is iterated is irrelevant. *)
Theorem C16_order : forall c c' v cs s, Permutation (ac_defs c) (ac_defs c') ->
  ac_lang c = ac_lang c' -> ac_dir c = ac_dir c' -> select (inverse_of c) v cs s = select (inverse_of c') v cs s.
Proof.
  intros c c' v cs s HP HL HD. apply select_same; [|exact HL|exact HD]. intros k d. split; apply Permutation_in; [exact HP|apply Permutation_sym, HP].
Qed.
Print Assumptions C16_order.

(** The selected term is mapped to the IRI, in one of the requested containers. *)
Theorem C16_maps : forall c v cs s k, NoDup (map fst (ac_defs c)) -> select (inverse_of c) v cs s = Some k ->
  exists d, get_normal c k = Some d /\ nd_value d = Some v /\ In (nd_container d) cs.
Proof.
  intros c v cs s k HN H. apply select_spec in H. destruct H as (cs1 & cn & cs2 & qs1 & q & qs2 & -> & _ & _ & _ & (d & H1 & H2 & H3 & _) & _).
  exists d. split; [|split; [exact H2|rewrite H3; apply in_elt]]. unfold get_normal. clear - HN H1.
  induction (ac_defs c) as [|[x y] l IH]; [destruct H1|]. cbn in HN |- *. inversion HN as [|? ? N1 N2]; subst.
  destruct H1 as [E|H1]; [injection E as -> ->; rewrite streq_refl; reflexivity|].
  destruct (streq_spec k x) as [->|_]; [|apply IH; assumption]. destruct N1. apply (in_map fst) in H1. exact H1.
Qed.
Print Assumptions C16_maps.

Definition typed (i : string) (t : option ty) (cn : container) : ndef := nd_set_container (nd_set_typ (ndef_of i false false) t) cn.
Example C16_example :
  let v := TmId (IIri "http://p") in
  let ds := [("name", typed "http://p" None CNone); ("nm", typed "http://p" None CNone); ("mn", typed "http://p" None CNone);
             ("ref", typed "http://p" (Some TyId) CNone); ("set", typed "http://p" None CSet)] in
  let s := SelType [TsType TyId; TsType TyNone; TsAny] in
  select (inverse_of (ctx_of ds)) v [CSet; CNone] s = Some "set" /\
  select (inverse_of (ctx_of ds)) v [CNone; CSet] s = Some "ref" /\
  select (inverse_of (ctx_of ds)) v [CNone] (SelLang [LsLang (NSome (None, None))]) = Some "mn" /\
  select (inverse_of (ctx_of (rev ds))) v [CNone] (SelLang [LsLang (NSome (None, None))]) = Some "mn" /\
  select (inverse_of (ctx_of ds)) v [CList] s = None.
Proof. vm_compute. auto 10. Qed.

(** ** C17 *)

(** Whatever the setters and queries applied to a new context, [inverse] answers as the inverse of
    the current context computed anew. *)
Theorem C17_never_stale : forall base ops v cs s,
  let c := run ops (MkCached (ctx_new base) None) in
  select (query c) v cs s = select (inverse_of (ca_ctx c)) v cs s.
Proof.
  intros base ops v cs s c. unfold query. destruct (ca_inverse c) as [i|] eqn:E; [|reflexivity].
  apply (run_fresh ops (MkCached (ctx_new base) None)); [|exact E]. intros i' X. discriminate X.
Qed.
Print Assumptions C17_never_stale.

(** What these answers are: those of the definitions currently set. *)
Fixpoint set_last (k : string) (ops : list op) (d : option ndef) : option ndef :=
  match ops with
  | [] => d
  | OpSetNormal k' d' :: ops => set_last k ops (if streq k' k then d' else d)
  | _ :: ops => set_last k ops d
  end.
Fixpoint lang_last (ops : list op) (l : option string) : option string :=
  match ops with [] => l | OpSetLanguage l' :: ops => lang_last ops l' | _ :: ops => lang_last ops l end.
Fixpoint dir_last (ops : list op) (d : option direction) : option direction :=
  match ops with [] => d | OpSetDirection d' :: ops => dir_last ops d' | _ :: ops => dir_last ops d end.
Lemma run_defs ops : forall c, NoDup (map fst (ac_defs (ca_ctx c))) ->
  NoDup (map fst (ac_defs (ca_ctx (run ops c)))) /\
  (forall k, get_normal (ca_ctx (run ops c)) k = set_last k ops (get_normal (ca_ctx c) k)) /\
  ac_lang (ca_ctx (run ops c)) = lang_last ops (ac_lang (ca_ctx c)) /\
  ac_dir (ca_ctx (run ops c)) = dir_last ops (ac_dir (ca_ctx c)).
Proof.
  induction ops as [|o ops IH]; intros c HN; [cbn; auto|]. change (run (o :: ops) c) with (run ops (apply_op o c)).
  assert (D : forall k (l : defs), NoDup (map fst l) -> NoDup (map fst (mdel k l)) /\ ~ In k (map fst (mdel k l))).
  { clear. intros k l. unfold mdel. induction l as [|[x y] l IH]; cbn; intros H; [split; [constructor|tauto]|].
    inversion H as [|? ? N1 N2]; subst. destruct (IH N2) as [A B]. destruct (streq_spec k x) as [->|NE]; cbn [negb]; [auto|]. cbn. split.
    - constructor; [|exact A]. intros X. apply N1. apply in_map_iff in X. destruct X as ([u w] & <- & X). apply filter_In in X. destruct X as [X _]. apply (in_map fst) in X. exact X.
    - intros [X|X]; [congruence|]. apply B, X. }
  assert (X : NoDup (map fst (ac_defs (ca_ctx (apply_op o c))))).
  { destruct o; cbn; try exact HN. unfold mset. destruct (D k _ HN) as [A B]. destruct d; cbn; [constructor; [exact B|exact A]|exact A]. }
  destruct (IH _ X) as (I1 & I2 & I3 & I4). split; [exact I1|]. split; [|split].
  - intros k. rewrite I2. destruct o; cbn [set_last apply_op ca_ctx]; try reflexivity. rewrite get_normal_set. reflexivity.
  - rewrite I3. destruct o; reflexivity.
  - rewrite I4. destruct o; reflexivity.
Qed.
Theorem C17_current : forall base ops v cs s k,
  let c := run ops (MkCached (ctx_new base) None) in
  let lang := lang_last ops None in let dir := dir_last ops None in
  let cand cn q k := exists d, set_last k ops None = Some d /\ nd_value d = Some v /\ nd_container d = cn /\ wants lang dir q d in
  select (query c) v cs s = Some k ->
  exists cs1 cn cs2 qs1 q qs2, cs = cs1 ++ cn :: cs2 /\ requests s = qs1 ++ q :: qs2 /\
    (forall cn' q' k', In cn' cs1 -> In q' (requests s) -> ~ cand cn' q' k') /\
    (forall q' k', In q' qs1 -> ~ cand cn q' k') /\
    cand cn q k /\ forall k', cand cn q k' -> before k k'.
Proof.
  intros base ops v cs s k c lang dir cand H. unfold c in H. rewrite (C17_never_stale base ops v cs s) in H. apply select_spec in H.
  destruct (run_defs ops (MkCached (ctx_new base) None)) as (R1 & R2 & R3 & R4); [constructor|].
  assert (C : forall cn q k, candidate (ca_ctx c) v cn q k <-> cand cn q k).
  { intros cn q k'. unfold candidate, cand. unfold lang, dir, c. rewrite R3, R4.
    assert (I : forall d, In (k', d) (ac_defs (ca_ctx c)) <-> set_last k' ops None = Some d).
    { intros d. specialize (R2 k'). cbn in R2. rewrite <- R2. unfold get_normal, c. revert R1. generalize (ac_defs (ca_ctx (run ops (MkCached (ctx_new base) None)))). clear.
      intros l. induction l as [|[x y] l IH]; cbn; intros HN; [split; [tauto|discriminate]|]. inversion HN as [|? ? N1 N2]; subst.
      destruct (streq_spec k' x) as [->|NE].
      - split; [intros [E|E]; [congruence|destruct N1; apply (in_map fst) in E; exact E]|intros E; left; congruence].
      - rewrite <- (IH N2). split; [intros [E|E]; [congruence|exact E]|auto]. }
    split; intros (d & H1 & H2); exists d; split; auto; apply I; exact H1. }
  destruct H as (cs1 & cn & cs2 & qs1 & q & qs2 & E1 & E2 & H1 & H2 & H3 & H4). exists cs1, cn, cs2, qs1, q, qs2.
  split; [exact E1|]. split; [exact E2|]. split; [|split; [|split]].
  - intros cn' q' k' Hc Hq X. eapply H1; [exact Hc|exact Hq|apply C, X].
  - intros q' k' Hq X. eapply H2; [exact Hq|apply C, X].
  - apply C, H3.
  - intros k' X. apply H4, C, X.
Qed.
Print Assumptions C17_current.

Example C17_example :
  let v := TmId (IIri "http://p") in
  let q c := select (query c) v [CNone] (SelLang [LsLang (NSome (Some "fr", None))]) in
  let d := typed "http://p" None CNone in
  let c1 := run [OpSetNormal "p" (Some d); OpSetLanguage (Some "FR"); OpInverse] (MkCached (ctx_new None) None) in
  let c2 := run [OpSetType (Some true); OpSetLanguage (Some "en"); OpInverse] c1 in
  let c3 := run [OpSetNormal "p" None; OpInverse; OpSetLanguage (Some "fr")] c2 in
  q c1 = Some "p" /\ q c2 = None /\ q c3 = None.
Proof. vm_compute. auto. Qed.

(** The order of entries and expansion: C95. *)
From Verif Require Import Prelude Json Str Keyword Enums LangTag LangString Container Stack ContextSyntax Ctx Process ProcessRel
  Object ObjectEq ObjectJson CompactIri Expand ExpandOk Samples PropObject PropCompactIri PropExpand ShuffleNode Shuffle.

(** ** C95 *)

(** *** Both ways *)
Lemma shuffled_sym : forall j j', shuffled j j' -> shuffled j' j.
Proof.
  fix IH 3. intros j j' [| | | |l l' F|m m' [k P F]]; try constructor.
  - induction F as [|x y l l' E F IHF]; constructor; [exact (IH _ _ E)|exact IHF].
  - assert (F' : Forall2 ent k m).
    { clear P. induction F as [|x y l l' E F IHF]; constructor; [|exact IHF].
      destruct E as [E [[C Q]|[C Q]]]; (split; [symmetry; exact E|]); rewrite <- E; [left; split; [exact C|symmetry; exact Q]|right; split; [exact C|exact (IH _ _ Q)]]. }
    destruct (Forall2_perm_l _ _ _ _ (Permutation_sym P) F') as (m2 & P2 & F2). exists m2; assumption.
Qed.
Lemma shuffled_part j' doc' : part j' doc' -> forall doc, shuffled doc doc' -> exists j, part j doc /\ shuffled j j'.
Proof.
  induction 1 as [j|j x l I P IH|j k x m I P IH]; intros doc S.
  - exists doc. split; [constructor|exact S].
  - inversion S as [| | | |l1 l2 F|]; subst. assert (Q : exists y, In y l1 /\ shuffled y x).
    { clear -F I. induction F as [|a b l1 l E F IHF]; [contradiction|]. destruct I as [->|I]; [exists a; cbn; auto|]. destruct (IHF I) as (y & J & Y). exists y. cbn. auto. }
    destruct Q as (y & J & Y). destruct (IH _ Y) as (z & Pz & Z). exists z. split; [econstructor 2; eassumption|exact Z].
  - inversion S as [| | | | |m1 m2 R]; subst. apply shuffled_sym in S. inversion S as [| | | | |? ? R']; subst.
    destruct (reordered_in _ _ _ _ R' I) as ([k' y] & J & E). apply ent_snd in E. cbn in E. apply shuffled_sym in E.
    destruct (IH _ E) as (z & Pz & Z). exists z. split; [econstructor 3; eassumption|exact Z].
Qed.
Lemma shuffled_reached io ld pf base doc doc' c0 c : shuffled doc doc' -> reached io ld pf base doc' c0 c -> reached io ld pf base doc c0 c.
Proof.
  intros S. induction 1 as [|c p _ IH E|dc c k d lc po c' _ IH1 _ IH2 G N Pr|c m j lc po c' _ IH P I Cx Pr].
  - constructor 1.
  - exact (RcPrevious _ _ _ _ _ _ _ _ IH E).
  - exact (RcScoped _ _ _ _ _ _ _ _ _ _ _ _ _ IH1 IH2 G N Pr).
  - destruct (shuffled_part _ _ P _ S) as (y & Py & Y). apply shuffled_sym in Y. inversion Y as [| | | | |? m1 R]; subst.
    destruct (reordered_in _ _ _ _ R I) as ([k' z] & J & E). destruct E as [E [[_ Q]|[N _]]]; cbn in *; subst; [|contradiction]. exact (RcLocal _ _ _ _ _ _ _ _ _ _ _ _ IH Py J Cx Pr).
Qed.

(** Two JSON documents that differ only in the order of the entries of their objects (contexts aside) are both refused,
    or expand to documents that are the same, and equal for the crate. *)
Theorem C95_order : forall io ld fin rnd pf o base n c doc doc',
  (forall c' m, reached io ld pf base doc c c' -> part (JObj m) doc -> clear io o c' m) ->
  (forall c', reached io ld pf base doc c c' -> no_json io o doc c') ->
  shuffled doc doc' ->
  match expand io ld fin rnd pf o base n c doc, expand io ld fin rnd pf o base n c doc' with
  | Ok l, Ok l' => reordered same_i l l' /\
      set_eqb (fun x => rnd (iobj_words fin x)) (fun x y => opt_eqb streq (fst x) (fst y) && obj_eqb fin rnd (snd x) (snd y)) l l' = true
  | Err _, Err _ => True
  | _, _ => False
  end.
Proof.
  intros io ld fin rnd pf o base n c doc doc' HC HJ S.
  assert (K : forall l, expand io ld fin rnd pf o base n c doc = Ok l -> exists l', expand io ld fin rnd pf o base n c doc' = Ok l' /\ reordered sim l l' /\ distinct same_i l /\ distinct same_i l').
  { intros l. exact (expand_same io ld fin rnd pf o base doc c HC HJ n doc' l S). }
  assert (HC' : forall c' m, reached io ld pf base doc' c c' -> part (JObj m) doc' -> clear io o c' m).
  { intros c' m R P. apply (shuffled_reached _ _ _ _ _ _ _ _ S) in R. destruct (shuffled_part _ _ P _ S) as (y & Py & Y). inversion Y as [| | | | |m1 ? Q]; subst.
    eapply clear_perm; [exact Q|]. exact (HC _ _ R Py). }
  assert (HJ' : forall c', reached io ld pf base doc' c c' -> no_json io o doc' c').
  { intros c' R. apply (shuffled_reached _ _ _ _ _ _ _ _ S) in R. destruct (HJ _ R) as [J1 J2]. split; [exact J1|]. intros s dr P.
    destruct (shuffled_part _ _ P _ S) as (y & Py & Y). inversion Y; subst. apply J2, Py. }
  assert (K' : forall l, expand io ld fin rnd pf o base n c doc' = Ok l -> exists l', expand io ld fin rnd pf o base n c doc = Ok l' /\ reordered sim l l' /\ distinct same_i l /\ distinct same_i l').
  { intros l. exact (expand_same io ld fin rnd pf o base doc' c HC' HJ' n doc l (shuffled_sym _ _ S)). }
  destruct (expand io ld fin rnd pf o base n c doc) as [l|e] eqn:E.
  - destruct (K _ eq_refl) as (l' & E' & R & D & D'). rewrite E'. clear K K' E E'.
    assert (W : forall x, In x l -> wf (snd x)). { apply Forall_forall. eapply reordered_fl; [exact R|]. intros x y Y. apply Y. }
    assert (W' : forall x, In x l' -> wf (snd x)). { apply Forall_forall. eapply reordered_fr; [exact R|]. intros x y Y. apply Y. }
    assert (R' : reordered same_i l l'). { eapply reordered_impl; [|exact R]. intros x y _ _ Y. apply Y. }
    split; [exact R'|]. apply (set_eqb_spec _ _ same_i); [apply same_i_sym|apply same_i_trans|exact D| | |exact R'].
    + intros x y [Ei X]. f_equal. unfold iobj_words. rewrite Ei. f_equal. apply same_words_both, X.
    + intros x y Ix Iy. rewrite andb_true_iff, opt_streq. unfold same_i. rewrite (proj1 (eqb_both fin rnd) (snd x) (snd y) (W _ Ix) (W' _ Iy)). reflexivity.
  - destruct (expand io ld fin rnd pf o base n c doc') as [l'|] eqn:E'; [|exact I]. destruct (K' _ eq_refl) as (l & El & _). discriminate El.
Qed.
Print Assumptions C95_order.

(** *** What the conditions are for *)

(** The order matters in each of the excluded cases, even if the entries are asked to be ordered: [element.rs] 215-219
    copies the entries and does not sort them. *)
Definition ordered_expand (b : bool) (doc : json) : result (list iobj) xerr :=
  expand sample_iops no_loader sample_hash sample_hash 20 (MkXOpts JsonLd11 AKeep AKeep true b) None 20 (ctx_new None) doc.
Definition c95_doc (a b : string * json) : json :=
  JObj [("@context", JObj [("r", JObj [("@reverse", JStr "http://a/r")]); ("i", JStr "@index");
                           ("j", JObj [("@id", JStr "http://a/j"); ("@type", JStr "@json")])]); ("http://a/p", JStr "v"); a; b].
Lemma c95_swap a b : fst a <> "@context" -> fst b <> "@context" -> shuffled (c95_doc a b) (c95_doc b a).
Proof.
  intros A B. assert (R : forall e : string * json, fst e <> "@context" -> ent e e) by (intros e N; split; [reflexivity|right; split; [exact N|apply shuffled_refl]]).
  constructor. eexists; [apply perm_skip, perm_skip, perm_swap|]. constructor; [split; [reflexivity|left; split; reflexivity]|].
  constructor; [apply R; discriminate|]. constructor; [apply R, A|]. constructor; [apply R, B|constructor].
Qed.
Definition c95_id : json := JObj [("@id", JStr "http://a/x")].
(** A reverse property followed by [@reverse] is refused; the other way around it is not. *)
Theorem C95_reverse_refuted : forall b, exists doc doc' l, shuffled doc doc' /\ ordered_expand b doc = Ok l /\ ordered_expand b doc' = Err XCollidingKeywords.
Proof.
  intros [|]; exists (c95_doc ("@reverse", JObj [("http://a/q", c95_id)]) ("r", c95_id)), (c95_doc ("r", c95_id) ("@reverse", JObj [("http://a/q", c95_id)])); eexists;
    (split; [apply c95_swap; discriminate|]); (split; [vm_compute; reflexivity|vm_compute; reflexivity]).
Qed.
Print Assumptions C95_reverse_refuted.
(** Of two keys for [@index] the last one counts, *)
Lemma indexes_differ n : ~ reordered same_i [(Some "1", ONode n)] [(Some "2", ONode n)].
Proof. intros R. destruct (reordered_in _ _ _ _ R (or_introl eq_refl)) as (y & [<-|[]] & [E _]). discriminate E. Qed.
Theorem C95_alias_refuted : forall b, exists doc doc' l l', shuffled doc doc' /\ ordered_expand b doc = Ok l /\ ordered_expand b doc' = Ok l' /\ ~ reordered same_i l l'.
Proof.
  intros [|]; exists (c95_doc ("i", JStr "2") ("@index", JStr "1")), (c95_doc ("@index", JStr "1") ("i", JStr "2")); do 2 eexists; (split; [apply c95_swap; discriminate|]);
    (split; [vm_compute; reflexivity|split; [vm_compute; reflexivity|apply indexes_differ]]).
Qed.
Print Assumptions C95_alias_refuted.
(** and also of one in the object and one under [@nest]. *)
Theorem C95_nest_refuted : forall b, exists doc doc' l l', shuffled doc doc' /\ ordered_expand b doc = Ok l /\ ordered_expand b doc' = Ok l' /\ ~ reordered same_i l l'.
Proof.
  intros [|]; exists (c95_doc ("@nest", JObj [("@index", JStr "2")]) ("@index", JStr "1")), (c95_doc ("@index", JStr "1") ("@nest", JObj [("@index", JStr "2")])); do 2 eexists; (split; [apply c95_swap; discriminate|]);
    (split; [vm_compute; reflexivity|split; [vm_compute; reflexivity|apply indexes_differ]]).
Qed.
Print Assumptions C95_nest_refuted.
(** JSON literals keep the order of their entries. *)
Definition c95_json (j : json) : json := c95_doc ("@id", JStr "http://a/x") ("j", j).
Lemma c95_under j j' : shuffled j j' -> shuffled (c95_json j) (c95_json j').
Proof.
  intros S. constructor. eexists; [apply Permutation_refl|]. constructor; [split; [reflexivity|left; split; reflexivity]|].
  repeat (constructor; [split; [reflexivity|right; split; [discriminate|apply shuffled_refl]]|]). constructor; [|constructor]. split; [reflexivity|right; split; [discriminate|exact S]].
Qed.
Lemma literals_differ i p x j j' : j <> j' ->
  ~ reordered same_i [(None, ONode (MkNode i None None None [(IIri p, [x]); (IIri "http://a/j", [(None, OVal (VJson j))])] None))]
                     [(None, ONode (MkNode i None None None [(IIri p, [x]); (IIri "http://a/j", [(None, OVal (VJson j'))])] None))] \/ p = "http://a/j".
Proof.
  intros N. destruct (streq_spec p "http://a/j") as [->|NP]; [right; reflexivity|left]. intros R. destruct (reordered_in _ _ _ _ R (or_introl eq_refl)) as (y & [<-|[]] & [_ S]). cbn in S.
  inversion S as [|? ? M|]; subst. inversion M; subst. match goal with P : reordered _ [_; _] _ |- _ => rename P into PP end.
  destruct (reordered_in _ _ _ _ PP (or_intror (or_introl eq_refl))) as (y & [<-|[<-|[]]] & [E Q]); cbn in E; [injection E as E; congruence|].
  destruct (reordered_in _ _ _ _ Q (or_introl eq_refl)) as (z & [<-|[]] & [_ W]). cbn in W. inversion W as [? ? V| |]; subst. inversion V; subst. contradiction.
Qed.
Theorem C95_json_refuted : forall b, exists doc doc' l l', shuffled doc doc' /\ ordered_expand b doc = Ok l /\ ordered_expand b doc' = Ok l' /\ ~ reordered same_i l l'.
Proof.
  assert (S : shuffled (JObj [("a", JStr "1"); ("b", JStr "2")]) (JObj [("b", JStr "2"); ("a", JStr "1")])).
  { constructor. eexists; [apply perm_swap|]. repeat (constructor; [split; [reflexivity|right; split; [discriminate|constructor]]|]). constructor. }
  intros [|]; do 2 eexists; do 2 eexists; (split; [apply c95_under, S|]); (split; [vm_compute; reflexivity|]); (split; [vm_compute; reflexivity|]);
    (edestruct literals_differ as [L|L]; [|exact L|discriminate L]; discriminate).
Qed.
Print Assumptions C95_json_refuted.

(** *** An instance: a context with a term, a reverse property, an alias and a language map. *)
Definition c95_ctx : json :=
  JObj [("p", JStr "http://a/p"); ("r", JObj [("@reverse", JStr "http://a/r")]); ("type", JStr "@type");
        ("l", JObj [("@id", JStr "http://a/l"); ("@container", JStr "@language")])].
Definition c95_active : actx :=
  match context_of_json (iri_ref_ok sample_iops) c95_ctx with
  | Ok lc => match process_full sample_iops no_loader 20 (ctx_new None) lc None (popts_of xopts_default) with Ok c => c | Err _ => ctx_new None end
  | Err _ => ctx_new None
  end.
Definition c95_one : json :=
  JObj [("type", JStr "http://a/T"); ("p", JArr [JStr "u"; JObj [("@value", JStr "w"); ("@language", JStr "en")]]);
        ("r", JObj [("@id", JStr "http://a/x"); ("p", JStr "w")]); ("l", JObj [("en", JStr "b"); ("fr", JStr "c")])].
Definition c95_two : json :=
  JObj [("l", JObj [("fr", JStr "c"); ("en", JStr "b")]); ("r", JObj [("p", JStr "w"); ("@id", JStr "http://a/x")]);
        ("p", JArr [JStr "u"; JObj [("@language", JStr "en"); ("@value", JStr "w")]]); ("type", JStr "http://a/T")].
Fixpoint objects (j : json) : list jobject :=
  match j with
  | JArr l => flat_map objects l
  | JObj m => m :: flat_map (fun e => objects (snd e)) m
  | _ => []
  end.
Fixpoint strings (j : json) : list string :=
  match j with
  | JStr s => [s]
  | JArr l => flat_map strings l
  | JObj m => flat_map (fun e => strings (snd e)) m
  | _ => []
  end.
Lemma objects_part j doc : part j doc -> incl (objects j) (objects doc).
Proof.
  induction 1 as [j|j x l I P IH|j k x m I P IH]; [apply incl_refl| |]; intros y J; apply IH in J; cbn; [|right]; apply in_flat_map; [exists x|exists (k, x)]; split; assumption.
Qed.
Lemma strings_part j doc : part j doc -> incl (strings j) (strings doc).
Proof.
  induction 1 as [j|j x l I P IH|j k x m I P IH]; [apply incl_refl| |]; intros y J; apply IH in J; cbn; apply in_flat_map; [exists x|exists (k, x)]; split; assumption.
Qed.
Lemma assoc_in {A} k (l : list (string * A)) v : assoc k l = Some v -> In (k, v) l.
Proof. induction l as [|[k' w] l IH]; cbn; [discriminate|]. destruct (streq_spec k k') as [E|N]; [subst; intros [= <-]; left; reflexivity|right; auto]. Qed.
Lemma c95_reached c : reached sample_iops no_loader 20 None c95_one c95_active c -> c = c95_active.
Proof.
  induction 1 as [|c p _ IH E|dc c k d lc po c' _ IH1 _ IH2 G N Pr|c m j lc po c' _ IH P I Cx Pr].
  - reflexivity.
  - subst. vm_compute in E. discriminate E.
  - subst. apply assoc_in in G. vm_compute in G. repeat destruct G as [G|G]; try contradiction; injection G as <- <-; discriminate N.
  - exfalso. apply objects_part in P. assert (J : In m (objects c95_one)) by (apply P; left; reflexivity). vm_compute in J.
    repeat destruct J as [J|J]; try contradiction; subst m; cbn in I; intuition discriminate.
Qed.
Lemma c95_clear m : part (JObj m) c95_one -> clear sample_iops xopts_default c95_active m.
Proof.
  intros P. apply objects_part in P. assert (J : In m (objects c95_one)) by (apply P; left; reflexivity). clear P. cbn in J.
  repeat destruct J as [J|J]; try contradiction; subst m; (constructor; [cbn; repeat (constructor; [cbn; intuition discriminate|]); constructor| | |]); cbn [map fst]; intros k.
  all: try (intros k' w I I' E E'; cbn in I, I'; intuition subst; try reflexivity; vm_compute in E, E'; congruence).
  all: try (intros I; cbn in I; intuition subst; match goal with E : xkey _ _ _ _ = _ |- _ => vm_compute in E; discriminate E end).
  all: intros k' d I I' E _; cbn in I; intuition subst; vm_compute in E; discriminate E.
Qed.
Lemma c95_no_json : no_json sample_iops xopts_default c95_one c95_active.
Proof.
  split.
  - intros k d G. apply assoc_in in G. vm_compute in G. repeat destruct G as [G|G]; try contradiction; injection G as <- <-; discriminate.
  - intros s dr P. apply strings_part in P. assert (J : In s (strings c95_one)) by (apply P; left; reflexivity). cbn in J.
    repeat destruct J as [J|J]; try contradiction; subst s; destruct dr; vm_compute; discriminate.
Qed.
Example C95_example :
  (forall c m, reached sample_iops no_loader 20 None c95_one c95_active c -> part (JObj m) c95_one -> clear sample_iops xopts_default c m) /\
  (forall c, reached sample_iops no_loader 20 None c95_one c95_active c -> no_json sample_iops xopts_default c95_one c) /\
  shuffled c95_one c95_two /\
  exists l l', sample_expand c95_active c95_one = Ok l /\ sample_expand c95_active c95_two = Ok l' /\ l <> l' /\ reordered same_i l l'.
Proof.
  assert (HC : forall c m, reached sample_iops no_loader 20 None c95_one c95_active c -> part (JObj m) c95_one -> clear sample_iops xopts_default c m)
    by (intros c m R P; apply c95_reached in R; subst; apply c95_clear, P).
  assert (HJ : forall c, reached sample_iops no_loader 20 None c95_one c95_active c -> no_json sample_iops xopts_default c95_one c)
    by (intros c R; apply c95_reached in R; subst; apply c95_no_json).
  assert (S : shuffled c95_one c95_two).
  { assert (X : forall k j j', k <> "@context" -> shuffled j j' -> ent (k, j) (k, j')) by (intros k j j' N H; split; [reflexivity|right; split; assumption]).
    unfold c95_one, c95_two. constructor. eexists; [apply Permutation_rev|]. cbn [rev app].
    repeat (constructor; [apply X; [discriminate|]|]); [apply shuffled_refl| | | |constructor].
    - constructor. constructor; [apply shuffled_refl|]. constructor; [|constructor]. constructor. eexists; [apply perm_swap|].
      repeat (constructor; [apply X; [discriminate|apply shuffled_refl]|]). constructor.
    - constructor. eexists; [apply perm_swap|]. repeat (constructor; [apply X; [discriminate|apply shuffled_refl]|]). constructor.
    - constructor. eexists; [apply perm_swap|]. repeat (constructor; [apply X; [discriminate|apply shuffled_refl]|]). constructor. }
  split; [exact HC|]. split; [exact HJ|]. split; [exact S|].
  pose proof (C95_order sample_iops no_loader sample_hash sample_hash 20 xopts_default None 20 c95_active c95_one c95_two HC HJ S) as Y.
  unfold sample_expand. destruct (expand _ _ _ _ _ _ _ _ _ c95_one) as [l|] eqn:E; [|vm_compute in E; discriminate E].
  destruct (expand _ _ _ _ _ _ _ _ _ c95_two) as [l'|] eqn:E'; [|vm_compute in E'; discriminate E'].
  exists l, l'. split; [reflexivity|]. split; [reflexivity|]. split; [|exact (proj1 Y)]. clear Y. vm_compute in E, E'. injection E as <-. injection E' as <-. discriminate.
Qed.

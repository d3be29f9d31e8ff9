(** Which JSON values are local contexts: the grammar of JSON-LD 1.1 contexts (section 9.15 of
    the syntax specification), as far as types of entries go, and the proof that the parser
    accepts exactly it. *)
From Verif Require Import Prelude Keyword Enums Container Json ContextSyntax.

Section Grammar.
Variable iri_ref_ok : string -> bool.

Definition is_str (j : json) : Prop := exists s, j = JStr s.
Definition is_bool (j : json) : Prop := exists b, j = JBool b.
Definition is_iri_ref (j : json) : Prop := exists s, j = JStr s /\ iri_ref_ok s = true.
Definition is_direction (j : json) : Prop := j = JStr "ltr" \/ j = JStr "rtl".
Definition or_null (P : json -> Prop) (j : json) : Prop := j = JNull \/ P j.
Definition is_container_kind (j : json) : Prop :=
  exists s, j = JStr s /\ In s ["@graph"; "@id"; "@index"; "@language"; "@list"; "@set"; "@type"].
Definition is_container (j : json) : Prop :=
  is_container_kind j \/ exists l, j = JArr l /\ forall x, In x l -> is_container_kind x.
Definition is_nest (j : json) : Prop := exists s, j = JStr s /\ (s = "@nest" \/ forall k, s <> kw_str k).
Definition is_version (j : json) : Prop := j = JNum "1.1".
(** The value of [@type] in a context: a [@container] that is [@set] and optionally
    [@protected], in any order. *)
Definition is_type_entry (j : json) : Prop :=
  exists o, j = JObj o /\ NoDup (keys o) /\ In ("@container", JStr "@set") o /\
    forall k v, In (k, v) o -> (k = "@container" /\ v = JStr "@set") \/ (k = "@protected" /\ is_bool v).

Inductive context_json : json -> Prop :=
| CjOne j : entry_json j -> context_json j
| CjMany l : (forall j, In j l -> entry_json j) -> context_json (JArr l)
with entry_json : json -> Prop :=
| EjNull : entry_json JNull
| EjIri s : iri_ref_ok s = true -> entry_json (JStr s)
| EjDef o : (forall k v, In (k, v) o -> entry_of_def k v) ->
    NoDup (filter (fun k => negb (mem_str k definition_entries)) (keys o)) -> entry_json (JObj o)
with entry_of_def : string -> json -> Prop :=
| EdBase v : or_null is_iri_ref v -> entry_of_def "@base" v
| EdImport v : is_iri_ref v -> entry_of_def "@import" v
| EdLanguage v : or_null is_str v -> entry_of_def "@language" v
| EdDirection v : or_null is_direction v -> entry_of_def "@direction" v
| EdPropagate v : is_bool v -> entry_of_def "@propagate" v
| EdProtected v : is_bool v -> entry_of_def "@protected" v
| EdType v : is_type_entry v -> entry_of_def "@type" v
| EdVersion v : is_version v -> entry_of_def "@version" v
| EdVocab v : or_null is_str v -> entry_of_def "@vocab" v
| EdTermNull k : ~ In k definition_entries -> entry_of_def k JNull
| EdTerm k v : ~ In k definition_entries -> term_json v -> entry_of_def k v
with term_json : json -> Prop :=
| TjSimple s : term_json (JStr s)
| TjExpanded o : (forall k v, In (k, v) o -> entry_of_term k v) -> term_json (JObj o)
with entry_of_term : string -> json -> Prop :=
| EtId v : or_null is_str v -> entry_of_term "@id" v
| EtType v : or_null is_str v -> entry_of_term "@type" v
| EtContext v : context_json v -> entry_of_term "@context" v
| EtReverse v : is_str v -> entry_of_term "@reverse" v
| EtIndex v : is_str v -> entry_of_term "@index" v
| EtLanguage v : or_null is_str v -> entry_of_term "@language" v
| EtDirection v : or_null is_direction v -> entry_of_term "@direction" v
| EtContainer v : or_null is_container v -> entry_of_term "@container" v
| EtNest v : is_nest v -> entry_of_term "@nest" v
| EtPrefix v : is_bool v -> entry_of_term "@prefix" v
| EtPropagate v : is_bool v -> entry_of_term "@propagate" v
| EtProtected v : is_bool v -> entry_of_term "@protected" v.

(** ** Proofs *)
Definition ok {A E} (r : result A E) : Prop := exists a, r = Ok a.
Lemma ok_ok {A E} (a : A) : @ok A E (Ok a) <-> True.
Proof. split; [auto|]. exists a. reflexivity. Qed.
Lemma ok_err {A E} (e : E) : @ok A E (Err e) <-> False.
Proof. split; [|tauto]. intros [a H]. discriminate. Qed.
Lemma ok_bind {A B E} (r : result A E) (f : A -> result B E) :
  (forall a, r = Ok a -> ok (f a)) -> (ok (bind r f) <-> ok r).
Proof.
  intros H. destruct r as [a|e]; cbn.
  - rewrite ok_ok. specialize (H a eq_refl). tauto.
  - rewrite !ok_err. tauto.
Qed.
Lemma ok_bool j : ok (bool_of_json j) <-> is_bool j.
Proof. unfold is_bool. destruct j; cbn; rewrite ?ok_ok, ?ok_err; split; intros H; try tauto; try (destruct H as [? H]; discriminate); eauto. Qed.
Lemma ok_str j : ok (str_of_json j) <-> is_str j.
Proof. unfold is_str. destruct j; cbn; rewrite ?ok_ok, ?ok_err; split; intros H; try tauto; try (destruct H as [? H]; discriminate); eauto. Qed.
Lemma ok_iri j : ok (iriref_of_json iri_ref_ok j) <-> is_iri_ref j.
Proof.
  unfold is_iri_ref. destruct j as [| | |s| |]; cbn; try (rewrite ok_err; split; [tauto|intros (x & H & _); discriminate]).
  destruct (iri_ref_ok s) eqn:E; rewrite ?ok_ok, ?ok_err.
  - split; eauto.
  - split; [tauto|]. intros (x & H & F). injection H as <-. congruence.
Qed.
Lemma ok_dir j : ok (dir_of_json j) <-> is_direction j.
Proof.
  unfold is_direction. destruct j as [| | |s| |]; cbn; try (rewrite ok_err; split; [tauto|intros [H|H]; discriminate]).
  destruct (dir_of_str s) as [d|] eqn:E; rewrite ?ok_ok, ?ok_err.
  - apply dir_sound in E. subst. split; [|tauto]. destruct d; auto.
  - split; [tauto|]. intros [H|H]; injection H as ->; discriminate.
Qed.
Lemma ok_nullable {A} (f : json -> result A ctx_err) P j : (forall j, ok (f j) <-> P j) -> ~ P JNull ->
  (ok (nullable_of_json f j) <-> or_null P j).
Proof.
  intros H N. unfold or_null. destruct j; cbn; rewrite ?ok_ok; try (rewrite ok_bind by (intros; apply ok_ok; exact I); rewrite H; intuition discriminate).
  tauto.
Qed.
Lemma ok_ckind j : ok (ckind_of_json j) <-> is_container_kind j.
Proof.
  unfold is_container_kind. destruct j as [| | |s| |]; cbn [ckind_of_json]; try (rewrite ok_err; split; [tauto|intros (x & H & _); discriminate]).
  destruct (ckind_of_str s) as [d|] eqn:E; rewrite ?ok_ok, ?ok_err.
  - apply ckind_sound in E. subst. split; [|tauto]. intros _. exists (ckind_str d). split; [reflexivity|]. destruct d; cbn; tauto.
  - split; [tauto|]. intros (x & H & F). injection H as <-. cbn in F.
    repeat (destruct F as [<-|F]; [discriminate|]). exact F.
Qed.
Lemma ok_mapm {A B} (f : A -> result B ctx_err) l : ok (mapm f l) <-> forall x, In x l -> ok (f x).
Proof.
  induction l as [|a l IH]; cbn; [rewrite ok_ok; tauto|].
  destruct (f a) as [b|e] eqn:E; cbn.
  - rewrite ok_bind by (intros; apply ok_ok; exact I). rewrite IH. split.
    + intros H x [<-|Hx]; [exists b; exact E|auto].
    + auto.
  - rewrite ok_err. split; [tauto|]. intros H. specialize (H a (or_introl eq_refl)). rewrite E, ok_err in H. exact H.
Qed.
Lemma ok_container j : ok (container_of_json j) <-> is_container j.
Proof.
  unfold is_container. destruct j as [| | | |l|]; cbn [container_of_json]; rewrite ok_bind by (intros; apply ok_ok; exact I);
    rewrite ?ok_ckind; try (split; [auto|intros [H|(? & H & _)]; [exact H|discriminate]]).
  rewrite ok_mapm. split.
  - intros H. right. exists l. split; [reflexivity|]. intros x Hx. apply ok_ckind. auto.
  - intros [(s & H & _)|(l' & H & F)]; [discriminate|]. injection H as <-. intros x Hx. apply ok_ckind. auto.
Qed.
Lemma ok_nest j : ok (tnest_of_json j) <-> is_nest j.
Proof.
  unfold is_nest. destruct j as [| | |s| |]; cbn [tnest_of_json]; try (rewrite ok_err; split; [tauto|intros (x & H & _); discriminate]).
  unfold tnest_of_str. destruct (streq_spec s "@nest") as [->|N].
  { rewrite ok_ok. split; [|tauto]. eauto. }
  destruct (is_keyword s) eqn:E.
  - rewrite ok_err. split; [tauto|]. intros (x & H & F). injection H as <-. apply is_keyword_iff in E. destruct E as [k ->].
    destruct F as [F|F]; [contradiction|]. apply (F k). reflexivity.
  - rewrite ok_ok. split; [|tauto]. intros _. exists s. split; [reflexivity|]. right. intros k ->.
    assert (is_keyword (kw_str k) = true) by (apply is_keyword_iff; eauto). congruence.
Qed.
Lemma ok_version j : ok (version_of_json j) <-> is_version j.
Proof.
  unfold is_version. destruct j as [| |n| | |]; cbn; try (rewrite ok_err; split; [tauto|discriminate]).
  destruct (streq_spec n "1.1") as [->|N]; rewrite ?ok_ok, ?ok_err; split; congruence || tauto.
Qed.
Lemma ok_tcontainer j : ok (tcontainer_of_json j) <-> j = JStr "@set".
Proof.
  destruct j as [| | |s| |]; cbn [tcontainer_of_json]; try (rewrite ok_err; split; [tauto|discriminate]).
  destruct (kw_of_str s) as [k|] eqn:E.
  - apply kw_of_str_sound in E. subst s. destruct k; rewrite ?ok_ok, ?ok_err; split; try tauto; discriminate.
  - rewrite ok_err. split; [tauto|]. intros H. injection H as ->. discriminate.
Qed.
Lemma ok_dtype_loop o : forall c p, ok (dtype_loop c p o) <->
  (NoDup (keys o) /\ (c <> None -> ~ In "@container" (keys o)) /\ (p <> None -> ~ In "@protected" (keys o)) /\
   (c <> None \/ In ("@container", JStr "@set") o) /\
   forall k v, In (k, v) o -> (k = "@container" /\ v = JStr "@set") \/ (k = "@protected" /\ is_bool v)).
Proof.
  induction o as [|[k v] o IH]; intros c p; cbn [dtype_loop].
  - cbn. destruct c; rewrite ?ok_ok, ?ok_err.
    + split; [intros _|tauto]. split; [constructor|]. split; [tauto|]. split; [tauto|]. split; [left; discriminate|tauto].
    + split; [tauto|]. intros (_ & _ & _ & [H|H] & _); [congruence|exact H].
  - assert (KS : forall k', kw_of_str k = Some k' -> k = kw_str k') by (intros; apply kw_of_str_sound; assumption).
    assert (OTHER : k <> "@container" -> k <> "@protected" ->
       ~ (forall k0 v0, In (k0, v0) ((k, v) :: o) -> (k0 = "@container" /\ v0 = JStr "@set") \/ (k0 = "@protected" /\ is_bool v0))).
    { intros N1 N2 H. destruct (H k v (or_introl eq_refl)) as [[E _]|[E _]]; contradiction. }
    destruct (streq_spec k "@container") as [->|N1]; [|destruct (streq_spec k "@protected") as [->|N2]].
    + change (kw_of_str "@container") with (Some KContainer). cbv iota.
      destruct (tcontainer_of_json v) as [[]|e] eqn:E; cbn [bind].
      * assert (v = JStr "@set") as -> by (apply ok_tcontainer; exists tt; exact E).
        destruct c as [x|].
        { rewrite ok_err. split; [tauto|]. intros (_ & H & _). apply H; [discriminate|left; reflexivity]. }
        rewrite IH. cbn [keys map fst]. split.
        -- intros (A & B & C & D & F). split; [constructor; [apply B; discriminate|exact A]|].
           split; [congruence|]. split; [intros Hp [Hq|Hq]; [discriminate|apply (C Hp Hq)]|].
           split; [right; left; reflexivity|]. intros k v [H|H]; [injection H as <- <-; auto|auto].
        -- intros (A & B & C & D & F). inversion A as [|? ? A1 A2]; subst. split; [exact A2|]. split; [auto|].
           split; [intros Hp Hq; apply (C Hp); right; exact Hq|]. split; [left; discriminate|]. intros k v H. apply F. right. exact H.
      * rewrite ok_err. split; [tauto|]. intros (_ & _ & _ & _ & F).
        destruct (F "@container" v (or_introl eq_refl)) as [[_ ->]|[X _]]; discriminate.
    + change (kw_of_str "@protected") with (Some KProtected). cbv iota.
      destruct (bool_of_json v) as [b|e] eqn:E; cbn [bind].
      * assert (B : is_bool v) by (apply ok_bool; exists b; exact E).
        destruct p as [x|].
        { rewrite ok_err. split; [tauto|]. intros (_ & _ & H & _). apply H; [discriminate|left; reflexivity]. }
        rewrite IH. cbn [keys map fst]. split.
        -- intros (A & C & B' & D & F). split; [constructor; [apply B'; discriminate|exact A]|].
           split; [intros Hp [Hq|Hq]; [discriminate|apply (C Hp Hq)]|]. split; [congruence|].
           split; [destruct D; [left|right; right]; assumption|]. intros k v' [H|H]; [injection H as <- <-; auto|auto].
        -- intros (A & C & B' & D & F). inversion A as [|? ? A1 A2]; subst. split; [exact A2|].
           split; [intros Hp Hq; apply (C Hp); right; exact Hq|]. split; [auto|].
           split; [destruct D as [D|[D|D]]; [left; exact D|discriminate|right; exact D]|]. intros k v' H. apply F. right. exact H.
      * rewrite ok_err. split; [tauto|]. intros (_ & _ & _ & _ & F).
        destruct (F "@protected" v (or_introl eq_refl)) as [[X _]|[_ X]]; [discriminate|]. apply ok_bool in X. rewrite E, ok_err in X. exact X.
    + assert (ok (match kw_of_str k with
        | Some KContainer => do c' <- tcontainer_of_json v ; match c with Some _ => Err XDuplicateKey | None => dtype_loop (Some c') p o end
        | Some KProtected => do b <- bool_of_json v ; match p with Some _ => Err XDuplicateKey | None => dtype_loop c (Some b) o end
        | _ => Err XInvalidTermDefinition end) <-> False) as ->.
      { destruct (kw_of_str k) as [k'|] eqn:E; [|apply ok_err]. specialize (KS k' eq_refl).
        destruct k'; try apply ok_err; exfalso; [apply N1|apply N2]; exact KS. }
      split; [tauto|]. intros (_ & _ & _ & _ & F). apply (OTHER N1 N2 F).
Qed.
Lemma ok_dtype j : ok (dtype_of_json j) <-> is_type_entry j.
Proof.
  unfold is_type_entry. destruct j as [| | | | |o]; cbn [dtype_of_json]; try (rewrite ok_err; split; [tauto|intros (x & H & _); discriminate]).
  rewrite ok_dtype_loop. split.
  - intros (A & _ & _ & [D|D] & F); [congruence|]. eauto 6.
  - intros (o' & H & A & D & F). injection H as <-. split; [exact A|]. split; [congruence|]. split; [congruence|]. auto.
Qed.

Lemma keyword_or s : (exists k, s = kw_str k /\ kw_of_str s = Some k) \/ (kw_of_str s = None /\ forall k, s <> kw_str k).
Proof.
  destruct (kw_of_str s) as [k|] eqn:E.
  - left. exists k. split; [apply kw_of_str_sound, E|reflexivity].
  - right. split; [reflexivity|]. intros k ->. rewrite kw_of_str_kw_str in E. discriminate.
Qed.

(** The readings of a value are correct. *)
Definition reads (j : json) (p : parsed) : Prop :=
  (ok (p_entry p) <-> entry_json j) /\ (ok (p_tdef p) <-> term_json j) /\ (ok (p_ctx p) <-> context_json j).

Lemma ok_foldm {A B} (f : A -> B -> result A ctx_err) (Q : B -> Prop) l :
  (forall a b, In b l -> (ok (f a b) <-> Q b)) -> forall a, ok (foldm f a l) <-> forall b, In b l -> Q b.
Proof.
  intros H. assert (G : forall l', (forall b, In b l' -> In b l) -> forall a, ok (foldm f a l') <-> forall b, In b l' -> Q b); [|intros a; apply G; auto].
  induction l' as [|x l' IH]; intros S a; cbn; [rewrite ok_ok; tauto|].
  assert (Hx : ok (f a x) <-> Q x) by (apply H, S; left; reflexivity).
  destruct (f a x) as [a'|e]; cbn.
  - rewrite IH by (intros b Hb; apply S; right; exact Hb). rewrite ok_ok in Hx. split.
    + intros F b [<-|Hb]; [tauto|auto].
    + auto.
  - rewrite ok_err in *. split; [tauto|]. intros F. apply Hx. apply F. left. reflexivity.
Qed.
Lemma not_str_null : ~ is_str JNull. Proof. intros [s H]. discriminate. Qed.
Lemma not_iri_null : ~ is_iri_ref JNull. Proof. intros (s & H & _). discriminate. Qed.
Lemma not_dir_null : ~ is_direction JNull. Proof. intros [H|H]; discriminate. Qed.
Lemma not_container_null : ~ is_container JNull. Proof. intros [(s & H & _)|(l & H & _)]; discriminate. Qed.
Lemma ok_tid j : ok (tid_of_json j) <-> is_str j.
Proof. unfold is_str. destruct j; cbn; rewrite ?ok_ok, ?ok_err; split; intros H; try tauto; try (destruct H as [? H]; discriminate); eauto. Qed.
Lemma ok_ttype j : ok (ttype_of_json j) <-> is_str j.
Proof. unfold is_str. destruct j; cbn; rewrite ?ok_ok, ?ok_err; split; intros H; try tauto; try (destruct H as [? H]; discriminate); eauto. Qed.

Ltac bind_end := rewrite ok_bind by (intros; apply ok_ok; exact I).

Lemma texp_step_ok e k v p : (ok (p_ctx p) <-> context_json v) -> (ok (texp_step e (k, v, p)) <-> entry_of_term k v).
Proof.
  intros H. destruct e. unfold texp_step. destruct (keyword_or k) as [(kw & -> & ->)|(E & N)].
  - destruct kw;
      try (rewrite ok_err; split; [tauto|]; intros X; inversion X; fail);
      bind_end;
      first [rewrite (ok_nullable _ is_str) by (apply ok_tid || apply ok_ttype || apply ok_str || apply not_str_null)
            |rewrite (ok_nullable _ is_direction) by (apply ok_dir || apply not_dir_null)
            |rewrite (ok_nullable _ is_container) by (apply ok_container || apply not_container_null)
            |rewrite ok_str|rewrite ok_bool|rewrite ok_nest|rewrite H];
      (split; [intros; constructor; assumption|intros X; inversion X; assumption]).
  - rewrite E, ok_err. split; [tauto|]. intros X.
    inversion X; subst; [apply (N KId)|apply (N KType)|apply (N KContext)|apply (N KReverse)|apply (N KIndex)
      |apply (N KLanguage)|apply (N KDirection)|apply (N KContainer)|apply (N KNest)|apply (N KPrefix)|apply (N KPropagate)|apply (N KProtected)]; reflexivity.
Qed.

(** The entries of a context definition: the terms must be new. *)
Definition new_term (e : cdef tdef) (k : string) : Prop := In k definition_entries \/ assoc k (cd_bindings e) = None.
Definition after (e e' : cdef tdef) (k : string) : Prop :=
  forall j, assoc j (cd_bindings e') <> None <-> (assoc j (cd_bindings e) <> None \/ (j = k /\ ~ In k definition_entries)).

Lemma assoc_app_last {A} (l : list (string * A)) k v j :
  assoc j (l ++ [(k, v)]) <> None <-> (assoc j l <> None \/ j = k).
Proof.
  induction l as [|[k' v'] l IH]; cbn.
  - destruct (streq_spec j k); split; intros; try tauto; try discriminate; destruct H; congruence.
  - destruct (streq_spec j k'); [split; [left|]; congruence|exact IH].
Qed.

Lemma cdef_step_ok e k v p : (ok (p_tdef p) <-> term_json v) ->
  (ok (cdef_step iri_ref_ok e (k, v, p)) <-> entry_of_def k v /\ new_term e k) /\
  (forall e', cdef_step iri_ref_ok e (k, v, p) = Ok e' -> after e e' k).
Proof.
  intros H.
  assert (TERM : ~ In k definition_entries -> forall bi mk,
    (forall x, cd_bindings (mk x) = x) -> cd_bindings e = bi ->
    let r := do a <- match v with JNull => Ok NNull | _ => do t <- p_tdef p ; Ok (NSome t) end ;
             match assoc k bi with
             | Some _ => Err XDuplicateKey
             | None => Ok (mk (bi ++ [(k, a)]) : cdef tdef)
             end in
    (ok r <-> entry_of_def k v /\ new_term e k) /\ (forall e', r = Ok e' -> after e e' k)).
  { intros NI bi mk Hmk Hbi. cbv zeta.
    assert (OV : ok (match v with JNull => Ok NNull | _ => do t <- p_tdef p ; Ok (NSome t) end) <-> entry_of_def k v).
    { assert (E : entry_of_def k v <-> v = JNull \/ term_json v).
      { split.
        - intros X. inversion X; subst; auto; exfalso; apply NI; cbn; tauto.
        - intros [->|X]; [apply EdTermNull|apply EdTerm]; assumption. }
      rewrite E, <- H. destruct v; rewrite ?ok_ok; try bind_end; try (split; [auto|intros [X|X]; [discriminate|exact X]]).
      split; auto. }
    destruct (match v with JNull => _ | _ => _ end) as [a|er]; cbn [bind].
    - rewrite ok_ok in OV. unfold new_term. rewrite Hbi. destruct (assoc k bi) as [x|] eqn:A.
      + rewrite ok_err. split; [|discriminate]. split; [tauto|]. intros [_ [X|X]]; [contradiction|discriminate].
      + rewrite ok_ok. split; [tauto|]. intros e' X. injection X as <-. intros j. rewrite Hmk, Hbi, assoc_app_last. tauto.
    - rewrite ok_err in OV; rewrite ok_err. split; [tauto|discriminate]. }
  destruct e as [ba im la di pg pt ty ve vo bi]. unfold cdef_step.
  destruct (keyword_or k) as [(kw & -> & ->)|(E & N)].
  - assert (RES : forall {A} (r : result A ctx_err) (mk : A -> cdef tdef), (forall a, cd_bindings (mk a) = bi) -> In (kw_str kw) definition_entries ->
      (ok r <-> entry_of_def (kw_str kw) v) ->
      (ok (do a <- r ; Ok (mk a)) <-> entry_of_def (kw_str kw) v /\ new_term (MkDef ba im la di pg pt ty ve vo bi) (kw_str kw)) /\
      (forall e', (do a <- r ; Ok (mk a)) = Ok e' -> after (MkDef ba im la di pg pt ty ve vo bi) e' (kw_str kw))).
    { intros A r mk Hmk HI Hr. split.
      - bind_end. rewrite Hr. unfold new_term. tauto.
      - intros e' X. destruct r as [a|]; [|discriminate]. injection X as <-. intros j. rewrite Hmk. cbn [cd_bindings]. tauto. }
    destruct kw;
      try (refine (TERM _ bi (fun x => MkDef ba im la di pg pt ty ve vo x) (fun x => eq_refl) eq_refl);
           cbn; intros X; repeat (destruct X as [X|X]; [discriminate|]); exact X);
      (apply RES; [reflexivity|cbn; tauto|]).
    + rewrite (ok_nullable _ is_iri_ref) by (apply ok_iri || apply not_iri_null). split; [intros; constructor; assumption|].
      intros X; inversion X; subst; try assumption; exfalso; match goal with Y : ~ In _ _ |- _ => apply Y; cbn; tauto end.
    + rewrite (ok_nullable _ is_direction) by (apply ok_dir || apply not_dir_null). split; [intros; constructor; assumption|].
      intros X; inversion X; subst; try assumption; exfalso; match goal with Y : ~ In _ _ |- _ => apply Y; cbn; tauto end.
    + rewrite ok_iri. split; [intros; constructor; assumption|].
      intros X; inversion X; subst; try assumption; exfalso; match goal with Y : ~ In _ _ |- _ => apply Y; cbn; tauto end.
    + rewrite (ok_nullable _ is_str) by (apply ok_str || apply not_str_null). split; [intros; constructor; assumption|].
      intros X; inversion X; subst; try assumption; exfalso; match goal with Y : ~ In _ _ |- _ => apply Y; cbn; tauto end.
    + rewrite ok_bool. split; [intros; constructor; assumption|].
      intros X; inversion X; subst; try assumption; exfalso; match goal with Y : ~ In _ _ |- _ => apply Y; cbn; tauto end.
    + rewrite ok_bool. split; [intros; constructor; assumption|].
      intros X; inversion X; subst; try assumption; exfalso; match goal with Y : ~ In _ _ |- _ => apply Y; cbn; tauto end.
    + rewrite ok_dtype. split; [intros; constructor; assumption|].
      intros X; inversion X; subst; try assumption; exfalso; match goal with Y : ~ In _ _ |- _ => apply Y; cbn; tauto end.
    + rewrite ok_version. split; [intros; constructor; assumption|].
      intros X; inversion X; subst; try assumption; exfalso; match goal with Y : ~ In _ _ |- _ => apply Y; cbn; tauto end.
    + rewrite (ok_nullable _ is_str) by (apply ok_str || apply not_str_null). split; [intros; constructor; assumption|].
      intros X; inversion X; subst; try assumption; exfalso; match goal with Y : ~ In _ _ |- _ => apply Y; cbn; tauto end.
  - rewrite E. refine (TERM _ bi (fun x => MkDef ba im la di pg pt ty ve vo x) (fun x => eq_refl) eq_refl).
    cbn. intros X. repeat (destruct X as [<-|X]; [discriminate E|]). exact X.
Qed.

Definition terms_of (l : list string) : list string := filter (fun k => negb (mem_str k definition_entries)) l.

Lemma cdef_foldm_ok l : (forall k v p, In (k, v, p) l -> ok (p_tdef p) <-> term_json v) ->
  forall e, ok (foldm (cdef_step iri_ref_ok) e l) <->
    (forall k v p, In (k, v, p) l -> entry_of_def k v) /\ NoDup (terms_of (map (fun x => fst (fst x)) l)) /\
    (forall k, In k (terms_of (map (fun x => fst (fst x)) l)) -> assoc k (cd_bindings e) = None).
Proof.
  induction l as [|[[k v] p] l IH]; intros H e.
  { cbn. rewrite ok_ok. split; [|tauto]. intros _. split; [tauto|]. split; [constructor|tauto]. }
  destruct (cdef_step_ok e k v p (H k v p (or_introl eq_refl))) as [S1 S2]. cbn [foldm].
  specialize (IH (fun k v p X => H k v p (or_intror X))).
  assert (TN : In k definition_entries -> terms_of (map (fun x : string * json * parsed => fst (fst x)) ((k, v, p) :: l)) =
             terms_of (map (fun x : string * json * parsed => fst (fst x)) l)).
  { intros X. apply mem_str_In in X. unfold terms_of. cbn [map fst filter]. rewrite X. reflexivity. }
  assert (TY : ~ In k definition_entries -> terms_of (map (fun x : string * json * parsed => fst (fst x)) ((k, v, p) :: l)) =
             k :: terms_of (map (fun x : string * json * parsed => fst (fst x)) l)).
  { intros X. unfold terms_of. cbn [map fst filter]. destruct (mem_str k definition_entries) eqn:M; [|reflexivity].
    apply mem_str_In in M. contradiction. }
  destruct (cdef_step iri_ref_ok e (k, v, p)) as [e'|er] eqn:E; cbn [bind].
  - rewrite ok_ok in S1. destruct (proj1 S1 Logic.I) as [D N]. specialize (S2 e' eq_refl). rewrite IH.
    set (T := terms_of (map (fun x => fst (fst x)) l)) in *.
    destruct (in_dec string_dec k definition_entries) as [RI|RI].
    + rewrite (TN RI). split; intros (A & B & C).
      * split; [intros k0 v0 p0 [X|X]; [injection X as <- <- <-; exact D|eauto]|]. split; [exact B|].
        intros j Hj. specialize (C j Hj). destruct (assoc j (cd_bindings e)) eqn:Y; [|reflexivity].
        exfalso. apply (proj2 (S2 j)); [left; congruence|exact C].
      * split; [intros k0 v0 p0 X; eapply A; right; exact X|]. split; [exact B|].
        intros j Hj. destruct (assoc j (cd_bindings e')) eqn:Y; [|reflexivity]. exfalso.
        destruct (proj1 (S2 j)) as [Z|[_ Z]]; [congruence|apply Z, C, Hj|contradiction].
    + rewrite (TY RI). assert (NE : assoc k (cd_bindings e) = None) by (destruct N; [contradiction|assumption]).
      split; intros (A & B & C).
      * split; [intros k0 v0 p0 [X|X]; [injection X as <- <- <-; exact D|eauto]|].
        split; [constructor; [|exact B]|].
        -- intros X. apply (proj2 (S2 k)); [auto|apply C, X].
        -- intros j [<-|Hj]; [exact NE|]. specialize (C j Hj). destruct (assoc j (cd_bindings e)) eqn:Y; [|reflexivity].
           exfalso. apply (proj2 (S2 j)); [left; congruence|exact C].
      * inversion B as [|? ? B1 B2]; subst. split; [intros k0 v0 p0 X; eapply A; right; exact X|]. split; [exact B2|].
        intros j Hj. destruct (assoc j (cd_bindings e')) eqn:Y; [|reflexivity]. exfalso.
        destruct (proj1 (S2 j)) as [Z|[Z _]]; [congruence|apply Z, C; right; exact Hj|subst; contradiction].
  - rewrite ok_err in *. split; [tauto|]. intros (A & B & C). apply S1. split; [eapply A; left; reflexivity|].
    unfold new_term. destruct (in_dec string_dec k definition_entries) as [RI|RI]; [auto|]. right. apply C.
    rewrite (TY RI). left. reflexivity.
Qed.

Lemma parse_reads j : reads j (parse_all iri_ref_ok j).
Proof.
  induction j as [|b|n|s|l IH|o IH] using json_ind'; unfold reads; cbn [parse_all p_entry p_tdef p_ctx].
  - cbn [bind]. rewrite !ok_ok, !ok_err. split; [split; [intros _; apply EjNull|tauto]|]. split; [split; [tauto|intros X; inversion X]|].
    split; [intros _; apply CjOne, EjNull|tauto].
  - cbn. rewrite !ok_err. repeat split; try tauto; try (intros X; inversion X; subst; try match goal with Y : entry_json _ |- _ => inversion Y end).
  - cbn. rewrite !ok_err. repeat split; try tauto; try (intros X; inversion X; subst; try match goal with Y : entry_json _ |- _ => inversion Y end).
  - rewrite ok_ok. assert (E : ok (if iri_ref_ok s then Ok (CEIri s) else Err XInvalidIriRef) <-> entry_json (JStr s)).
    { destruct (iri_ref_ok s) eqn:E; rewrite ?ok_ok, ?ok_err; (split; [|]).
      - intros _. constructor. exact E.
      - tauto.
      - tauto.
      - intros X. inversion X. congruence. }
    split; [exact E|]. split; [split; [constructor|tauto]|]. bind_end. rewrite E.
    split; [apply CjOne|]. intros X. inversion X; subst; assumption.
  - rewrite !ok_err. split; [split; [tauto|intros X; inversion X]|]. split; [split; [tauto|intros X; inversion X]|].
    bind_end. rewrite ok_mapm. split.
    + intros X. apply CjMany. intros j Hj. rewrite Forall_forall in IH. apply (IH j Hj). apply X. apply in_map, Hj.
    + intros X. inversion X as [? Y|? Y]; subst; [inversion Y|]. intros p Hp. apply in_map_iff in Hp. destruct Hp as (j & <- & Hj).
      rewrite Forall_forall in IH. apply (IH j Hj), Y, Hj.
  - set (L := map (fun e => (fst e, snd e, parse_all iri_ref_ok (snd e))) o).
    assert (LI : forall k v p, In (k, v, p) L -> In (k, v) o /\ reads v p).
    { intros k v p X. apply in_map_iff in X. destruct X as ([k' v'] & X & Y). injection X as <- <- <-. split; [exact Y|].
      rewrite Forall_forall in IH. apply (IH (k', v') Y). }
    assert (LO : forall k v, In (k, v) o -> exists p, In (k, v, p) L).
    { intros k v X. exists (parse_all iri_ref_ok v). apply in_map_iff. exists (k, v). auto. }
    assert (LK : map (fun x => fst (fst x)) L = keys o).
    { unfold L, keys. rewrite map_map. apply map_ext. reflexivity. }
    assert (E : ok (do d <- foldm (cdef_step iri_ref_ok) cdef_new L ; Ok (CEDef d)) <-> entry_json (JObj o)).
    { bind_end. rewrite cdef_foldm_ok by (intros k v p X; apply (LI k v p X)). rewrite LK. split.
      - intros (A & B & _). apply EjDef; [|exact B]. intros k v X. destruct (LO k v X) as [p Y]. eapply A, Y.
      - intros X. inversion X as [| |? A B]; subst. split; [intros k v p Y; apply A, (LI k v p Y)|]. split; [exact B|reflexivity]. }
    split; [exact E|]. split.
    + bind_end. rewrite (ok_foldm _ (fun x => entry_of_term (fst (fst x)) (snd (fst x)))).
      * split.
        -- intros X. apply TjExpanded. intros k v Y. destruct (LO k v Y) as [p Z]. apply (X (k, v, p) Z).
        -- intros X. inversion X as [|? A]; subst. intros [[k v] p] Y. apply A, (LI k v p Y).
      * intros e [[k v] p] X. apply texp_step_ok. apply (LI k v p X).
    + bind_end. fold L. rewrite E. split; [apply CjOne|]. intros X. inversion X; subst; assumption.
Qed.

Lemma context_accepted j : ok (context_of_json iri_ref_ok j) <-> context_json j.
Proof. apply parse_reads. Qed.
End Grammar.

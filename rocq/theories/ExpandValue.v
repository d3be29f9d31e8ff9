(** Value objects: what [expand_value] accepts, and the value it gives. *)
From Verif Require Import Prelude Json Str Keyword Enums LangTag LangString Container Stack ContextSyntax Ctx Process
  Object ObjectJson CompactIri Expand.

Lemma fold_r_app {A B E} (f : A -> B -> result A E) l m a :
  fold_r f a (l ++ m) = do b <- fold_r f a l ; fold_r f b m.
Proof.
  revert a. induction l as [|x l IH]; intro a; cbn; [reflexivity|].
  destruct (f a x) as [b|e]; cbn; [apply IH|reflexivity].
Qed.

(** ** Specification *)
Section Spec.
Variable io : iops.
Variable o : xopts.
Variable it : option term.
Variable tsc : actx.

(** The last entry of the list for which [f] gives something. *)
Definition latest {A} (f : xentry -> option A) (es : list xentry) (r : option A) : Prop :=
  match r with
  | Some a => exists es1 e es2, es = es1 ++ e :: es2 /\ f e = Some a /\ forall e', In e' es2 -> f e' = None
  | None => forall e, In e es -> f e = None
  end.

Definition e_lang (e : xentry) : option string :=
  match e with
  | (_, TmKw KLanguage, JStr l) => if streq l "@none" then None else Some l
  | _ => None
  end.
Definition e_dir (e : xentry) : option direction :=
  match e with
  | (_, TmKw KDirection, JStr "ltr") => Some Ltr
  | (_, TmKw KDirection, JStr "rtl") => Some Rtl
  | _ => None
  end.
Definition e_index (e : xentry) : option string :=
  match e with (_, TmKw KIndex, JStr i) => Some i | _ => None end.
(** A type entry: the IRI of a datatype, or [@json] ([None]). *)
Definition reads_type (v : json) (k : option string) : Prop :=
  exists s t, v = JStr s /\ expand_iri_simple io tsc (NSome (xp_of_str s)) true (Some (xo_vocab o)) = Ok (Some t)
    /\ match k with None => t = TmKw KJson | Some i => t = TmId (IIri i) end.
Definition e_type (e : xentry) : option (option string) :=
  match e with
  | (_, TmKw KType, JStr s) =>
      match expand_iri_simple io tsc (NSome (xp_of_str s)) true (Some (xo_vocab o)) with
      | Ok (Some (TmKw KJson)) => Some None
      | Ok (Some (TmId (IIri i))) => Some (Some i)
      | _ => None
      end
  | _ => None
  end.

(** An entry allowed in a value object. *)
Inductive allowed_entry : xentry -> Prop :=
| AeValue key v : allowed_entry (key, TmKw KValue, v)
| AeLang key l : allowed_entry (key, TmKw KLanguage, JStr l)
| AeLtr key : allowed_entry (key, TmKw KDirection, JStr "ltr")
| AeRtl key : allowed_entry (key, TmKw KDirection, JStr "rtl")
| AeIndex key i : allowed_entry (key, TmKw KIndex, JStr i)
| AeType key v k : reads_type v k -> allowed_entry (key, TmKw KType, v).

Inductive scalar : json -> lit -> Prop :=
| ScBool b : scalar (JBool b) (LBool b)
| ScNum n : scalar (JNum n) (LNum n)
| ScStr s : scalar (JStr s) (LStr s).

(** Is the value a JSON literal, and otherwise what is its datatype. *)
Inductive kind_of : option (option string) -> bool -> option string -> Prop :=
| KoJson : kind_of (Some None) true None
| KoIri i : kind_of (Some (Some i)) false (Some i)
| KoInput : it = Some (TmKw KJson) -> kind_of None true None
| KoNone : it <> Some (TmKw KJson) -> kind_of None false None.

(** The value denoted by a value object, given its datatype, language, direction and index. *)
Inductive denotes (ve : json) : bool -> option string -> option string -> option direction -> option string -> option iobj -> Prop :=
| DeJson t i : denotes ve true t None None i (Some (i, OVal (VJson ve)))
| DeNull t l d i : ve = JNull -> denotes ve false t l d i None
| DeLang s l d i : ve = JStr s -> l <> None \/ d <> None ->
    denotes ve false None l d i (Some (i, OVal (VLang (MkLS s l d))))
| DeLit t x i : scalar ve x -> denotes ve false t None None i (Some (i, OVal (VLit x t))).

(** The rule of the grammar named by an error. *)
Inductive violates (es : list xentry) (ve : json) : verr -> Prop :=
| ViLang key v : In (key, TmKw KLanguage, v) es -> (forall s, v <> JStr s) -> violates es ve VLanguageTaggedString
| ViDir key v : In (key, TmKw KDirection, v) es -> v <> JStr "ltr" -> v <> JStr "rtl" -> violates es ve VBaseDirection
| ViIndex key v : In (key, TmKw KIndex, v) es -> (forall s, v <> JStr s) -> violates es ve VIndexValue
| ViType key v : In (key, TmKw KType, v) es -> (forall k, ~ reads_type v k) -> violates es ve VTypedValue
| ViVocab key s : In (key, TmKw KType, JStr s) es ->
    expand_iri_simple io tsc (NSome (xp_of_str s)) true (Some (xo_vocab o)) = Err EForbiddenVocab ->
    violates es ve VForbiddenVocab
| ViKey key k v : In (key, k, v) es -> ~ In k (map TmKw [KValue; KLanguage; KDirection; KIndex; KType]) -> violates es ve VValueObject
| ViBoth ty k t l d : latest e_type es ty -> kind_of ty k t -> k = true \/ t <> None /\ ve <> JNull -> latest e_lang es l -> latest e_dir es d ->
    l <> None \/ d <> None -> violates es ve VValueObject
| ViShape ty t : latest e_type es ty -> kind_of ty false t -> ve <> JNull -> (forall x, ~ scalar ve x) -> violates es ve VValueObjectValue
| ViTagged l d ty t : latest e_type es ty -> kind_of ty false t -> latest e_lang es l -> latest e_dir es d -> l <> None \/ d <> None ->
    ve <> JNull -> (forall s, ve <> JStr s) -> violates es ve VLanguageTaggedValue.
End Spec.

Section Proofs.
Variable io : iops.
Variable o : xopts.
Variable it : option term.
Variable tsc : actx.
Notation value_step := (value_step io o tsc).

Local Arguments expand_iri_simple : simpl never.
Lemma dir_cases d : dir_of_str d = if streq d "ltr" then Some Ltr else if streq d "rtl" then Some Rtl else None.
Proof. reflexivity. Qed.

Lemma simple_err c v b a e : expand_iri_simple io c v b a = Err e -> e = EForbiddenVocab.
Proof.
  assert (T : forall s, expand_tail io c s b a = Err e -> e = EForbiddenVocab).
  { intros s. unfold expand_tail. destruct a as [[]|]; [| | |discriminate];
      destruct (ac_vocab c) as [[]|]; try discriminate; congruence. }
  destruct v as [|[k|s]]; unfold expand_iri_simple; try discriminate.
  destruct (is_keyword_like s); [discriminate|].
  destruct (expand_defined c s a); [discriminate|].
  destruct (colon_inside s); [|apply T]. destruct (blank_ok io s); [discriminate|].
  destruct (streq s "_:"); [discriminate|].
  unfold expand_absolute. destruct (compact_iri_of io s) as [[p x]|]; [destruct (expand_prefixed io c p x); [discriminate|]|];
    (destruct (iri_ok io s); [discriminate|apply T]).
Qed.

(** The effect of an allowed entry. *)
Definition over {A} (f : option A) (a : option A) : option A := match f with Some x => Some x | None => a end.
Definition upd (s : vstate) (e : xentry) : vstate :=
  MkVs (match e_type io o tsc e with Some None => true | Some (Some _) => false | None => vs_json s end)
    (match e_type io o tsc e with Some (Some i) => Some i | _ => vs_ty s end)
    (over (e_index e) (vs_index s)) (over (e_lang e) (vs_lang s)) (over (e_dir e) (vs_dir s)).

Lemma step_ok s e s' : value_step s e = Ok s' <-> allowed_entry io o tsc e /\ s' = upd s e.
Proof.
  destruct e as [[key k] v]. unfold Expand.value_step, upd. split.
  - destruct k as [| |k]; try discriminate. destruct k; try discriminate; cbn [e_lang e_dir e_index e_type over].
    + destruct v; cbn; try discriminate. rewrite dir_cases. destruct (streq_spec s0 "ltr") as [->|N1].
      * intro H; injection H as <-. split; [constructor|]. destruct s; reflexivity.
      * destruct (streq_spec s0 "rtl") as [->|N2]; [|discriminate].
        intro H; injection H as <-. split; [constructor|]. destruct s; reflexivity.
    + destruct v; cbn; try discriminate. intro H; injection H as <-. split; [constructor|]. destruct s; reflexivity.
    + destruct v; cbn; try discriminate. destruct (streq_spec s0 "@none") as [->|N].
      * intro H; injection H as <-. split; [constructor|]. destruct s; reflexivity.
      * intro H; injection H as <-. split; [constructor|]. destruct s; reflexivity.
    + destruct v as [| | |t| |]; cbn; try discriminate. unfold xiri.
      destruct (expand_iri_simple io tsc (NSome (xp_of_str t)) true (Some (xo_vocab o))) as [[[|[i|i|i]|k]|]|e] eqn:E; cbn; try discriminate.
      * intro H; injection H as <-. split; [|destruct s; reflexivity]. apply AeType with (k := Some i). exists t. eauto.
      * destruct k; try discriminate. intro H; injection H as <-. split; [|destruct s; reflexivity].
        apply AeType with (k := None). exists t. eauto.
    + intro H; injection H as <-. split; [constructor|]. destruct s; reflexivity.
  - intros [A ->]. inversion A as [| | | | |? ? k0 R]; subst; destruct s; try reflexivity.
    + cbn. destruct (streq_spec l "@none"); reflexivity.
    + destruct R as (s & t & -> & E & K). cbn. unfold xiri. rewrite E.
      destruct k0; subst t; cbn; reflexivity.
Qed.

Lemma step_err s e x : value_step s e = Err x ->
  forall es ve, In e es -> violates io o it tsc es ve x.
Proof.
  destruct e as [[key k] v]. intros H es ve I. unfold Expand.value_step in H.
  destruct k as [| |k].
  { injection H as <-. eapply ViKey; [exact I|]. cbn. intuition discriminate. }
  { injection H as <-. eapply ViKey; [exact I|]. cbn. intuition discriminate. }
  destruct k; try (injection H as <-; eapply ViKey; [exact I|]; cbn; intuition discriminate); try discriminate.
  - destruct v; cbn in H; try (injection H as <-; eapply ViDir; [exact I|discriminate|discriminate]).
    rewrite dir_cases in H. destruct (streq_spec s0 "ltr") as [->|N1]; [discriminate|].
    destruct (streq_spec s0 "rtl") as [->|N2]; [discriminate|]. injection H as <-.
    eapply ViDir; [exact I|congruence|congruence].
  - destruct v; cbn in H; try (injection H as <-; eapply ViIndex; [exact I|intros ?; discriminate]); discriminate.
  - destruct v; cbn in H; try (injection H as <-; eapply ViLang; [exact I|intros ?; discriminate]); discriminate.
  - destruct v as [| | |t| |]; cbn in H; try (injection H as <-; eapply ViType; [exact I|intros ? (? & ? & E & _); discriminate]).
    unfold xiri in H.
    destruct (expand_iri_simple io tsc (NSome (xp_of_str t)) true (Some (xo_vocab o))) as [r|e] eqn:E; cbn in H.
    + destruct r as [[|[i|i|i]|k]|]; try discriminate; try (injection H as <-; eapply ViType; [exact I|];
        intros k0 (s0 & t0 & E0 & X & K); injection E0 as <-; rewrite E in X; destruct k0; congruence).
      destruct k; try discriminate; (injection H as <-; eapply ViType; [exact I|];
        intros k0 (s0 & t0 & E0 & X & K); injection E0 as <-; rewrite E in X; destruct k0; congruence).
    + injection H as <-. rewrite (simple_err _ _ _ _ _ E) in E. eapply ViVocab; eassumption.
Qed.

Lemma fold_ok es : forall s s', fold_r value_step s es = Ok s' <-> Forall (allowed_entry io o tsc) es /\ s' = fold_left upd es s.
Proof.
  induction es as [|e es IH]; intros s s'; cbn.
  - split; [intro H; injection H as ->; auto|intros [_ ->]; reflexivity].
  - destruct (value_step s e) as [s1|x] eqn:E; cbn.
    + apply step_ok in E as [A ->]. rewrite IH. split; intros [F G]; split; auto; inversion F; assumption.
    + split; [discriminate|]. intros [F _]. inversion F as [|? ? A ?]; subst.
      assert (Z : value_step s e = Ok (upd s e)) by (apply step_ok; auto). congruence.
Qed.

Lemma fold_err es : forall s x, fold_r value_step s es = Err x -> forall all ve, incl es all -> violates io o it tsc all ve x.
Proof.
  induction es as [|e es IH]; intros s x; cbn; [discriminate|].
  destruct (value_step s e) as [s1|y] eqn:E; cbn.
  - intros H all ve I. eapply IH; [exact H|]. intros a Ha. apply I. right. exact Ha.
  - intros H all ve I. injection H as ->. eapply step_err; [exact E|]. apply I. left. reflexivity.
Qed.

Lemma latest_snoc {A} (f : xentry -> option A) es e r :
  latest f es r -> latest f (es ++ [e]) (over (f e) r).
Proof.
  destruct (f e) as [a|] eqn:E; cbn [over].
  - intros _. exists es, e, []. repeat split; auto. intros e' [].
  - destruct r as [a|]; cbn [latest].
    + intros (es1 & e1 & es2 & -> & F & N). exists es1, e1, (es2 ++ [e]).
      rewrite <- app_assoc. repeat split; auto. intros e' I. apply in_app_or in I as [I|[<-|[]]]; auto.
    + intros N e' I. apply in_app_or in I as [I|[<-|[]]]; auto.
Qed.
Lemma latest_over {A} (f : xentry -> option A) (g : vstate -> option A) es s :
  (forall s e, g (upd s e) = over (f e) (g s)) -> g s = None -> latest f es (g (fold_left upd es s)).
Proof.
  intros U. revert s. induction es as [|e es IH] using rev_ind; intros s G.
  - cbn. rewrite G. intros e [].
  - rewrite fold_left_app. cbn [fold_left]. rewrite U. apply latest_snoc. apply IH, G.
Qed.
Lemma latest_fun {A} (f : xentry -> option A) es r r' : latest f es r -> latest f es r' -> r = r'.
Proof.
  revert r r'. induction es as [|e es IH] using rev_ind; intros r r' H H'.
  - destruct r as [a|]; [destruct H as ([|? ?] & ? & ? & E & _); discriminate|].
    destruct r' as [a|]; [destruct H' as ([|? ?] & ? & ? & E & _); discriminate|]. reflexivity.
  - assert (K : forall r, latest f (es ++ [e]) r -> match f e with Some a => r = Some a | None => latest f es r end).
    { clear. intros r H. destruct r as [a|].
      - destruct H as (es1 & e1 & es2 & E & F & N). destruct es2 as [|x es2] using rev_ind.
        + apply app_inj_tail in E as [<- <-]. rewrite F. reflexivity.
        + clear IHes2. change (es1 ++ e1 :: es2 ++ [x]) with (es1 ++ (e1 :: es2) ++ [x]) in E. rewrite app_assoc in E.
          apply app_inj_tail in E as [-> <-]. rewrite (N e) by (apply in_or_app; right; left; reflexivity).
          exists es1, e1, es2. repeat split; auto. intros e' I. apply N, in_or_app; auto.
      - rewrite (H e) by (apply in_or_app; right; left; reflexivity). intros e' I. apply H, in_or_app; auto. }
    apply K in H. apply K in H'. destruct (f e); [congruence|]. eapply IH; eassumption.
Qed.

Lemma upd_lang s e : vs_lang (upd s e) = over (e_lang e) (vs_lang s). Proof. reflexivity. Qed.
Lemma upd_dir s e : vs_dir (upd s e) = over (e_dir e) (vs_dir s). Proof. reflexivity. Qed.
Lemma upd_index s e : vs_index (upd s e) = over (e_index e) (vs_index s). Proof. reflexivity. Qed.

Definition start : bool := match it with Some (TmKw KJson) => true | _ => false end.
Lemma start_spec : (start = true /\ it = Some (TmKw KJson)) \/ (start = false /\ it <> Some (TmKw KJson)).
Proof. unfold start. destruct it as [[|i|[]]|]; (left; split; reflexivity) || (right; split; [reflexivity|discriminate]). Qed.

(** The type entries decide whether the value is JSON, and its datatype otherwise. *)
Lemma upd_kind es : let s := fold_left upd es (MkVs start None None None None) in
  exists ty t, latest (e_type io o tsc) es ty /\ kind_of it ty (vs_json s) t /\ (vs_json s = false -> vs_ty s = t).
Proof.
  induction es as [|e es IH] using rev_ind; cbn zeta in *.
  - exists None, None. split; [intros e []|]. cbn. split; [|reflexivity].
    destruct start_spec as [[-> E]|[-> E]]; constructor; exact E.
  - rewrite fold_left_app. cbn [fold_left]. destruct IH as (ty & t & L & K & T).
    apply (latest_snoc _ _ e) in L. unfold upd at 1 3. destruct (e_type io o tsc e) as [[i|]|] eqn:E; cbn [over] in L; cbn.
    + exists (Some (Some i)), (Some i). repeat split; [exact L|constructor|]. rewrite E. reflexivity.
    + exists (Some None), None. repeat split; [exact L|constructor|discriminate].
    + exists ty, t. repeat split; [exact L|exact K|]. rewrite E. exact T.
Qed.

Lemma kind_fun ty b t b' t' : kind_of it ty b t -> kind_of it ty b' t' -> b = b' /\ t = t'.
Proof. intros H H'. inversion H; subst; inversion H'; subst; auto; contradiction. Qed.

Lemma value_ok es ve r : expand_value io o it tsc es ve = Ok r <->
  Forall (allowed_entry io o tsc) es /\
  exists ty k t l d i, latest (e_type io o tsc) es ty /\ kind_of it ty k t /\ latest e_lang es l /\ latest e_dir es d /\
    latest e_index es i /\ denotes ve k t l d i r.
Proof.
  unfold expand_value. fold start.
  pose proof (upd_kind es) as (ty & t & Lt & K & T). cbn zeta in *.
  pose proof (latest_over e_lang vs_lang es (MkVs start None None None None) upd_lang eq_refl) as Ll.
  pose proof (latest_over e_dir vs_dir es (MkVs start None None None None) upd_dir eq_refl) as Ld.
  pose proof (latest_over e_index vs_index es (MkVs start None None None None) upd_index eq_refl) as Li.
  set (s := fold_left upd es (MkVs start None None None None)) in *.
  destruct (fold_r value_step (MkVs start None None None None) es) as [s'|x] eqn:F; cbn [bind].
  2:{ split; [discriminate|]. intros [A _].
      assert (Z : fold_r value_step (MkVs start None None None None) es = Ok s) by (apply fold_ok; auto). congruence. }
  apply fold_ok in F as [A ->]. fold s. split.
  - intro H. split; [exact A|]. exists ty, (vs_json s), t, (vs_lang s), (vs_dir s), (vs_index s).
    repeat split; auto. destruct (vs_json s) eqn:J.
    + destruct (vs_lang s), (vs_dir s); cbn in H; try discriminate. injection H as <-. constructor.
    + specialize (T eq_refl). subst t.
      assert (G : forall x, scalar ve x -> given ve = Some x) by (intros x []; reflexivity).
      destruct ve as [|b|n|z|l|m]; try discriminate; [injection H as <-; constructor; reflexivity| | |].
      * destruct (vs_lang s), (vs_dir s); cbn in H; try (destruct (vs_ty s); discriminate). injection H as <-. constructor. constructor.
      * destruct (vs_lang s), (vs_dir s); cbn in H; try (destruct (vs_ty s); discriminate). injection H as <-. constructor. constructor.
      * destruct (vs_lang s), (vs_dir s), (vs_ty s); cbn in H; try discriminate; injection H as <-;
          solve [apply DeLit; constructor | apply DeLang; [reflexivity|left; discriminate] | apply DeLang; [reflexivity|right; discriminate]].
  - intros [_ (ty' & k' & t' & l' & d' & i' & Lt' & K' & Ll' & Ld' & Li' & D)].
    rewrite (latest_fun _ _ _ _ Lt' Lt) in K'. destruct (kind_fun _ _ _ _ _ K' K) as [-> ->].
    rewrite (latest_fun _ _ _ _ Ll' Ll), (latest_fun _ _ _ _ Ld' Ld), (latest_fun _ _ _ _ Li' Li) in D.
    destruct (vs_json s) eqn:J.
    + inversion D; reflexivity.
    + rewrite (T eq_refl). generalize dependent (vs_lang s). generalize dependent (vs_dir s). generalize dependent (vs_index s).
      intros i _ d _ l _ D. inversion D as [|? ? ? ? E|z ? ? ? E N|? x ? S]; subst.
      * reflexivity.
      * destruct l, d; try reflexivity. destruct N; congruence.
      * destruct S; reflexivity.
Qed.

Lemma value_err es ve x : expand_value io o it tsc es ve = Err x -> violates io o it tsc es ve x.
Proof.
  unfold expand_value. fold start.
  pose proof (upd_kind es) as (ty & t & Lt & K & T). cbn zeta in *.
  pose proof (latest_over e_lang vs_lang es (MkVs start None None None None) upd_lang eq_refl) as Ll.
  pose proof (latest_over e_dir vs_dir es (MkVs start None None None None) upd_dir eq_refl) as Ld.
  set (s := fold_left upd es (MkVs start None None None None)) in *.
  destruct (fold_r value_step (MkVs start None None None None) es) as [s'|y] eqn:F; cbn [bind].
  2:{ intro H. injection H as <-. eapply fold_err; [exact F|apply incl_refl]. }
  apply fold_ok in F as [A ->]. fold s. intro H.
  destruct (vs_json s) eqn:J.
  - assert (N : vs_lang s <> None \/ vs_dir s <> None).
    { destruct (vs_lang s), (vs_dir s); cbn in H; try discriminate; (left; discriminate) || (right; discriminate). }
    destruct (vs_lang s), (vs_dir s); cbn in H; try discriminate; injection H as <-;
      eapply ViBoth; try eassumption; left; reflexivity.
  - specialize (T eq_refl). subst t.
    assert (N : ve = JNull \/ ve <> JNull) by (destruct ve; auto; right; discriminate).
    destruct N as [->|N]; [discriminate|].
    assert (Q : forall l m, ve = JArr l \/ ve = JObj m -> violates io o it tsc es ve VValueObjectValue).
    { intros l m E. eapply ViShape; try eassumption. intros y S. destruct S, E; discriminate. }
    destruct ve as [|b|n|z|l|m]; try congruence;
      try (injection H as <-; eapply (Q l []); left; reflexivity);
      try (injection H as <-; eapply (Q [] m); right; reflexivity).
    all: destruct (is_some (vs_lang s) || is_some (vs_dir s)) eqn:W; [|cbn in H; discriminate].
    all: assert (L : vs_lang s <> None \/ vs_dir s <> None)
      by (destruct (vs_lang s), (vs_dir s); cbn in W; try discriminate; (left; discriminate) || (right; discriminate)).
    all: destruct (is_some (vs_ty s)) eqn:Y;
      [injection H as <-; eapply ViBoth; try eassumption; right; split; [destruct (vs_ty s); discriminate|discriminate]|].
    + injection H as <-. eapply ViTagged; try eassumption. intros ?; discriminate.
    + injection H as <-. eapply ViTagged; try eassumption. intros ?; discriminate.
    + destruct (vs_lang s), (vs_dir s); cbn in W, H; discriminate.
Qed.

Lemma ok_respects es ve r x : expand_value io o it tsc es ve = Ok r -> ~ violates io o it tsc es ve x.
Proof.
  intros H V. apply value_ok in H. destruct H as (A & ty & k & t & l & d & i & Lt & K & Ll & Ld & Li & D).
  rewrite Forall_forall in A.
  assert (F : forall ty' k' t', latest (e_type io o tsc) es ty' -> kind_of it ty' k' t' -> k' = k /\ t' = t).
  { intros ty' k' t' L' K'. rewrite (latest_fun _ _ _ _ L' Lt) in K'. exact (kind_fun _ _ _ _ _ K' K). }
  destruct V as [key v I N|key v I N1 N2|key v I N|key v I N|key s I E|key k' v I N|ty' k' t' l' d' L' K' B Ll' Ld' N|ty' t' L' K' N S|l' d' ty' t' L' K' Ll' Ld' N N1 S].
  - apply A in I. inversion I; subst. eapply N. reflexivity.
  - apply A in I. inversion I; subst; congruence.
  - apply A in I. inversion I; subst. eapply N. reflexivity.
  - apply A in I. inversion I; subst. eapply N. eassumption.
  - apply A in I. inversion I as [| | | | |? ? k0 R]; subst. destruct R as (s' & t' & E' & X & _). injection E' as <-. congruence.
  - apply N. apply A in I. inversion I; subst; cbn; tauto.
  - destruct (F _ _ _ L' K') as [-> ->]. rewrite (latest_fun _ _ _ _ Ll' Ll), (latest_fun _ _ _ _ Ld' Ld) in N.
    inversion D; subst; intuition congruence.
  - destruct (F _ _ _ L' K') as [<- ->]. inversion D; subst; [congruence| |].
    + eapply S. constructor.
    + eapply S. eassumption.
  - destruct (F _ _ _ L' K') as [<- ->]. rewrite (latest_fun _ _ _ _ Ll' Ll), (latest_fun _ _ _ _ Ld' Ld) in N.
    inversion D; subst; [congruence| |].
    + eapply S. reflexivity.
    + intuition congruence.
Qed.
End Proofs.

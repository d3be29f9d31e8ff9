(** Expanding documents with contexts of absolute and compact IRIs. *)
From Verif Require Import Prelude Json Str Keyword Enums LangTag LangString Container Stack ContextSyntax Ctx Process Cycles CompactIriRead
  Object ObjectJson CompactIri Expand Samples Flat PropFlat.

(** ** Specification *)

(** What a definition of a term says about its values: whether they are links, which language and direction strings have, and
    whether they form a list. *)
Definition linking (v : nullable tdef) : bool := match v with NSome (TExpanded e) => is_some (te_type e) | _ => false end.
Definition speaks (v : nullable tdef) : option string := match v with NSome (TExpanded e) => match te_language e with Some (NSome t) => Some t | _ => None end | _ => None end.
Definition directs (v : nullable tdef) : option direction := match v with NSome (TExpanded e) => match te_direction e with Some (NSome t) => Some t | _ => None end | _ => None end.
Definition lists (v : nullable tdef) : bool := match v with NSome (TExpanded e) => match te_container e with Some (NSome (SOne CKList)) => true | _ => false end | _ => false end.

(** The object that a scalar stands for as value of a term. *)
Inductive says_scalar (io : iops) (l : list (string * nullable tdef)) (v : nullable tdef) : json -> iobj -> Prop :=
| says_bool b : says_scalar io l v (JBool b) (None, OVal (VLit (LBool b) None))
| says_num n : says_scalar io l v (JNum n) (None, OVal (VLit (LNum n) None))
| says_plain s : linking v = false -> speaks v = None -> directs v = None -> says_scalar io l v (JStr s) (None, OVal (VLit (LStr s) None))
| says_tagged s : linking v = false -> speaks v <> None \/ directs v <> None -> says_scalar io l v (JStr s) (None, OVal (VLang (MkLS s (speaks v) (directs v))))
| says_link s i : linking v = true -> means io l s i -> says_scalar io l v (JStr s) (None, ONode (MkNode (Some (IIri i)) None None None [] None)).
(** Terms whose objects are not read as nodes. *)
Definition keyed (v : nullable tdef) : bool := match v with NSome (TExpanded e) => match te_container e with Some (NSome (SOne (CKIndex | CKLanguage))) => true | _ => false end | _ => false end.
(** The items of an array; null says nothing. *)
Inductive says_items (V : json -> iobj -> Prop) : list json -> list iobj -> Prop :=
| items_nil : says_items V [] []
| items_null ys xs : says_items V ys xs -> says_items V (JNull :: ys) xs
| items_cons y x ys xs : V y x -> says_items V ys xs -> says_items V (y :: ys) (x :: xs).
Inductive says_values (V : json -> iobj -> Prop) : json -> list iobj -> Prop :=
| says_one y x : V y x -> says_values V y [x]
| says_many ys xs : says_items V ys xs -> says_values V (JArr ys) xs.
(** What an entry contributes to a node. *)
Inductive effect : Type := Nothing | Named (i : id) | Typed (ts : list id) | Has (p : id) (xs : list iobj).
(** The type that a string stands for: an IRI, or the IRI of a term. *)
Inductive says_type (io : iops) (l : list (string * nullable tdef)) : json -> id -> Prop :=
| type_iri s i : means io l s i -> says_type io l (JStr s) (IIri i)
| type_term k v s i : is_keyword_like k = false -> assoc k l = Some v -> text v = Some s -> means io l s i -> says_type io l (JStr k) (IIri i).
Definition says_types (io : iops) (l : list (string * nullable tdef)) (y : json) (ts : list id) : Prop :=
  Forall2 (says_type io l) (match y with JArr ys => ys | _ => [y] end) ts.
Inductive says_entry (io : iops) (l : list (string * nullable tdef)) (V : nullable tdef -> json -> iobj -> Prop) : string * json -> effect -> Prop :=
| says_i k v s i y xs : is_keyword_like k = false -> assoc k l = Some v -> text v = Some s -> means io l s i -> says_values (V v) y xs ->
    says_entry io l V (k, y) (Has (IIri i) (if lists v then [(None, OList xs)] else xs))
| says_null k v : is_keyword_like k = false -> assoc k l = Some v -> lists v = false -> says_entry io l V (k, JNull) Nothing
| says_id s i : means io l s i -> says_entry io l V ("@id", JStr s) (Named (IIri i))
| says_typed y ts : says_types io l y ts -> says_entry io l V ("@type", y) (Typed ts).
Definition names (es : list effect) : list id := flat_map (fun e => match e with Named i => [i] | _ => [] end) es.
Definition typings (es : list effect) : list (list id) := flat_map (fun e => match e with Typed ts => [ts] | _ => [] end) es.
Definition objects (p : id) (es : list effect) : list iobj := flat_map (fun e => match e with Has q xs => if id_eqb q p then xs else [] | _ => [] end) es.
(** Whether a property occurs at all, possibly with an empty array. *)
Definition mentioned (p : id) (es : list effect) : bool := existsb (fun e => match e with Has q _ => id_eqb q p | _ => false end) es.
(** At most one entry for the identifier and one for the types. *)
Definition single (es : list effect) : Prop := length (names es) <= 1 /\ length (typings es) <= 1.
(** The node with the identifier, the types and the objects that the entries contribute. *)
Definition made (es : list effect) (r : node) : Prop :=
  single es /\ n_id r = hd_error (names es) /\ n_types r = match concat (typings es) with [] => None | ts => Some ts end /\ n_graph r = None /\ n_included r = None /\ n_reverse r = None /\
  (forall p, is_some (get_id p (n_props r)) = mentioned p es) /\ forall p, opt_list (get_id p (n_props r)) = objects p es.
(** Scalars, and objects nested up to a depth. *)
Fixpoint says_value (io : iops) (l : list (string * nullable tdef)) (d : nat) (v : nullable tdef) (y : json) (x : iobj) : Prop :=
  says_scalar io l v y x \/
  match d with
  | O => False
  | S d => exists m es r, y = JObj m /\ x = (None, ONode r) /\ keyed v = false /\ Forall2 (says_entry io l (says_value io l d)) m es /\ made es r
  end.

(** ** Proof *)

Lemma get_insert {A} k p (l : list A) ps : get_id k (insert_all p l ps) = if id_eqb k p then Some (opt_list (get_id p ps) ++ l) else get_id k ps.
Proof.
  induction ps as [|[q w] ps IH]; cbn.
  - destruct (id_eqb_spec k p); reflexivity.
  - destruct (id_eqb_spec p q) as [->|N]; cbn; [destruct (id_eqb_spec k q); reflexivity|]. rewrite IH.
    destruct (id_eqb_spec k q) as [->|N']; [|reflexivity]. destruct (id_eqb_spec q p); [congruence|reflexivity].
Qed.
Definition put (nd : node) (e : effect) : node :=
  match e with Nothing => nd | Named i => set_nid (Some i) nd | Typed ts => fold_left (fun n t => push_type t n) ts nd | Has p xs => add_prop p xs nd end.
Definition addt (ts : option (list id)) (l : list id) : option (list id) := match l with [] => ts | _ => Some (opt_list ts ++ l) end.
Lemma addt_app t a b : addt (addt t a) b = addt t (a ++ b).
Proof. destruct a as [|x a], b as [|y b]; cbn; try reflexivity; [rewrite app_nil_r; reflexivity|]. rewrite <- app_assoc. reflexivity. Qed.
Lemma push_fold ts : forall i t g inc ps rs, fold_left (fun n t => push_type t n) ts (MkNode i t g inc ps rs) = MkNode i (addt t ts) g inc ps rs.
Proof.
  induction ts as [|x ts IH]; intros i t g inc ps rs; [reflexivity|]. cbn [fold_left push_type]. rewrite IH. f_equal. change (Some (opt_list t ++ [x])) with (addt t [x]). apply addt_app.
Qed.
Lemma put_made es : forall nd, (n_graph (fold_left put es nd) = n_graph nd /\ n_included (fold_left put es nd) = n_included nd /\ n_reverse (fold_left put es nd) = n_reverse nd) /\
  (forall p, opt_list (get_id p (n_props (fold_left put es nd))) = opt_list (get_id p (n_props nd)) ++ objects p es) /\
  (names es = [] -> n_id (fold_left put es nd) = n_id nd) /\ (forall i, names es = [i] -> n_id (fold_left put es nd) = Some i) /\
  (n_props nd <> [] \/ (exists p xs, In (Has p xs) es) -> n_props (fold_left put es nd) <> []) /\ n_types (fold_left put es nd) = addt (n_types nd) (concat (typings es)).
Proof.
  induction es as [|e es IH]; intros nd.
  - cbn. split; [auto|]. split; [intros p; rewrite app_nil_r; reflexivity|]. split; [auto|]. split; [discriminate|]. split; [|reflexivity]. intros [N|(p & xs & [])]; exact N.
  - cbn [fold_left]. destruct (IH (put nd e)) as (F1 & P1 & N0 & N1 & Q1 & T1). destruct nd as [i ts g inc ps rs].
    destruct e as [|i'|ts'|q xs]; cbn [put] in *; [| |rewrite push_fold in *|]; cbn [set_nid add_prop n_types n_graph n_included n_reverse n_props n_id] in *.
    + split; [exact F1|]. split; [exact P1|]. split; [exact N0|]. split; [exact N1|]. split; [|exact T1]. intros [N|(p & xs & [E|I])]; [auto|discriminate E|]. apply Q1. right. eauto.
    + split; [exact F1|]. split; [exact P1|]. split; [discriminate|]. split; [|split; [|exact T1]].
      * intros i0 E. cbn in E. injection E as -> E. exact (N0 E).
      * intros [N|(p & xs & [E|I])]; [auto|discriminate E|]. apply Q1. right. eauto.
    + split; [exact F1|]. split; [exact P1|]. split; [exact N0|]. split; [exact N1|]. split.
      * intros [N|(p & xs & [E|I])]; [auto|discriminate E|]. apply Q1. right. eauto.
      * rewrite T1, addt_app. reflexivity.
    + split; [exact F1|]. split; [|split; [exact N0|split; [exact N1|split; [|exact T1]]]].
      * intros p. rewrite P1, get_insert. cbn [objects flat_map]. destruct (id_eqb_spec p q) as [->|N].
        -- destruct (id_eqb_spec q q) as [_|N]; [|congruence]. cbn [opt_list]. rewrite <- app_assoc. reflexivity.
        -- destruct (id_eqb_spec q p) as [->|_]; [congruence|reflexivity].
      * intros _. apply Q1. left. destruct ps as [|[a w] ps]; cbn; [discriminate|destruct (id_eqb q a); discriminate].
Qed.
Lemma put_mentioned es : forall nd p, is_some (get_id p (n_props (fold_left put es nd))) = orb (is_some (get_id p (n_props nd))) (mentioned p es).
Proof.
  induction es as [|e es IH]; intros nd p; [cbn; rewrite Bool.orb_false_r; reflexivity|]. cbn [fold_left]. rewrite IH. destruct nd as [i ts g inc ps rs].
  destruct e as [|i'|ts'|q xs]; cbn [put]; [| |rewrite push_fold|]; cbn [set_nid add_prop n_props mentioned existsb orb]; try reflexivity.
  rewrite get_insert. unfold mentioned. destruct (id_eqb_spec p q) as [->|N].
  - destruct (id_eqb_spec q q) as [_|N]; [|congruence]. cbn [is_some orb]. rewrite Bool.orb_true_r. reflexivity.
  - destruct (id_eqb_spec q p) as [->|_]; [congruence|reflexivity].
Qed.
Lemma made_put es : single es -> made es (fold_left put es (node_new None)).
Proof.
  intros L. destruct (put_made es (node_new None)) as ((F2 & F3 & F4) & P & N0 & N1 & _ & T1). split; [exact L|]. split; [|split; [rewrite T1; destruct (concat (typings es)); reflexivity|split; [exact F2|split; [exact F3|split; [exact F4|split; [exact (put_mentioned es (node_new None))|exact P]]]]]].
  destruct L as [L _]. destruct (names es) as [|i [|i' w]]; [exact (N0 eq_refl)|exact (N1 i eq_refl)|]. cbn in L. lia.
Qed.
Lemma sorted_incl {A} (key : A -> string) l : incl (sort_key key l) l.
Proof.
  unfold sort_key. induction l as [|x l IH]; [intros y []|]. cbn [fold_right]. assert (X : forall l' : list A, incl (insert_sorted key x l') (x :: l')).
  { clear. induction l' as [|y l' IH']; intros z Z; [exact Z|]. cbn [insert_sorted] in Z. destruct (String.compare (key x) (key y)); [exact Z|exact Z|]. destruct Z as [<-|Z]; [right; left; reflexivity|]. destruct (IH' z Z) as [<-|Z']; [left; reflexivity|right; right; exact Z']. }
  intros y Y. destruct (X _ y Y) as [<-|Z]; [left; reflexivity|right; apply IH, Z].
Qed.

Section Doc.
Variable io : iops.
Variable ld : loader.
Variables (fin rnd : list word -> N).
Variable o : xopts.
Variable url : option string.
Variable b : option string.
Variable l : list (string * nullable tdef).
Variable j : json.
Hypothesis F : flat io l.
Hypothesis J : context_of_json (iri_ref_ok io) j = Ok (LOne (CEDef (def_of l))).

Lemma xkey_context c : xkey io o c "@context" = Ok (Some (TmKw KContext)).
Proof. reflexivity. Qed.
Definition key_ok (k : string) : Prop := k = "@context" \/ k = "@id" \/ k = "@type" \/ is_keyword_like k = false /\ exists v, assoc k l = Some v.
Lemma says_key V e ef : says_entry io l V e ef -> key_ok (fst e) /\ fst e <> "@context".
Proof.
  intros [k v s i y xs K A _ _ _|k v K A _|s i M|y ts _]; cbn [fst]; [| |split; [right; left; reflexivity|discriminate]|split; [right; right; left; reflexivity|discriminate]]; (split; [right; right; right; eauto|intros Z; rewrite Z in K; discriminate K]).
Qed.
Lemma says_keys V m es : Forall2 (says_entry io l V) m es -> Forall (fun e => key_ok (fst e) /\ fst e <> "@context") m.
Proof. intros H. induction H; constructor; [eapply says_key; eassumption|assumption]. Qed.
Lemma preliminary_ok c0 m : (forall k, key_ok k -> exists t, xkey io o c0 k = Ok t) -> Forall (fun e => key_ok (fst e)) m -> exists r, preliminary io o c0 m = Ok r.
Proof.
  intros X H. unfold preliminary. generalize (false, false). induction H as [|e m E _ IH]; intros z; [eexists; reflexivity|]. cbn [fold_r]. destruct (X _ E) as (t & ->). cbn [bind]. apply IH.
Qed.
Lemma xkey_new k : key_ok k -> exists t, xkey io o (ctx_new b) k = Ok t.
Proof.
  intros [->|[->|[->|[K [v A]]]]]; [eexists; reflexivity..|]. destruct (F k _ A) as (_ & C & _).
  unfold xkey, xiri, xp_of_str. rewrite (not_keyword _ K). unfold expand_iri_simple. rewrite K. unfold expand_defined, get_value, get_normal. cbn [ctx_new ac_type ac_defs assoc option_map].
  assert (CI : colon_inside k = false) by (unfold colon_inside; unfold contains_char in C; destruct (find_char ":" k); [discriminate C|reflexivity]).
  destruct (streq k "@type"); rewrite CI; unfold expand_tail; cbn [ctx_new ac_vocab andb map_err]; eauto.
Qed.
Lemma no_context m : Forall (fun e : string * json => key_ok (fst e) /\ fst e <> "@context") m -> filter (fun e : string * json => streq (fst e) "@context") m = [].
Proof. intros H. induction H as [|e m [_ N] _ IH]; [reflexivity|]. cbn [filter]. destruct (streq_spec (fst e) "@context"); [contradiction|exact IH]. Qed.
Lemma unique_none m : Forall (fun e : string * json => key_ok (fst e) /\ fst e <> "@context") m -> get_unique "@context" m = Ok None.
Proof. intros H. unfold get_unique, get_all. rewrite (no_context m H). reflexivity. Qed.
Lemma unique_context m1 m2 : Forall (fun e : string * json => key_ok (fst e) /\ fst e <> "@context") (m1 ++ m2) -> get_unique "@context" (m1 ++ ("@context", j) :: m2) = Ok (Some j).
Proof.
  intros H. apply Forall_app in H. destruct H as [H1 H2]. unfold get_unique, get_all. rewrite filter_app. cbn [filter fst]. change (streq "@context" "@context") with true. cbn iota.
  rewrite (no_context m1 H1), (no_context m2 H2). reflexivity.
Qed.

Section In.
Variable pf : nat.
Variable c : actx.
Hypothesis T : forall k v s i d, assoc k l = Some v -> text v = Some s -> means io l s i -> described v i d -> get_normal c k = Some d.
Hypothesis O : forall k, assoc k l = None -> get_normal c k = None.
Hypothesis PV : ac_prev c = None.
Hypothesis LA : ac_lang c = None.
Hypothesis DI : ac_dir c = None.

Lemma described_facts v i d : described v i d ->
  nd_value d = iri_term i /\ nd_context d = None /\ nd_reverse d = false /\ c_contains (nd_container d) CKList = lists v /\ c_contains (nd_container d) CKGraph = false /\
  (keyed v = false -> c_contains (nd_container d) CKLanguage = false /\ c_contains (nd_container d) CKIndex = false /\ c_contains (nd_container d) CKType = false /\ c_contains (nd_container d) CKId = false) /\
  (linking v = true -> nd_typ d = Some TyId \/ nd_typ d = Some TyVocab) /\
  (linking v = false -> nd_typ d = None /\ match nd_language d with Some t => nullable_option t | None => None end = speaks v /\ match nd_direction d with Some t => nullable_option t | None => None end = directs v).
Proof.
  intros [s i'|s ty lang dir co i' y ct BT BC].
  - split; [reflexivity|]. split; [reflexivity|]. split; [reflexivity|]. split; [reflexivity|]. split; [reflexivity|]. split; [repeat split|]. split; [discriminate|]. repeat split.
  - split; [reflexivity|]. split; [reflexivity|]. split; [reflexivity|]. cbn [nd_container lists keyed linking speaks directs te_type te_language te_direction te_container nd_typ nd_language nd_direction].
    assert (X : c_contains ct CKList = match co with Some (NSome (SOne CKList)) => true | _ => false end /\ c_contains ct CKGraph = false /\
      (match co with Some (NSome (SOne (CKIndex | CKLanguage))) => true | _ => false end = false -> c_contains ct CKLanguage = false /\ c_contains ct CKIndex = false /\ c_contains ct CKType = false /\ c_contains ct CKId = false)).
    { destruct BC as [[-> ->]|[[-> ->]|[[-> ->]|[[-> ->]|[-> ->]]]]]; (split; [reflexivity|split; [reflexivity|intros Z; try discriminate Z; repeat split]]). }
    destruct X as (X1 & X2 & X3). split; [exact X1|]. split; [exact X2|]. split; [exact X3|].
    destruct BT as [[-> ->]|[[-> ->]|[-> ->]]]; cbn [is_some]; (split; [intros Z; try discriminate Z; auto|intros Z; try discriminate Z]).
    split; [reflexivity|]. split; [destruct lang as [[]|]|destruct dir as [[]|]]; reflexivity.
Qed.
Lemma term_def k v s i : assoc k l = Some v -> text v = Some s -> means io l s i -> exists d, get_normal c k = Some d /\ described v i d.
Proof.
  intros A TX M. destruct (F k v A) as (_ & _ & _ & s' & i' & d & TX' & M' & D). rewrite TX in TX'. injection TX' as <-. rewrite (means_fun _ _ _ _ _ M' M) in D.
  exists d. split; [exact (T k v s i d A TX M D)|exact D].
Qed.
Lemma term_iri dr act k v s i : is_keyword_like k = false -> assoc k l = Some v -> text v = Some s -> means io l s i -> xiri io c k dr (Some act) = Ok (Some (TmId (IIri i))).
Proof.
  intros K A TX M. unfold xiri, xp_of_str. rewrite (not_keyword _ K). unfold expand_iri_simple. rewrite K. unfold expand_defined, get_value.
  destruct (streq_spec k "@type") as [->|_]; [discriminate K|]. destruct (term_def k v s i A TX M) as (d & -> & D). cbn [option_map]. rewrite (proj1 (described_facts _ _ _ D)). reflexivity.
Qed.
Lemma xkey_term k v s i : is_keyword_like k = false -> assoc k l = Some v -> text v = Some s -> means io l s i -> xkey io o c k = Ok (Some (TmId (IIri i))).
Proof.
  intros K A TX M. unfold xkey, xiri, xp_of_str. rewrite (not_keyword _ K). unfold expand_iri_simple. rewrite K. unfold expand_defined, get_value.
  destruct (streq_spec k "@type") as [->|_]; [discriminate K|]. destruct (term_def k v s i A TX M) as (d & -> & D). cbn [option_map]. rewrite (proj1 (described_facts _ _ _ D)). reflexivity.
Qed.
Lemma colon_undefined p x vo : expand_defined c (p +++ ":" +++ x) vo = None.
Proof.
  unfold expand_defined, get_value. destruct (streq_spec (p +++ ":" +++ x) "@type") as [Y|_]; [exfalso; pose proof (contains_colon p x) as C; rewrite Y in C; discriminate C|].
  assert (NL : assoc (p +++ ":" +++ x) l = None).
  { destruct (assoc (p +++ ":" +++ x) l) as [w|] eqn:W; [|reflexivity]. destruct (F _ _ W) as (_ & C & _). rewrite contains_colon in C. discriminate C. }
  rewrite (O _ NL). reflexivity.
Qed.
Lemma link_flat s i dr vo : means io l s i -> xiri io c s dr vo = Ok (Some (TmId (IIri i))).
Proof.
  intros M. destruct (means_colon _ _ _ _ M) as (p0 & x0 & E0 & _ & _). unfold xiri, xp_of_str. rewrite E0 at 1. rewrite (not_keyword _ (colon_not_keyword p0 x0)). clear E0.
  unfold expand_iri_simple. destruct M as [s [p x N C S' K B]|p x q N U C S' R B P A D K].
  - rewrite colon_not_keyword, colon_undefined, (colon_find p x C N), B. destruct (streq_spec (p +++ ":" +++ x) "_:") as [EQ|_].
    { exfalso. assert (Y : split_once ":" "_:" = Some (p, x)) by (rewrite <- EQ; apply colon_split, C). cbn in Y. injection Y as <- <-. discriminate S'. }
    unfold compact_iri_of. rewrite (colon_split p x C), S'. cbn [negb]. rewrite Bool.andb_false_r. cbn [andb]. unfold expand_absolute. rewrite K. reflexivity.
  - rewrite colon_not_keyword, colon_undefined, (colon_find p x C N), B. destruct (streq_spec (p +++ ":" +++ x) "_:") as [EQ|_].
    { exfalso. assert (Y : split_once ":" "_:" = Some (p, x)) by (rewrite <- EQ; apply colon_split, C). cbn in Y. injection Y as <- <-. apply U. reflexivity. }
    unfold compact_iri_of. rewrite (colon_split p x C), S', R. destruct (streq_spec p "_") as [Y|_]; [contradiction|]. cbn [negb andb].
    unfold expand_prefixed. rewrite (T p _ q q _ P eq_refl (means_iri _ _ _ A) (described_simple q q)). unfold ndef_of. cbn [nd_prefix nd_value nd_set_protected nd_set_prefix nd_set_value ndef_default iri_term]. rewrite D.
    unfold id_of_string. cbn [term_str id_str]. rewrite K. reflexivity.
Qed.
Lemma key_flat k : key_ok k -> exists t, xkey io o c k = Ok (Some t) /\ (k = "@context" /\ t = TmKw KContext \/ k = "@id" /\ t = TmKw KId \/ k = "@type" /\ t = TmKw KType \/
  exists v s i, is_keyword_like k = false /\ assoc k l = Some v /\ text v = Some s /\ means io l s i /\ t = TmId (IIri i)).
Proof.
  intros [->|[->|[->|[K [v A]]]]]; [eexists; split; [reflexivity|auto]..|]. destruct (F k v A) as (_ & _ & _ & s & i & d & TX & M & _).
  exists (TmId (IIri i)). split; [exact (xkey_term k v s i K A TX M)|]. right. right. right. exists v, s, i. auto.
Qed.
Lemma type_flat y i : says_type io l y i -> exists s, y = JStr s /\ forall dr act, xiri io c s dr (Some act) = Ok (Some (TmId i)).
Proof. intros [s i' M|k v s i' K A TX M]; eexists; (split; [reflexivity|]); intros dr act; [apply link_flat, M|eapply term_iri; eassumption]. Qed.
Lemma types_flat m : Forall (fun e : string * json => key_ok (fst e)) m -> exists ts, type_entries io o c m = Ok ts /\ forall e, In e ts -> In e m /\ fst e = "@type".
Proof.
  intros H. unfold type_entries. assert (X : exists ts, flat_r (fun e : string * json => do t <- xkey io o c (fst e) ; Ok (match t with Some (TmKw KType) => [e] | _ => [] end)) m = Ok ts /\ forall e, In e ts -> In e m /\ fst e = "@type").
  { induction H as [|e m E _ IH]; [exists []; split; [reflexivity|intros e []]|]. destruct IH as (ts & IH & I). cbn [flat_r]. destruct (key_flat _ E) as (t & -> & W). cbn [bind]. rewrite IH. cbn [bind].
    assert (I' : forall e', In e' ts -> In e' (e :: m) /\ fst e' = "@type") by (intros e' E'; destruct (I e' E'); split; [right|]; assumption).
    destruct W as [[_ ->]|[[_ ->]|[[KT ->]|(v & s & i & _ & _ & _ & _ & ->)]]]; try (exists ts; split; [reflexivity|exact I']).
    exists (e :: ts). split; [reflexivity|]. intros e' [<-|E']; [split; [left; reflexivity|exact KT]|auto]. }
  destruct X as (ts & -> & I). cbn [bind]. eexists. split; [reflexivity|]. intros e E. apply I. exact (sorted_incl _ _ e E).
Qed.
Lemma no_scoped t d : prop_def c (Some t) = Some d -> nd_context d = None.
Proof.
  unfold prop_def. destruct (streq t "@type"); [discriminate|]. intros G. destruct (assoc t l) as [v|] eqn:A; [|rewrite (O t A) in G; discriminate G].
  destruct (F t v A) as (_ & _ & _ & s & i & d' & TX & M & D). rewrite (T t v s i d' A TX M D) in G. injection G as <-. exact (proj1 (proj2 (described_facts _ _ _ D))).
Qed.
Lemma scoped_flat ts : type_scoped io ld pf o c ts = Ok c.
Proof.
  unfold type_scoped. induction ts as [|e ts IH]; [reflexivity|]. cbn [fold_r].
  match goal with |- context [fold_r ?f c (sort_key ?g ?w)] => assert (X : forall w', fold_r f c w' = Ok c) end.
  { induction w' as [|t w' IHw]; [reflexivity|]. cbn [fold_r]. destruct (prop_def c (Some t)) as [d|] eqn:P; [rewrite (no_scoped t d P)|]; cbn [bind]; exact IHw. }
  rewrite X. cbn [bind]. exact IH.
Qed.
Lemma input_flat ts : (forall e, In e ts -> exists tys, says_types io l (snd e) tys) -> exists it, input_type io o c ts = Ok it.
Proof.
  intros H. destruct ts as [|[k y] ts]; [eexists; reflexivity|]. destruct (H _ (or_introl eq_refl)) as (tys & S). cbn [snd] in S. unfold input_type.
  change (match y with JArr ys => ys | _ => [y] end) with (force_array y) in S. destruct (rev (force_array y)) as [|z w] eqn:E; [eexists; reflexivity|].
  assert (I : In z (force_array y)) by (apply in_rev; rewrite E; left; reflexivity). clear E. unfold says_types in S. change (match y with JArr ys => ys | _ => [y] end) with (force_array y) in S.
  induction S as [|a i a' is S _ IH]; [destruct I|]. destruct I as [->|I]; [|exact (IH I)]. destruct (type_flat _ _ S) as (s & -> & X). unfold xkey. rewrite X. eexists. reflexivity.
Qed.
Lemma push_flat y ts nd : says_types io l y ts -> expand_types io o c y nd = Ok (fold_left (fun n t => push_type t n) ts nd).
Proof.
  unfold says_types, expand_types. change (match y with JArr ys => ys | _ => [y] end) with (force_array y). intros S. revert nd. induction S as [|a i a' is S _ IH]; intros nd; [reflexivity|]. cbn [fold_r fold_left].
  assert (IV : invalid_policy o i XInvalidTypeValue = Ok true) by (destruct S; reflexivity).
  destruct (type_flat _ _ S) as (s & -> & X). cbn [as_str]. rewrite X. cbn [map_err bind id_of_term]. rewrite IV. cbn [bind]. apply IH.
Qed.
Lemma prop_flat k v s i : is_keyword_like k = false -> assoc k l = Some v -> text v = Some s -> means io l s i -> exists d, prop_def c (Some k) = Some d /\ described v i d.
Proof. intros K A TX M. unfold prop_def. destruct (streq_spec k "@type") as [->|_]; [discriminate K|]. exact (term_def k v s i A TX M). Qed.
Lemma scalar_flat n k v s i y x : is_keyword_like k = false -> assoc k l = Some v -> text v = Some s -> means io l s i -> says_scalar io l v y x ->
  expand_element io ld fin rnd pf o url (S n) c (Some k) y false = Ok (XObj x).
Proof.
  intros K A TX M L. cbn [expand_element]. assert (E : expand_scalar io ld pf o c (Some k) y = Ok (XObj x)).
  { destruct (prop_flat k v s i K A TX M) as (d & PD & D). destruct (described_facts _ _ _ D) as (_ & NC & _ & _ & _ & _ & LK & NL).
    unfold expand_scalar, free_floating, ap_is. cbn [is_some negb orb]. destruct (streq_spec k (kw_str KGraph)) as [->|_]; [discriminate K|].
    rewrite PD, NC. cbn [bind]. unfold expand_literal. rewrite PD. unfold lang_for, dir_for. rewrite LA, DI.
    destruct L as [b'|n'|s' LV SP DR|s' LV SD|s' i' LV M']; cbn [given].
    - destruct (linking v); [destruct (LK eq_refl) as [-> | ->]|rewrite (proj1 (NL eq_refl))]; reflexivity.
    - destruct (linking v); [destruct (LK eq_refl) as [-> | ->]|rewrite (proj1 (NL eq_refl))]; reflexivity.
    - destruct (NL LV) as (-> & -> & ->). rewrite SP, DR. reflexivity.
    - destruct (NL LV) as (-> & -> & ->). unfold string_value, ls_new. destruct (speaks v), (directs v); try reflexivity. destruct SD; congruence.
    - destruct (LK LV) as [-> | ->]; rewrite (link_flat s' i' _ _ M'); reflexivity. }
  destruct L; exact E.
Qed.
Lemma means_has_colon s i : means io l s i -> contains_char ":" i = true.
Proof.
  assert (X : forall s, absolute io s -> contains_char ":" s = true) by (intros s' H; destruct (absolute_colon _ _ H) as (p & x & -> & _); apply contains_colon).
  intros [s' A|p x s' _ _ _ _ _ _ _ A _ _]; [apply X, A|]. destruct A as [p' x' N C _ _ _]. rewrite app_assoc_str. cbn [String.append]. apply (contains_colon p' (x' +++ x)).
Qed.
Lemma scalar_not_list v y x : says_scalar io l v y x -> is_list (snd x) = false.
Proof. intros []; reflexivity. Qed.

Section Step.
Variable V : nullable tdef -> json -> iobj -> Prop.
Variable g : nat.
Hypothesis VE : forall n k v s i y x, is_keyword_like k = false -> assoc k l = Some v -> text v = Some s -> means io l s i -> V v y x ->
  exists x', expand_element io ld fin rnd pf o url (g + n) c (Some k) y false = Ok (XObj x') /\ V v y x' /\ is_list (snd x') = false.
Hypothesis GP : 0 < g.
Hypothesis VK : forall v m x, V v (JObj m) x -> keyed v = false.

Lemma values_flat n k v s i : is_keyword_like k = false -> assoc k l = Some v -> text v = Some s -> means io l s i -> forall ys xs, says_items (V v) ys xs ->
  exists xs', flat_r (fun item => do x <- expand_element io ld fin rnd pf o url (g + n) c (Some k) item false ; Ok (items x)) ys = Ok xs' /\ says_items (V v) ys xs'.
Proof.
  intros K A TX M ys xs H. induction H as [|ys xs _ IH|y x ys xs W _ IH]; [exists []; split; [reflexivity|constructor]| |]; destruct IH as (xs' & IH & R); cbn [flat_r].
  { exists xs'. split; [|constructor; exact R]. rewrite IH. destruct g as [|g']; [lia|]. reflexivity. }
  destruct (VE n k v s i y x K A TX M W) as (x' & -> & W' & _). cbn [bind items]. rewrite IH. cbn [bind app]. eexists. split; [reflexivity|]. constructor; assumption.
Qed.
Lemma expand_prop_rec n k v s i y : is_keyword_like k = false -> assoc k l = Some v -> text v = Some s -> means io l s i -> (forall m, y = JObj m -> keyed v = false) ->
  expand_property io ld fin rnd pf o (expand_element io ld fin rnd pf o url n) c k y = expand_element io ld fin rnd pf o url n c (Some k) y false.
Proof.
  intros K A TX M NK. destruct (prop_flat k v s i K A TX M) as (d & PD & D). destruct (described_facts _ _ _ D) as (_ & _ & _ & _ & _ & CK & LK & NL).
  assert (NJ : match nd_typ d with Some TyJson => true | _ => false end = false) by (destruct (linking v); [destruct (LK eq_refl) as [-> | ->]|rewrite (proj1 (NL eq_refl))]; reflexivity).
  unfold expand_property. rewrite PD, NJ. destruct y as [| | | | |m]; try reflexivity. destruct (CK (NK m eq_refl)) as (C1 & C2 & C3 & C4). unfold has_container. rewrite C1, C2, C3, C4. reflexivity.
Qed.
Lemma property_flat n k v s i y xs nd : is_keyword_like k = false -> assoc k l = Some v -> text v = Some s -> means io l s i -> says_values (V v) y xs ->
  exists xs', property_entry io ld fin rnd pf o (expand_element io ld fin rnd pf o url (S (g + n))) c k (IIri i) y nd = Ok (add_prop (IIri i) (if lists v then [(None, OList xs')] else xs') nd) /\ says_values (V v) y xs'.
Proof.
  intros K A TX M L. unfold property_entry, id_has_colon. cbn [id_str]. rewrite (means_has_colon s i M). cbn [invalid_policy bind negb].
  destruct (prop_flat k v s i K A TX M) as (d & PD & D). destruct (described_facts _ _ _ D) as (_ & NC & NR & CL & CG & _ & LK & NL).
  destruct L as [y x W|ys xs W].
  - rewrite (expand_prop_rec _ k v s i y K A TX M) by (intros m ->; exact (VK _ _ _ W)).
    destruct (VE (S n) k v s i y x K A TX M W) as (x' & X & W' & NS). rewrite Nat.add_succ_r in X. rewrite X. cbn [bind]. rewrite PD. exists [x']. split; [|constructor; exact W'].
    unfold wrap_list, wrap_graph, has_container, x_is_list. rewrite CL, CG, NS. destruct (lists v); cbn [andb negb items store]; rewrite NR; reflexivity.
  - rewrite (expand_prop_rec _ k v s i (JArr ys) K A TX M) by discriminate. destruct (values_flat n k v s i K A TX M ys xs W) as (xs' & X & W'). exists xs'. split; [|constructor; exact W'].
    assert (E : expand_element io ld fin rnd pf o url (S (g + n)) c (Some k) (JArr ys) false = Ok (if lists v then XObj (None, OList xs') else XArr xs')).
    { change (expand_element io ld fin rnd pf o url (S (g + n)) c (Some k) (JArr ys) false) with
        (do r <- flat_r (fun item => do x <- expand_element io ld fin rnd pf o url (g + n) c (Some k) item false ; Ok (items x)) ys ;
         Ok (if has_container (prop_def c (Some k)) CKList then XObj (None, OList r) else XArr r)).
      rewrite X. cbn [bind]. rewrite PD. unfold has_container. rewrite CL. reflexivity. }
    rewrite E. cbn [bind]. rewrite PD. unfold wrap_list, wrap_graph, has_container. rewrite CL, CG. destruct (lists v); cbn [andb negb x_is_list is_list snd items store]; rewrite NR; reflexivity.
Qed.
Lemma null_flat n k v s i nd : is_keyword_like k = false -> assoc k l = Some v -> text v = Some s -> means io l s i -> lists v = false ->
  property_entry io ld fin rnd pf o (expand_element io ld fin rnd pf o url (S n)) c k (IIri i) JNull nd = Ok nd.
Proof.
  intros K A TX M L. unfold property_entry, id_has_colon. cbn [id_str]. rewrite (means_has_colon s i M). cbn [invalid_policy bind negb].
  destruct (prop_flat k v s i K A TX M) as (d & PD & D). destruct (described_facts _ _ _ D) as (_ & NC & NR & CL & CG & _ & LK & NL).
  rewrite (expand_prop_rec _ k v s i JNull K A TX M) by discriminate. cbn [expand_element element_body bind]. rewrite PD. unfold wrap_list, wrap_graph, has_container. rewrite CL, CG, L. reflexivity.
Qed.

Definition entry_rel (e : string * json) (r : effect) : Prop := e = ("@context", j) /\ r = Nothing \/ says_entry io l V e r.
Definition unx (x : xentry) : string * json := (fst (fst x), snd x).
Definition keyed_right (x : xentry) : Prop := key_ok (fst (fst x)) /\ xkey io o c (fst (fst x)) = Ok (Some (snd (fst x))).
Lemma entries_flat m : Forall (fun e : string * json => key_ok (fst e)) m -> exists xs, expand_entries io o c m = Ok xs /\ m = map unx xs /\ Forall keyed_right xs.
Proof.
  intros H. unfold expand_entries. induction H as [|[k y] m E _ IH]; [exists []; split; [reflexivity|split; [reflexivity|constructor]]|]. destruct IH as (xs & IH & R & X). cbn [flat_r fst snd].
  cbn [fst] in E. destruct (key_flat _ E) as (t & T' & _). rewrite T'. cbn [bind]. rewrite IH. cbn [bind]. eexists. split; [reflexivity|]. split; [cbn; rewrite R; reflexivity|].
  constructor; [split; assumption|exact X].
Qed.
Lemma last_flat kw xs : Forall keyed_right xs -> kw <> KContext -> kw <> KId -> kw <> KType -> last_entry kw xs = None.
Proof.
  intros H N N' N2. unfold last_entry. induction H as [|[[k t] y] xs [E X] _ IH]; [reflexivity|]. cbn [fold_left fst snd] in *. destruct (key_flat _ E) as (t' & X' & W). rewrite X in X'. injection X' as <-.
  destruct W as [[_ ->]|[[_ ->]|[[_ ->]|(v & s & i & _ & _ & _ & _ & ->)]]]; [destruct (keyword_eqb_spec KContext kw); [congruence|exact IH]|destruct (keyword_eqb_spec KId kw); [congruence|exact IH]|destruct (keyword_eqb_spec KType kw); [congruence|exact IH]|exact IH].
Qed.
Lemma node_flat n f ap xs es : ap_is ap KReverse = false -> Forall keyed_right xs -> Forall2 entry_rel (map unx xs) es -> forall ix nd h, (names es = [] \/ n_id nd = None /\ length (names es) <= 1) -> (typings es = [] \/ n_types nd = None /\ length (typings es) <= 1) ->
  exists es', node_entries io ld fin rnd pf o (expand_element io ld fin rnd pf o url (S (g + n))) (S f) ap c c xs ((ix, nd), h) = Ok ((ix, fold_left put es' nd), h) /\
    Forall2 entry_rel (map unx xs) es' /\ (names es' = names es /\ length (typings es') = length (typings es)) /\ ((exists p w, In (Has p w) es) -> exists p w, In (Has p w) es').
Proof.
  intros AR KR. revert es. cbn [node_entries]. induction KR as [|[[k t] y] xs [E X] _ IH]; intros es H ix nd h NM NT; cbn [map] in H.
  - inversion H; subst. exists []. split; [reflexivity|]. split; [constructor|]. auto.
  - inversion H as [|? e ? es0 R H0]; subst. cbn [fold_r fst snd unx] in *. destruct (key_flat _ E) as (t' & X' & W). rewrite X in X'. injection X' as <-.
    destruct R as [[ER ->]|R].
    + injection ER as -> ->. rewrite xkey_context in X. injection X as <-. cbn [node_entry bind]. destruct (IH es0 H0 ix nd h NM NT) as (es' & E' & R' & N' & P'). exists (Nothing :: es').
      split; [exact E'|]. split; [constructor; [left; auto|exact R']|]. split; [exact N'|]. intros (p & w & [Z|Z]); [discriminate Z|]. destruct P' as (p' & w' & P'); [eauto|]. exists p', w'. right. exact P'.
    + inversion R as [k' v s i y' xs' K A TX M L|k' v K A L|s i M|y' ts SY]; subst.
      * rewrite (xkey_term k v s i K A TX M) in X. injection X as <-. cbn [node_entry fst snd]. destruct (property_flat n k v s i y xs' nd K A TX M L) as (xs2 & -> & L2). cbn [bind on_node fst snd].
        destruct (IH es0 H0 ix (add_prop (IIri i) (if lists v then [(None, OList xs2)] else xs2) nd) h) as (es' & E' & R' & N' & P').
        { destruct nd. exact NM. }
        { destruct nd. exact NT. }
        exists (Has (IIri i) (if lists v then [(None, OList xs2)] else xs2) :: es'). split; [exact E'|]. split; [constructor; [right; eapply says_i; eassumption|exact R']|]. split; [exact N'|].
        intros _. eexists. eexists. left. reflexivity.
      * destruct (F k v A) as (_ & _ & _ & s & i & d & TX & M & _). rewrite (xkey_term k v s i K A TX M) in X. injection X as <-. cbn [node_entry fst snd]. rewrite (null_flat _ k v s i nd K A TX M L). cbn [bind on_node fst snd].
        destruct (IH es0 H0 ix nd h NM NT) as (es' & E' & R' & N' & P'). exists (Nothing :: es').
        split; [exact E'|]. split; [constructor; [right; eapply says_null; eassumption|exact R']|]. split; [exact N'|]. intros (p & w & [Z|Z]); [discriminate Z|]. destruct P' as (p' & w' & P'); [eauto|]. exists p', w'. right. exact P'.
      * assert (Y : t = TmKw KId) by (cbv in X; injection X as <-; reflexivity). subst t. destruct NM as [NM|[NI NM]]; [discriminate NM|]. cbn [names flat_map app length] in NM.
        assert (NZ : names es0 = []) by (unfold names; destruct (flat_map (fun e => match e with Named i0 => [i0] | _ => [] end) es0); [reflexivity|cbn in NM; lia]).
        assert (KE : forall self, node_entry io ld fin rnd pf o (expand_element io ld fin rnd pf o url (S (g + n))) self ap c c ((ix, nd), h) ("@id", TmKw KId, JStr s) = Ok ((ix, set_nid (Some (IIri i)) nd), h)).
        { intros self. cbn [node_entry]. unfold keyword_entry. rewrite AR. cbn [fst snd has_key]. rewrite NI. cbn [is_some]. rewrite Bool.andb_false_r. cbn [as_str]. rewrite (link_flat s i true None M). reflexivity. }
        rewrite KE. cbn [bind]. destruct (IH es0 H0 ix (set_nid (Some (IIri i)) nd) h (or_introl NZ)) as (es' & E' & R' & [N' NT'] & P'); [destruct nd; exact NT|]. exists (Named (IIri i) :: es').
        split; [exact E'|]. split; [constructor; [right; constructor; exact M|exact R']|]. split; [split; [cbn; f_equal; exact N'|exact NT']|]. intros (p & w & [Z|Z]); [discriminate Z|]. destruct P' as (p' & w' & P'); [eauto|]. exists p', w'. right. exact P'.
      * assert (Y : t = TmKw KType) by (cbv in X; injection X as <-; reflexivity). subst t. destruct NT as [NT|[NI NT]]; [discriminate NT|]. cbn [typings flat_map app length] in NT.
        assert (NZ : typings es0 = []) by (unfold typings; destruct (flat_map (fun e => match e with Typed t0 => [t0] | _ => [] end) es0); [reflexivity|cbn in NT; lia]).
        assert (KE : forall self, node_entry io ld fin rnd pf o (expand_element io ld fin rnd pf o url (S (g + n))) self ap c c ((ix, nd), h) ("@type", TmKw KType, y) = Ok ((ix, put nd (Typed ts)), h)).
        { intros self. cbn [node_entry]. unfold keyword_entry. rewrite AR. cbn [fst snd has_key]. rewrite NI. cbn [is_some]. rewrite Bool.andb_false_r. rewrite (push_flat y ts nd SY). reflexivity. }
        rewrite KE. cbn [bind]. destruct (IH es0 H0 ix (put nd (Typed ts)) h) as (es' & E' & R' & [N' NT'] & P'); [destruct nd; cbn [put]; rewrite push_fold; exact NM|left; exact NZ|]. exists (Typed ts :: es').
        split; [exact E'|]. split; [constructor; [right; constructor; exact SY|exact R']|]. split; [split; [exact N'|cbn; f_equal; exact NT']|]. intros (p & w & [Z|Z]); [discriminate Z|]. destruct P' as (p' & w' & P'); [eauto|]. exists p', w'. right. exact P'.
Qed.
Lemma says_rel m es : Forall2 (says_entry io l V) m es -> Forall2 entry_rel m es.
Proof. intros H. induction H; constructor; [right|]; assumption. Qed.
Lemma rel_says m es : Forall (fun e : string * json => key_ok (fst e) /\ fst e <> "@context") m -> Forall2 entry_rel m es -> Forall2 (says_entry io l V) m es.
Proof. intros N H. induction H as [|e r m es [[-> _]|R] _ IH]; [constructor|exfalso; inversion N as [|? ? [_ Z] _]; apply Z; reflexivity|]. inversion N; subst. constructor; auto. Qed.

Lemma rel_types m es e : Forall2 entry_rel m es -> In e m -> fst e = "@type" -> exists tys, says_types io l (snd e) tys.
Proof.
  intros H. induction H as [|e' r m es R _ IH]; [intros []|]. intros [<-|I] K; [|exact (IH I K)]. destruct R as [[-> _]|R]; [discriminate K|].
  destruct R as [k v s i y xs K' _ _ _ _|k v K' _ _|s i M|y ts S]; cbn [fst snd] in *; [rewrite K in K'; discriminate K'|rewrite K in K'; discriminate K'|discriminate K|eauto].
Qed.
Lemma object_flat n k v s i m es : is_keyword_like k = false -> assoc k l = Some v -> text v = Some s -> means io l s i ->
  Forall2 (says_entry io l V) m es -> single es ->
  exists es', expand_element io ld fin rnd pf o url (S (S (g + n))) c (Some k) (JObj m) false = Ok (XObj (None, ONode (fold_left put es' (node_new None)))) /\
    Forall2 (says_entry io l V) m es' /\ single es'.
Proof.
  intros K A TX M H LN. pose proof (says_keys V m es H) as KS. assert (KO : Forall (fun e : string * json => key_ok (fst e)) m) by (eapply Forall_impl; [|exact KS]; intros e [X _]; exact X).
  destruct (prop_flat k v s i K A TX M) as (d & PD & D). destruct (described_facts _ _ _ D) as (_ & NC & _).
  assert (EC : element_context io ld pf o url c (Some k) m false = Ok c).
  { unfold element_context. destruct (preliminary_ok c m) as ([hv hi] & ->); [intros k' K'; destruct (key_flat k' K') as (t & -> & _); eauto|exact KO|]. cbn [bind]. rewrite PV, PD, NC. cbn [bind]. rewrite (unique_none m KS). reflexivity. }
  destruct (entries_flat m KO) as (xs & XE & XM & XK). assert (H' : Forall2 entry_rel (map unx xs) es) by (rewrite <- XM; apply says_rel, H).
  assert (AK : forall kw, is_keyword_like (kw_str kw) = true -> ap_is (Some k) kw = false) by (intros kw KW; unfold ap_is; destruct (streq_spec k (kw_str kw)) as [Z|_]; [rewrite Z in K; congruence|reflexivity]).
  destruct (node_flat n (g + n) (Some k) xs es (AK KReverse eq_refl) XK H' None (node_new None) false (or_intror (conj eq_refl (proj1 LN))) (or_intror (conj eq_refl (proj2 LN)))) as (es' & NF & R' & [N' NT'] & _). exists es'.
  split; [|split; [apply rel_says; [exact KS|rewrite XM; exact R']|unfold single; rewrite N', NT'; exact LN]].
  destruct (types_flat m KO) as (ts & TE & TI). destruct (input_flat ts) as (it & IT); [intros e E; destruct (TI e E) as [E1 E2]; rewrite <- XM in H'; exact (rel_types m es e H' E1 E2)|].
  change (expand_element io ld fin rnd pf o url (S (S (g + n))) c (Some k) (JObj m) false) with (expand_map io ld fin rnd pf o url (expand_element io ld fin rnd pf o url (S (g + n))) (S (g + n)) c (Some k) m false).
  unfold expand_map. rewrite EC. cbn [bind]. rewrite TE. cbn [bind]. rewrite scoped_flat. cbn [bind]. rewrite IT. cbn [bind]. rewrite XE. cbn [bind is_some andb].
  rewrite (last_flat KList xs XK), (last_flat KSet xs XK), (last_flat KValue xs XK) by discriminate. rewrite (AK KGraph eq_refl). cbn [negb]. unfold expand_node. rewrite NF. cbn [bind fst snd andb].
  unfold free_floating. rewrite (AK KGraph eq_refl). reflexivity.
Qed.
End Step.

Lemma value_keyed d v m x : says_value io l d v (JObj m) x -> keyed v = false.
Proof. destruct d; intros [S|H]; try (inversion S; fail); [destruct H|]. destruct H as (_ & _ & _ & _ & _ & K & _). exact K. Qed.
Lemma value_flat d : forall n k v s i y x, is_keyword_like k = false -> assoc k l = Some v -> text v = Some s -> means io l s i -> says_value io l d v y x ->
  exists x', expand_element io ld fin rnd pf o url (1 + 2 * d + n) c (Some k) y false = Ok (XObj x') /\ says_value io l d v y x' /\ is_list (snd x') = false.
Proof.
  induction d as [|d IH]; intros n k v s i y x K A TX M [W|W].
  - exists x. split; [exact (scalar_flat n k v s i y x K A TX M W)|]. split; [left; exact W|exact (scalar_not_list v y x W)].
  - destruct W.
  - exists x. split; [exact (scalar_flat _ k v s i y x K A TX M W)|]. split; [left; exact W|exact (scalar_not_list v y x W)].
  - destruct W as (m & es & r & -> & -> & KD & H & MD).
    destruct (object_flat (says_value io l d) (1 + 2 * d) IH (Nat.lt_0_succ _) (value_keyed d) n k v s i m es K A TX M H (proj1 MD)) as (es' & E & H' & L').
    exists (None, ONode (fold_left put es' (node_new None))). replace (1 + 2 * S d + n) with (S (S (1 + 2 * d + n))) by lia. split; [exact E|]. split; [|reflexivity].
    right. exists m, es', (fold_left put es' (node_new None)). split; [reflexivity|]. split; [reflexivity|]. split; [exact KD|]. split; [exact H'|exact (made_put es' L')].
Qed.
End In.

Lemma expand_flat d pf n m1 m2 es : Forall2 (says_entry io l (says_value io l d)) (m1 ++ m2) es -> single es -> (exists p xs, In (Has p xs) es) ->
  exists r es', expand io ld fin rnd (4 + pf) o url (3 + 2 * d + n) (ctx_new b) (JObj (m1 ++ ("@context", j) :: m2)) = Ok [(None, ONode r)] /\
    Forall2 (says_entry io l (says_value io l d)) (m1 ++ m2) es' /\ made es' r.
Proof.
  intros H LN NE. pose proof (says_keys _ _ _ H) as KS.
  assert (KO : Forall (fun e : string * json => key_ok (fst e)) (m1 ++ ("@context", j) :: m2)).
  { apply Forall_app in KS. destruct KS as [K1 K2]. apply Forall_app. split; [|constructor; [left; reflexivity|]]; (eapply Forall_impl; [|eassumption]); intros e [X _]; exact X. }
  assert (RD : ready (ctx_new b) l) by (split; [intros k v d' _ G; discriminate G|intros k v s _ _; reflexivity]).
  destruct (C108_accepted io ld pf (ctx_new b) l url (popts_of o) F RD) as (c & PC & T & O & _ & _ & _ & LA & DI & _ & PV & _). specialize (PV eq_refl).
  assert (EC : element_context io ld (4 + pf) o url (ctx_new b) None (m1 ++ ("@context", j) :: m2) false = Ok c).
  { unfold element_context. destruct (preliminary_ok (ctx_new b) _ xkey_new KO) as ([hv hi] & ->). cbn [bind prop_def]. change (ac_prev (ctx_new b)) with (@None actx). cbn iota.
    rewrite (unique_context m1 m2 KS). cbn [map_err bind]. rewrite J. cbn [map_err bind]. unfold xprocess. rewrite PC. reflexivity. }
  destruct (entries_flat c T _ KO) as (xs & XE & XM & XK). destruct (Forall2_app_inv_l _ _ H) as (e1 & e2 & H1 & H2 & EE).
  set (V := says_value io l d) in *. set (es0 := e1 ++ Nothing :: e2).
  assert (H0 : Forall2 (entry_rel V) (map unx xs) es0).
  { rewrite <- XM. apply Forall2_app; [apply says_rel, H1|]. constructor; [left; auto|apply says_rel, H2]. }
  assert (NN : names es0 = names es) by (subst es; unfold es0, names; rewrite !flat_map_app; reflexivity).
  assert (HN : exists p w, In (Has p w) es0) by (destruct NE as (p & w & I); exists p, w; subst es; unfold es0; apply in_app_iff in I; apply in_app_iff; destruct I; [left|right; right]; assumption).
  assert (NT : typings es0 = typings es) by (subst es; unfold es0, typings; rewrite !flat_map_app; reflexivity).
  destruct (types_flat c T _ KO) as (ts & TE & TI). destruct (input_flat c T O ts) as (it & IT); [intros e E; destruct (TI e E) as [E1 E2]; rewrite <- XM in H0; exact (rel_types V _ es0 e H0 E1 E2)|].
  destruct (node_flat (4 + pf) c T O V (1 + 2 * d) (value_flat (4 + pf) c T O PV LA DI d) (Nat.lt_0_succ _) (value_keyed d) n (1 + 2 * d + n) None xs es0 eq_refl XK H0 None (node_new None) false) as (es' & NF & R' & [N' NT'] & P').
  { right. split; [reflexivity|]. rewrite NN. exact (proj1 LN). }
  { right. split; [reflexivity|]. rewrite NT. exact (proj2 LN). }
  rewrite <- XM in R'. destruct (Forall2_app_inv_l _ _ R') as (f1 & f2' & R1 & R2 & EF). inversion R2 as [|? ef ? f2 RC R3]; subst f2'.
  assert (EN : ef = Nothing) by (destruct RC as [[_ Z]|Z]; [exact Z|destruct (says_key _ _ _ Z) as [_ Z']; exfalso; apply Z'; reflexivity]). subst ef.
  apply Forall_app in KS. destruct KS as [K1 K2].
  exists (fold_left put es' (node_new None)), (f1 ++ f2).
  assert (NE' : names (f1 ++ f2) = names es') by (subst es'; unfold names; rewrite !flat_map_app; reflexivity).
  assert (NTE : typings (f1 ++ f2) = typings es') by (subst es'; unfold typings; rewrite !flat_map_app; reflexivity).
  assert (MD : made es' (fold_left put es' (node_new None))) by (apply made_put; unfold single; rewrite N', NN, NT', NT; exact LN).
  split; [|split; [apply Forall2_app; [exact (rel_says V m1 f1 K1 R1)|exact (rel_says V m2 f2 K2 R3)]|]].
  2: { destruct MD as (L & I & Q1 & Q2 & Q3 & Q4 & QM & Q5). split; [unfold single; rewrite NE', NTE; exact L|]. split; [rewrite NE'; exact I|]. split; [rewrite NTE; exact Q1|]. split; [exact Q2|]. split; [exact Q3|]. split; [exact Q4|].
       split; [intros p; rewrite QM, EF; unfold mentioned; rewrite !existsb_app; reflexivity|].
       intros p. rewrite Q5, EF. unfold objects. rewrite !flat_map_app. reflexivity. }
  destruct (put_made es' (node_new None)) as (_ & _ & _ & _ & PN & _). specialize (PN (or_intror (P' HN))).
  assert (EL : expand_element io ld fin rnd (4 + pf) o url (3 + 2 * d + n) (ctx_new b) None (JObj (m1 ++ ("@context", j) :: m2)) false = Ok (XObj (None, ONode (fold_left put es' (node_new None))))).
  { replace (3 + 2 * d + n) with (S (S (1 + 2 * d + n))) by lia.
    change (expand_map io ld fin rnd (4 + pf) o url (expand_element io ld fin rnd (4 + pf) o url (S (1 + 2 * d + n))) (S (1 + 2 * d + n)) (ctx_new b) None (m1 ++ ("@context", j) :: m2) false = Ok (XObj (None, ONode (fold_left put es' (node_new None))))).
    unfold expand_map. rewrite EC. cbn [bind]. rewrite TE. cbn [bind]. rewrite (scoped_flat (4 + pf) c T O). cbn [bind]. rewrite IT. cbn [bind]. rewrite XE. cbn [bind is_some andb].
    rewrite (last_flat c T KSet xs XK), (last_flat c T KValue xs XK) by discriminate. unfold expand_node. rewrite NF. cbn [bind fst snd andb].
    assert (EM : n_empty (fold_left put es' (node_new None)) = false) by (unfold n_empty; destruct (n_props (fold_left put es' (node_new None))); [congruence|rewrite Bool.andb_false_r; reflexivity]).
    rewrite EM, Bool.andb_false_r. reflexivity. }
  unfold expand. rewrite EL. cbn [bind items]. destruct MD as (_ & _ & _ & NG & _). assert (UG : unnamed_graph (None, ONode (fold_left put es' (node_new None))) = None) by (unfold unnamed_graph, is_graph; cbn [snd]; rewrite NG; destruct (_ && _); reflexivity).
  rewrite UG. reflexivity.
Qed.
End Doc.

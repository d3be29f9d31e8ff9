(** Which term is chosen for a property and a value. *)
From Verif Require Import Prelude Json Str Keyword Enums LangTag LangString Container Stack ContextSyntax Ctx Inverse Object Process
  ProcessRel CompactIri CompactIriProofs.

(** ** Specification *)

(** *** The term suits the value *)

(** Graph objects: nothing but a graph, and perhaps an identifier. *)
Definition a_graph (o : obj) : Prop := exists i g, o = ONode (MkNode i None (Some g) None [] None).
(** Objects of the type [t]. *)
Definition of_type (t : ty) (o : obj) : Prop :=
  match o with
  | OVal (VLit _ (Some u)) => t = TyIri u
  | OVal (VJson _) => t = TyJson
  | OVal _ => False
  | ONode _ | OList _ => t = TyId \/ t = TyVocab
  end.
(** Objects that the language or the direction of a term cannot change. *)
Definition has_language (x : string) (o : obj) : Prop :=
  match o with OVal (VLang s) => same_lang (ls_language s) (Some x) | OVal (VLit _ None) => False | _ => True end.
Definition has_direction (r : direction) (o : obj) : Prop :=
  match o with OVal (VLang s) => ls_direction s = Some r | OVal (VLit _ None) => False | _ => True end.
(** The values concerned by the type, language and direction of a term: for a list, its items. *)
Definition concerned (o : obj) : list obj := match o with OList l => map snd l | o => [o] end.
(** The containers that can hold the value. *)
Definition holds (m : mode) (cn : container) (v : iobj) : Prop :=
  match cn with
  | CNone => True
  | CList => fst v = None /\ exists l, snd v = OList l
  | CSet => forall l, snd v <> OList l
  | CIndex | CIndexSet => m = JsonLd11 \/ fst v <> None \/ a_graph (snd v)
  | CLanguage | CLanguageSet => fst v = None /\ ((exists s, snd v = OVal (VLang s)) \/ m = JsonLd11 /\ exists l, snd v = OVal (VLit l None))
  | CId | CIdSet | CType | CSetType => exists n, snd v = ONode n /\ ~ a_graph (ONode n)
  | _ => a_graph (snd v)
  end.
Record suits (m : mode) (d : ndef) (v : iobj) : Prop := {
  su_reverse : nd_reverse d = false \/ snd v = OList [];
  su_container : holds m (nd_container d) v;
  su_type : forall t, nd_typ d = Some t -> t = TyNone \/ Forall (of_type t) (concerned (snd v));
  su_language : forall x, nd_typ d = None -> nd_language d = Some (NSome x) -> Forall (has_language x) (concerned (snd v));
  su_direction : forall r, nd_typ d = None -> nd_direction d = Some (NSome r) -> Forall (has_direction r) (concerned (snd v))
}.

(** *** The order of preference, after the IRI compaction algorithm of JSON-LD 1.1 (steps 4.5 to
    4.20) *)

(** Steps 4.7 to 4.10. *)
Inductive row : iobj -> bool -> list container -> Prop :=
| RwReverse v : row v true [CSet]
| RwList l : row (None, OList l) false [CList]
| RwIndexed i l : row (Some i, OList l) false []
| RwTagged s : row (None, OVal (VLang s)) false [CLanguage; CLanguageSet; CSet]
| RwTaggedIndex i s : row (Some i, OVal (VLang s)) false [CSet]
| RwLiteral ix l t : row (ix, OVal (VLit l t)) false [CSet]
| RwJson ix j : row (ix, OVal (VJson j)) false [CSet]
| RwNode ix n : ~ a_graph (ONode n) -> row (ix, ONode n) false [CId; CIdSet; CType; CSetType; CSet]
| RwGraph n : a_graph (ONode n) -> n_id n = None ->
    row (None, ONode n) false [CGraph; CGraphSet; CSet; CGraphIndex; CGraphIndexSet; CGraphId; CGraphIdSet; CIndex; CIndexSet]
| RwGraphIndex i n : a_graph (ONode n) -> n_id n = None ->
    row (Some i, ONode n) false [CGraphIndex; CGraphIndexSet; CGraph; CGraphSet; CSet; CGraphId; CGraphIdSet; CIndex; CIndexSet]
| RwGraphId n a : a_graph (ONode n) -> n_id n = Some a ->
    row (None, ONode n) false [CGraphId; CGraphIdSet; CGraph; CGraphSet; CSet; CGraphIndex; CGraphIndexSet; CIndex; CIndexSet]
| RwGraphIndexId i n a : a_graph (ONode n) -> n_id n = Some a ->
    row (Some i, ONode n) false [CGraphIndex; CGraphIndexSet; CGraphId; CGraphIdSet; CGraph; CGraphSet; CSet; CIndex; CIndexSet].
(** Steps 4.5, 4.11 to 4.13.  The index of the value of a reverse property does not count in
    4.12. *)
Definition index_set : list container := [CIndex; CIndexSet].
Inductive preferred_containers (m : mode) (v : iobj) (rev : bool) : list container -> Prop :=
| PcMk b l e f : row v rev l ->
    (fst v <> None /\ ~ a_graph (snd v) /\ b = index_set \/ (fst v = None \/ a_graph (snd v)) /\ b = []) ->
    (m = JsonLd11 /\ (fst v = None \/ rev = true) /\ e = index_set \/ (m = JsonLd10 \/ fst v <> None /\ rev = false) /\ e = []) ->
    (m = JsonLd11 /\ rev = false /\ (exists x, v = (None, OVal (VLit x None))) /\ f = [CLanguage; CLanguageSet] \/
     (m = JsonLd10 \/ rev = true \/ forall x, v <> (None, OVal (VLit x None))) /\ f = []) ->
    preferred_containers m v rev (b ++ l ++ [CNone] ++ e ++ f).

(** The type of a list item, when it has one; its language. *)
Definition an_item (t : ty) (o : obj) : Prop :=
  match o with OVal (VLit _ (Some u)) => t = TyIri u | OVal (VJson _) => t = TyJson | OVal _ => False | _ => t = TyId end.
Definition a_language (l : langdir) (o : obj) : Prop :=
  match o with OVal (VLang s) => l = NSome (ls_language s, ls_direction s) | OVal (VLit _ None) => l = NNull | _ => False end.
Definition value_object (o : obj) : Prop := exists v, o = OVal v.
(** Step 4.8: all the items have the same type, or the first language is that of all the values
    that follow. *)
Definition agree (l : langdir) (xs : list obj) : Prop :=
  exists a x b, xs = a ++ x :: b /\ (forall l' y, In y a -> ~ a_language l' y) /\ a_language l x /\
    forall y, In y b -> value_object y -> exists l', a_language l' y /\ langdir_eqb l l' = true.
Definition dir_only (l : langdir) : list lsel := match l with NSome (Some _, Some d) => [LsLang (NSome (None, Some d))] | _ => [] end.
Definition for_type (t : ty) : list request := map RqType [TsType t; TsType TyNone; TsAny].
Definition for_lang (l : langdir) : list request := map RqLang ([LsLang l; LsLang (NSome (None, None)); LsAny] ++ dir_only l).
(** Steps 4.14 to 4.20; [as_term i]: compacting the identifier gives a term for it. *)
Inductive preferred_requests (as_term : id -> bool -> Prop) : iobj -> bool -> list request -> Prop :=
| PqEmpty ix rev : preferred_requests as_term (ix, OList []) rev [RqAny]
| PqReverse v : (forall i, o_id (snd v) <> Some i) -> snd v <> OList [] ->
    preferred_requests as_term v true (map RqType [TsReverse; TsReverse; TsType TyNone; TsAny])
| PqReverseId v i b : o_id (snd v) = Some i -> as_term i b ->
    preferred_requests as_term v true
      (map RqType (TsReverse :: (if b then [TsType TyVocab; TsType TyId] else [TsType TyId; TsType TyVocab]) ++ [TsType TyNone; TsAny]))
| PqItems ix l t : l <> [] -> Forall (an_item t) (map snd l) -> preferred_requests as_term (ix, OList l) false (for_type t)
| PqItemsLang ix l x : l <> [] -> (forall t, ~ Forall (an_item t) (map snd l)) -> agree x (map snd l) ->
    preferred_requests as_term (ix, OList l) false (for_lang x)
| PqItemsOther ix l : l <> [] -> (forall t, ~ Forall (an_item t) (map snd l)) -> (forall x, ~ agree x (map snd l)) ->
    preferred_requests as_term (ix, OList l) false (for_lang (NSome (None, None)))
| PqTyped ix l t : preferred_requests as_term (ix, OVal (VLit l (Some t))) false (for_type (TyIri t))
| PqJson ix j : preferred_requests as_term (ix, OVal (VJson j)) false (for_type TyJson)
| PqTagged s : tagged s -> preferred_requests as_term (None, OVal (VLang s)) false (for_lang (NSome (ls_language s, ls_direction s)))
| PqTaggedIndex i s : preferred_requests as_term (Some i, OVal (VLang s)) false (map RqLang [LsLang NNull; LsLang (NSome (None, None)); LsAny])
| PqLiteral ix l : preferred_requests as_term (ix, OVal (VLit l None)) false (map RqLang [LsLang NNull; LsLang (NSome (None, None)); LsAny])
| PqNode ix n : n_id n = None -> preferred_requests as_term (ix, ONode n) false (for_type TyId)
| PqNodeId ix n i b : n_id n = Some i -> as_term i b ->
    preferred_requests as_term (ix, ONode n) false
      (map RqType ((if b then [TsType TyVocab; TsType TyId] else [TsType TyId; TsType TyVocab]) ++ [TsType TyNone; TsAny])).
(** Tagged strings have a language or a direction, also in lists. *)
Definition tags_ok (o : obj) : Prop := Forall (fun o => forall s, o = OVal (VLang s) -> tagged s) (concerned o).

(** ** Proof *)

Lemma a_graph_spec o : o_is_graph o = true <-> a_graph o.
Proof.
  split.
  - destruct o as [| [i [ts|] [g|] [inc|] [|p ps] [rs|]]|]; try discriminate. intros _. exists i, g. reflexivity.
  - intros (i & g & ->). reflexivity.
Qed.
Lemma not_graph_spec o : o_is_graph o = false <-> ~ a_graph o.
Proof. rewrite <- a_graph_spec. destruct (o_is_graph o); split; congruence. Qed.

Lemma lang_is_spec a b : lang_is a b = true <-> (a = None /\ b = None \/ exists x y, a = Some x /\ b = Some y /\ langdir_eqb x y = true).
Proof.
  unfold lang_is. destruct a as [a|], b as [b|]; cbn; split; try discriminate; try tauto.
  - intros H. right. eauto.
  - intros [[]|(x & y & X & Y & H)]; [discriminate|]. injection X as ->. injection Y as ->. exact H.
  - intros [[X Y]|(x & y & X & Y & _)]; [discriminate X|discriminate Y].
  - intros [[X Y]|(x & y & X & Y & _)]; [discriminate Y|discriminate X].
Qed.
Lemma item_type_spec o t : item_type o = Some t <-> an_item t o.
Proof. destruct o as [[l [u|]|s|j]|n|l]; cbn; split; try congruence; try tauto; intros; subst; try reflexivity; try discriminate; try congruence. Qed.
Lemma item_lang_spec o l : item_lang o = Some l <-> a_language l o.
Proof. destruct o as [[x [u|]|s|j]|n|y]; cbn; split; try congruence; try tauto; intros; subst; try reflexivity; try discriminate; congruence. Qed.
Lemma opt_ty_eqb a b : opt_eqb ty_eqb a b = true <-> a = b.
Proof. destruct a as [a|], b as [b|]; cbn; try (split; congruence). destruct (ty_eqb_spec a b); split; congruence. Qed.

(** The type found by the loop. *)
Lemma common_none l cl : fst (common l (Some None) cl) = Some None.
Proof.
  revert cl. induction l as [|[i o] l IH]; intros cl; [reflexivity|]. cbn [common].
  assert (E : (if opt_eqb ty_eqb None (item_type o) then Some None else Some (@None ty)) = Some None) by (destruct (opt_eqb _ _ _); reflexivity). rewrite E.
  destruct (lang_is _ _ && _); [reflexivity|apply IH].
Qed.
Lemma common_type (l : list iobj) : forall t cl, fst (common l (Some (Some t)) cl) = if forallb (fun x => opt_eqb ty_eqb (Some t) (item_type (snd x))) l then Some (Some t) else Some None.
Proof.
  induction l as [|[i o] l IH]; intros t cl; [reflexivity|]. cbn [common forallb snd]. destruct (opt_eqb ty_eqb (Some t) (item_type o)); cbn [andb].
  - assert (E : type_is (Some (Some t)) (Some None) = false) by reflexivity. rewrite E, andb_false_r. apply IH.
  - destruct (lang_is _ _ && _); [reflexivity|apply common_none].
Qed.
Lemma common_fst i o (l : list iobj) : fst (common ((i, o) :: l) None None) =
  match item_type o with
  | Some t => if forallb (fun x => opt_eqb ty_eqb (Some t) (item_type (snd x))) l then Some (Some t) else Some None
  | None => Some None
  end.
Proof.
  cbn [common]. destruct (item_type o) as [t|].
  - assert (E : type_is (Some (Some t)) (Some None) = false) by reflexivity. rewrite E, andb_false_r. apply common_type.
  - destruct (lang_is _ _ && _); [reflexivity|apply common_none].
Qed.
(** The language found by the loop, once the type is known to differ. *)
Definition differs (x : langdir) (o : obj) : bool := is_value o && negb (lang_is (Some x) (item_lang o)).
Lemma common_no_lang l ct : snd (common l ct (Some no_lang)) = Some no_lang.
Proof.
  revert ct. induction l as [|[i o] l IH]; intros ct; [reflexivity|]. cbn [common].
  assert (E : (if is_value o && negb (lang_is (Some no_lang) (item_lang o)) then Some no_lang else Some no_lang) = Some no_lang) by (destruct (_ && _); reflexivity). rewrite E.
  destruct (lang_is _ _ && _); [reflexivity|apply IH].
Qed.
Lemma no_lang_is x : lang_is (Some x) (Some no_lang) = true -> x = no_lang.
Proof.
  unfold lang_is. cbn. rewrite langdir_eqb_spec. unfold no_lang. destruct x as [|[[l|] d]]; try tauto; intros [A ->]; [destruct A|reflexivity].
Qed.
Lemma common_some (l : list iobj) : forall ct x, snd (common l ct (Some x)) = if existsb (fun y => differs x (snd y)) l then Some no_lang else Some x.
Proof.
  induction l as [|[i o] l IH]; intros ct x; [reflexivity|]. cbn [common existsb snd]. fold (differs x o). destruct (differs x o) eqn:D; cbn [orb].
  - destruct (lang_is _ _ && _); [reflexivity|apply common_no_lang].
  - destruct (lang_is (Some x) (Some no_lang) && _) eqn:E; [|apply IH]. apply andb_true_iff in E. destruct E as [E _]. apply no_lang_is in E. subst.
    match goal with |- context [existsb ?f ?g] => destruct (existsb f g) end; reflexivity.
Qed.
Lemma common_lang (l : list iobj) : forall ct, 
  (exists (a : list iobj) i x (b : list iobj) o, l = a ++ (i, o) :: b /\ (forall y, In y a -> item_lang (snd y) = None) /\ item_lang o = Some x /\
     snd (common l ct None) = if existsb (fun y => differs x (snd y)) b then Some no_lang else Some x) \/
  (forall y, In y l -> item_lang (snd y) = None) /\ snd (common l ct None) = None.
Proof.
  induction l as [|[i o] l IH]; intros ct; [right; split; [intros y []|reflexivity]|]. destruct (item_lang o) as [x|] eqn:E.
  - left. exists [], i, x, l, o. split; [reflexivity|]. split; [intros y []|]. split; [exact E|]. cbn [common]. rewrite E.
    destruct (lang_is (Some x) (Some no_lang) && _) eqn:Q; [|apply common_some]. apply andb_true_iff in Q. destruct Q as [Q _]. apply no_lang_is in Q. subst.
    match goal with |- context [existsb ?f ?g] => destruct (existsb f g) end; reflexivity.
  - cbn [common]. rewrite E. assert (Q : lang_is None (Some no_lang) = false) by reflexivity. rewrite Q. cbn [andb].
    match goal with |- context [common l ?t None] => destruct (IH t) as [(a & i' & x & b & o' & -> & A & X & R)|[A R]] end.
    + left. exists ((i, o) :: a), i', x, b, o'. split; [reflexivity|]. split; [intros y [<-|I]; [exact E|auto]|]. auto.
    + right. split; [intros y [<-|I]; [exact E|auto]|exact R].
Qed.

Lemma split_first (r r' : list obj) o y b b' : r ++ o :: b = r' ++ y :: b' -> (forall z, In z r -> item_lang z = None) ->
  (forall z, In z r' -> item_lang z = None) -> item_lang o <> None -> item_lang y <> None -> r' = r /\ y = o /\ b' = b.
Proof.
  revert r'. induction r as [|p r IH]; intros [|p' r'] E A3 A4 X X'; cbn in E.
  - injection E as -> ->. auto.
  - injection E as -> _. rewrite (A4 p' (or_introl eq_refl)) in X. congruence.
  - injection E as -> _. rewrite (A3 y (or_introl eq_refl)) in X'. congruence.
  - injection E as -> E. destruct (IH r' E (fun y I => A3 y (or_intror I)) (fun y I => A4 y (or_intror I)) X X') as (-> & -> & ->). auto.
Qed.

Section Chosen.
Variable rel : string -> string -> string.
Variables (c : actx) (m : mode).

Lemma chosen var v rev k : compact_iri_full rel c m var (Some v) true rev = Ok (Some k) -> get_value c k = Some (Some var) -> k <> term_str var ->
  exists s, selection_of (as_vocab rel c m) c (Some v) rev = Ok s /\ selected c var (containers c m (Some v) rev) (requests s) k.
Proof.
  unfold compact_iri_full, compact_body. intros H G N.
  assert (NV : by_vocab c var <> Some k).
  { unfold by_vocab. destruct (ac_vocab c) as [t|]; [|discriminate]. destruct (strip_prefix _ _) as [x|]; [|discriminate].
    destruct (negb (streq x "") && negb (is_some (get_value c x))) eqn:B; [|discriminate]. intros X. injection X as ->. rewrite G, andb_false_r in B. discriminate B. }
  assert (NT : compact_tail rel c var false true <> Ok (Some k)).
  { intros X. apply tail_cases in X. destruct X as [[(p & d & t & x & _ & _ & _ & _ & _ & -> & [A|[B _]]) _]|[_ X]]; [|discriminate B|].
    - unfold get_value, get_normal in G. rewrite A in G. destruct (streq _ _); [destruct (ac_type c)|]; discriminate G.
    - destruct (term_as_iri var) as [s|] eqn:T; [|exact (N X)]. destruct X as [_ ->]. apply N. destruct var as [|[]|]; try discriminate; injection T as ->; reflexivity. }
  assert (H' : (do k <- match get_by term_eqb var (inverse_of c) with
                 | Some d => do s <- selection_of (as_vocab rel c m) c (Some v) rev ; Ok (d_select d (containers c m (Some v) rev) s)
                 | None => Ok None
                 end ;
      match k with
      | Some k => Ok (Some k)
      | None => match by_vocab c var with Some k => Ok (Some k) | None => compact_tail rel c var (negb (is_some (Some v))) true end
      end) = Ok (Some k)) by (destruct var; [discriminate|exact H|exact H]). clear H.
  apply bind_ok in H'. destruct H' as (x & E & H). destruct x as [x|].
  - injection H as ->. destruct (get_by term_eqb var (inverse_of c)) as [d|] eqn:GB; [|discriminate]. apply bind_ok in E. destruct E as (s & Es & E).
    exists s. split; [exact Es|]. apply select_spec. unfold select. rewrite GB. congruence.
  - destruct (by_vocab c var) as [y|]; [congruence|]. contradiction.
Qed.

Lemma row_of v rev : tags_ok (snd v) -> row v rev (fst (fst (prefer c (Some v) rev))).
Proof.
  intros T. destruct v as [ix o]. unfold prefer. destruct rev; [constructor|]. destruct o as [[l [t|]|s|j]|n|l]; cbn [fst snd v_direction v_language v_type is_some orb andb].
  - constructor.
  - constructor.
  - destruct ix; cbn [is_some negb]; [rewrite andb_false_r; constructor|]. rewrite andb_true_r.
    inversion T as [|? ? Ts]; subst. destruct (Ts _ eq_refl) as [X|X]; [destruct (ls_language s); [|congruence]|destruct (ls_direction s); [|congruence]]; rewrite ?orb_true_r; constructor.
  - constructor.
  - destruct (is_graph n) eqn:G; [apply (a_graph_spec (ONode n)) in G|apply RwNode, not_graph_spec; exact G]. destruct ix, (n_id n) eqn:I; cbn [is_some fst app]; econstructor; eassumption.
  - destruct ix; constructor.
Qed.
Lemma containers_spec v rev : tags_ok (snd v) -> preferred_containers m v rev (containers c m (Some v) rev).
Proof.
  intros T. pose proof (row_of v rev T) as R. unfold containers. destruct (prefer c (Some v) rev) as [[cs tl] simple] eqn:P. cbn [fst] in R.
  assert (SM : simple = true <-> rev = false /\ exists x, v = (None, OVal (VLit x None))).
  { destruct v as [ix o]. unfold prefer in P. destruct rev.
    - injection P as <- <- <-. split; [discriminate|]. intros [X _]. discriminate X.
    - destruct o as [[l [t|]|s|j]|n|l]; cbn in P.
      + injection P as <- <- <-. split; [discriminate|]. intros [_ [x X]]. congruence.
      + injection P as <- <- <-. destruct ix; split; try discriminate; eauto. intros [_ [x X]]. discriminate X.
      + destruct ix; cbn in P; rewrite ?andb_false_r, ?andb_true_r in P.
        * injection P as <- <- <-. split; [discriminate|]. intros [_ [x X]]. discriminate X.
        * destruct (is_some (ls_direction s) || is_some (ls_language s)) eqn:Q; injection P as <- <- <-; [split; [discriminate|]; intros [_ [x X]]; discriminate X|].
          inversion T as [|? ? Ts]; subst. destruct (Ts _ eq_refl) as [X|X]; [destruct (ls_language s); [|congruence]|destruct (ls_direction s); [|congruence]]; rewrite ?orb_true_r in Q; discriminate Q.
      + injection P as <- <- <-. split; [discriminate|]. intros [_ [x X]]. discriminate X.
      + destruct (is_graph n); injection P as <- <- <-; (split; [discriminate|]; intros [_ [x X]]; discriminate X).
      + injection P as <- <- <-. split; [discriminate|]. intros [_ [x X]]. discriminate X. }
  destruct v as [ix o]. refine (PcMk m (ix, o) rev _ cs _ _ R _ _ _).
  - cbn [fst snd]. destruct ix; [|right; auto]. destruct (o_is_graph o) eqn:O; [right; split; [right; apply a_graph_spec, O|reflexivity]|left]. apply not_graph_spec in O. split; [discriminate|]. split; [exact O|reflexivity].
  - cbn [fst]. destruct m; cbn [andb]; [right; auto|]. destruct ix; cbn [is_some]; [|left; destruct rev; auto]. destruct rev; cbn [negb andb]; [left; auto|right]. split; [right; split; [discriminate|reflexivity]|reflexivity].
  - destruct m; cbn [andb]; [right; auto|]. destruct simple; [left|right].
    + destruct (proj1 SM eq_refl) as [-> X]. auto.
    + split; [|reflexivity]. right. destruct rev; [left; reflexivity|right]. intros x X. assert (Y : false = true); [|discriminate Y]. apply SM. eauto.
Qed.

Definition as_term (i : id) (b : bool) : Prop :=
  exists k, compact_iri rel c m (TmId i) true false = Ok (Some k) /\ (b = true <-> get_value c k = Some (Some (TmId i))).
Lemma as_vocab_spec i b : as_vocab rel c m i = Ok b -> as_term i b.
Proof.
  unfold as_vocab. intros H. apply bind_ok in H. destruct H as (k & E & H). destruct k as [k|]; [|discriminate]. injection H as <-. exists k. split; [exact E|].
  destruct (get_value c k) as [[t|]|]; [|split; discriminate|split; discriminate]. destruct (term_eqb_spec t (TmId i)); split; congruence.
Qed.
Lemma list_requests ix l : l <> [] -> exists t, list_tlv c l = t /\
  match t with
  | TlvType (TsType t) => Forall (an_item t) (map snd l)
  | TlvType _ => False
  | TlvLang x => (forall t, ~ Forall (an_item t) (map snd l)) /\ (agree x (map snd l) \/ x = no_lang /\ forall x, ~ agree x (map snd l))
  end /\ snd (fst (prefer c (Some (ix, OList l)) false)) = Some t.
Proof.
  intros N. eexists. split; [reflexivity|]. split; [|reflexivity]. unfold list_tlv. destruct l as [|[i o] l]; [congruence|].
  assert (ALIAS : exists p, p = common ((i, o) :: l) None None) by eauto. destruct ALIAS as [p Ep].
  pose proof (common_fst i o l) as F. destruct (common_lang ((i, o) :: l) None) as [(a & i' & x & b & o' & E & A & X & R)|[A R]];
    change (common ((i, o) :: l) None None) with (@common ((i, o) :: l) None None) in *; rewrite <- Ep in *; destruct p as [ct cl]; cbn [fst snd] in F, R; subst ct cl; clear Ep.
  - (* a language *)
    assert (AG : if existsb (fun y => differs x (snd y)) b then forall x, ~ agree x (map snd ((i, o) :: l)) else agree x (map snd ((i, o) :: l))).
    { rewrite E, map_app. cbn [map snd]. destruct (existsb (fun y => differs x (snd y)) b) eqn:Q.
      - intros x' (a' & y & b' & E' & A' & X' & B'). apply existsb_exists in Q. destruct Q as (z & I & D).
        assert (EQ : a' = map snd a /\ y = o' /\ b' = map snd b).
        { refine (split_first _ _ _ _ _ _ E' _ _ _ _).
          - intros q J. apply in_map_iff in J. destruct J as (w & <- & J). auto.
          - intros q J. destruct (item_lang q) as [w|] eqn:W; [|reflexivity]. apply item_lang_spec in W. destruct (A' _ _ J W).
          - congruence.
          - apply item_lang_spec in X'. congruence. }
        destruct EQ as (-> & -> & ->). apply item_lang_spec in X'. assert (x' = x) by congruence. subst x'.
        unfold differs in D. apply andb_true_iff in D. destruct D as [V D]. destruct (B' (snd z)) as (l' & L' & Q).
        + apply in_map. exact I.
        + destruct (snd z) as [w| |]; try discriminate V. exists w. reflexivity.
        + apply item_lang_spec in L'. rewrite L' in D. unfold lang_is in D. cbn in D. rewrite Q in D. discriminate D.
      - exists (map snd a), o', (map snd b). split; [reflexivity|]. split.
        + intros l' y I L'. apply in_map_iff in I. destruct I as (w & <- & I). apply item_lang_spec in L'. rewrite (A _ I) in L'. discriminate L'.
        + split; [apply item_lang_spec, X|]. intros y I [w W]. apply in_map_iff in I. destruct I as (z & <- & I).
          assert (D : differs x (snd z) = false).
          { destruct (differs x (snd z)) eqn:D; [|reflexivity]. assert (existsb (fun y => differs x (snd y)) b = true); [|congruence]. apply existsb_exists. eauto. }
          unfold differs in D. rewrite W in D. cbn [is_value andb] in D. apply negb_false_iff, lang_is_spec in D. destruct D as [[D _]|(p & q & P & Q' & D)]; [discriminate D|].
          injection P as <-. exists q. split; [|exact D]. apply item_lang_spec. rewrite W. exact Q'. }
    assert (NT : forall t, ~ Forall (an_item t) (map snd ((i, o) :: l))).
    { intros t Ft. rewrite E, map_app in Ft. apply Forall_app in Ft. destruct Ft as [_ Ft]. cbn [map snd] in Ft. inversion Ft as [|? ? Ht _]; subst.
      apply item_type_spec in Ht. destruct o' as [[? [?|]|?|?]|?|?]; cbn in *; discriminate. }
    destruct (item_type o) as [t|] eqn:IT.
    + match goal with |- context [forallb ?f ?g] => destruct (forallb f g) eqn:FB end.
      * exfalso. apply (NT t). cbn [map snd]. constructor; [apply item_type_spec, IT|]. apply Forall_forall. intros y I. apply in_map_iff in I. destruct I as (z & <- & I).
        rewrite forallb_forall in FB. specialize (FB _ I). apply opt_ty_eqb in FB. apply item_type_spec. auto.
      * match goal with |- context [existsb ?f ?g] => destruct (existsb f g) end; split; auto.
    + match goal with |- context [existsb ?f ?g] => destruct (existsb f g) end; split; auto.
  - (* no language *)
    assert (NA : forall x, ~ agree x (map snd ((i, o) :: l))).
    { intros x (a' & y & b' & E' & _ & X' & _). apply item_lang_spec in X'. assert (I : In y (map snd ((i, o) :: l))) by (rewrite E'; apply in_elt).
      apply in_map_iff in I. destruct I as (z & <- & I). rewrite (A _ I) in X'. discriminate X'. }
    destruct (item_type o) as [t|] eqn:IT.
    + match goal with |- context [forallb ?f ?g] => destruct (forallb f g) eqn:FB end.
      * cbn [map snd]. constructor; [apply item_type_spec, IT|]. apply Forall_forall. intros y I. apply in_map_iff in I. destruct I as (z & <- & I).
        rewrite forallb_forall in FB. specialize (FB _ I). apply opt_ty_eqb in FB. apply item_type_spec. auto.
      * split; [|right; auto]. intros t' Ft. cbn [map snd] in Ft. inversion Ft as [|? ? Ht Hl]; subst. apply item_type_spec in Ht. assert (t' = t) by congruence. subst t'.
        assert (forallb (fun x => opt_eqb ty_eqb (Some t) (item_type (snd x))) l = true); [|congruence]. apply forallb_forall. intros z I. apply opt_ty_eqb. symmetry. apply item_type_spec.
        rewrite Forall_forall in Hl. apply Hl, in_map, I.
    + split; [|right; auto]. intros t' Ft. cbn [map snd] in Ft. inversion Ft as [|? ? Ht Hl]; subst. apply item_type_spec in Ht. congruence.
Qed.
Lemma selection_spec v rev s : tags_ok (snd v) -> selection_of (as_vocab rel c m) c (Some v) rev = Ok s -> preferred_requests as_term v rev (requests s).
Proof.
  intros T H. destruct v as [ix o]. destruct rev.
  - (* reversed *)
    assert (EM : o = OList [] \/ o <> OList []) by (destruct o as [| |[|]]; auto; right; discriminate).
    destruct EM as [->|NE]; [cbn in H; injection H as <-; constructor|].
    assert (G : (do l <- match o_id o with
                  | Some i => do b <- as_vocab rel c m i ;
                              Ok (if b then [TsType TyVocab; TsType TyId; TsType TyNone] else [TsType TyId; TsType TyVocab; TsType TyNone])
                  | None => Ok [TsReverse; TsType TyNone]
                  end ;
          Ok (SelType ([TsReverse] ++ l ++ [TsAny]))) = Ok s) by (destruct o as [| |[|]]; try exact H; congruence).
    apply bind_ok in G. destruct G as (l & E & G). injection G as <-. destruct (o_id o) as [i|] eqn:I.
    + apply bind_ok in E. destruct E as (b & Eb & E). injection E as <-. replace (requests _) with
        (map RqType (TsReverse :: (if b then [TsType TyVocab; TsType TyId] else [TsType TyId; TsType TyVocab]) ++ [TsType TyNone; TsAny])) by (destruct b; reflexivity).
      apply (PqReverseId _ (ix, o) i b I). apply as_vocab_spec, Eb.
    + injection E as <-. apply (PqReverse _ (ix, o)); [cbn; congruence|exact NE].
  - destruct o as [[l [t|]|st|j]|n|l].
    + injection H as <-. apply PqTyped.
    + unfold selection_of, prefer in H. cbn in H. injection H as <-. apply PqLiteral.
    + unfold selection_of, prefer in H. cbn [v_direction v_language v_type] in H. destruct ix as [ix|]; cbn [is_some negb] in H; rewrite ?andb_false_r, ?andb_true_r in H.
      * injection H as <-. apply PqTaggedIndex.
      * inversion T as [|? ? Ts]; subst. pose proof (Ts _ eq_refl) as TG.
        assert (Q : is_some (ls_direction st) || is_some (ls_language st) = true).
        { destruct TG as [X|X]; [destruct (ls_language st); [|congruence]|destruct (ls_direction st); [|congruence]]; rewrite ?orb_true_r; reflexivity. }
        rewrite Q in H. injection H as <-. apply PqTagged. exact TG.
    + injection H as <-. apply PqJson.
    + unfold selection_of, prefer in H.
      assert (G : (do l <- match n_id n with
                  | Some i => do b <- as_vocab rel c m i ;
                              Ok (if b then [TsType TyVocab; TsType TyId; TsType TyNone] else [TsType TyId; TsType TyVocab; TsType TyNone])
                  | None => Ok [TsType TyId; TsType TyNone]
                  end ;
          Ok (SelType ([] ++ l ++ [TsAny]))) = Ok s) by (destruct (is_graph n); exact H). clear H.
      apply bind_ok in G. destruct G as (l & E & G). injection G as <-. destruct (n_id n) as [i|] eqn:I.
      * apply bind_ok in E. destruct E as (b & Eb & E). injection E as <-. replace (requests _) with
          (map RqType ((if b then [TsType TyVocab; TsType TyId] else [TsType TyId; TsType TyVocab]) ++ [TsType TyNone; TsAny])) by (destruct b; reflexivity).
        apply (PqNodeId _ ix n i b I). apply as_vocab_spec, Eb.
      * injection E as <-. apply (PqNode _ ix n I).
    + destruct l as [|x l]; [injection H as <-; constructor|]. assert (N : x :: l <> []) by discriminate.
      destruct (list_requests ix (x :: l) N) as (t & E & P & Q). unfold selection_of in H. rewrite Q in H. clear E Q.
      destruct t as [[| |t]|la]; try contradiction.
      * assert (G : match t with TyId => o_id (OList (x :: l)) | _ => None end = None) by (destruct t; reflexivity). cbn zeta iota in H.
        replace (match t with TyId => o_id (OList (x :: l)) | _ => None end) with (@None id) in H by (destruct t; reflexivity).
        cbn [bind] in H. injection H as <-. apply PqItems; assumption.
      * injection H as <-. destruct P as [NT [A|[-> A]]]; [apply PqItemsLang; assumption|]. apply PqItemsOther; assumption.
Qed.

Theorem chosen_preferred var v rev k : tags_ok (snd v) -> compact_iri_full rel c m var (Some v) true rev = Ok (Some k) ->
  get_value c k = Some (Some var) -> k <> term_str var ->
  exists cs qs, preferred_containers m v rev cs /\ preferred_requests as_term v rev qs /\ selected c var cs qs k.
Proof.
  intros T H G N. destruct (chosen var v rev k H G N) as (s & Es & S). exists (containers c m (Some v) rev), (requests s).
  split; [apply containers_spec, T|]. split; [apply selection_spec; assumption|exact S].
Qed.

(** *** The term suits *)
Lemma holds_of v cs cn : preferred_containers m v false cs -> In cn cs -> holds m cn v.
Proof.
  intros P I. destruct P as [b l e f R B E F]. rewrite !in_app_iff in I. destruct I as [I|[I|[I|[I|I]]]].
  - destruct B as [(X & _ & ->)|[_ ->]]; [|destruct I]. destruct I as [<-|[<-|[]]]; cbn; auto.
  - inversion R; subst; cbn in I; repeat (destruct I as [<-|I]; [cbn; solve [eauto 7|intros ? X; discriminate X]|]); destruct I.
  - destruct I as [<-|[]]. exact Logic.I.
  - destruct E as [(-> & _ & ->)|[_ ->]]; [|destruct I]. destruct I as [<-|[<-|[]]]; cbn; auto.
  - destruct F as [(-> & _ & [x ->] & ->)|[_ ->]]; [|destruct I]. destruct I as [<-|[<-|[]]]; cbn; (split; [reflexivity|right; eauto]).
Qed.
Lemma wants_for_type t d q : t <> TyNone -> In q (for_type t) -> wants (ac_lang c) (ac_dir c) q d ->
  nd_reverse d = false /\ (nd_typ d = Some t \/ nd_typ d = Some TyNone \/ nd_typ d = None /\ nd_language d = None /\ nd_direction d = None).
Proof.
  intros N I W. destruct I as [<-|[<-|[<-|[]]]]; cbn in W.
  - destruct t; try congruence; destruct W; auto.
  - destruct W as (A & B & C & D). auto 8.
  - destruct W; auto.
Qed.
(** What a language request says of the term. *)
Definition lang_fits (l : langdir) (d : ndef) : Prop :=
  nd_reverse d = false /\ (nd_typ d = Some TyNone \/ nd_typ d = None /\
    (forall x, nd_language d = Some (NSome x) -> exists a r, l = NSome (a, r) /\ same_lang a (Some x)) /\
    (forall r, nd_direction d = Some (NSome r) -> exists a, l = NSome (a, Some r))).
Lemma wants_lang_fits l d : wants_lang (ac_lang c) (ac_dir c) (LsLang l) d -> lang_fits l d.
Proof.
  cbn. intros (A & B & W). split; [exact A|]. right. split; [exact B|].
  destruct (nd_language d) as [[|x]|], (nd_direction d) as [[|r]|]; (split; [intros y Y|intros y Y]); try discriminate Y;
    injection Y as <-; destruct W as (a & -> & S); eauto.
Qed.
Lemma wants_for_lang l d q : In q (for_lang l) -> wants (ac_lang c) (ac_dir c) q d -> lang_fits l d.
Proof.
  intros I W. unfold for_lang in I. rewrite map_app in I. apply in_app_iff in I. destruct I as [[<-|[<-|[<-|[]]]]|I].
  - apply wants_lang_fits, W.
  - apply wants_lang_fits in W. destruct W as (A & [B|(B & C & D)]); (split; [exact A|]); [left; exact B|right]. split; [exact B|]. split.
    + intros x X. destruct (C x X) as (a & r & E & S). injection E as <- <-. destruct S.
    + intros r R. destruct (D r R) as (a & E). discriminate E.
  - destruct W as (A & B). split; auto.
  - unfold dir_only in I. destruct l as [|[[la|] [dd|]]]; cbn in I; try contradiction. destruct I as [<-|[]].
    apply wants_lang_fits in W. destruct W as (A & [B|(B & C & D)]); (split; [exact A|]); [left; exact B|right]. split; [exact B|]. split.
    + intros x X. destruct (C x X) as (a & r & E & S). injection E as <- <-. destruct S.
    + intros r R. destruct (D r R) as (a & E). injection E as <- <-. eauto.
Qed.

Lemma nulls d q : In q (map RqLang [LsLang NNull; LsLang (NSome (None, None)); LsAny]) -> wants (ac_lang c) (ac_dir c) q d -> lang_fits (NSome (None, None)) d.
Proof.
  intros [<-|I] W; [|eapply wants_for_lang; [|exact W]; cbn; destruct I as [<-|[<-|[]]]; auto].
  apply wants_lang_fits in W. destruct W as (A & [B|(B & C & D)]); (split; [exact A|]); [left; exact B|right]. split; [exact B|]. split.
  - intros x X. destruct (C x X) as (a & r & E & S). discriminate E.
  - intros r R. destruct (D r R) as (a & E). discriminate E.
Qed.
Lemma for_node d q b : In q (map RqType ((if b : bool then [TsType TyVocab; TsType TyId] else [TsType TyId; TsType TyVocab]) ++ [TsType TyNone; TsAny])) ->
  wants (ac_lang c) (ac_dir c) q d ->
  nd_reverse d = false /\ (nd_typ d = Some TyVocab \/ nd_typ d = Some TyId \/ nd_typ d = Some TyNone \/ nd_typ d = None /\ nd_language d = None /\ nd_direction d = None).
Proof. destruct b; intros [<-|[<-|[<-|[<-|[]]]]] W; cbn in W; tauto. Qed.

Lemma suits_type d v t : holds m (nd_container d) v -> t <> TyNone -> Forall (of_type t) (concerned (snd v)) ->
  nd_reverse d = false /\ (nd_typ d = Some t \/ nd_typ d = Some TyNone \/ nd_typ d = None /\ nd_language d = None /\ nd_direction d = None) -> suits m d v.
Proof. intros H N F [R [T|[T|(T & L & D)]]]; constructor; auto; intros; try congruence; rewrite T in *; try (injection H0 as <-; auto); congruence. Qed.
Lemma suits_lang d v l : holds m (nd_container d) v ->
  (forall a r x, l = NSome (a, r) -> same_lang a (Some x) -> Forall (has_language x) (concerned (snd v))) ->
  (forall a r, l = NSome (a, Some r) -> Forall (has_direction r) (concerned (snd v))) -> lang_fits l d -> suits m d v.
Proof.
  intros H FL FD [R [T|(T & L & D)]]; constructor; auto; intros; try congruence.
  - rewrite T in *. injection H0 as <-. auto.
  - destruct (L _ H1) as (a & r & E & S). eauto.
  - destruct (D _ H1) as (a & E). eauto.
Qed.
Lemma suits_node d i n : holds m (nd_container d) (i, ONode n) ->
  nd_reverse d = false /\ (nd_typ d = Some TyVocab \/ nd_typ d = Some TyId \/ nd_typ d = Some TyNone \/ nd_typ d = None /\ nd_language d = None /\ nd_direction d = None) -> suits m d (i, ONode n).
Proof.
  intros H [R [T|[T|T]]]; [apply (suits_type d _ TyVocab)|apply (suits_type d _ TyId)|apply (suits_type d _ TyId)]; try exact H; try discriminate; try (split; [exact R|tauto]); (constructor; [cbn; auto|constructor]).
Qed.
Lemma an_item_of t o : an_item t o -> of_type t o.
Proof. destruct o as [[? [?|]|?|?]|?|?]; cbn; auto. Qed.
Lemma agree_language l xs : agree l xs -> Forall (fun o => forall x, (exists a r, l = NSome (a, r) /\ same_lang a (Some x)) -> has_language x o) xs.
Proof.
  intros (a & o & b & -> & A & O & B). apply Forall_app. split; [|constructor].
  - apply Forall_forall. intros y I x _. destruct y as [[? [?|]|?|?]|?|?]; cbn; auto; destruct (A _ _ I eq_refl).
  - intros x (u & r & -> & S). destruct o as [[? [?|]|?|?]|?|?]; cbn in *; auto; try contradiction; try discriminate. injection O as -> ->. exact S.
  - apply Forall_forall. intros y I x (u & r & -> & S). destruct y as [[? [?|]|s|?]|?|?]; cbn; auto;
      destruct (B _ I (ex_intro _ _ eq_refl)) as (l' & L & E); cbn in L; subst; try contradiction.
    + discriminate E.
    + apply langdir_eqb_spec in E. destruct E as [E _]. eapply same_lang_trans; [apply same_lang_sym, E|exact S].
Qed.
Lemma agree_direction l xs : agree l xs -> Forall (fun o => forall r, (exists a, l = NSome (a, Some r)) -> has_direction r o) xs.
Proof.
  intros (a & o & b & -> & A & O & B). apply Forall_app. split; [|constructor].
  - apply Forall_forall. intros y I x _. destruct y as [[? [?|]|?|?]|?|?]; cbn; auto; destruct (A _ _ I eq_refl).
  - intros r (u & ->). destruct o as [[? [?|]|?|?]|?|?]; cbn in *; auto; try contradiction; try discriminate. injection O as -> ->. reflexivity.
  - apply Forall_forall. intros y I r (u & ->). destruct y as [[? [?|]|s|?]|?|?]; cbn; auto;
      destruct (B _ I (ex_intro _ _ eq_refl)) as (l' & L & E); cbn in L; subst; try contradiction.
    + discriminate E.
    + apply langdir_eqb_spec in E. destruct E as [_ E]. symmetry. exact E.
Qed.
Lemma Forall_at {A B} (P : B -> A -> Prop) (Q : B -> Prop) l b : Forall (fun o => forall b, Q b -> P b o) l -> Q b -> Forall (P b) l.
Proof. intros F H. induction F; constructor; auto. Qed.

Theorem chosen_suits var v k : tags_ok (snd v) -> compact_iri_full rel c m var (Some v) true false = Ok (Some k) ->
  get_value c k = Some (Some var) -> k <> term_str var ->
  exists d, In (k, d) (ac_defs c) /\ nd_value d = Some var /\ suits m d v.
Proof.
  intros T H G N. destruct (chosen_preferred var v false k T H G N) as (cs & qs & PC & PQ & (cs1 & cn & cs2 & qs1 & q & qs2 & -> & -> & _ & _ & (d & I & V & C & W) & _)).
  exists d. split; [exact I|]. split; [exact V|].
  assert (HD : holds m (nd_container d) v) by (rewrite C; eapply holds_of; [exact PC|apply in_elt]).
  remember (qs1 ++ q :: qs2) as qs eqn:EQ. assert (IQ : In q qs) by (subst; apply in_elt). clear EQ.
  remember false as rev eqn:ER. destruct PQ; try discriminate ER; clear ER.
  - constructor; cbn; auto.
  - destruct l as [|x l]; [congruence|]. apply (suits_type d _ t HD).
    + destruct x as [? [[? [?|]|?|?]|?|?]]; inversion H1; subst; cbn in *; congruence || contradiction.
    + cbn. eapply Forall_impl; [|exact H1]. apply an_item_of.
    + eapply wants_for_type; [|exact IQ|exact W]. destruct x as [? [[? [?|]|?|?]|?|?]]; inversion H1; subst; cbn in *; congruence || contradiction.
  - apply (suits_lang d _ x HD).
    + intros a r y E S. cbn. apply (Forall_at has_language (fun y => exists a r, x = NSome (a, r) /\ same_lang a (Some y))); [apply agree_language; assumption|eauto].
    + intros a r E. cbn. apply (Forall_at has_direction (fun r => exists a, x = NSome (a, Some r))); [apply agree_direction; assumption|eauto].
    + eapply wants_for_lang; eassumption.
  - apply (suits_lang d _ (NSome (None, None)) HD).
    + intros a r y E S. injection E as <- <-. destruct S.
    + intros a r E. discriminate E.
    + eapply wants_for_lang; eassumption.
  - apply (suits_type d _ (TyIri t) HD); [discriminate|repeat constructor|]. eapply wants_for_type; [discriminate|exact IQ|exact W].
  - apply (suits_type d _ TyJson HD); [discriminate|repeat constructor|]. eapply wants_for_type; [discriminate|exact IQ|exact W].
  - apply (suits_lang d _ (NSome (ls_language s, ls_direction s)) HD); [| |eapply wants_for_lang; eassumption].
    + intros a r y E S. injection E as E1 E2. constructor; [cbn; rewrite E1; exact S|constructor].
    + intros a r E. injection E as _ E. constructor; [exact E|constructor].
  - apply (suits_lang d _ (NSome (None, None)) HD).
    + intros a r y E S. injection E as <- <-. destruct S.
    + intros a r E. discriminate E.
    + exact (nulls _ _ IQ W).
  - apply (suits_lang d _ (NSome (None, None)) HD).
    + intros a r y E S. injection E as <- <-. destruct S.
    + intros a r E. discriminate E.
    + exact (nulls _ _ IQ W).
  - apply (suits_type d _ TyId HD); [discriminate|constructor; [cbn; auto|constructor]|]. eapply wants_for_type; [discriminate|exact IQ|exact W].
  - apply suits_node; [exact HD|]. exact (for_node _ _ _ IQ W).
Qed.
End Chosen.

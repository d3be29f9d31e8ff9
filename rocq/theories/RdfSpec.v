(** What RDF should say: specification and proofs about the quads of a document. *)
From Verif Require Import Prelude Json Enums LangTag LangString Str Keyword Container ContextSyntax Ctx Object ObjectEq Flatten Traverse Relabel RelabelProofs FlattenProofs FlattenSpec Rdf RdfProofs.
From Coq Require Import Lia Arith Permutation.

(** ** Specification *)
(** IRIs and blank node identifiers are RDF terms, invalid identifiers are not. *)
Inductive named : id -> vid -> Prop :=
| NmIri u : named (IIri u) (VIri u)
| NmBlank b : named (IBlank b) (VBlank b).
(** The name of a graph of the document and that of a graph of the dataset. *)
Inductive graph_named : option id -> option vid -> Prop :=
| GnDefault : graph_named None None
| GnName i v : named i v -> graph_named (Some i) (Some v).
Definition dft (t : option string) (u : string) : string := match t with Some t => t | None => u end.
Section Spec.
  Variables (io : rdf_io) (gen : nat -> vid) (dir : option rdf_direction) (generalized : bool).
  Definition good_tag (s : lang_string) : Prop := forall l, ls_language s = Some l -> wf_lang io l = true.
  (** The RDF terms of a JSON-LD value. *)
  Inductive means : value -> rval -> Prop :=
  | MeJson j : means (VJson j) (RLit (json_print io j) (TAny (rdf "JSON")))
  | MeStr s t : means (VLit (LStr s) t) (RLit s (TAny (dft t (xsd "string"))))
  | MeNull t : means (VLit LNull t) (RLit "null" (TAny (dft t (xsd "string"))))
  | MeTrue t : means (VLit (LBool true) t) (RLit "true" (TAny (dft t (xsd "boolean"))))
  | MeFalse t : means (VLit (LBool false) t) (RLit "false" (TAny (dft t (xsd "boolean"))))
  | MeInt n t : is_i64 io n = true -> t <> Some (xsd "double") -> means (VLit (LNum n) t) (RLit n (TAny (dft t (xsd "integer"))))
  | MeDouble n t : is_i64 io n = false \/ t = Some (xsd "double") -> means (VLit (LNum n) t) (RLit (double_print io n) (TAny (dft t (xsd "double"))))
  | MeLang s l : good_tag s -> ls_language s = Some l -> ls_direction s = None \/ dir = None -> means (VLang s) (RLit (ls_data s) (TLang l))
  | MePlain s : ls_language s = None -> ls_direction s = None \/ dir = None -> means (VLang s) (RLit (ls_data s) (TAny (xsd "string")))
  | MeI18n s d : good_tag s -> ls_direction s = Some d -> dir = Some I18nDatatype -> means (VLang s) (RLit (ls_data s) (TAny (i18n (ls_language s) d)))
  | MeCompound s d k : good_tag s -> ls_direction s = Some d -> dir = Some CompoundLiteral -> means (VLang s) (RId (gen k)).
  (** Objects with an RDF value. *)
  Inductive has_value : obj -> Prop :=
  | HvVal v : (forall s, v = VLang s -> good_tag s) -> has_value (OVal v)
  | HvNode n i w : n_id n = Some i -> named i w -> has_value (ONode n)
  | HvList l : has_value (OList l).
  (** Objects with an RDF value, the items of lists included. *)
  Inductive expressible : obj -> Prop :=
  | ExVal v : (forall s, v = VLang s -> good_tag s) -> expressible (OVal v)
  | ExNode n i w : n_id n = Some i -> named i w -> expressible (ONode n)
  | ExList l : Forall (fun y => expressible (snd y)) l -> expressible (OList l).
  (** The term stands for the object: the value, the identifier of the node, or the head of a list. *)
  Inductive denotes : rval -> obj -> Prop :=
  | DnVal v r : means v r -> denotes r (OVal v)
  | DnNode n i w : n_id n = Some i -> named i w -> denotes (RId w) (ONode n)
  | DnNil : denotes (RId r_nil) (OList [])
  | DnList k y l : denotes (RId (gen k)) (OList (y :: l)).
  (** The triples of [T] form a list with the given items, nested lists included. *)
  Inductive collection (T : list triple) : rval -> list iobj -> Prop :=
  | CoNil : collection T (RId r_nil) []
  | CoCons h r t y l : In (h, r_first, r) T -> stands T r (snd y) -> In (h, r_rest, t) T -> collection T t l -> collection T (RId h) (y :: l)
  with stands (T : list triple) : rval -> obj -> Prop :=
  | SdVal v r : means v r -> stands T r (OVal v)
  | SdNode n i w : n_id n = Some i -> named i w -> stands T (RId w) (ONode n)
  | SdList r l : collection T r l -> stands T r (OList l).
  (** The subjects of the triples with a predicate; the number of items of a list, at every level. *)
  Definition subjects (p : vid) (T : list triple) : list vid :=
    flat_map (fun t => match t with (s, VIri u, _) => match p with VIri v => if streq u v then [s] else [] | VBlank _ => [] end | _ => [] end) T.
  Fixpoint cells (o : obj) : nat :=
    match o with OList l => list_sum (map (fun y => S (cells (snd y))) l) | _ => 0 end.
End Spec.
(** [seen_in d b n]: the node occurs in the graph [b] inside nodes with an identifier only. *)
Inductive seen : option id -> obj -> option id -> node -> Prop :=
| SeNode a n b m : seen_node a n b m -> seen a (ONode n) b m
| SeList a l y b m : In y l -> seen a (snd y) b m -> seen a (OList l) b m
with seen_node : option id -> node -> option id -> node -> Prop :=
| SeSelf a n : seen_node a n a n
| SeGraph a n i y b m : n_id n = Some i -> In y (opt_list (n_graph n)) -> seen (Some i) (snd y) b m -> seen_node a n b m
| SeIncluded a n i y b m : n_id n = Some i -> In y (opt_list (n_included n)) -> seen_node a (snd y) b m -> seen_node a n b m
| SeProp a n i p y b m : n_id n = Some i -> In p (n_props n) -> In y (snd p) -> seen a (snd y) b m -> seen_node a n b m
| SeReverse a n i p y b m : n_id n = Some i -> In p (opt_list (n_reverse n)) -> In y (snd p) -> seen_node a (snd y) b m -> seen_node a n b m.
Definition seen_in (d : list iobj) (b : option id) (n : node) : Prop := exists y, In y d /\ seen None (snd y) b n.

(** ** Terms *)
Lemma valid_named i v : valid i = Some v <-> named i v.
Proof. split; [destruct i; intros [= <-]; constructor|intros []; reflexivity]. Qed.

Section Terms.
  Variables (io : rdf_io) (gen : nat -> vid) (dir : option rdf_direction) (generalized : bool).
  Notation value_rdf := (value_rdf io gen dir).
  Notation object_rdf := (object_rdf io gen dir).
  Notation means := (means io gen dir).
  Notation denotes := (denotes io gen dir).
  Notation has_value := (has_value io).
  Notation expressible := (expressible io).
  Notation collection := (collection io gen dir).
  Notation stands := (stands io gen dir).
  Notation trips := (trips io gen dir).
  Notation trips_items := (trips_items io gen dir).

  Lemma good_tag_dec s : (match ls_language s with Some l => wf_lang io l | None => true end) = true <-> good_tag io s.
  Proof.
    unfold good_tag. destruct (ls_language s) as [l|]; split; intros H; try discriminate; try reflexivity.
    - intros l' [= <-]. exact H.
    - apply H. reflexivity.
  Qed.
  Lemma value_means k v r k' : value_rdf k v = (Some r, k') -> means v r.
  Proof.
    destruct v as [l t|s|j]; cbn [Rdf.value_rdf].
    - destruct l as [|[]|n|s]; intros E; try (injection E as <- <-; destruct t; constructor).
      destruct (is_i64 io n && negb (match t with Some t => streq t (xsd "double") | None => false end)) eqn:B; injection E as <- <-.
      + apply andb_prop in B. destruct B as [B1 B2]. destruct t as [t|]; apply MeInt; auto; try discriminate.
        intros [= Et]. rewrite Et, streq_refl in B2. discriminate.
      + destruct t as [t|]; apply MeDouble.
        * destruct (streq_spec t (xsd "double")) as [Et|N]; [right; rewrite Et; reflexivity|left]. cbn in B. rewrite andb_true_r in B. exact B.
        * left. rewrite andb_true_r in B. exact B.
    - destruct (match ls_language s with Some l => wf_lang io l | None => true end) eqn:W; [|discriminate]. apply good_tag_dec in W.
      destruct (ls_direction s) as [d|] eqn:Ed; [destruct dir as [[|]|] eqn:Edir|]; intros [= <- <-].
      + apply MeI18n; assumption || reflexivity.
      + eapply MeCompound; eassumption || reflexivity.
      + destruct (ls_language s) eqn:El; [apply MeLang|apply MePlain]; auto.
      + destruct (ls_language s) eqn:El; [apply MeLang|apply MePlain]; auto.
    - intros [= <- <-]. constructor.
  Qed.
  Lemma value_some k v : (forall s, v = VLang s -> good_tag io s) -> exists r k', value_rdf k v = (Some r, k').
  Proof.
    intros H. destruct v as [l t|s|j]; cbn [Rdf.value_rdf].
    - destruct (match l with LNull => _ | _ => _ end) as [s p]. eauto.
    - specialize (H s eq_refl). apply good_tag_dec in H. rewrite H. destruct (ls_direction s), dir as [[|]|]; eauto.
    - eauto.
  Qed.
  Lemma value_gen k v r k' : value_rdf k v = (r, k') -> k <= k'.
  Proof.
    destruct v as [l t|s|j]; cbn [Rdf.value_rdf].
    - destruct (match l with LNull => _ | _ => _ end) as [s p]. intros [= _ <-]. lia.
    - destruct (match ls_language s with Some l => wf_lang io l | None => true end); [|intros [= _ <-]; lia].
      destruct (ls_direction s), dir as [[|]|]; intros [= _ <-]; lia.
    - intros [= _ <-]. lia.
  Qed.
  Lemma object_denotes k o r t k' : object_rdf k o = (Some (r, t), k') -> denotes r o.
  Proof.
    destruct o as [v|n|[|y l]]; cbn [Rdf.object_rdf].
    - destruct (value_rdf k v) as [[r'|] k2] eqn:E; cbn; intros [= -> <- <-]; constructor. eapply value_means, E.
    - unfold id_rdf. destruct (n_id n) as [i|] eqn:Ei; [|discriminate]. destruct (valid i) as [w|] eqn:Ev; [|discriminate].
      intros [= <- <- <-]. eapply DnNode; [exact Ei|apply valid_named, Ev].
    - intros [= <- <- <-]. constructor.
    - intros [= <- <- <-]. constructor.
  Qed.
  Lemma object_some k o : has_value o -> exists r t k', object_rdf k o = (Some (r, t), k').
  Proof.
    intros [v H|n i w Ei Nm|[|y l]]; cbn [Rdf.object_rdf]; eauto.
    - destruct (value_some k v H) as (r & k' & ->). cbn. eauto.
    - unfold id_rdf. rewrite Ei. apply valid_named in Nm. rewrite Nm. cbn. eauto.
  Qed.
  Lemma object_gen k o r k' : object_rdf k o = (r, k') -> k <= k'.
  Proof.
    destruct o as [v|n|[|y l]]; cbn [Rdf.object_rdf].
    - destruct (value_rdf k v) as [r' k2] eqn:E. intros [= _ <-]. eapply value_gen, E.
    - intros [= _ <-]. lia.
    - intros [= _ <-]. lia.
    - intros [= _ <-]. lia.
  Qed.
  Lemma expressible_value o : expressible o -> has_value o.
  Proof. intros []; econstructor; eassumption. Qed.

  (** ** Lists *)
  Lemma collection_mono T T' : incl T T' -> (forall o r, stands T r o -> stands T' r o) /\ (forall n : node, True).
  Proof.
    intros S. apply (obj_node_ind (fun o => forall r, stands T r o -> stands T' r o) (fun _ => True)); try (intros; exact I).
    - intros v r H. inversion H; subst. constructor. assumption.
    - intros n _ r H. inversion H; subst. econstructor; eassumption.
    - intros l F r H. inversion H as [| |? ? C]; subst. constructor. clear H. revert r C.
      induction F as [|y l O F IH]; intros r C; inversion C as [|h r' t y' l' I1 Sd I2 C']; subst; [constructor|].
      eapply CoCons; [apply S, I1|apply O, Sd|apply S, I2|apply IH, C'].
  Qed.
  Lemma collection_incl T T' r l : incl T T' -> collection T r l -> collection T' r l.
  Proof. intros S C. pose proof (proj1 (collection_mono T T' S) (OList l) r (SdList _ _ _ _ _ _ C)) as H. inversion H; subst. assumption. Qed.

  Definition o_coll (o : obj) : Prop := forall l h k, o = OList l -> l <> [] -> expressible o -> collection (fst (trips o h k)) (RId h) l.
  Lemma items_cons prev head x l k i k1 r t k2 n k3 m k4 :
    match head with Some h => (h, k) | None => (gen k, S k) end = (i, k1) -> object_rdf k1 (snd x) = (Some (r, t), k2) ->
    match t with Some (h, _) => trips (snd x) h k2 | None => ([], k2) end = (n, k3) -> trips_items trips (Some i) None l k3 = (m, k4) ->
    trips_items trips prev head (x :: l) k = (link prev i ++ (i, r_first, r) :: n ++ m, k4).
  Proof. intros E1 E2 E3 E4. cbn [RdfProofs.trips_items]. rewrite E1, E2, E3, E4. reflexivity. Qed.
  Lemma object_stands k x r t k' n k3 : o_coll x -> expressible x -> object_rdf k x = (Some (r, t), k') ->
    match t with Some (h, _) => trips x h k' | None => ([], k') end = (n, k3) -> stands n r x.
  Proof.
    intros O E Er En. pose proof (object_denotes _ _ _ _ _ Er) as D. inversion D as [v r' M|m i w Ei Nm|E1 E2|j y l E1 E2]; subst.
    - constructor. exact M.
    - econstructor; eassumption.
    - repeat constructor.
    - constructor. cbn [Rdf.object_rdf] in Er. injection Er as E1 <- <-. subst.
      rewrite <- (f_equal fst En : fst (trips (OList (y :: l)) (gen k) (S k)) = n). rewrite <- E1. apply O; [reflexivity|discriminate|exact E].
  Qed.
  Lemma items_collection l : Forall (fun y => o_coll (snd y)) l -> Forall (fun y => expressible (snd y)) l -> forall p k,
    exists t, In (p, r_rest, t) (fst (trips_items trips (Some p) None l k)) /\ collection (fst (trips_items trips (Some p) None l k)) t l.
  Proof.
    induction 1 as [|x l O F IH]; intros E p k.
    - cbn. eexists. split; [left; reflexivity|constructor].
    - inversion E as [|? ? E1 E2]; subst. destruct (object_some (S k) (snd x) (expressible_value _ E1)) as (r & t & k2 & Er).
      destruct (match t with Some (h, _) => trips (snd x) h k2 | None => ([], k2) end) as [n k3] eqn:En.
      destruct (trips_items trips (Some (gen k)) None l k3) as [m k4] eqn:Em.
      rewrite (items_cons (Some p) None x l k _ _ _ _ _ _ _ _ _ eq_refl Er En Em). cbn [fst link app].
      destruct (IH E2 (gen k) k3) as (t' & I1 & C). rewrite Em in I1, C. cbn [fst] in I1, C.
      exists (RId (gen k)). split; [left; reflexivity|].
      assert (S1 : incl n ((p, r_rest, RId (gen k)) :: (gen k, r_first, r) :: n ++ m)) by (intros z I; right; right; apply in_or_app; left; exact I).
      assert (S2 : incl m ((p, r_rest, RId (gen k)) :: (gen k, r_first, r) :: n ++ m)) by (intros z I; right; right; apply in_or_app; right; exact I).
      eapply CoCons; [right; left; reflexivity| |apply S2, I1|eapply collection_incl; [exact S2|exact C]].
      apply (proj1 (collection_mono _ _ S1)). eapply object_stands; eassumption.
  Qed.
  Lemma trips_collection : (forall o, o_coll o) /\ (forall n : node, True).
  Proof.
    apply (obj_node_ind o_coll (fun _ => True)); try (intros; exact I).
    - intros v l h k [=].
    - intros n _ l h k [=].
    - intros l F l' h k [= <-] NE E. inversion E as [| |? Ex]; subst. destruct l as [|x l]; [contradiction|].
      inversion F as [|? ? F1 F2]; subst. inversion Ex as [|? ? E1 E2]; subst. cbn [RdfProofs.trips].
      destruct (object_some k (snd x) (expressible_value _ E1)) as (r & t & k2 & Er).
      destruct (match t with Some (h, _) => trips (snd x) h k2 | None => ([], k2) end) as [n k3] eqn:En.
      destruct (trips_items trips (Some h) None l k3) as [m k4] eqn:Em.
      rewrite (items_cons None (Some h) x l k _ _ _ _ _ _ _ _ _ eq_refl Er En Em). cbn [fst link app].
      destruct (items_collection l F2 E2 h k3) as (t' & I1 & C). rewrite Em in I1, C. cbn [fst] in I1, C.
      assert (S1 : incl n ((h, r_first, r) :: n ++ m)) by (intros z I; right; apply in_or_app; left; exact I).
      assert (S2 : incl m ((h, r_first, r) :: n ++ m)) by (intros z I; right; apply in_or_app; right; exact I).
      eapply CoCons; [left; reflexivity| |apply S2, I1|eapply collection_incl; [exact S2|exact C]].
      apply (proj1 (collection_mono _ _ S1)). eapply object_stands; eassumption.
  Qed.

  (** One node per item. *)
  Lemma subjects_app p T T' : subjects p (T ++ T') = subjects p T ++ subjects p T'.
  Proof. apply flat_map_app. Qed.
  Lemma subjects_first s r T : subjects r_first ((s, r_first, r) :: T) = s :: subjects r_first T. Proof. reflexivity. Qed.
  Lemma subjects_first_rest s r T : subjects r_first ((s, r_rest, r) :: T) = subjects r_first T. Proof. reflexivity. Qed.
  Lemma subjects_rest s r T : subjects r_rest ((s, r_rest, r) :: T) = s :: subjects r_rest T. Proof. reflexivity. Qed.
  Lemma subjects_rest_first s r T : subjects r_rest ((s, r_first, r) :: T) = subjects r_rest T. Proof. reflexivity. Qed.

  Definition indexes (J : list nat) (a b : nat) : Prop := NoDup J /\ Forall (fun j => a <= j < b) J.
  Lemma indexes_app J J' a b c : a <= b -> b <= c -> indexes J a b -> indexes J' b c -> indexes (J ++ J') a c.
  Proof.
    intros L1 L2 [N1 F1] [N2 F2]. split.
    - rewrite Forall_forall in F1, F2. revert N1 F1. induction J as [|j J IH]; intros N1 F1; [exact N2|]. inversion N1; subst. constructor.
      + rewrite in_app_iff. intros [I|I]; [contradiction|]. specialize (F1 j (or_introl eq_refl)). specialize (F2 j I). lia.
      + apply IH; [assumption|]. intros z Iz. apply F1. right. exact Iz.
    - apply Forall_app. split; [eapply Forall_impl; [|exact F1]|eapply Forall_impl; [|exact F2]]; intros z; cbn; lia.
  Qed.
  Lemma indexes_weaken J a b a' b' : a' <= a -> b <= b' -> indexes J a b -> indexes J a' b'.
  Proof. intros L1 L2 [N F]. split; [exact N|]. eapply Forall_impl; [|exact F]. intros z. cbn. lia. Qed.
  Lemma indexes_one a b : a < b -> indexes [a] a b.
  Proof. intros L. split; [repeat constructor; intros []|repeat constructor; lia]. Qed.

  Definition o_cells (o : obj) : Prop := expressible o -> forall j k T k1, j < k -> trips o (gen j) k = (T, k1) -> (exists l, o = OList l /\ l <> []) ->
    k <= k1 /\ exists J, indexes J k k1 /\ subjects r_first T = gen j :: map gen J /\ length (subjects r_first T) = cells o /\ Permutation (subjects r_rest T) (subjects r_first T).
  Lemma nested_cells k x r t k' n k3 : o_cells x -> expressible x -> object_rdf k x = (Some (r, t), k') ->
    match t with Some (h, _) => trips x h k' | None => ([], k') end = (n, k3) ->
    k <= k3 /\ exists J, indexes J k k3 /\ subjects r_first n = map gen J /\ length (subjects r_first n) = cells x /\ Permutation (subjects r_rest n) (subjects r_first n).
  Proof.
    intros O E Er En. pose proof (object_gen _ _ _ _ Er) as G. destruct t as [[h l]|].
    - destruct (object_rdf_list _ _ _ _ _ _ _ _ _ Er) as (-> & NE & -> & -> & ->).
      destruct (O E k (S k) n k3 (Nat.lt_succ_diag_r k) En (ex_intro _ l (conj eq_refl NE))) as (L & J & IJ & E1 & E2 & P).
      split; [lia|]. exists (k :: J). split; [|auto]. apply (indexes_app [k] J k (S k) k3); auto; try lia. apply indexes_one. lia.
    - injection En as <- <-. split; [exact G|]. exists []. split; [split; constructor|]. split; [reflexivity|]. split; [|constructor].
      pose proof (object_denotes _ _ _ _ _ Er) as D. inversion D; subst; try reflexivity. cbn in Er. discriminate.
  Qed.
  Definition opts (o : option vid) : list vid := match o with Some x => [x] | None => [] end.
  Lemma items_cells l : Forall (fun y => o_cells (snd y)) l -> Forall (fun y => expressible (snd y)) l -> forall p k T k1,
    trips_items trips (Some p) None l k = (T, k1) ->
    k <= k1 /\ exists J, indexes J k k1 /\ subjects r_first T = map gen J /\ length (subjects r_first T) = cells (OList l) /\ Permutation (subjects r_rest T) (p :: subjects r_first T).
  Proof.
    induction 1 as [|x l O F IH]; intros E p k T k1 ET.
    - cbn in ET. injection ET as <- <-. split; [lia|]. exists []. split; [split; constructor|]. cbn. auto.
    - inversion E as [|? ? E1 E2]; subst. destruct (object_some (S k) (snd x) (expressible_value _ E1)) as (r & t & k2 & Er).
      destruct (match t with Some (h, _) => trips (snd x) h k2 | None => ([], k2) end) as [n k3] eqn:En.
      destruct (trips_items trips (Some (gen k)) None l k3) as [m k4] eqn:Em.
      rewrite (items_cons (Some p) None x l k _ _ _ _ _ _ _ _ _ eq_refl Er En Em) in ET. injection ET as <- <-.
      destruct (nested_cells _ _ _ _ _ _ _ O E1 Er En) as (L1 & J1 & I1 & A1 & B1 & P1).
      destruct (IH E2 _ _ _ _ Em) as (L2 & J2 & I2 & A2 & B2 & P2).
      split; [lia|]. exists (k :: J1 ++ J2). split.
      { apply (indexes_app [k] (J1 ++ J2) k (S k) k4); try lia; [apply indexes_one; lia|]. apply (indexes_app J1 J2 (S k) k3 k4); auto; lia. }
      cbn [link app]. rewrite subjects_first_rest, subjects_first, subjects_rest, subjects_rest_first, !subjects_app.
      split; [cbn [map]; rewrite map_app; congruence|]. split.
      + change (cells (OList (x :: l))) with (S (cells (snd x)) + cells (OList l)). cbn [length]. rewrite app_length, B1, B2. reflexivity.
      + constructor. rewrite P1, P2. symmetry. apply Permutation_middle.
  Qed.
  Lemma trips_cells : (forall o, o_cells o) /\ (forall n : node, True).
  Proof.
    apply (obj_node_ind o_cells (fun _ => True)); try (intros; exact I).
    - intros v _ j k T k1 _ _ (l & [=] & _).
    - intros n _ _ j k T k1 _ _ (l & [=] & _).
    - intros l F E j k T k1 Lt ET (l' & [= <-] & NE). inversion E as [| |? Ex]; subst. destruct l as [|x l]; [contradiction|].
      inversion F as [|? ? F1 F2]; subst. inversion Ex as [|? ? E1 E2]; subst. cbn [RdfProofs.trips] in ET.
      destruct (object_some k (snd x) (expressible_value _ E1)) as (r & t & k2 & Er).
      destruct (match t with Some (h, _) => trips (snd x) h k2 | None => ([], k2) end) as [n k3] eqn:En.
      destruct (trips_items trips (Some (gen j)) None l k3) as [m k4] eqn:Em.
      rewrite (items_cons None (Some (gen j)) x l k _ _ _ _ _ _ _ _ _ eq_refl Er En Em) in ET. injection ET as <- <-. cbn [link app].
      destruct (nested_cells _ _ _ _ _ _ _ F1 E1 Er En) as (L1 & J1 & I1 & A1 & B1 & P1).
      destruct (items_cells l F2 E2 _ _ _ _ Em) as (L2 & J2 & I2 & A2 & B2 & P2).
      split; [lia|]. exists (J1 ++ J2). split; [apply (indexes_app J1 J2 k k3 k4); auto|].
      rewrite subjects_first, subjects_rest_first, !subjects_app. split; [rewrite map_app; congruence|]. split.
      + change (cells (OList (x :: l))) with (S (cells (snd x)) + cells (OList l)). cbn [length]. rewrite app_length, B1, B2. reflexivity.
      + rewrite P1, P2. symmetry. apply Permutation_middle.
  Qed.

  (** ** Membership *)
  Definition conv := conv io gen dir generalized.
  Definition conv_all := conv_all io gen dir generalized.
  Lemma conv_all_in L : forall k q, In q L -> exists k', incl (fst (conv q k')) (conv_all L k).
  Proof.
    induction L as [|q L IH]; intros k q' I; [destruct I|]. destruct I as [<-|I].
    - exists k. intros z Iz. apply in_or_app. left. exact Iz.
    - destruct (IH (snd (conv q k)) q' I) as [k' S]. exists k'. intros z Iz. apply in_or_app. right. apply S, Iz.
  Qed.
  Lemma conv_all_from L : forall k Q, In Q (conv_all L k) -> exists q k', In q L /\ In Q (fst (conv q k')).
  Proof.
    induction L as [|q L IH]; intros k Q I; [destruct I|]. apply in_app_or in I. destruct I as [I|I].
    - exists q, k. split; [left; reflexivity|exact I].
    - destruct (IH _ _ I) as (q' & k' & I1 & I2). exists q', k'. split; [right; exact I1|exact I2].
  Qed.
  (** The subject of the triples of lists are generated identifiers. *)
  Lemma trips_subject : (forall o j k, Forall (fun t => exists i, fst (fst t) = gen i) (fst (trips o (gen j) k))) /\ (forall n : node, True).
  Proof.
    apply (obj_node_ind (fun o => forall j k, Forall (fun t => exists i, fst (fst t) = gen i) (fst (trips o (gen j) k))) (fun _ => True));
      try (intros; exact I); try (intros; constructor).
    intros l F j k. cbn [RdfProofs.trips].
    enough (H : forall prev hd k, (forall p, prev = Some p -> exists i, p = gen i) -> (forall p, hd = Some p -> exists i, p = gen i) ->
      Forall (fun t => exists i, fst (fst t) = gen i) (fst (trips_items trips prev hd l k))) by (apply H; [discriminate|intros p [= <-]; eauto]).
    clear j k. induction F as [|x l O F IH]; intros prev hd k Hp Hh; cbn [RdfProofs.trips_items].
    - destruct prev; cbn; repeat constructor. cbn. eauto.
    - assert (Hi : exists i, fst (match hd with Some h => (h, k) | None => (gen k, S k) end) = gen i) by (destruct hd; cbn; eauto).
      destruct (match hd with Some h => _ | None => _ end) as [i k1]. cbn in Hi. destruct Hi as [i0 ->]. destruct (object_rdf k1 (snd x)) as [[[r t]|] k2] eqn:Er;
        [|apply IH; [intros p [= <-]; eauto|discriminate]].
      destruct (match t with Some (h', _) => trips (snd x) h' k2 | None => ([], k2) end) as [n k3] eqn:En.
      specialize (IH (Some (gen i0)) None k3). destruct (trips_items trips (Some (gen i0)) None l k3) as [m k4]. cbn [fst] in *.
      apply Forall_app. split; [destruct prev; cbn; repeat constructor; cbn; eauto|].
      constructor; [cbn; eauto|]. apply Forall_app. split; [|apply IH; [intros p [= <-]; eauto|discriminate]].
      destruct t as [[h' l']|]; [|injection En as <- _; constructor].
      destruct (object_rdf_list _ _ _ _ _ _ _ _ _ Er) as (_ & _ & _ & -> & _). specialize (O k1 k2). rewrite En in O. exact O.
  Qed.
End Terms.

(** ** JSON-LD quads and occurrences *)
Inductive ldq_of (a : option id) (n : node) : ldquad -> Prop :=
| LoType i t : n_id n = Some i -> In t (opt_list (n_types n)) -> ldq_of a n (MkLq a i LType (LRef t))
| LoProp i p l y : n_id n = Some i -> In (p, l) (n_props n) -> In y l -> ldq_of a n (MkLq a i (LProp p) (LObj (snd y)))
| LoReverse i p l y j : n_id n = Some i -> In (p, l) (opt_list (n_reverse n)) -> In y l -> n_id (snd y) = Some j -> ldq_of a n (MkLq a j (LProp p) (LNode n)).
Lemma ld_n_in g n q : In q (ld_n g n) <-> exists i, n_id n = Some i /\
  (ldq_of g n q \/ (exists p y, In p (n_props n) /\ In y (snd p) /\ In q (ld_ob g (snd y))) \/
   (exists p y, In p (opt_list (n_reverse n)) /\ In y (snd p) /\ In q (ld_n g (snd y))) \/
   (exists y, In y (opt_list (n_included n)) /\ In q (ld_n g (snd y))) \/
   (exists y, In y (opt_list (n_graph n)) /\ In q (ld_ob (Some i) (snd y)))).
Proof.
  destruct n as [[i|] ts gr inc ps rs]; [|split; [intros []|intros (i & [=] & _)]].
  cbn [ld_n n_id n_types n_graph n_included n_props n_reverse]. rewrite !in_app_iff. split.
  - intros H. exists i. split; [reflexivity|]. destruct H as [H|[H|[H|[H|H]]]].
    + left. destruct ts as [l|]; [|destruct H]. apply in_map_iff in H. destruct H as (t & <- & It). constructor; [reflexivity|exact It].
    + apply in_flat_map in H. destruct H as ([p l] & Ip & H). apply in_flat_map in H. destruct H as (y & Iy & [<-|H]).
      * left. eapply LoProp; [reflexivity|exact Ip|exact Iy].
      * right. left. exists (p, l), y. auto.
    + destruct rs as [l|]; [|destruct H]. apply in_flat_map in H. destruct H as ([p l'] & Ip & H). apply in_flat_map in H. destruct H as (y & Iy & H).
      apply in_app_or in H. destruct H as [H|H].
      * left. cbn in H. destruct (n_id (snd y)) as [j|] eqn:Ej; [|destruct H]. destruct H as [<-|[]]. eapply LoReverse; [reflexivity|exact Ip|exact Iy|exact Ej].
      * right. right. left. exists (p, l'), y. auto.
    + destruct inc as [l|]; [|destruct H]. apply in_flat_map in H. destruct H as (y & Iy & H). right. right. right. left. exists y. auto.
    + destruct gr as [l|]; [|destruct H]. apply in_flat_map in H. destruct H as (y & Iy & H). right. right. right. right. exists y. auto.
  - intros (i' & [= <-] & H). destruct H as [H|[H|[H|[H|H]]]].
    + inversion H as [i0 t Ei It E|i0 p l y Ei Ip Iy E|i0 p l y j Ei Ip Iy Ej E]; subst; cbn in Ei; injection Ei as <-.
      * left. cbn in It. destruct ts; [|destruct It]. apply (in_map (fun t => MkLq g i LType (LRef t))), It.
      * right. left. apply in_flat_map. exists (p, l). split; [exact Ip|]. apply in_flat_map. exists y. split; [exact Iy|left; reflexivity].
      * right. right. left. cbn in Ip. destruct rs; [|destruct Ip]. apply in_flat_map. exists (p, l). split; [exact Ip|]. apply in_flat_map. exists y. split; [exact Iy|].
        apply in_or_app. left. rewrite Ej. left. reflexivity.
    + destruct H as (p & y & Ip & Iy & H). right. left. apply in_flat_map. exists p. split; [exact Ip|]. apply in_flat_map. exists y. split; [exact Iy|right; exact H].
    + destruct H as (p & y & Ip & Iy & H). right. right. left. destruct rs; [|destruct Ip]. apply in_flat_map. exists p. split; [exact Ip|]. apply in_flat_map. exists y. split; [exact Iy|].
      apply in_or_app. right. exact H.
    + destruct H as (y & Iy & H). right. right. right. left. destruct inc; [|destruct Iy]. apply in_flat_map. exists y. auto.
    + destruct H as (y & Iy & H). right. right. right. right. destruct gr; [|destruct Iy]. apply in_flat_map. exists y. auto.
Qed.
Lemma ld_in_seen : (forall o g q, In q (ld_ob g o) -> exists b n, seen g o b n /\ ldq_of b n q) /\ (forall n g q, In q (ld_n g n) -> exists b m, seen_node g n b m /\ ldq_of b m q).
Proof.
  apply (obj_node_ind (fun o => forall g q, In q (ld_ob g o) -> exists b n, seen g o b n /\ ldq_of b n q)
    (fun n => forall g q, In q (ld_n g n) -> exists b m, seen_node g n b m /\ ldq_of b m q)).
  - intros v g q [].
  - intros n IH g q H. destruct (IH g q H) as (b & m & S & Q). exists b, m. split; [constructor; exact S|exact Q].
  - intros l F g q H. apply in_flat_map in H. destruct H as (y & Iy & H). destruct (Forall_in _ _ _ F Iy g q H) as (b & m & S & Q).
    exists b, m. split; [eapply SeList; eassumption|exact Q].
  - intros i ts gr inc ps rs Hg Hi Hp Hr g q H. apply ld_n_in in H. destruct H as (i' & Ei & H). destruct H as [H|[H|[H|[H|H]]]].
    + exists g. eexists. split; [apply SeSelf|exact H].
    + destruct H as (p & y & Ip & Iy & H). destruct (Forall_in _ _ _ (Forall_in _ _ _ Hp Ip) Iy g q H) as (b & m & S & Q). exists b, m. split; [eapply SeProp; eassumption|exact Q].
    + destruct H as (p & y & Ip & Iy & H). cbn in Ip. destruct rs as [rs|]; [|destruct Ip]. destruct (Forall_in _ _ _ (Forall_in _ _ _ Hr Ip) Iy g q H) as (b & m & S & Q). exists b, m. split; [eapply SeReverse; eassumption|exact Q].
    + destruct H as (y & Iy & H). cbn in Iy. destruct inc as [inc|]; [|destruct Iy]. destruct (Forall_in _ _ _ Hi Iy g q H) as (b & m & S & Q). exists b, m. split; [eapply SeIncluded; eassumption|exact Q].
    + destruct H as (y & Iy & H). cbn in Iy. destruct gr as [gr|]; [|destruct Iy]. destruct (Forall_in _ _ _ Hg Iy _ q H) as (b & m & S & Q). exists b, m. split; [eapply SeGraph; eassumption|exact Q].
Qed.
Lemma seen_ld : (forall o g b n q, seen g o b n -> ldq_of b n q -> In q (ld_ob g o)) /\ (forall n g b m q, seen_node g n b m -> ldq_of b m q -> In q (ld_n g n)).
Proof.
  apply (obj_node_ind (fun o => forall g b n q, seen g o b n -> ldq_of b n q -> In q (ld_ob g o))
    (fun n => forall g b m q, seen_node g n b m -> ldq_of b m q -> In q (ld_n g n))).
  - intros v g b n q S. inversion S.
  - intros n IH g b m q S Q. inversion S; subst. eapply IH; eassumption.
  - intros l F g b m q S Q. inversion S as [|? ? y ? ? Iy S']; subst. cbn [ld_ob]. apply in_flat_map. exists y. split; [exact Iy|]. eapply (Forall_in _ _ _ F Iy); eassumption.
  - intros i ts gr inc ps rs Hg Hi Hp Hr g b m q S Q. apply ld_n_in. inversion S as [? ?|? ? i' y ? ? Ei Iy S'|? ? i' y ? ? Ei Iy S'|? ? i' p y ? ? Ei Ip Iy S'|? ? i' p y ? ? Ei Ip Iy S']; subst.
    + assert (E : exists i', n_id (MkNode i ts gr inc ps rs) = Some i') by (inversion Q; eauto). destruct E as [i' E]. exists i'. split; [exact E|]. left. exact Q.
    + exists i'. split; [exact Ei|]. cbn in Iy. destruct gr as [gr|]; [|destruct Iy]. right. right. right. right. exists y. split; [exact Iy|]. eapply (Forall_in _ _ _ Hg Iy); eassumption.
    + exists i'. split; [exact Ei|]. cbn in Iy. destruct inc as [inc|]; [|destruct Iy]. right. right. right. left. exists y. split; [exact Iy|]. eapply (Forall_in _ _ _ Hi Iy); eassumption.
    + exists i'. split; [exact Ei|]. right. left. exists p, y. split; [exact Ip|]. split; [exact Iy|]. eapply (Forall_in _ _ _ (Forall_in _ _ _ Hp Ip) Iy); eassumption.
    + exists i'. split; [exact Ei|]. cbn in Ip. destruct rs as [rs|]; [|destruct Ip]. right. right. left. exists p, y. split; [exact Ip|]. split; [exact Iy|]. eapply (Forall_in _ _ _ (Forall_in _ _ _ Hr Ip) Iy); eassumption.
Qed.
Lemma doc_ld d q : In q (frames_out (doc_frames d)) <-> exists b n, seen_in d b n /\ ldq_of b n q.
Proof.
  unfold frames_out, doc_frames. cbn [flat_map fr_out]. rewrite app_nil_r, in_flat_map. split.
  - intros (y & Iy & H). destruct (proj1 ld_in_seen _ _ _ H) as (b & n & S & Q). exists b, n. split; [exists y; auto|exact Q].
  - intros (b & n & (y & Iy & S) & Q). exists y. split; [exact Iy|]. eapply (proj1 seen_ld); eassumption.
Qed.
(** When all nodes have an identifier, all the occurrences are seen. *)
Lemma occurs_seen : (forall o a x b z m, (forall b z m, occurs a x o b z m -> exists i, n_id m = Some i) -> occurs a x o b z m -> seen a o b m) /\
  (forall n a x b z m, (forall b z m, occurs_node a x n b z m -> exists i, n_id m = Some i) -> occurs_node a x n b z m -> seen_node a n b m).
Proof.
  apply (obj_node_ind (fun o => forall a x b z m, (forall b z m, occurs a x o b z m -> exists i, n_id m = Some i) -> occurs a x o b z m -> seen a o b m)
    (fun n => forall a x b z m, (forall b z m, occurs_node a x n b z m -> exists i, n_id m = Some i) -> occurs_node a x n b z m -> seen_node a n b m)).
  - intros v a x b z m _ O. inversion O.
  - intros n IH a x b z m H O. inversion O; subst. constructor. eapply IH; [|eassumption]. intros b' z' m' O'. eapply H. constructor. exact O'.
  - intros l F a x b z m H O. inversion O as [|? ? ? y ? ? ? Iy O']; subst. eapply SeList; [exact Iy|]. eapply (Forall_in _ _ _ F Iy); [|exact O'].
    intros b' z' m' O2. eapply H. eapply OcList; eassumption.
  - intros i ts gr inc ps rs Hg Hi Hp Hr a x b z m H O.
    destruct (H a x _ (OcSelf a x (MkNode i ts gr inc ps rs))) as [i' Ei].
    inversion O as [|? ? ? i2 y ? ? ? Ei2 Iy O'|? ? ? y ? ? ? Iy O'|? ? ? p y ? ? ? Ip Iy O'|? ? ? p y ? ? ? Ip Iy O']; subst.
    + apply SeSelf.
    + assert (I2 := Iy). cbn in I2. destruct gr as [gr|]; [|destruct I2]. eapply SeGraph; [exact Ei2|exact Iy|]. eapply (Forall_in _ _ _ Hg I2); [|exact O'].
      intros b' z' m' O2. eapply H. eapply OcGraph; eassumption.
    + assert (I2 := Iy). cbn in I2. destruct inc as [inc|]; [|destruct I2]. eapply SeIncluded; [exact Ei|exact Iy|]. eapply (Forall_in _ _ _ Hi I2); [|exact O'].
      intros b' z' m' O2. eapply H. eapply OcIncluded; eassumption.
    + eapply SeProp; [exact Ei|exact Ip|exact Iy|]. eapply (Forall_in _ _ _ (Forall_in _ _ _ Hp Ip) Iy); [|exact O'].
      intros b' z' m' O2. eapply H. eapply OcProp; eassumption.
    + assert (I2 := Ip). cbn in I2. destruct rs as [rs|]; [|destruct I2]. eapply SeReverse; [exact Ei|exact Ip|exact Iy|]. eapply (Forall_in _ _ _ (Forall_in _ _ _ Hr I2) Iy); [|exact O'].
      intros b' z' m' O2. eapply H. eapply OcReverse; eassumption.
Qed.
Lemma occurs_in_seen d b z n : identified d -> occurs_in d b z n -> seen_in d b n.
Proof.
  intros Id (y & Iy & O). exists y. split; [exact Iy|]. eapply (proj1 occurs_seen); [|exact O]. intros b' z' m O'. apply (Id b' z' m). exists y. auto.
Qed.
Lemma seen_occurs : (forall o a x b m, seen a o b m -> exists z, occurs a x o b z m) /\ (forall n a x b m, seen_node a n b m -> exists z, occurs_node a x n b z m).
Proof.
  apply (obj_node_ind (fun o => forall a x b m, seen a o b m -> exists z, occurs a x o b z m) (fun n => forall a x b m, seen_node a n b m -> exists z, occurs_node a x n b z m)).
  - intros v a x b m S. inversion S.
  - intros n IH a x b m S. inversion S as [? ? ? ? S'|]; subst. destruct (IH a x b m S') as [z O]. exists z. constructor. exact O.
  - intros l F a x b m S. inversion S as [|? ? y ? ? Iy S']; subst. destruct (Forall_in _ _ _ F Iy a (fst y) b m S') as [z O]. exists z. eapply OcList; eassumption.
  - intros i ts gr inc ps rs Hg Hi Hp Hr a x b m S. inversion S as [? ?|? ? i' y ? ? Ei Iy S'|? ? i' y ? ? Ei Iy S'|? ? i' p y ? ? Ei Ip Iy S'|? ? i' p y ? ? Ei Ip Iy S']; subst.
    + exists x. apply OcSelf.
    + assert (I2 := Iy). cbn in I2. destruct gr as [gr|]; [|destruct I2]. destruct (Forall_in _ _ _ Hg I2 _ (fst y) b m S') as [z O]. exists z. eapply OcGraph; eassumption.
    + assert (I2 := Iy). cbn in I2. destruct inc as [inc|]; [|destruct I2]. destruct (Forall_in _ _ _ Hi I2 _ (fst y) b m S') as [z O]. exists z. eapply OcIncluded; eassumption.
    + destruct (Forall_in _ _ _ (Forall_in _ _ _ Hp Ip) Iy _ (fst y) b m S') as [z O]. exists z. eapply OcProp; eassumption.
    + assert (I2 := Ip). cbn in I2. destruct rs as [rs|]; [|destruct I2]. destruct (Forall_in _ _ _ (Forall_in _ _ _ Hr I2) Iy _ (fst y) b m S') as [z O]. exists z. eapply OcReverse; eassumption.
Qed.
Lemma seen_occurs_in d b n : seen_in d b n -> exists z, occurs_in d b z n.
Proof. intros (y & Iy & S). destruct (proj1 seen_occurs _ _ (fst y) _ _ S) as [z O]. exists z, y. auto. Qed.

(** Compaction: panics, and the values that are kept. *)
From Verif Require Import Prelude Json Str Keyword Enums LangTag LangString Container Stack ContextSyntax Ctx Inverse Process
  Object ObjectJson AddValue CompactIri Expand Compact CompactValue.

(** ** Results *)

(** No panic, and a property of the result. *)
Definition safe {A} (P : A -> Prop) (r : result A kerr) : Prop := match r with Ok x => P x | Err e => e <> KePanic end.
Lemma safe_bind {A B} (P : A -> Prop) (Q : B -> Prop) r f : safe P r -> (forall x, P x -> safe Q (f x)) -> safe Q (bind r f).
Proof. destruct r; cbn; auto. Qed.
Lemma safe_imp {A} (P Q : A -> Prop) r : (forall x, P x -> Q x) -> safe P r -> safe Q r.
Proof. destruct r; cbn; auto. Qed.
Lemma safe_fold {A B} (P : A -> Prop) (f : A -> B -> result A kerr) l : (forall a b, In b l -> P a -> safe P (f a b)) ->
  forall a, P a -> safe P (fold_r f a l).
Proof.
  induction l as [|b l IH]; intros H a Pa; cbn [fold_r]; [exact Pa|].
  pose proof (H a b (or_introl eq_refl) Pa) as S. destruct (f a b) as [a'|]; [|exact S]. apply IH; [|exact S]. intros a0 b0 I. apply H. right. exact I.
Qed.
Lemma safe_flat {A B} (f : A -> result (list B) kerr) l : (forall a, In a l -> safe (fun _ => True) (f a)) -> safe (fun _ => True) (flat_r f l).
Proof.
  induction l as [|a l IH]; intros H; cbn [flat_r]; [exact I|]. eapply safe_bind; [apply H; left; reflexivity|]. intros x _.
  eapply safe_bind; [apply IH; intros b J; apply H; right; exact J|]. intros y _. exact I.
Qed.
Lemma safe_map {A B} (f : A -> result B kerr) l : (forall a, In a l -> safe (fun _ => True) (f a)) -> safe (fun _ => True) (map_r f l).
Proof.
  induction l as [|a l IH]; intros H; cbn [map_r]; [exact I|]. eapply safe_bind; [apply H; left; reflexivity|]. intros x _.
  eapply safe_bind; [apply IH; intros b J; apply H; right; exact J|]. intros y _. exact I.
Qed.
Definition any {A} : A -> Prop := fun _ => True.
Definition once (m : jobject) : Prop := NoDup (keys m).

Lemma kadd_safe m k v b : once m -> safe once (kadd m k v b).
Proof. intros N. unfold kadd. destruct (add_value_ok v m k b N) as (m' & -> & O). exact (proj1 O). Qed.
Lemma insert_once k v m : once m -> once (insert k v m).
Proof. apply nodup_insert. Qed.
Lemma nil_once : once [].
Proof. constructor. Qed.

Section Panics.
Variables (io : iops) (ld : loader) (rel : string -> string -> string) (pf : nat) (o : copts).
Notation kiri := (kiri rel o).
Notation kiri_with := (kiri_with rel o).
Notation kkey := (kkey rel o).
Notation put := (put rel o).

Lemma body_panic av c m t v vo re : (forall i, av i <> Err IEPanic) -> compact_body rel av c m t v vo re <> Err IEPanic.
Proof.
  intros A. unfold compact_body, compact_tail, selection_of.
  repeat match goal with
  | |- (match av ?i with _ => _ end) <> _ => let E := fresh in destruct (av i) eqn:E; [|intros X; injection X as ->; exact (A _ E)]
  | |- context [bind (av ?i)] => let E := fresh in destruct (av i) eqn:E; cbn [bind]
  | |- Ok _ <> _ => discriminate
  | |- Err IEConfused <> _ => discriminate
  | H : av ?i = Err ?e |- Err ?e <> _ => intros X; injection X as ->; exact (A _ H)
  | |- context [match ?x with _ => _ end] => destruct x; cbn [bind]
  end.
Qed.
Lemma iri_panic c m t vo re : compact_iri rel c m t vo re <> Err IEPanic.
Proof. unfold compact_iri. apply body_panic. discriminate. Qed.
Lemma full_panic c m t v vo re : compact_iri_full rel c m t v vo re <> Err IEPanic.
Proof.
  unfold compact_iri_full. apply body_panic. intros i. unfold as_vocab.
  destruct (compact_iri rel c m (TmId i) true false) as [[k|]|e] eqn:E; cbn [bind]; try discriminate.
  - exfalso. refine (compact_some _ _ _ _ _ _ E). discriminate.
  - intros X. injection X as ->. exact (iri_panic _ _ _ _ _ E).
Qed.
Lemma kiri_safe c t v : safe (fun k => t <> TmNull -> k <> None) (kiri c t v).
Proof.
  unfold Compact.kiri. destruct (compact_iri rel c (co_mode o) t v false) as [k|[]] eqn:E; cbn; try discriminate.
  - intros N ->. exact (compact_some _ _ _ _ _ N E).
  - destruct (iri_panic _ _ _ _ _ E).
Qed.
Lemma kiri_with_safe c t x r : safe any (kiri_with c t x r).
Proof.
  unfold Compact.kiri_with. destruct (compact_iri_full rel c (co_mode o) t (Some x) true r) as [k|[]] eqn:E; cbn; try discriminate; try exact I.
  destruct (full_panic _ _ _ _ _ _ E).
Qed.
Lemma unwrap_safe c t v : t <> TmNull -> safe any (kunwrap (kiri c t v)).
Proof.
  intros N. unfold kunwrap. pose proof (kiri_safe c t v) as S. destruct (kiri c t v) as [[k|]|]; cbn in *; try exact I; try exact S.
  destruct (S N eq_refl).
Qed.
Lemma key_safe c kw : safe any (kkey c kw).
Proof. apply unwrap_safe. discriminate. Qed.
Lemma put_safe c kw v m : once m -> safe once (put c kw v m).
Proof. intros N. unfold Compact.put. eapply safe_bind; [apply key_safe|]. intros k _. apply insert_once, N. Qed.

(** The contexts met from a context: its previous context, and those obtained with the local
    contexts of its definitions. *)
Inductive derived (c0 : actx) : actx -> Prop :=
| DvSelf : derived c0 c0
| DvPrevious c p : derived c0 c -> ac_prev c = Some p -> derived c0 p
| DvScoped dc c k d lc po c' : derived c0 dc -> derived c0 c -> prop_def dc k = Some d -> nd_context d = Some lc ->
    process_full io ld pf c lc (nd_base_url d) po = Ok c' -> derived c0 c'.

(** No term has a nest value or a container that makes a map of its values. *)
Record unmapped (c : actx) : Prop := {
  um_nest : forall t d, assoc t (ac_defs c) = Some d -> nd_nest d = None;
  um_maps : forall t d x, assoc t (ac_defs c) = Some d -> In x (as_slice (nd_container d)) ->
    x <> CKLanguage /\ x <> CKIndex /\ x <> CKId /\ x <> CKType
}.
Lemma unmapped_nest c k d : unmapped c -> prop_def c (Some k) = Some d -> nd_nest d = None.
Proof. intros U. unfold prop_def, get_normal. destruct (streq k "@type"); [discriminate|]. apply (um_nest _ U). Qed.
Lemma unmapped_container c k x : unmapped c -> x = CKLanguage \/ x = CKIndex \/ x = CKId \/ x = CKType ->
  c_contains (container_of c k) x = false.
Proof.
  intros U X. unfold container_of, c_contains. destruct (streq k "@type").
  - destruct (ac_type c); destruct X as [->|[->|[->| ->]]]; reflexivity.
  - unfold get_normal. destruct (assoc k (ac_defs c)) as [d|] eqn:A; [|destruct X as [->|[->|[->| ->]]]; reflexivity].
    destruct (existsb _ _) eqn:B; [|reflexivity]. apply existsb_exists in B. destruct B as (y & I & Y).
    destruct (um_maps _ U _ _ _ A I) as (N1 & N2 & N3 & N4). destruct X as [->|[->|[->| ->]]], y; cbn in Y; (discriminate || congruence).
Qed.
Lemma unmapped_with_nest c k m f : unmapped c -> with_nest m c k f = f m.
Proof. intros U. unfold with_nest. destruct (prop_def c (Some k)) as [d|] eqn:D; [|reflexivity]. rewrite (unmapped_nest _ _ _ U D). reflexivity. Qed.

Lemma process_safe c lc u po : safe (fun c' => process_full io ld pf c lc u po = Ok c') (kprocess io ld pf c lc u po).
Proof. unfold kprocess, map_err. destruct (process_full io ld pf c lc u po); cbn; [reflexivity|discriminate]. Qed.
Lemma scoped_safe c0 dc c ap : derived c0 dc -> derived c0 c -> safe (derived c0) (scoped io ld pf o dc c ap).
Proof.
  intros D C. unfold scoped. destruct (prop_def dc ap) as [d|] eqn:P; [|exact C]. destruct (nd_context d) as [lc|] eqn:L; [|exact C].
  eapply safe_imp; [|apply process_safe]. intros c' E. exact (DvScoped _ _ _ _ _ _ _ _ D C P L E).
Qed.

(** Values never panic. *)
Lemma value_safe_in c ap ix v : safe any (compact_value_in rel o c ap ix v).
Proof.
  unfold compact_value_in.
  assert (F : forall m, once m -> safe any (do m <- (if negb (remove_index c ap ix) then match ix with Some i => put c KIndex (JStr i) m | None => Ok m end else Ok m) ; Ok (JObj m))).
  { intros m N. apply (safe_bind once); [|intros; exact I]. destruct (negb _); [destruct ix|]; try exact N. apply put_safe, N. }
  destruct v as [l t|s|j].
  - destruct (_ && _).
    + destruct l; try exact I. destruct (_ || _); [exact I|]. apply (safe_bind once); [apply put_safe, nil_once|]. intros m N. apply F, N.
    + apply (safe_bind once); [apply put_safe, nil_once|]. intros m N. apply (safe_bind once).
      * destruct t as [t|]; [|exact N]. apply (safe_bind any); [apply key_safe|]. intros k _.
        eapply safe_bind; [apply kiri_safe|]. intros x _. apply insert_once, N.
      * intros m' N'. apply F, N'.
  - destruct (_ && _); [exact I|]. apply (safe_bind once); [apply put_safe, nil_once|]. intros m N. apply (safe_bind once).
    { destruct (ls_language s); [apply put_safe, N|exact N]. }
    intros m1 N1. apply (safe_bind once).
    { destruct (ls_direction s); [apply put_safe, N1|exact N1]. }
    intros m2 N2. apply F, N2.
  - destruct (_ && _); [exact I|]. apply (safe_bind once); [apply put_safe, nil_once|]. intros m N.
    apply (safe_bind any); [apply key_safe|]. intros k _. eapply safe_bind; [apply kiri_safe|]. intros x _. apply F, insert_once, N.
Qed.

Section Items.
Variable c0 : actx.
Hypothesis UM : forall c, derived c0 c -> unmapped c.
Variable rec : option string -> obj -> actx -> actx -> option string -> result json kerr.
Hypothesis HR : forall ix x c tsc ap, derived c0 c -> derived c0 tsc -> safe any (rec ix x c tsc ap).

Lemma collection_safe l c tsc ap : derived c0 c -> derived c0 tsc -> safe any (compact_collection o rec l c tsc ap).
Proof.
  intros C T. unfold compact_collection. apply (safe_bind any); [|intros; exact I].
  apply safe_flat. intros x _. apply (safe_bind any); [apply HR; assumption|]. intros; exact I.
Qed.
Lemma list_safe l ix m cn b k c : derived c0 c -> once m -> safe once (compact_property_list rel o rec l ix m cn b k c).
Proof.
  intros C N. unfold compact_property_list. apply (safe_bind any); [apply collection_safe; assumption|]. intros j _.
  destruct (negb _); [|apply insert_once, N]. apply (safe_bind once); [apply put_safe, nil_once|]. intros x Nx.
  apply (safe_bind once); [destruct ix; [apply put_safe, Nx|exact Nx]|]. intros y _. apply kadd_safe, N.
Qed.
Lemma graph_safe n g ix m b k c : derived c0 c -> once m -> safe once (compact_property_graph rel o rec n g ix m (container_of c k) b k c).
Proof.
  intros C N. unfold compact_property_graph. apply (safe_bind any); [apply collection_safe; assumption|]. intros j _.
  rewrite (unmapped_container c k CKId), (unmapped_container c k CKIndex) by (auto; tauto). rewrite !andb_false_r. cbn [andb].
  destruct (_ && _).
  - apply (safe_bind any); [|intros; apply kadd_safe, N]. destruct j as [| | | |[|? [|]]|]; try exact I.
    apply (safe_bind once); [apply put_safe, nil_once|]. intros; exact I.
  - apply (safe_bind once); [apply put_safe, nil_once|]. intros x Nx. apply (safe_bind once).
    + destruct (n_id n) as [i|]; [|exact Nx]. apply (safe_bind any); [apply unwrap_safe; discriminate|]. intros ki _.
      eapply safe_bind; [apply kiri_safe|]. intros s _. apply insert_once, Nx.
    + intros y Ny. apply (safe_bind once); [destruct ix; [apply put_safe, Ny|exact Ny]|]. intros z _. apply kadd_safe, N.
Qed.
Lemma plain_safe x m b k c : derived c0 c -> once m -> safe once (compact_plain rel o rec x m (container_of c k) b k c).
Proof.
  intros C N. unfold compact_plain. apply (safe_bind any); [apply HR; assumption|]. intros j _.
  rewrite (unmapped_container c k CKLanguage), (unmapped_container c k CKIndex), (unmapped_container c k CKId), (unmapped_container c k CKType) by (auto; tauto).
  rewrite !andb_false_r. apply kadd_safe, N.
Qed.
Lemma item_safe t c r m x : derived c0 c -> once m -> safe once (compact_item rel o rec t c r m x).
Proof.
  intros C N. unfold compact_item. apply (safe_bind any); [apply kiri_with_safe|]. intros [k|] _; [|exact N].
  rewrite unmapped_with_nest by auto. destruct (snd x) as [v|n|l].
  - apply plain_safe; assumption.
  - destruct (if is_graph n then n_graph n else None); [apply graph_safe|apply plain_safe]; assumption.
  - apply list_safe; assumption.
Qed.
Lemma property_safe t l c r m : derived c0 c -> once m -> safe once (compact_property rel o rec t l c r m).
Proof.
  intros C N. unfold compact_property. destruct l as [|x l].
  - apply (safe_bind any); [apply kiri_with_safe|]. intros [k|] _; [|exact N]. rewrite unmapped_with_nest by auto. apply kadd_safe, N.
  - apply safe_fold; [|exact N]. intros m' y _ N'. apply item_safe; assumption.
Qed.
Lemma types_context_safe tsc n c : derived c0 tsc -> derived c0 c -> safe (derived c0) (compact_types_context io ld rel pf o tsc n c).
Proof.
  intros T C. unfold compact_types_context. apply (safe_bind any).
  - apply safe_map. intros t _. apply unwrap_safe. discriminate.
  - intros ts _. apply safe_fold; [|exact C]. intros c' t _ C'. destruct (prop_def tsc (Some t)) as [d|] eqn:P; [|exact C'].
    destruct (nd_context d) as [lc|] eqn:L; [|exact C']. eapply safe_imp; [|apply process_safe]. intros c1 E. exact (DvScoped _ _ _ _ _ _ _ _ T C' P L E).
Qed.
Lemma types_safe tsc c ts m : once m -> safe once (compact_types rel o tsc c ts m).
Proof.
  intros N. unfold compact_types. destruct (opt_list ts) as [|t l]; [exact N|].
  apply (safe_bind any).
  - destruct l.
    + eapply safe_bind; [apply kiri_safe|]. intros; exact I.
    + apply (safe_bind any); [|intros; exact I]. apply safe_map. intros t' _. eapply safe_bind; [apply kiri_safe|]. intros; exact I.
  - intros v _. apply (safe_bind any); [apply key_safe|]. intros a _. apply kadd_safe, N.
Qed.
Lemma index_safe (c : actx) (ap : option string) ix m : once m ->
  safe once (match ix with Some i => if c_contains (container_ap c ap) CKIndex then Ok m else put c KIndex (JStr i) m | None => Ok m end).
Proof. intros N. destruct ix; [|exact N]. destruct (c_contains _ _); [exact N|apply put_safe, N]. Qed.
Lemma node_in_safe n ix c tsc ap : derived c0 c -> derived c0 tsc -> safe any (compact_node_in io ld rel pf o rec n ix c tsc ap).
Proof.
  intros C T. unfold compact_node_in. set (body := compact_node_body io ld rel pf o rec n ix c tsc ap).
  assert (B : forall m, once m -> safe any (body m)).
  { intros m N. unfold body, compact_node_body. apply (safe_bind once); [apply types_safe, N|]. intros m1 N1.
    apply (safe_bind (fun s => derived c0 (fst s) /\ once (snd s))).
    { destruct (opt_list (n_reverse n)) as [|r rs]; [split; assumption|].
      apply (safe_bind (derived c0)); [apply scoped_safe; assumption|]. intros c1 C1. apply (safe_bind once).
      { apply safe_fold; [|apply nil_once]. intros m' e _ N'. apply property_safe; assumption. }
      intros r' _. apply (safe_bind (fun s => once (fst s))).
      { apply (safe_fold (fun s => once (fst s))); [|exact N1]. intros [a b] [k v] _ Na. unfold reverse_step.
        destruct (match prop_def c1 (Some k) with Some _ => _ | None => _ end).
        - apply (safe_bind once); [apply kadd_safe, Na|]. intros m' N'. exact N'.
        - exact Na. }
      intros [m2 r2] N2. cbn in N2. apply (safe_bind once).
      { destruct r2; [exact N2|apply put_safe, N2]. }
      intros m3 N3. split; assumption. }
    intros [c1 m2] [C1 N2]. cbn in C1, N2. apply (safe_bind once); [apply index_safe, N2|]. intros m3 N3. apply (safe_bind once).
    { destruct (n_graph n); [apply property_safe; assumption|exact N3]. }
    intros m4 N4. apply (safe_bind once).
    { apply safe_fold; [|exact N4]. intros m' e _ N'. apply property_safe; assumption. }
    intros m5 N5. apply (safe_bind once); [|intros; exact I]. destruct (n_included n); [apply property_safe; assumption|exact N5]. }
  destruct (n_id n) as [i|]; [|apply B, nil_once].
  assert (D : safe any (do s <- kiri c (TmId i) false ; do alias <- kiri c (TmKw KId) true ;
                        body (match alias with Some k => insert k (opt_string s) [] | None => [] end))).
  { eapply safe_bind; [apply kiri_safe|]. intros s _. eapply safe_bind; [apply kiri_safe|]. intros a _. apply B.
    destruct a; [apply insert_once|]; apply nil_once. }
  destruct (if n_empty n then _ else _) as [[]|]; try exact D; (eapply safe_bind; [apply kiri_safe|]; intros; exact I).
Qed.
Lemma node_safe n ix c tsc ap : derived c0 c -> derived c0 tsc -> safe any (compact_node io ld rel pf o rec n ix c tsc ap).
Proof.
  intros C T. unfold compact_node. apply (safe_bind (derived c0)).
  { apply scoped_safe; [exact T|]. destruct (_ && _); [exact C|]. destruct (ac_prev c) eqn:P; [exact (DvPrevious _ _ _ C P)|exact C]. }
  intros c1 C1. apply (safe_bind (derived c0)); [apply types_context_safe; assumption|]. intros c2 C2. apply node_in_safe; assumption.
Qed.
Lemma list_object_safe l ix c tsc ap : derived c0 c -> derived c0 tsc -> safe any (compact_list io ld rel pf o rec l ix c tsc ap).
Proof.
  intros C T. unfold compact_list. apply (safe_bind (derived c0)).
  { apply scoped_safe; [exact T|]. destruct (ac_prev c) eqn:P; [exact (DvPrevious _ _ _ C P)|exact C]. }
  intros c1 C1. destruct (c_contains _ _); [apply collection_safe; assumption|].
  apply (safe_bind once); [apply property_safe; [assumption|apply nil_once]|]. intros m N. apply (safe_bind once); [apply index_safe, N|]. intros; exact I.
Qed.
End Items.

Theorem object_safe c0 : (forall c, derived c0 c -> unmapped c) -> forall n ix x c tsc ap, derived c0 c -> derived c0 tsc ->
  safe any (compact_object io ld rel pf o n ix x c tsc ap).
Proof.
  intros UM n. induction n as [|n IH]; intros ix x c tsc ap C T; cbn [compact_object]; [discriminate|]. destruct x as [v|y|l].
  - unfold compact_value. apply (safe_bind (derived c0)); [apply scoped_safe; assumption|]. intros; apply value_safe_in.
  - apply (node_safe c0); assumption.
  - apply (list_object_safe c0); assumption.
Qed.
Theorem document_safe n c j doc : (forall c', derived c c' -> unmapped c') -> safe any (compact io ld rel pf o n c j doc).
Proof.
  intros UM. unfold compact. apply (safe_bind any).
  - apply (collection_safe c); try constructor. intros. apply (object_safe c); assumption.
  - intros v _. unfold embed_context. apply (safe_bind any); [|intros; exact I]. destruct v as [| | | |[|x l]|m]; try exact I.
    apply (safe_bind any); [apply key_safe|]. intros; exact I.
Qed.
End Panics.

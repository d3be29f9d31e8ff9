(** Expansion under policies of which one is stricter. *)
From Verif Require Import Prelude Json Enums LangTag LangString Str Keyword Container ContextSyntax Ctx Process Object ObjectEq Expand.

Definition refines {A E} (r r' : result A E) : Prop := forall a, r = Ok a -> r' = Ok a.
Lemma refines_refl {A E} (r : result A E) : refines r r. Proof. intros a H. exact H. Qed.
Lemma refines_err {A E} (e : E) (r : result A E) : refines (Err e) r. Proof. intros a H. discriminate. Qed.
Lemma refines_bind {A B E} (r r' : result A E) (f f' : A -> result B E) :
  refines r r' -> (forall a, refines (f a) (f' a)) -> refines (do x <- r ; f x) (do x <- r' ; f' x).
Proof. intros H F b. destruct r as [a|e]; cbn; [|discriminate]. rewrite (H a eq_refl). apply F. Qed.
Lemma refines_map_err {A E F} (f : E -> F) (r r' : result A E) : refines r r' -> refines (map_err f r) (map_err f r').
Proof. intros H a. destruct r as [b|e]; cbn; [|discriminate]. rewrite (H b eq_refl). auto. Qed.
Lemma refines_fold {A B E} (f f' : A -> B -> result A E) : (forall a x, refines (f a x) (f' a x)) -> forall l a, refines (fold_r f a l) (fold_r f' a l).
Proof. intros H. induction l as [|x l IH]; intros a; cbn; [apply refines_refl|]. apply refines_bind; [apply H|intros b; apply IH]. Qed.
Lemma refines_flat {A B E} (f f' : A -> result (list B) E) : (forall x, refines (f x) (f' x)) -> forall l, refines (flat_r f l) (flat_r f' l).
Proof. intros H. induction l as [|x l IH]; cbn; [apply refines_refl|]. apply refines_bind; [apply H|intros y]. apply refines_bind; [apply IH|intros ys; apply refines_refl]. Qed.

(** ** Specification *)
(** An action at least as strict: it rejects, or does the same. *)
Definition stricter_action (a b : action) : Prop := a = AReject \/ a = b.
(** Options that differ by stricter policies. *)
Record stricter (o o' : xopts) : Prop := MkStricter {
  st_mode : xo_mode o = xo_mode o';
  st_ordered : xo_ordered o = xo_ordered o';
  st_invalid : stricter_action (xo_invalid o) (xo_invalid o');
  st_vocab : stricter_action (xo_vocab o) (xo_vocab o');
  st_undefined : xo_allow_undefined o = true -> xo_allow_undefined o' = true }.

Section Stricter.
Variables (io : iops) (ld : loader) (fin rnd : list word -> N) (pf : nat) (o o' : xopts) (base_url : option string).
Hypothesis St : stricter o o'.

Lemma popts_same : popts_of o = popts_of o'.
Proof. unfold popts_of. rewrite (st_mode _ _ St). reflexivity. Qed.
Lemma sorted_same l : entries_sorted o l = entries_sorted o' l.
Proof. unfold entries_sorted. rewrite (st_ordered _ _ St). reflexivity. Qed.
Lemma tail_refines c s dr a a' : stricter_action a a' -> refines (expand_tail io c s dr (Some a)) (expand_tail io c s dr (Some a')).
Proof.
  intros [->| ->]; [|apply refines_refl]. unfold expand_tail. destruct (ac_vocab c) as [[|i|k]|]; try apply refines_refl. apply refines_err.
Qed.
Lemma xiri_refines c s dr : refines (xiri io c s dr (Some (xo_vocab o))) (xiri io c s dr (Some (xo_vocab o'))).
Proof.
  pose proof (fun s => tail_refines c s dr _ _ (st_vocab _ _ St)) as T. unfold xiri. apply refines_map_err. unfold expand_iri_simple.
  destruct (xp_of_str s) as [k|x]; [apply refines_refl|].
  destruct (is_keyword_like x); [apply refines_refl|]. unfold expand_defined.
  assert (Ab : refines (expand_absolute io c x dr (Some (xo_vocab o))) (expand_absolute io c x dr (Some (xo_vocab o')))).
  { unfold expand_absolute. destruct (iri_ok io x); [apply refines_refl|apply T]. }
  destruct (get_value c x) as [[[|i|k]|]|]; try apply refines_refl.
  destruct (colon_inside x); [|apply T]. destruct (blank_ok io x); [apply refines_refl|]. destruct (streq x "_:"); [apply refines_refl|].
  destruct (compact_iri_of io x) as [[p y]|]; [|exact Ab]. destruct (expand_prefixed io c p y); [apply refines_refl|exact Ab].
Qed.
Lemma xkey_refines c k : refines (xkey io o c k) (xkey io o' c k).
Proof. apply refines_map_err, xiri_refines. Qed.
Lemma policy_refines i e : refines (invalid_policy o i e) (invalid_policy o' i e).
Proof. unfold invalid_policy. destruct i; try apply refines_refl. destruct (st_invalid _ _ St) as [->| ->]; [apply refines_err|apply refines_refl]. Qed.
Lemma undefined_refines {A} (a : A) (e : xerr) :
  refines (if match xo_invalid o with AReject => true | _ => false end || negb (xo_allow_undefined o) then Err e else Ok a)
          (if match xo_invalid o' with AReject => true | _ => false end || negb (xo_allow_undefined o') then Err e else Ok a).
Proof.
  destruct (st_invalid _ _ St) as [->| ->]; [apply refines_err|]. pose proof (st_undefined _ _ St) as U.
  destruct (xo_invalid o'); cbn; try apply refines_err; (destruct (xo_allow_undefined o); [rewrite (U eq_refl); apply refines_refl|apply refines_err]).
Qed.
Lemma literal_refines c ap v : refines (expand_literal io o c ap v) (expand_literal io o' c ap v).
Proof.
  unfold expand_literal. destruct (match prop_def c ap with Some d => nd_typ d | None => None end) as [[]|]; destruct v; try apply refines_refl.
  apply refines_bind; [apply refines_map_err, xiri_refines|intros t; apply refines_refl].
Qed.
Lemma value_refines it tsc es ve : refines (expand_value io o it tsc es ve) (expand_value io o' it tsc es ve).
Proof.
  unfold expand_value. apply refines_bind; [|intros s; apply refines_refl]. apply refines_fold. intros s [[x k] v]. unfold value_step.
  destruct k as [|i|k]; try apply refines_refl. destruct k; try apply refines_refl. destruct (as_str v); [|apply refines_refl].
  apply refines_bind; [apply refines_map_err, xiri_refines|intros t; apply refines_refl].
Qed.

Section Entries.
Variables rec rec' : actx -> option string -> json -> bool -> result expanded xerr.
Hypothesis Rec : forall c ap j m, refines (rec c ap j m) (rec' c ap j m).

Ltac same := first [apply refines_refl | apply refines_err | apply Rec | apply xkey_refines | apply policy_refines | apply undefined_refines
  | apply refines_map_err; first [apply xiri_refines | apply literal_refines | apply value_refines | apply refines_refl]].
Ltac go := repeat first [same | apply refines_bind; [|intros ?] | match goal with
  | |- refines (match ?x with _ => _ end) (match ?x with _ => _ end) => destruct x
  | |- refines (if ?x then _ else _) (if ?x then _ else _) => destruct x
  end].

Lemma types_refines tsc v n : refines (expand_types io o tsc v n) (expand_types io o' tsc v n).
Proof. unfold expand_types. apply refines_fold. intros m t. go. Qed.
Lemma reverse_refines c n e : refines (reverse_entry io o rec c n e) (reverse_entry io o' rec' c n e).
Proof. unfold reverse_entry. destruct e as [k v]. go. Qed.
Lemma language_refines c d m : refines (expand_language_map io o c d m) (expand_language_map io o' c d m).
Proof. unfold expand_language_map. rewrite sorted_same. apply refines_flat. intros e. apply refines_flat. intros x. go. Qed.
Lemma index_item_refines c cont ik ix x item : refines (index_item io fin rnd o c cont ik ix x item) (index_item io fin rnd o' c cont ik ix x item).
Proof. unfold index_item. go. Qed.
Lemma index_map_refines c d k m : refines (expand_index_map io ld fin rnd pf o rec c d k m) (expand_index_map io ld fin rnd pf o' rec' c d k m).
Proof.
  unfold expand_index_map. rewrite sorted_same, popts_same. apply refines_flat. intros [ix v]. apply refines_bind; [apply refines_refl|intros mc].
  apply refines_bind; [apply xkey_refines|intros x]. apply refines_bind; [apply Rec|intros ev]. apply refines_flat. intros item.
  apply refines_bind; [apply index_item_refines|intros r; apply refines_refl].
Qed.
Lemma property_refines c key v : refines (expand_property io ld fin rnd pf o rec c key v) (expand_property io ld fin rnd pf o' rec' c key v).
Proof.
  unfold expand_property. destruct (match prop_def c (Some key) with Some d => match nd_typ d with Some TyJson => true | _ => false end | None => false end); [apply refines_refl|].
  destruct v; try apply Rec. destruct (has_container _ CKLanguage); [apply refines_bind; [apply language_refines|intros; apply refines_refl]|].
  destruct (orb _ _); [apply refines_bind; [apply index_map_refines|intros; apply refines_refl]|apply Rec].
Qed.
Lemma property_entry_refines c key p v n : refines (property_entry io ld fin rnd pf o rec c key p v n) (property_entry io ld fin rnd pf o' rec' c key p v n).
Proof.
  unfold property_entry. destruct (id_has_colon p).
  - apply refines_bind; [apply policy_refines|intros keep]. destruct (negb keep); [apply refines_refl|]. apply refines_bind; [apply property_refines|intros x; apply refines_refl].
  - apply refines_bind; [apply policy_refines|intros keep]. pose proof (st_undefined _ _ St) as U. destruct (xo_allow_undefined o); [rewrite (U eq_refl); apply refines_refl|apply refines_err].
Qed.
Section Self.
Variables self self' : actx -> list xentry -> nstate -> result nstate xerr.
Hypothesis Self : forall c es s, refines (self c es s) (self' c es s).
Lemma nest_refines c key s v : refines (nest_entry io ld pf o self c key s v) (nest_entry io ld pf o' self' c key s v).
Proof.
  unfold nest_entry. rewrite popts_same. apply refines_bind; [apply refines_refl|intros c']. destruct v; try apply refines_err. rewrite sorted_same.
  apply refines_bind; [|intros es; apply Self]. apply refines_flat. intros e. go.
Qed.
Lemma keyword_refines ap c tsc s key k v : refines (keyword_entry io ld fin rnd pf o rec self ap c tsc s key k v) (keyword_entry io ld fin rnd pf o' rec' self' ap c tsc s key k v).
Proof.
  unfold keyword_entry. rewrite (st_mode _ _ St). destruct (ap_is ap KReverse); [apply refines_refl|]. destruct (andb _ _); [apply refines_refl|].
  destruct k; try apply refines_refl.
  all: try solve [go].
  - apply refines_fold. intros s' x. apply nest_refines.
  - destruct v; try apply refines_refl. rewrite sorted_same. apply refines_bind; [apply refines_fold; intros; apply reverse_refines|intros; apply refines_refl].
  - apply refines_bind; [apply types_refines|intros; apply refines_refl].
Qed.
Lemma entry_refines ap c tsc s e : refines (node_entry io ld fin rnd pf o rec self ap c tsc s e) (node_entry io ld fin rnd pf o' rec' self' ap c tsc s e).
Proof.
  unfold node_entry. destruct e as [[key t] v]. destruct t as [|p|k]; [apply refines_refl| |destruct k; try apply keyword_refines; apply refines_refl].
  apply refines_bind; [apply property_entry_refines|intros; apply refines_refl].
Qed.
End Self.
Lemma entries_refines ap tsc : forall m c es s, refines (node_entries io ld fin rnd pf o rec m ap tsc c es s) (node_entries io ld fin rnd pf o' rec' m ap tsc c es s).
Proof. induction m as [|m IH]; intros c es s; cbn; [apply refines_refl|]. apply refines_fold. intros s' e. apply entry_refines. exact IH. Qed.
Lemma node_refines m ap c tsc es : refines (expand_node io ld fin rnd pf o rec m ap c tsc es) (expand_node io ld fin rnd pf o' rec' m ap c tsc es).
Proof. unfold expand_node. apply refines_bind; [apply entries_refines|intros [r b]; apply refines_refl]. Qed.
Lemma context_refines c ap m fm : refines (element_context io ld pf o base_url c ap m fm) (element_context io ld pf o' base_url c ap m fm).
Proof.
  unfold element_context. rewrite popts_same. apply refines_bind; [|intros [hv hi]; apply refines_refl].
  unfold preliminary. apply refines_fold. intros s e. go.
Qed.
Lemma map_refines m c ap l fm : refines (expand_map io ld fin rnd pf o base_url rec m c ap l fm) (expand_map io ld fin rnd pf o' base_url rec' m c ap l fm).
Proof.
  unfold expand_map. apply refines_bind; [apply context_refines|intros tsc]. apply refines_bind; [|intros ts].
  { unfold type_entries. apply refines_bind; [apply refines_flat; intros e; go|intros; apply refines_refl]. }
  apply refines_bind; [unfold type_scoped; rewrite popts_same; apply refines_refl|intros c1]. apply refines_bind; [|intros it].
  { unfold input_type. go. }
  apply refines_bind; [unfold expand_entries; apply refines_flat; intros e; go|intros es].
  destruct (if is_some ap && negb (ap_is ap KGraph) then last_entry KList es else None).
  - apply refines_bind; [apply refines_refl|intros i]. apply refines_bind; [apply refines_flat; intros x; go|intros; apply refines_refl].
  - destruct (last_entry KSet es); [go|]. destruct (last_entry KValue es); [go|]. apply refines_bind; [apply node_refines|intros; apply refines_refl].
Qed.
Lemma scalar_refines c ap j : refines (expand_scalar io ld pf o c ap j) (expand_scalar io ld pf o' c ap j).
Proof. unfold expand_scalar. rewrite popts_same. go. Qed.
Lemma body_refines m c ap j fm : refines (element_body io ld fin rnd pf o base_url rec m c ap j fm) (element_body io ld fin rnd pf o' base_url rec' m c ap j fm).
Proof.
  unfold element_body. destruct j; try apply scalar_refines; try apply refines_refl; [|apply map_refines].
  apply refines_bind; [apply refines_flat; intros x; go|intros; apply refines_refl].
Qed.
End Entries.
Lemma element_refines : forall n c ap j fm, refines (expand_element io ld fin rnd pf o base_url n c ap j fm) (expand_element io ld fin rnd pf o' base_url n c ap j fm).
Proof. induction n as [|n IH]; intros c ap j fm; cbn [expand_element]; [apply refines_refl|]. apply body_refines. exact IH. Qed.
Lemma expand_refines n c doc : refines (expand io ld fin rnd pf o base_url n c doc) (expand io ld fin rnd pf o' base_url n c doc).
Proof. unfold expand. apply refines_bind; [apply element_refines|intros; apply refines_refl]. Qed.
End Stricter.

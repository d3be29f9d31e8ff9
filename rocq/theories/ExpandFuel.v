(** Expansion does not depend on its fuel argument, nor runs out of it, beyond the size of the
    document. *)
From Verif Require Import Prelude Json Str Keyword Enums LangTag LangString Container Stack ContextSyntax Ctx Process
  Object ObjectJson Expand.

(** ** Sizes *)
Lemma size_pos j : 1 <= json_size j.
Proof. destruct j; cbn; lia. Qed.
Lemma size_item x l : In x l -> json_size x < json_size (JArr l).
Proof.
  cbn [json_size]. induction l as [|y l IH]; [intros []|]. intros [->|I]; cbn [map list_sum]; unfold list_sum in *; cbn [fold_right].
  - lia.
  - specialize (IH I). lia.
Qed.
Lemma size_entry e m : In e m -> json_size (snd e) < json_size (JObj m).
Proof.
  cbn [json_size]. induction m as [|y l IH]; [intros []|]. intros [->|I]; cbn [map list_sum]; unfold list_sum in *; cbn [fold_right].
  - lia.
  - specialize (IH I). lia.
Qed.
Lemma size_force x v : In x (force_array v) -> json_size x <= json_size v.
Proof. destruct v; cbn [force_array]; try (intros [<-|[]]; lia). intros I. apply size_item in I. lia. Qed.

Lemma flat_r_ext {A B E} (f g : A -> result (list B) E) l : (forall x, In x l -> f x = g x) -> flat_r f l = flat_r g l.
Proof. induction l as [|x l IH]; intros H; [reflexivity|]. cbn [flat_r]. rewrite (H x (or_introl eq_refl)), IH by (intros; apply H; right; assumption). reflexivity. Qed.
Lemma fold_r_ext {A B E} (f g : A -> B -> result A E) l : (forall a x, In x l -> f a x = g a x) -> forall a, fold_r f a l = fold_r g a l.
Proof.
  induction l as [|x l IH]; intros H a; [reflexivity|]. cbn [fold_r]. rewrite (H a x (or_introl eq_refl)). destruct (g a x); [|reflexivity].
  apply IH. intros; apply H; right; assumption.
Qed.
Lemma flat_r_all {A B E} (f : A -> result (list B) E) (P : B -> Prop) l r : (forall x y, In x l -> f x = Ok y -> Forall P y) -> flat_r f l = Ok r -> Forall P r.
Proof.
  revert r. induction l as [|x l IH]; intros r H E0; [injection E0 as <-; constructor|]. cbn [flat_r] in E0.
  destruct (f x) as [y|] eqn:E1; [|discriminate]. cbn [bind] in E0. destruct (flat_r f l) as [ys|]; [|discriminate]. injection E0 as <-.
  apply Forall_app. split; [eapply H; [left; reflexivity|exact E1]|]. apply IH; [|reflexivity]. intros; eapply H; [right; eassumption|eassumption].
Qed.
Lemma sorted_in {A} (key : A -> string) l x : In x (sort_key key l) -> In x l.
Proof.
  unfold sort_key. induction l as [|y l IH]; [intros []|]. cbn [fold_right]. intros I.
  assert (J : forall z s, In z (insert_sorted key y s) -> z = y \/ In z s).
  { clear. intros z s. induction s as [|w s IH]; cbn [insert_sorted]; [intros [->|[]]; auto|].
    destruct (String.compare (key y) (key w)); cbn [In]; intros [->|I]; try (right; tauto); try (left; reflexivity). destruct (IH I); tauto. }
  apply J in I. destruct I as [->|I]; [left; reflexivity|right; apply IH, I].
Qed.

Section Fuel.
Variables (io : iops) (ld : loader) (fin rnd : list word -> N) (pf : nat) (o : xopts) (base : option string).
Lemma entries_in' m e : In e (entries_sorted o m) -> In e m.
Proof. unfold entries_sorted. destruct (xo_ordered o); [apply sorted_in|auto]. Qed.

(** ** Two recursive calls that agree on the parts *)
Section Two.
Variables r r' : actx -> option string -> json -> bool -> result expanded xerr.
Variable s : nat.
Hypothesis AG : forall c ap j fm, json_size j < s -> r c ap j fm = r' c ap j fm.

Lemma reverse_two c n e : json_size (snd e) < s -> reverse_entry io o r c n e = reverse_entry io o r' c n e.
Proof. destruct e as [k v]. intros L. unfold reverse_entry. rewrite (AG c (Some k) v false L). reflexivity. Qed.
Lemma property_two c key v : json_size v < s -> expand_property io ld fin rnd pf o r c key v = expand_property io ld fin rnd pf o r' c key v.
Proof.
  intros L. unfold expand_property. destruct (match prop_def c (Some key) with Some _ => _ | None => false end); [reflexivity|].
  destruct v; try apply AG, L. destruct (has_container _ CKLanguage); [reflexivity|]. destruct (_ || _ || _); [|apply AG, L].
  unfold expand_index_map. erewrite flat_r_ext; [reflexivity|]. intros [i v] I. apply entries_in', size_entry in I. cbn [snd] in I.
  destruct (if has_container _ CKType then _ else _) as [mc|]; [|reflexivity]. cbn [bind]. destruct (xkey io o c i); [|reflexivity]. cbn [bind].
  rewrite (AG mc (Some key) v true) by lia. reflexivity.
Qed.
Lemma entries_two m : forall m' ap tsc c es st, 0 < m -> 0 < m' -> Forall (fun e => json_size (snd e) < s /\ json_size (snd e) < m /\ json_size (snd e) < m') es ->
  node_entries io ld fin rnd pf o r m ap tsc c es st = node_entries io ld fin rnd pf o r' m' ap tsc c es st.
Proof.
  induction m as [|m IH]; intros [|m'] ap tsc c es st P P' F; try lia. cbn [node_entries]. apply fold_r_ext. intros a [[key t] v] I.
  rewrite Forall_forall in F. destruct (F _ I) as (L1 & L2 & L3). cbn [snd] in L1, L2, L3. unfold node_entry. destruct t as [|p|k]; [reflexivity| |].
  - unfold property_entry. rewrite (property_two c key v L1). reflexivity.
  - destruct k; try reflexivity; unfold keyword_entry; cbn [ap_is].
    + (* graph *) rewrite (AG c (Some "@graph") v false L1). reflexivity.
    + (* included *) rewrite (AG c (Some "@included") v false L1). reflexivity.
    + (* nest *) assert (E : fold_r (nest_entry io ld pf o (node_entries io ld fin rnd pf o r m ap tsc) c key) a (force_array v) =
                           fold_r (nest_entry io ld pf o (node_entries io ld fin rnd pf o r' m' ap tsc) c key) a (force_array v)).
      { apply fold_r_ext. intros b x J. apply size_force in J. unfold nest_entry. destruct (match prop_def c (Some key) with Some _ => _ | None => _ end) as [c'|]; [|reflexivity].
        cbn [bind]. destruct x as [| | | | |mm]; try reflexivity. destruct (flat_r _ (entries_sorted o mm)) as [es'|] eqn:ES; [|reflexivity]. cbn [bind].
        pose proof (size_pos (JObj mm)). apply IH; [lia|lia|]. eapply flat_r_all; [|exact ES]. intros e y Ie Y. apply entries_in', size_entry in Ie.
        cbn beta in Y; destruct (xkey io o c' (fst e)) as [[t|]|]; [|cbn [bind] in Y; injection Y as <-; constructor|discriminate]. cbn [bind] in Y. injection Y as <-.
        repeat constructor; cbn [snd]; lia. }
      rewrite E. reflexivity.
    + (* reverse *) destruct v as [| | | | |mm]; try reflexivity.
      assert (E : fold_r (reverse_entry io o r c) (snd (fst a)) (entries_sorted o mm) = fold_r (reverse_entry io o r' c) (snd (fst a)) (entries_sorted o mm)).
      { apply fold_r_ext. intros b e J. apply entries_in', size_entry in J. apply reverse_two. lia. }
      rewrite E. reflexivity.
Qed.
Lemma map_two f f' c ap m fm : json_size (JObj m) <= s -> json_size (JObj m) <= f -> json_size (JObj m) <= f' ->
  expand_map io ld fin rnd pf o base r f c ap m fm = expand_map io ld fin rnd pf o base r' f' c ap m fm.
Proof.
  intros L L1 L2. unfold expand_map. destruct (element_context io ld pf o base c ap m fm) as [tsc|]; [|reflexivity]. cbn [bind].
  destruct (type_entries io o tsc m) as [ts|]; [|reflexivity]. cbn [bind]. destruct (type_scoped io ld pf o tsc ts) as [c'|]; [|reflexivity]. cbn [bind].
  destruct (input_type io o c' ts) as [it|]; [|reflexivity]. cbn [bind]. destruct (expand_entries io o c' m) as [es|] eqn:ES; [|reflexivity]. cbn [bind].
  assert (F : Forall (fun e => json_size (snd e) < json_size (JObj m)) es).
  { eapply flat_r_all; [|exact ES]. intros e y I Y. apply size_entry in I. cbn beta in Y; destruct (xkey io o c' (fst e)) as [[t|]|]; [|cbn [bind] in Y; injection Y as <-; constructor|discriminate].
    cbn [bind] in Y. injection Y as <-. constructor; [exact I|constructor]. }
  assert (LE : forall k v, last_entry k es = Some v -> json_size v < json_size (JObj m)).
  { intros k v. unfold last_entry. clear ES. induction es as [|e es IH] using rev_ind; [discriminate|]. rewrite fold_left_app. cbn [fold_left].
    apply Forall_app in F. destruct F as [F1 F2]. inversion F2; subst. destruct (snd (fst e)); try (apply IH; assumption). destruct (keyword_eqb k0 k); [|apply IH; assumption].
    intros X. injection X as <-. assumption. }
  destruct (if is_some ap && negb (ap_is ap KGraph) then last_entry KList es else None) as [l|] eqn:LL.
  - assert (SL : json_size l < json_size (JObj m)) by (destruct (_ && _); [exact (LE _ _ LL)|discriminate]).
    destruct (list_index es) as [i|]; [|reflexivity]. cbn [bind]. erewrite flat_r_ext; [reflexivity|]. intros x I. cbn beta. apply size_force in I. rewrite (AG c' ap x false) by lia. reflexivity.
  - destruct (last_entry KSet es) as [l|] eqn:SL; [rewrite (AG c' ap l false) by (apply LE in SL; lia); reflexivity|].
    destruct (last_entry KValue es); [reflexivity|]. unfold expand_node. pose proof (size_pos (JObj m)).
    rewrite (entries_two f f' ap tsc c' es) by (lia || (eapply Forall_impl; [|exact F]; intros e X; cbn beta in X |- *; lia)). reflexivity.
Qed.
Lemma body_two f f' c ap j fm : json_size j <= s -> json_size j <= f -> json_size j <= f' ->
  element_body io ld fin rnd pf o base r f c ap j fm = element_body io ld fin rnd pf o base r' f' c ap j fm.
Proof.
  intros L L1 L2. destruct j; try reflexivity; cbn [element_body].
  - erewrite flat_r_ext; [reflexivity|]. intros x I. cbn beta. apply size_item in I. rewrite (AG c ap x fm) by lia. reflexivity.
  - apply map_two; assumption.
Qed.
End Two.

Theorem expand_stable n : forall m c ap j fm, json_size j < n -> n <= m ->
  expand_element io ld fin rnd pf o base m c ap j fm = expand_element io ld fin rnd pf o base n c ap j fm.
Proof.
  induction n as [|n IH]; intros m c ap j fm L M; [lia|]. destruct m as [|m]; [lia|]. cbn [expand_element].
  apply (body_two _ _ (json_size j)); try lia. intros c' ap' j' fm' L'. apply IH; lia.
Qed.
Corollary expand_same n m c ap j fm : json_size j < n -> json_size j < m ->
  expand_element io ld fin rnd pf o base m c ap j fm = expand_element io ld fin rnd pf o base n c ap j fm.
Proof. intros L M. destruct (Nat.le_ge_cases n m); [apply expand_stable|symmetry; apply expand_stable]; lia. Qed.

(** ** Enough fuel *)
Definition nf {A} (x : result A xerr) : Prop := match x with Err XFuel | Err XPanic | Err (XLiteral LPanic) => False | _ => True end.
Lemma nf_ok {A} (a : A) : nf (Ok a). Proof. exact Logic.I. Qed.
Lemma nf_bind {A B} (x : result A xerr) (f : A -> result B xerr) : nf x -> (forall a, x = Ok a -> nf (f a)) -> nf (bind x f).
Proof. intros H G. destruct x as [a|e]; cbn [bind]; [apply G; reflexivity|exact H]. Qed.
Lemma nf_eq {A B} (x : result A xerr) e : x = Err e -> nf x -> nf (@Err B xerr e).
Proof. intros -> H. exact H. Qed.
Lemma nf_map_err {A E} (f : E -> xerr) (x : result A E) : (forall e, nf (@Err A xerr (f e))) -> nf (map_err f x).
Proof. intros H. destruct x; cbn; [exact Logic.I|]. apply H. Qed.
Lemma nf_flat {A B} (f : A -> result (list B) xerr) l : (forall x, In x l -> nf (f x)) -> nf (flat_r f l).
Proof.
  induction l as [|x l IH]; intros H; [apply nf_ok|]. cbn [flat_r]. apply nf_bind; [apply H; left; reflexivity|]. intros a _. apply nf_bind; [|intros; apply nf_ok].
  apply IH. intros; apply H; right; assumption.
Qed.
Lemma nf_fold {A B} (f : A -> B -> result A xerr) l : (forall a x, In x l -> nf (f a x)) -> forall a, nf (fold_r f a l).
Proof.
  induction l as [|x l IH]; intros H a; [apply nf_ok|]. cbn [fold_r]. apply nf_bind; [apply H; left; reflexivity|]. intros b _. apply IH. intros; apply H; right; assumption.
Qed.
Lemma nf_map_r {A B} (f : A -> result B xerr) l : (forall x, In x l -> nf (f x)) -> nf (map_r f l).
Proof.
  induction l as [|x l IH]; intros H; [apply nf_ok|]. cbn [map_r]. apply nf_bind; [apply H; left; reflexivity|]. intros a _. apply nf_bind; [|intros; apply nf_ok].
  apply IH. intros; apply H; right; assumption.
Qed.
Lemma nf_key c k : nf (xkey io o c k). Proof. apply nf_map_err. intros; exact Logic.I. Qed.
Lemma nf_process c lc u po : nf (xprocess io ld pf c lc u po). Proof. apply nf_map_err. intros; exact Logic.I. Qed.
Lemma nf_policy i e : nf (@Err unit xerr e) -> nf (invalid_policy o i e).
Proof. intros N. unfold invalid_policy. destruct i; try apply nf_ok. destruct (xo_invalid o); try apply nf_ok. exact N. Qed.
Lemma nf_nodes e l : nf (@Err unit xerr e) -> nf (as_nodes e l).
Proof. intros N. apply nf_map_r. intros x _. destruct (as_node x); [apply nf_ok|]. exact N. Qed.
Lemma tail_some c s : exists t, expand_tail io c s true None = Ok (Some t).
Proof. unfold expand_tail. destruct (ac_base c); eauto. Qed.
Lemma docrel_some c s : exists t, xiri io c s true None = Ok (Some t).
Proof.
  unfold xiri. enough (H : exists t, expand_iri_simple io c (NSome (xp_of_str s)) true None = Ok (Some t)) by (destruct H as [t ->]; exists t; reflexivity).
  unfold expand_iri_simple. destruct (xp_of_str s) as [k|s']; [eauto|]. destruct (is_keyword_like s'); [eauto|]. destruct (expand_defined c s' None); [eauto|].
  destruct (colon_inside s'); [|apply tail_some]. destruct (blank_ok io s'); [eauto|]. destruct (streq s' "_:"); [eauto|]. unfold expand_absolute.
  destruct (compact_iri_of io s') as [[p x]|]; [destruct (expand_prefixed io c p x); [eauto|]|]; destruct (iri_ok io s'); eauto; apply tail_some.
Qed.
Lemma nf_literal c ap v : nf (map_err XLiteral (expand_literal io o c ap v)).
Proof.
  unfold expand_literal. set (d := prop_def c ap). destruct (match d with Some d => nd_typ d | None => None end) as [[]|]; destruct v; try exact Logic.I.
  - destruct (docrel_some c s) as [t ->]. exact Logic.I.
  - destruct (xiri io c s true (Some (xo_vocab o))); exact Logic.I.
Qed.
Ltac nf_step := first [exact Logic.I | apply nf_literal | apply nf_key | apply nf_process | (apply nf_policy; exact Logic.I) | (apply nf_nodes; exact Logic.I)
  | (apply nf_map_err; intros; exact Logic.I) | (apply nf_bind; [|intros]) | assumption].

Section One.
Variable r : actx -> option string -> json -> bool -> result expanded xerr.
Variable s : nat.
Hypothesis NF : forall c ap j fm, json_size j < s -> nf (r c ap j fm).
Lemma nf_reverse c n e : json_size (snd e) < s -> nf (reverse_entry io o r c n e).
Proof.
  destruct e as [k v]. intros L. unfold reverse_entry. repeat nf_step. destruct a as [[|p|kw]|]; [destruct (_ || _); repeat nf_step| |exact Logic.I|destruct (_ || _); repeat nf_step]. destruct (id_has_colon p).
  - repeat nf_step. destruct (negb a); repeat nf_step; [apply NF, L|]. destruct (match prop_def c (Some k) with Some d => nd_reverse d | None => false end); repeat nf_step.
  - destruct (_ || _); repeat nf_step.
Qed.
Lemma nf_property c key v : json_size v < s -> nf (expand_property io ld fin rnd pf o r c key v).
Proof.
  intros L. unfold expand_property. destruct (match prop_def c (Some key) with Some _ => _ | None => false end); [apply nf_ok|].
  destruct v; try apply NF, L. destruct (has_container _ CKLanguage).
  - apply nf_bind; [|intros; apply nf_ok]. apply nf_flat. intros e _. apply nf_flat. intros x _. destruct x; repeat nf_step.
  - destruct (_ || _ || _); [|apply NF, L]. apply nf_bind; [|intros; apply nf_ok]. apply nf_flat. intros [i v] I. apply entries_in', size_entry in I. cbn [snd] in I.
    apply nf_bind.
    { destruct (has_container _ CKType); [|apply nf_ok]. destruct (prop_def _ _) as [d|]; [|apply nf_ok]. destruct (nd_context d); repeat nf_step. }
    intros mc _. repeat nf_step; [apply NF; lia|]. apply nf_flat. intros item _. apply nf_bind; [|intros; apply nf_ok]. unfold index_item.
    destruct (match a with Some TmNull | Some (TmKw KNone) => None | _ => a end) as [x|]; [|apply nf_ok].
    match goal with |- nf (if ?b then _ else _) => destruct b end.
    { repeat nf_step. destruct a2 as [[|q|]|]; repeat nf_step. match goal with |- nf (match ?y with OVal _ => _ | _ => _ end) => destruct y end; repeat nf_step. }
    match goal with |- nf (if ?b then _ else _) => destruct b end; [apply nf_ok|].
    match goal with |- nf (if ?b then _ else _) => destruct b end.
    { match goal with |- nf (match ?y with OVal _ => _ | _ => _ end) => destruct y end; repeat nf_step. }
    match goal with |- nf (if ?b then _ else _) => destruct b end; [|apply nf_ok]. destruct (id_of_term x); repeat nf_step.
Qed.
Lemma nf_entries m : forall ap tsc c es st, 0 < m -> Forall (fun e => json_size (snd e) < s /\ json_size (snd e) < m) es ->
  nf (node_entries io ld fin rnd pf o r m ap tsc c es st).
Proof.
  induction m as [|m IH]; intros ap tsc c es st P F; [lia|]. cbn [node_entries]. apply nf_fold. intros a [[key t] v] I.
  rewrite Forall_forall in F. destruct (F _ I) as (L1 & L2). cbn [snd] in L1, L2. unfold node_entry.
  assert (KE : forall k, nf (keyword_entry io ld fin rnd pf o r (node_entries io ld fin rnd pf o r m ap tsc) ap c tsc a key k v)).
  { intros k. unfold keyword_entry. destruct (ap_is ap KReverse); [exact Logic.I|]. match goal with |- nf (if ?b then _ else _) => destruct b end; [exact Logic.I|].
    destruct k; try exact Logic.I; try (destruct (as_str v); repeat nf_step; fail).
    - repeat nf_step. apply NF, L1.
    - destruct (xo_mode o); repeat nf_step. apply NF, L1.
    - apply nf_fold. intros b x J. apply size_force in J. unfold nest_entry. apply nf_bind.
      { destruct (prop_def c (Some key)) as [d|]; [|apply nf_ok]. destruct (nd_context d); repeat nf_step. }
      intros c' _. destruct x as [| | | | |mm]; try exact Logic.I. destruct (flat_r _ (entries_sorted o mm)) as [es'|] eqn:ES; cbn [bind].
      + pose proof (size_pos (JObj mm)). apply IH; [lia|]. eapply flat_r_all; [|exact ES]. intros e y Ie Y. apply entries_in', size_entry in Ie.
        cbn beta in Y; destruct (xkey io o c' (fst e)) as [[t'|]|]; [|cbn [bind] in Y; injection Y as <-; constructor|discriminate]. cbn [bind] in Y. injection Y as <-.
        repeat constructor; cbn [snd]; lia.
      + apply (nf_eq _ _ ES). apply nf_flat. intros x _. repeat nf_step.
    - destruct v as [| | | | |mm]; try exact Logic.I. repeat nf_step. apply nf_fold. intros b e J. apply entries_in', size_entry in J. apply nf_reverse. lia.
    - repeat nf_step. unfold expand_types. apply nf_fold. intros b x _. destruct (as_str x); repeat nf_step. destruct a0 as [t0|]; [|apply nf_ok]. destruct (id_of_term t0); repeat nf_step. }
  destruct t as [|p|k]; [apply nf_ok| |destruct k; apply nf_ok || apply KE].
  repeat nf_step. unfold property_entry. destruct (id_has_colon p).
  - repeat nf_step. destruct (negb a0); repeat nf_step; [apply nf_property, L1|]. unfold store.
    destruct (wrap_graph _ _ _ _); repeat nf_step; destruct (match prop_def c (Some key) with Some d => nd_reverse d | None => false end); repeat nf_step.
  - repeat nf_step. destruct (xo_allow_undefined o); repeat nf_step.
Qed.
Lemma nf_map f c ap m fm : json_size (JObj m) <= s -> json_size (JObj m) <= f -> nf (expand_map io ld fin rnd pf o base r f c ap m fm).
Proof.
  intros L L1. unfold expand_map. apply nf_bind.
  { unfold element_context. apply nf_bind; [apply nf_fold; intros; repeat nf_step|]. intros [hv hi] _. apply nf_bind.
    { destruct (prop_def c ap) as [d|]; [|apply nf_ok]. destruct (nd_context d); repeat nf_step. }
    intros c1 _. repeat nf_step. destruct a as [lc|]; repeat nf_step. }
  intros tsc _. apply nf_bind; [unfold type_entries; repeat nf_step; apply nf_flat; intros; repeat nf_step|]. intros ts _. apply nf_bind.
  { unfold type_scoped. apply nf_fold. intros a x _. apply nf_fold. intros b t _. destruct (prop_def tsc (Some t)) as [d|]; [|apply nf_ok]. destruct (nd_context d); repeat nf_step. }
  intros c' _. apply nf_bind; [unfold input_type; destruct ts as [|[k v] ts]; [apply nf_ok|]; destruct (rev (force_array v)) as [|[]]; repeat nf_step|]. intros it _.
  destruct (expand_entries io o c' m) as [es|] eqn:ES; cbn [bind]; [|apply (nf_eq _ _ ES); apply nf_flat; intros; repeat nf_step].
  assert (F : Forall (fun e => json_size (snd e) < json_size (JObj m)) es).
  { eapply flat_r_all; [|exact ES]. intros e y I Y. apply size_entry in I. cbn beta in Y; destruct (xkey io o c' (fst e)) as [[t|]|]; [|cbn [bind] in Y; injection Y as <-; constructor|discriminate].
    cbn [bind] in Y. injection Y as <-. constructor; [exact I|constructor]. }
  assert (LE : forall k v, last_entry k es = Some v -> json_size v < json_size (JObj m)).
  { intros k v. unfold last_entry. clear ES. induction es as [|e es IH] using rev_ind; [discriminate|]. rewrite fold_left_app. cbn [fold_left].
    apply Forall_app in F. destruct F as [F1 F2]. inversion F2; subst. destruct (snd (fst e)); try (apply IH; assumption). destruct (keyword_eqb k0 k); [|apply IH; assumption].
    intros X. injection X as <-. assumption. }
  destruct (if is_some ap && negb (ap_is ap KGraph) then last_entry KList es else None) as [l|] eqn:LL.
  - assert (SL : json_size l < json_size (JObj m)) by (destruct (_ && _); [exact (LE _ _ LL)|discriminate]).
    apply nf_bind. { unfold list_index. apply nf_fold. intros i e _. destruct (snd (fst e)) as [| |[]]; try exact Logic.I. destruct (as_str (snd e)); exact Logic.I. }
    intros i _. repeat nf_step. apply nf_flat. intros x I. apply size_force in I. repeat nf_step. apply NF. lia.
  - destruct (last_entry KSet es) as [l|] eqn:SL.
    + apply nf_bind; [|intros; apply NF; apply LE in SL; lia]. unfold set_check. apply nf_fold. intros i e _. destruct (snd (fst e)) as [| |[]]; exact Logic.I.
    + destruct (last_entry KValue es); [repeat nf_step|]. unfold expand_node. repeat nf_step.
      * pose proof (size_pos (JObj m)). apply nf_entries; [lia|]. eapply Forall_impl; [|exact F]. intros e X. cbn beta in X |- *. lia.
      * destruct a as [n0 hv]. destruct (_ && _ && _); [apply nf_ok|]. destruct (_ && _ && _); apply nf_ok.
Qed.
Lemma nf_body f c ap j fm : json_size j <= s -> json_size j <= f -> nf (element_body io ld fin rnd pf o base r f c ap j fm).
Proof.
  intros L L1. destruct j; cbn [element_body]; try apply nf_ok;
    try (unfold expand_scalar; destruct (free_floating ap); [apply nf_ok|]; apply nf_bind;
         [destruct (prop_def c ap) as [d|]; [|apply nf_ok]; destruct (nd_context d); repeat nf_step|intros c' _; cbn [given]; repeat nf_step]).
  - repeat nf_step. apply nf_flat. intros x I. apply size_item in I. repeat nf_step. apply NF. lia.
  - apply nf_map; assumption.
Qed.
End One.
Theorem expand_fuel n : forall c ap j fm, json_size j < n -> nf (expand_element io ld fin rnd pf o base n c ap j fm).
Proof.
  induction n as [|n IH]; intros c ap j fm L; [lia|]. cbn [expand_element]. apply (nf_body _ (json_size j)); try lia. intros. apply IH. lia.
Qed.
End Fuel.

(** Fuel only decides whether an answer is given, never which one. *)
From Verif Require Import Prelude Str Keyword Enums LangTag Container Stack ContextSyntax Ctx Process.

Definition le_res {A} (x y : result A cerr) : Prop := x = Err EFuel \/ x = y.

Lemma le_res_refl {A} (x : result A cerr) : le_res x x.
Proof. right. reflexivity. Qed.
Lemma le_res_fuel {A} (y : result A cerr) : le_res (Err EFuel) y.
Proof. left. reflexivity. Qed.
Lemma le_res_trans {A} (x y z : result A cerr) : le_res x y -> le_res y z -> le_res x z.
Proof. intros [->| ->]; [left; reflexivity|auto]. Qed.
Lemma le_res_bind {A B} (x y : result A cerr) (f g : A -> result B cerr) :
  le_res x y -> (forall a, x = Ok a -> le_res (f a) (g a)) -> le_res (bind x f) (bind y g).
Proof.
  intros [->| ->] H; [left; reflexivity|].
  destruct y as [a|e]; cbn; [apply H; reflexivity|apply le_res_refl].
Qed.

Definition le_eng (r r' : eng) : Prop :=
  (forall a lc rs b o, le_res (e_process r a lc rs b o) (e_process r' a lc rs b o)) /\
  (forall s m k rs b p o, le_res (e_define r s m k rs b p o) (e_define r' s m k rs b p o)).

Section Mono.
Variable io : iops.
Variable ld : loader.
Variables r r' : eng.
Hypothesis Hr : le_eng r r'.

Lemma mono_process a lc rs b o : le_res (e_process r a lc rs b o) (e_process r' a lc rs b o).
Proof. apply Hr. Qed.
Lemma mono_edefine s m k rs b p o : le_res (e_define r s m k rs b p o) (e_define r' s m k rs b p o).
Proof. apply Hr. Qed.

Lemma mono_expand s0 v dr vo m rs o :
  le_res (expand_iri_with io r s0 v dr vo m rs o) (expand_iri_with io r' s0 v dr vo m rs o).
Proof.
  unfold expand_iri_with. destruct v as [|[k|s]]; try apply le_res_refl.
  destruct (is_keyword_like s); [apply le_res_refl|].
  apply le_res_bind; [apply mono_edefine|]. intros s1 _.
  destruct (expand_defined (fst s1) s vo); [apply le_res_refl|].
  destruct (colon_inside s); [|apply le_res_refl].
  destruct (blank_ok io s); [apply le_res_refl|].
  destruct (streq s "_:"); [apply le_res_refl|].
  destruct (compact_iri_of io s) as [[p x]|]; [|apply le_res_refl].
  apply le_res_bind; [apply mono_edefine|]. intros s2 _. apply le_res_refl.
Qed.

Lemma mono_type s0 m rs o e d : le_res (define_type io r s0 m rs o e d) (define_type io r' s0 m rs o e d).
Proof.
  unfold define_type. destruct (te_type e); [|apply le_res_refl].
  apply le_res_bind; [apply mono_expand|]. intros [s1 t] _. apply le_res_refl.
Qed.

Lemma mono_reverse s0 m k rs o e d rev :
  le_res (define_reverse io r s0 m k rs o e d rev) (define_reverse io r' s0 m k rs o e d rev).
Proof.
  unfold define_reverse.
  destruct (_ || _)%bool; [apply le_res_refl|]. destruct (is_keyword_like rev); [apply le_res_refl|].
  apply le_res_bind; [apply mono_expand|]. intros [s1 t] _. apply le_res_refl.
Qed.

Lemma mono_id s0 m k rs o b i d :
  le_res (define_id io r s0 m k rs o b i d) (define_id io r' s0 m k rs o b i d).
Proof.
  unfold define_id. destruct (_ && _)%bool; [apply le_res_refl|].
  apply le_res_bind; [apply mono_expand|]. intros [s1 v] _.
  destruct (match v with Some (TmKw KContext) => true | _ => false end); [apply le_res_refl|].
  destruct (match v with Some (TmId p) => negb (id_valid p) | _ => false end); [apply le_res_refl|].
  apply le_res_bind; [|intros s2 _; apply le_res_refl].
  destruct (_ || _)%bool; [|apply le_res_refl].
  apply le_res_bind; [apply mono_expand|]. intros [s2 t] _. apply le_res_refl.
Qed.

Lemma mono_no_id s0 m k rs o :
  le_res (define_no_id io r s0 m k rs o) (define_no_id io r' s0 m k rs o).
Proof.
  unfold define_no_id. destruct (compact_iri_of io k) as [[p x]|]; [|apply le_res_refl].
  apply le_res_bind; [apply mono_edefine|]. intros s1 _. apply le_res_refl.
Qed.

Lemma mono_mapping s0 m k rs o b e d :
  le_res (define_mapping io r s0 m k rs o b e d) (define_mapping io r' s0 m k rs o b e d).
Proof.
  unfold define_mapping.
  assert (N : le_res (do (s1, t) <- define_no_id io r s0 m k rs o ; Ok (s1, Some (nd_set_value d (Some t))))
                     (do (s1, t) <- define_no_id io r' s0 m k rs o ; Ok (s1, Some (nd_set_value d (Some t)))) ).
  { apply le_res_bind; [apply mono_no_id|]. intros [s1 t] _. apply le_res_refl. }
  destruct (te_id e) as [i|]; [|exact N].
  destruct (id_differs i k); [|exact N]. destruct i; [apply le_res_refl|apply mono_id].
Qed.

Lemma mono_context c rs b o e d :
  le_res (define_context r c rs b o e d) (define_context r' c rs b o e d).
Proof.
  unfold define_context. destruct (te_context e) as [lc|]; [|apply le_res_refl].
  destruct (is_10 o); [apply le_res_refl|].
  destruct (mono_process c lc rs b (with_override o)) as [->| ->]; [left; reflexivity|apply le_res_refl].
Qed.

Lemma mono_rest s0 k rs b o e prev d :
  le_res (define_rest io r s0 k rs b o e prev d) (define_rest io r' s0 k rs b o e prev d).
Proof.
  unfold define_rest.
  apply le_res_bind; [apply le_res_refl|]. intros ? _.
  apply le_res_bind; [apply le_res_refl|]. intros ? _.
  apply le_res_bind; [apply mono_context|]. intros ? _. apply le_res_refl.
Qed.

Lemma mono_normal s0 m k rs b p o v :
  le_res (define_normal io r s0 m k rs b p o v) (define_normal io r' s0 m k rs b p o v).
Proof.
  unfold define_normal.
  apply le_res_bind; [apply le_res_refl|]. intros d _.
  apply le_res_bind; [apply mono_type|]. intros [s1 d1] _.
  destruct (te_reverse (expanded_of v)); [apply mono_reverse|].
  apply le_res_bind; [apply mono_mapping|]. intros [s2 d2] _.
  destruct d2; [|apply le_res_refl].
  apply le_res_bind; [apply mono_rest|]. intros s3 _. apply le_res_refl.
Qed.

Lemma mono_define_body s0 m k rs b p o :
  le_res (define_body io r s0 m k rs b p o) (define_body io r' s0 m k rs b p o).
Proof.
  unfold define_body. destruct (dget k (snd s0)) as [[]|]; try apply le_res_refl.
  destruct (match k with KKey s => streq s "" | KKeyword _ => false end); [apply le_res_refl|].
  destruct (m_get m k) as [[]|]; try apply le_res_refl.
  destruct k; [|apply le_res_refl].
  apply le_res_bind; [apply mono_normal|]. intros [s1 b1] _. apply le_res_refl.
Qed.

Lemma mono_keys ks s0 m rs b p o :
  le_res (define_keys r ks s0 m rs b p o) (define_keys r' ks s0 m rs b p o).
Proof.
  revert s0. induction ks as [|k ks IH]; intros s0; cbn; [apply le_res_refl|].
  apply le_res_bind; [apply mono_edefine|]. intros s1 _. apply IH.
Qed.

Lemma mono_all c m rs b o : le_res (define_all r c m rs b o) (define_all r' c m rs b o).
Proof.
  unfold define_all.
  apply le_res_bind; [destruct (m_field cd_type m); [apply mono_edefine|apply le_res_refl]|]. intros ? _.
  apply le_res_bind; [apply mono_keys|]. intros ? _. apply le_res_refl.
Qed.

Lemma mono_merged c m rs b o :
  le_res (process_merged io r c m rs b o) (process_merged io r' c m rs b o).
Proof.
  unfold process_merged.
  apply le_res_bind; [apply le_res_refl|]. intros ? _.
  apply le_res_bind; [apply le_res_refl|]. intros ? _.
  apply le_res_bind; [apply le_res_refl|]. intros ? _. apply mono_all.
Qed.

Lemma mono_def c d rs b o :
  le_res (process_def io ld r c d rs b o) (process_def io ld r' c d rs b o).
Proof.
  unfold process_def. destruct (match cd_version d with Some _ => _ | None => _ end); [apply le_res_refl|].
  apply le_res_bind; [apply le_res_refl|]. intros i _. apply mono_merged.
Qed.

Lemma mono_iri c i rs b o :
  le_res (process_iri io ld r c i rs b o) (process_iri io ld r' c i rs b o).
Proof.
  unfold process_iri. destruct (resolve_iri io i b) as [u|]; [|apply le_res_refl].
  destruct (ps_push rs u) as [[] rs']; [|apply le_res_refl].
  destruct (ld u); try apply le_res_refl.
  apply le_res_bind; [apply mono_process|]. intros ? _. apply le_res_refl.
Qed.

Lemma mono_entries es a c rs b o :
  le_res (process_entries io ld r es a c rs b o) (process_entries io ld r' es a c rs b o).
Proof.
  revert c rs. induction es as [|e es IH]; intros c rs; cbn; [apply le_res_refl|].
  apply le_res_bind; [|intros [c' rs'] _; apply IH].
  destruct e; [apply le_res_refl|apply mono_iri|].
  apply le_res_bind; [apply mono_def|]. intros ? _. apply le_res_refl.
Qed.

Lemma mono_body a lc rs b o :
  le_res (process_body io ld r a lc rs b o) (process_body io ld r' a lc rs b o).
Proof.
  unfold process_body. apply le_res_bind; [apply le_res_refl|]. intros ? _. apply mono_entries.
Qed.
End Mono.

Lemma engine_mono io ld n : le_eng (engine io ld n) (engine io ld (S n)).
Proof.
  induction n as [|n IH].
  - split; intros; apply le_res_fuel.
  - split; intros; [apply mono_body|apply mono_define_body]; exact IH.
Qed.

Lemma engine_mono_le io ld n m : n <= m -> le_eng (engine io ld n) (engine io ld m).
Proof.
  induction 1 as [|m H IH].
  - split; intros; apply le_res_refl.
  - destruct IH as [I1 I2], (engine_mono io ld m) as [J1 J2].
    split; intros; eapply le_res_trans; eauto.
Qed.

(** Two amounts of fuel that both give an answer give the same answer. *)
Lemma process_fuel_irrelevant io ld n m a lc rs b o :
  process_context io ld n a lc rs b o <> Err EFuel ->
  process_context io ld m a lc rs b o <> Err EFuel ->
  process_context io ld n a lc rs b o = process_context io ld m a lc rs b o.
Proof.
  intros Hn Hm. destruct (le_lt_dec n m) as [L|L].
  - destruct (proj1 (engine_mono_le io ld n m L) a lc rs b o) as [E|E]; [contradiction|exact E].
  - destruct (proj1 (engine_mono_le io ld m n (Nat.lt_le_incl _ _ L)) a lc rs b o) as [E|E]; [contradiction|symmetry; exact E].
Qed.

(** What the cyclic IRI mapping error means: the converse of [Cycles.v]. *)
From Coq Require Import Relation_Operators Operators_Properties.
From Verif Require Import Prelude Str Keyword Enums LangTag Container Stack ContextSyntax Ctx Process ProcessRel.

(** ** Specification *)

(** The entry of a term in a definition, or else in the definition it imports. *)
Definition entry_in (d : cdef tdef) (i : option (cdef tdef)) (k : string) (v : nullable tdef) : Prop :=
  assoc k (cd_bindings d) = Some v \/
  assoc k (cd_bindings d) = None /\ exists i', i = Some i' /\ assoc k (cd_bindings i') = Some v.

(** [s] is written with the prefix [p]. *)
Definition written_with (s p : string) : Prop := exists x, split_once ":" s = Some (p, x) /\ p <> "_" /\ starts_with "//" x = false.
Definition names (s p : string) : Prop := is_keyword_like s = false /\ (s = p \/ written_with s p).

(** The entry of [k] uses the term [k'], by its spelling. *)
Inductive uses (d : cdef tdef) (i : option (cdef tdef)) (k k' : string) : Prop :=
| uses_type v s : entry_in d i k v -> te_type (expanded_of v) = Some (NSome (TTyTerm s)) -> names s k' -> uses d i k k'
| uses_reverse v s : entry_in d i k v -> te_reverse (expanded_of v) = Some s -> names s k' -> uses d i k k'
| uses_id v s : entry_in d i k v -> te_reverse (expanded_of v) = None -> te_id (expanded_of v) = Some (NSome (TIdTerm s)) ->
    s <> k -> names s k' -> uses d i k k'
| uses_own v : entry_in d i k v -> te_reverse (expanded_of v) = None -> te_id (expanded_of v) <> Some NNull -> written_with k k' -> uses d i k k'.

(** The entry of [k] has the form of a keyword, without being one: it is skipped. *)
Definition skipped (d : cdef tdef) (i : option (cdef tdef)) (k : string) : Prop :=
  exists v s, entry_in d i k v /\ is_keyword_like s = true /\
    (te_reverse (expanded_of v) = Some s \/
     te_reverse (expanded_of v) = None /\ te_id (expanded_of v) = Some (NSome (TIdTerm s)) /\ s <> k).

(** A term uses itself, directly or not. *)
Definition has_cycle (d : cdef tdef) (i : option (cdef tdef)) : Prop := exists k, clos_trans string (uses d i) k k.

(** The definitions that processing a local context may come across: its own, those of loaded contexts. *)
Definition at_hand (ld : loader) (lc : lcontext) (d : cdef tdef) : Prop :=
  In (CEDef d) (entries_of lc) \/ exists u lc', ld u = LdContext lc' /\ In (CEDef d) (entries_of lc').
(** What a definition imports: a loaded one, and only if it says so. *)
Definition imported (ld : loader) (d : cdef tdef) (i : option (cdef tdef)) : Prop :=
  forall i', i = Some i' -> cd_import d <> None /\ exists u, ld u = LdContext (LOne (CEDef i')).

(** ** Proof *)

Lemma entry_get m k v : m_get m (KKey k) = Some (EvDef v) -> entry_in (m_base m) (m_imported m) k v.
Proof.
  unfold m_get, or_else, def_get, entry_in. destruct (assoc k (cd_bindings (m_base m))) as [w|]; cbn [option_map].
  - intros H. injection H as ->. left. reflexivity.
  - destruct (m_imported m) as [i|]; [|discriminate]. destruct (assoc k (cd_bindings i)) as [w|] eqn:E; [|discriminate].
    intros H. injection H as ->. right. split; [reflexivity|]. exists i. auto.
Qed.
Lemma compact_written io s p x : compact_iri_of io s = Some (p, x) -> written_with s p.
Proof.
  unfold compact_iri_of. destruct (split_once ":" s) as [[p' x']|] eqn:E; [|discriminate].
  destruct (streq_spec p' "_"); [discriminate|]. destruct (starts_with "//" x') eqn:S; [discriminate|]. destruct (iri_ref_ok io s); [|discriminate].
  intros H. injection H as <- <-. exists x'. auto.
Qed.

Definition pending (s : st) (x : string) : Prop := dget (KKey x) (snd s) = Some true.

(** Errors other than cycles. *)
Definition acyclic {A} (r : result A cerr) : Prop := r <> Err ECyclicIriMapping.
Lemma acyclic_bind {A B} (x : result A cerr) (f : A -> result B cerr) : acyclic x -> (forall a, acyclic (f a)) -> acyclic (bind x f).
Proof. intros X F. destruct x as [a|e]; [apply F|]. intros E. apply X. cbn in E. congruence. Qed.
Ltac ac := match goal with
  | |- acyclic (bind _ _) => apply acyclic_bind; [|intros ?]
  | |- acyclic (match ?x with _ => _ end) => destruct x
  | |- acyclic _ => discriminate
  end.

Section Acyclic.
Variable io : iops.
Lemma ac_tail c s dr vo : acyclic (expand_tail io c s dr vo).
Proof. unfold expand_tail. repeat ac. Qed.
Lemma ac_absolute c s dr vo : acyclic (expand_absolute io c s dr vo).
Proof. unfold expand_absolute. destruct (iri_ok io s); [discriminate|apply ac_tail]. Qed.
Lemma ac_simple c v dr vo : acyclic (expand_iri_simple io c v dr vo).
Proof.
  unfold expand_iri_simple. destruct v as [|[k|s]]; try discriminate. destruct (is_keyword_like s); [discriminate|].
  destruct (expand_defined c s vo); [discriminate|]. destruct (colon_inside s); [|apply ac_tail]. destruct (blank_ok io s); [discriminate|].
  destruct (streq s "_:"); [discriminate|]. destruct (compact_iri_of io s) as [[p x]|]; [|apply ac_absolute].
  destruct (expand_prefixed io c p x); [discriminate|apply ac_absolute].
Qed.
Lemma ac_own c k o : acyclic (own_mapping io c k o).
Proof.
  assert (D : acyclic (default_mapping io c k)) by (unfold default_mapping; repeat ac).
  unfold own_mapping. destruct (blank_ok io k); [discriminate|]. destruct (iri_ref_ok io k); [|exact D]. destruct (iri_ok io k); [discriminate|].
  destruct (contains_char "/" k); [|exact D]. apply acyclic_bind; [apply ac_simple|]. intros a. repeat ac.
Qed.
Lemma ac_rest r s0 k rs b o e prev d : acyclic (define_rest io r s0 k rs b o e prev d).
Proof.
  unfold define_rest. apply acyclic_bind; [unfold define_container; repeat ac|intros d1].
  apply acyclic_bind. { unfold define_index. destruct (te_index e); [|discriminate]. destruct (_ || _)%bool; [discriminate|].
    apply acyclic_bind; [apply ac_simple|]. intros a. repeat ac. }
  intros d2. apply acyclic_bind. { unfold define_context. destruct (te_context e); [|discriminate]. destruct (is_10 o); [discriminate|].
    destruct (e_process r _ _ _ _ _) as [c|[]]; discriminate. }
  intros d3. apply acyclic_bind; [unfold define_nest; repeat ac|intros d4]. apply acyclic_bind; [unfold define_prefix; repeat ac|intros d5].
  apply acyclic_bind; [unfold define_propagate; repeat ac|intros d6]. apply acyclic_bind; [unfold define_protect; repeat ac|intros d7]. discriminate.
Qed.
End Acyclic.

Section Pending.
Variable io : iops.
Variable ld : loader.
Variable m : merged.
Notation CYC := (has_cycle (m_base m) (m_imported m)).
Notation T := (clos_trans string (uses (m_base m) (m_imported m))).
Hypothesis NS : forall k, ~ skipped (m_base m) (m_imported m) k.

(** Nothing outside of [Q] is left pending, and a cycle error comes from a cycle. *)
Definition fine {A} (Q : string -> Prop) (f : A -> st) (x : result A cerr) : Prop :=
  match x with Ok a => forall y, pending (f a) y -> Q y | Err e => e = ECyclicIriMapping -> CYC end.
Lemma fine_bind {A B} Q (f : A -> st) (g : B -> st) x h : fine Q f x -> (forall a, (forall y, pending (f a) y -> Q y) -> fine Q g (h a)) -> fine Q g (bind x h).
Proof. intros X H. destruct x as [a|e]; [apply H, X|exact X]. Qed.
Lemma fine_pure {A B} Q (g : B -> st) (x : result A cerr) h : acyclic x -> (forall a, fine Q g (h a)) -> fine Q g (bind x h).
Proof. intros X H. destruct x as [a|e]; [apply H|]. cbn. intros ->. exfalso. apply X. reflexivity. Qed.
Lemma fine_ac {A} Q (f : A -> st) e : acyclic (@Err A cerr e) -> fine Q f (Err e).
Proof. intros X. cbn. intros ->. exfalso. apply X. reflexivity. Qed.

Section Step.
Variable r : eng.
Hypothesis IH : forall s k rs b p o, (forall x, pending s x -> T x k) -> fine (pending s) (fun s => s) (e_define r s m (KKey k) rs b p o).
Hypothesis ENDED : forall s k rs b p o, dget (KKey k) (snd s) = Some false ->
  e_define r s m (KKey k) rs b p o = Ok s \/ e_define r s m (KKey k) rs b p o = Err EFuel.

Lemma sub_define (Q : string -> Prop) s k rs b p o : (forall y, pending s y -> Q y) -> (forall x, Q x -> T x k) ->
  fine Q (fun s => s) (e_define r s m (KKey k) rs b p o).
Proof.
  intros S H. pose proof (IH s k rs b p o (fun x X => H x (S x X))) as F. destruct (e_define r s m (KKey k) rs b p o) as [s'|e]; [|exact F].
  intros y Y. apply S, F, Y.
Qed.

Lemma fine_expand (Q : string -> Prop) s0 v dr vo rs o : (forall y, pending s0 y -> Q y) ->
  (forall s, v = NSome (XStr s) -> forall x y, Q x -> names s y -> T x y) ->
  fine Q fst (expand_iri_with io r s0 v dr vo m rs o).
Proof.
  intros S H. unfold expand_iri_with. destruct v as [|[k|s]]; [exact S|exact S|]. specialize (H s eq_refl).
  destruct (is_keyword_like s) eqn:K; [exact S|]. rewrite (kk_of_str_key _ K).
  eapply fine_bind; [apply (sub_define Q); [exact S|]; intros x X; apply (H x s X); split; auto|]. intros s1 S1.
  destruct (expand_defined (fst s1) s vo); [exact S1|].
  destruct (colon_inside s); [|apply fine_pure; [apply ac_tail|intros t; exact S1]].
  destruct (blank_ok io s); [exact S1|]. destruct (streq s "_:"); [exact S1|].
  destruct (compact_iri_of io s) as [[p x]|] eqn:C; [|apply fine_pure; [apply ac_absolute|intros t; exact S1]].
  eapply fine_bind; [apply (sub_define Q); [exact S1|]; intros y Y; apply (H y p Y); split; [exact K|right; eapply compact_written, C]|].
  intros s2 S2. destruct (expand_prefixed io (fst s2) p x); [exact S2|]. apply fine_pure; [apply ac_absolute|intros t; exact S2].
Qed.

Lemma pending_dend s k y : pending (fst s, dend (KKey k) (snd s)) y -> pending s y /\ y <> k.
Proof.
  unfold pending, dend. cbn [snd dget]. destruct (kk_eqb_spec (KKey y) (KKey k)) as [E|N]; [discriminate|]. intros H. split; [exact H|]. congruence.
Qed.

Variables (k : string) (v : nullable tdef).
Hypothesis HM : m_get m (KKey k) = Some (EvDef v).
Variable P : string -> Prop.
Hypothesis HP : forall x, P x -> T x k.
Let Q (x : string) : Prop := P x \/ x = k.

Lemma step x y : Q x -> uses (m_base m) (m_imported m) k y -> T x y.
Proof. intros [X| ->] U; [eapply t_trans; [apply HP, X|apply t_step, U]|apply t_step, U]. Qed.

Lemma fine_type s0 rs o d : (forall y, pending s0 y -> Q y) -> fine Q fst (define_type io r s0 m rs o (expanded_of v) d).
Proof.
  intros S. unfold define_type. destruct (te_type (expanded_of v)) as [t|] eqn:E; [|exact S].
  eapply (fine_bind Q fst).
  - apply fine_expand; [exact S|]. intros s X x y Hx Hy. apply (step x y Hx).
    destruct t as [|[|s']]; try discriminate X. injection X as ->. eapply uses_type; [apply entry_get, HM|exact E|exact Hy].
  - intros [s1 t1] S1. destruct t1 as [t1|]; [|exact S1]. destruct (_ && _)%bool; [apply fine_ac; discriminate|].
    destruct (ty_of_term t1); [exact S1|apply fine_ac; discriminate].
Qed.

Lemma fine_reverse s0 rs o d rev : te_reverse (expanded_of v) = Some rev -> (forall y, pending s0 y -> Q y) ->
  fine Q fst (define_reverse io r s0 m k rs o (expanded_of v) d rev) /\
  forall s1, define_reverse io r s0 m k rs o (expanded_of v) d rev <> Ok (s1, false).
Proof.
  intros R S. unfold define_reverse. destruct (_ || _)%bool; [split; [apply fine_ac; discriminate|discriminate]|].
  destruct (is_keyword_like rev) eqn:K; [exfalso; apply (NS k); exists v, rev; split; [apply entry_get, HM|auto]|]. split.
  - eapply (fine_bind Q fst).
    + apply fine_expand; [exact S|]. intros s X x y Hx Hy. apply (step x y Hx).
      unfold xp_of_str in X. destruct (kw_of_str rev); [discriminate X|]. injection X as <-. eapply uses_reverse; [apply entry_get, HM|exact R|exact Hy].
    + intros [s1 t] S1. destruct t as [[|i|]|]; try (apply fine_ac; discriminate). destruct (id_valid i); [|apply fine_ac; discriminate].
      apply fine_pure; [unfold reverse_container; repeat ac|]. intros d1. exact S1.
  - intros s1 H. apply bind_ok in H. destruct H as ([s2 t] & _ & H). destruct t as [[|i|]|]; try discriminate H. destruct (id_valid i); [|discriminate H].
    apply bind_ok in H. destruct H as (d1 & _ & H). discriminate H.
Qed.

Lemma fine_no_id s0 rs o : te_reverse (expanded_of v) = None -> te_id (expanded_of v) <> Some NNull -> (forall y, pending s0 y -> Q y) ->
  fine Q fst (define_no_id io r s0 m k rs o).
Proof.
  intros R N S. unfold define_no_id. destruct (compact_iri_of io k) as [[p x]|] eqn:C; [|apply fine_pure; [apply ac_own|intros t; exact S]].
  eapply fine_bind; [apply (sub_define Q); [exact S|]; intros y Y; apply (step y p Y); eapply uses_own; [apply entry_get, HM|exact R|exact N|eapply compact_written, C]|].
  intros s1 S1. destruct (get_value (fst s1) p); [|apply fine_pure; [apply ac_own|intros t; exact S1]].
  destruct (iri_ok io _); [exact S1|apply fine_ac; discriminate].
Qed.

(** The entry [@id]: the expansion of the term itself finds it ended. *)
Lemma fine_id s0 rs o b i d : te_reverse (expanded_of v) = None -> te_id (expanded_of v) = Some (NSome i) -> id_differs (NSome i) k = true ->
  (forall y, pending s0 y -> Q y) ->
  fine Q fst (define_id io r s0 m k rs o b i d) /\ forall s1, define_id io r s0 m k rs o b i d <> Ok (s1, None).
Proof.
  intros R I D S. unfold define_id.
  assert (SK : (is_keyword_like (tid_str i) && negb (match i with TIdKeyword _ => true | _ => false end))%bool = false).
  { destruct i as [kw|s]; [apply Bool.andb_false_r|]. cbn [tid_str negb]. rewrite Bool.andb_true_r. destruct (is_keyword_like s) eqn:K; [|reflexivity].
    exfalso. apply (NS k). exists v, s. split; [apply entry_get, HM|]. split; [exact K|]. right. split; [exact R|]. split; [exact I|].
    intros ->. cbn in D. rewrite streq_refl in D. discriminate D. }
  rewrite SK. split.
  - eapply (fine_bind Q fst).
    + apply fine_expand; [exact S|]. intros s X x y Hx Hy. apply (step x y Hx). destruct i as [kw|s']; [discriminate X|]. injection X as ->.
      eapply uses_id; [apply entry_get, HM|exact R|exact I| |exact Hy]. intros ->. cbn in D. rewrite streq_refl in D. discriminate D.
    + intros [s1 t] S1. destruct (match t with Some (TmKw KContext) => true | _ => false end); [apply fine_ac; discriminate|].
      destruct (match t with Some (TmId p) => negb (id_valid p) | _ => false end); [apply fine_ac; discriminate|].
      apply (fine_bind Q (fun s => s)).
      * destruct (contains_between_boundaries k ":" || contains_char "/" k)%bool; [|exact S1]. apply (fine_bind Q fst).
        -- (* the term itself is ended; only its prefix may be defined *)
           cbn [fst snd]. set (s1' := (fst s1, dend (KKey k) (snd s1))).
           assert (S1' : forall y, pending s1' y -> Q y) by (intros y Y; apply S1; exact (proj1 (pending_dend s1 k y Y))).
           assert (G : dget (KKey k) (snd s1') = Some false) by (unfold s1', dend; cbn [snd dget]; rewrite kk_eqb_refl; reflexivity).
           unfold expand_iri_with. destruct (is_keyword_like k) eqn:K; [exact S1'|]. rewrite (kk_of_str_key _ K).
           apply (fine_bind Q (fun s => s)).
           { destruct (ENDED s1' k rs None false (with_no_override o) G) as [-> | ->]; [exact S1'|apply fine_ac; discriminate]. }
           intros s2 S2. destruct (expand_defined (fst s2) k (Some (po_vocab o))); [exact S2|].
           destruct (colon_inside k); [|apply fine_pure; [apply ac_tail|intros u; exact S2]].
           destruct (blank_ok io k); [exact S2|]. destruct (streq k "_:"); [exact S2|].
           destruct (compact_iri_of io k) as [[p x]|] eqn:C; [|apply fine_pure; [apply ac_absolute|intros u; exact S2]].
           apply (fine_bind Q (fun s => s)).
           { apply (sub_define Q); [exact S2|]. intros y Y. apply (step y p Y).
             eapply uses_own; [apply entry_get, HM|exact R|rewrite I; discriminate|eapply compact_written, C]. }
           intros s3 S3. destruct (expand_prefixed io (fst s3) p x); [exact S3|]. apply fine_pure; [apply ac_absolute|intros u; exact S3].
        -- intros [s2 t2] S2. destruct (opt_eqb term_eqb t t2); [exact S2|apply fine_ac; discriminate].
      * intros s2 S2. destruct (_ && b)%bool; [|exact S2]. destruct t; [exact S2|apply fine_ac; discriminate].
  - intros s1 H. apply bind_ok in H. destruct H as ([s2 t] & _ & H). destruct (match t with Some (TmKw KContext) => true | _ => false end); [discriminate H|].
    destruct (match t with Some (TmId p) => negb (id_valid p) | _ => false end); [discriminate H|]. apply bind_ok in H. destruct H as (s3 & _ & H).
    destruct (_ && b)%bool; [destruct t; discriminate H|discriminate H].
Qed.

Lemma fine_normal s0 rs b p o : (forall y, pending s0 y -> Q y) ->
  fine Q fst (define_normal io r s0 m k rs b p o v) /\ forall s1, define_normal io r s0 m k rs b p o v <> Ok (s1, false).
Proof.
  intros S. unfold define_normal. set (s0' := (set_normal (fst s0) k None, snd s0)). assert (S0 : forall y, pending s0' y -> Q y) by exact S.
  destruct (define_protected p o (expanded_of v)) as [d|e] eqn:E; cbn [bind].
  2:{ split; [|discriminate]. apply fine_ac. unfold define_protected in E. destruct (te_protected _); [destruct (is_10 o)|]; try discriminate E. injection E as <-. discriminate. }
  pose proof (fine_type s0' rs o d S0) as FT. destruct (define_type io r s0' m rs o (expanded_of v) d) as [[s1 d1]|e]; cbn [bind]; [|split; [exact FT|discriminate]].
  assert (S1 : forall y, pending s1 y -> Q y) by exact FT. clear FT.
  destruct (te_reverse (expanded_of v)) as [rev|] eqn:R; [apply fine_reverse; assumption|].
  assert (MP : fine Q fst (define_mapping io r s1 m k rs o (simple_term v) (expanded_of v) d1) /\
    forall s2, define_mapping io r s1 m k rs o (simple_term v) (expanded_of v) d1 <> Ok (s2, None)).
  { unfold define_mapping.
    assert (N : te_id (expanded_of v) <> Some NNull ->
      fine Q fst (do (s2, t) <- define_no_id io r s1 m k rs o ; Ok (s2, Some (nd_set_value d1 (Some t)))) /\
      forall s2, (do (s2, t) <- define_no_id io r s1 m k rs o ; Ok (s2, Some (nd_set_value d1 (Some t)))) <> Ok (s2, None)).
    { intros X. split.
      - eapply (fine_bind Q fst); [apply fine_no_id; assumption|]. intros [s2 t] S2. exact S2.
      - intros s2 H. apply bind_ok in H. destruct H as ([s3 t] & _ & H). discriminate H. }
    destruct (te_id (expanded_of v)) as [i|] eqn:I; [|apply N; discriminate]. destruct (id_differs i k) eqn:D.
    - destruct i as [|i]; [split; [exact S1|discriminate]|]. apply fine_id; assumption.
    - apply N. intros X. injection X as ->. discriminate D. }
  destruct MP as [MP ME]. destruct (define_mapping io r s1 m k rs o (simple_term v) (expanded_of v) d1) as [[s2 d2]|e]; cbn [bind]; [|split; [exact MP|discriminate]].
  destruct d2 as [d2|]; [|exfalso; exact (ME s2 eq_refl)]. assert (S2 : forall y, pending s2 y -> Q y) by exact MP. split.
  - destruct (define_rest io r s2 k rs b o (expanded_of v) (get_normal (fst s0) k) d2) as [s3|e] eqn:X; cbn [bind].
    + destruct (rest_state _ _ _ _ _ _ _ _ _ _ _ X) as (d3 & _ & ->). exact S2.
    + apply fine_ac. intros Y. injection Y as ->. exact (ac_rest _ _ _ _ _ _ _ _ _ _ X).
  - intros s3 H. apply bind_ok in H. destruct H as (s4 & _ & H). discriminate H.
Qed.
End Step.

Lemma engine_ended n s k rs b p o : dget k (snd s) = Some false ->
  e_define (engine io ld n) s m k rs b p o = Ok s \/ e_define (engine io ld n) s m k rs b p o = Err EFuel.
Proof. intros G. destruct n as [|n]; [right; reflexivity|left]. cbn [engine e_define]. unfold define_body. rewrite G. reflexivity. Qed.

Lemma engine_fine n : forall s k rs b p o, (forall x, pending s x -> T x k) ->
  fine (pending s) (fun s => s) (e_define (engine io ld n) s m (KKey k) rs b p o).
Proof.
  induction n as [|n IH]; intros s k rs b p o H; [apply fine_ac; discriminate|]. cbn [engine e_define]. unfold define_body.
  destruct (dget (KKey k) (snd s)) as [[]|] eqn:G.
  - intros _. exists k. apply H, G.
  - intros y Y. exact Y.
  - destruct (streq k ""); [apply fine_ac; discriminate|]. destruct (m_get m (KKey k)) as [[t|v|]|] eqn:M; try (apply fine_ac; discriminate).
    + unfold m_get, or_else, def_get in M. destruct (assoc k (cd_bindings (m_base m))); [discriminate M|]. destruct (m_imported m) as [i|]; [|discriminate M].
      cbn in M. destruct (assoc k (cd_bindings i)); discriminate M.
    + destruct (fine_normal (engine io ld n) IH (fun s k => engine_ended n s (KKey k)) k v M (pending s) H (fst s, (KKey k, true) :: snd s) rs b p o) as [F E].
      { intros y Y. unfold pending in Y. cbn [snd dget] in Y. destruct (kk_eqb_spec (KKey y) (KKey k)) as [X|X]; [right; congruence|left; exact Y]. }
      destruct (define_normal io (engine io ld n) (fst s, (KKey k, true) :: snd s) m k rs b p o v) as [[s1 e]|e]; cbn [bind]; [|exact F].
      destruct e; [|exfalso; exact (E s1 eq_refl)]. intros y Y. apply pending_dend in Y. destruct Y as [Y N]. destruct (F y Y) as [X|X]; [exact X|congruence].
    + intros y Y. apply pending_dend in Y. destruct Y as [Y N]. unfold pending in Y. cbn [snd fst dget] in Y.
      destruct (kk_eqb_spec (KKey y) (KKey k)) as [X|X]; [congruence|exact Y].
Qed.

Lemma keys_fine n rs b p o ks : forall s, (forall x, ~ pending s x) -> define_keys (engine io ld n) ks s m rs b p o = Err ECyclicIriMapping -> CYC.
Proof.
  induction ks as [|k ks IH]; intros s N H; [discriminate H|]. cbn [define_keys] in H.
  pose proof (engine_fine n s k rs b p o (fun x X => False_ind _ (N x X))) as F.
  destruct (e_define (engine io ld n) s m (KKey k) rs b p o) as [s1|e]; cbn [bind] in H.
  - apply (IH s1); [|exact H]. intros x X. exact (N x (F x X)).
  - injection H as ->. exact (F eq_refl).
Qed.

Lemma all_fine n c rs b o : define_all (engine io ld n) c m rs b o = Err ECyclicIriMapping -> CYC.
Proof.
  unfold define_all. intros H. apply bind_err in H. destruct H as [H|(s1 & E & H)].
  - destruct (m_field cd_type m); [|discriminate H]. destruct n as [|n]; [discriminate H|]. cbn [engine e_define] in H. unfold define_body in H. cbn [snd dget fst] in H.
    destruct (m_get m (KKeyword KType)) as [[t|v|]|]; try discriminate H. unfold define_type_term in H. destruct (is_10 o); discriminate H.
  - apply bind_err in H. destruct H as [H|(s2 & _ & H)]; [|discriminate H]. eapply keys_fine; [|exact H]. intros x X.
    destruct (m_field cd_type m); [|injection E as <-; discriminate X]. destruct n as [|n]; [discriminate E|]. cbn [engine e_define] in E. unfold define_body in E.
    cbn [snd dget fst] in E. destruct (m_get m (KKeyword KType)) as [[t|v|]|]; try discriminate E.
    + apply bind_ok in E. destruct E as (c' & _ & E). injection E as <-. discriminate X.
    + injection E as <-. discriminate X.
Qed.
End Pending.

Section Process.
Variable io : iops.
Variable ld : loader.

Lemma import_loaded d b o i : import_of io ld d b o = Ok i -> imported ld d i.
Proof.
  unfold import_of. destruct (cd_import d) as [u|] eqn:CI; [|intros H; injection H as <-; intros i' X; discriminate X].
  destruct (is_10 o); [discriminate|]. destruct (resolve_iri io u b) as [u'|]; [|discriminate]. destruct (ld u') as [| |[[| |i0]|]] eqn:L; try discriminate.
  destruct (cd_import i0); [discriminate|]. intros H. injection H as <-. intros i' X. injection X as <-. split; [rewrite CI; discriminate|eauto].
Qed.
Lemma import_ac d b o : acyclic (import_of io ld d b o).
Proof. unfold import_of. repeat ac. Qed.

Lemma assoc_key {A} k (l : list (string * A)) v : assoc k l = Some v -> In k (map fst l).
Proof. induction l as [|[x w] l IH]; [discriminate|]. cbn. destruct (streq_spec k x) as [->|N]; [left; reflexivity|right; auto]. Qed.

(** A definition at fault. *)
Definition faulty (lc : lcontext) : Prop := exists d i, at_hand ld lc d /\ imported ld d i /\ (has_cycle d i \/ exists k, skipped d i k).

Lemma skipped_dec d i : (forall k, ~ skipped d i k) \/ exists k, skipped d i k.
Proof.
  assert (X : forall v k, {s | is_keyword_like s = true /\ (te_reverse (expanded_of v) = Some s \/
     te_reverse (expanded_of v) = None /\ te_id (expanded_of v) = Some (NSome (TIdTerm s)) /\ s <> k)} +
    {forall s, ~ (is_keyword_like s = true /\ (te_reverse (expanded_of v) = Some s \/
     te_reverse (expanded_of v) = None /\ te_id (expanded_of v) = Some (NSome (TIdTerm s)) /\ s <> k))}).
  { intros v k. destruct (te_reverse (expanded_of v)) as [s|].
    - destruct (is_keyword_like s) eqn:K; [left; exists s; auto|right]. intros s' [K' [X|[X _]]]; [injection X as <-; congruence|discriminate X].
    - destruct (te_id (expanded_of v)) as [[|[kw|s]]|]; try (right; intros s' [_ [X|(_ & X & _)]]; discriminate X).
      destruct (is_keyword_like s) eqn:K.
      + destruct (streq_spec s k) as [E|N]; [right; intros s' [_ [X|(_ & X & N)]]; [discriminate X|injection X as <-; exact (N E)]|left; exists s; auto].
      + right. intros s' [K' [X|(_ & X & _)]]; [discriminate X|]. injection X as <-. congruence. }
  set (get := fun k => match assoc k (cd_bindings d) with Some v => Some v | None => match i with Some i' => assoc k (cd_bindings i') | None => None end end).
  assert (G : forall k v, entry_in d i k v <-> get k = Some v).
  { intros k v. unfold entry_in, get. destruct (assoc k (cd_bindings d)) as [w|].
    - split; [intros [E|[E _]]; [exact E|discriminate E]|intros E; left; exact E].
    - destruct i as [i'|]; split.
      + intros [E|(_ & i'' & E & F)]; [discriminate E|]. injection E as <-. exact F.
      + intros E. right. split; [reflexivity|]. eauto.
      + intros [E|(_ & i'' & E & _)]; discriminate E.
      + discriminate. }
  set (ks := map fst (cd_bindings d) ++ match i with Some i' => map fst (cd_bindings i') | None => [] end).
  assert (B : forall k v, get k = Some v -> In k ks).
  { intros k v E. unfold get in E. apply in_app_iff. destruct (assoc k (cd_bindings d)) as [w|] eqn:A.
    - left. eapply assoc_key, A.
    - right. destruct i as [i'|]; [|discriminate E]. eapply assoc_key, E. }
  assert (D : (forall k, In k ks -> ~ skipped d i k) \/ exists k, skipped d i k).
  { clear B. induction ks as [|k l IH]; [left; intros k []|]. destruct IH as [IH|IH]; [|right; exact IH].
    destruct (get k) as [v|] eqn:E.
    - destruct (X v k) as [[s S]|S].
      + right. exists k, v, s. split; [apply G, E|exact S].
      + left. intros k' [<-|K]; [|apply IH, K]. intros (v' & s & E' & S'). apply G in E'. rewrite E in E'. injection E' as <-. exact (S s S').
    - left. intros k' [<-|K]; [|apply IH, K]. intros (v' & s & E' & S'). apply G in E'. congruence. }
  destruct D as [D|D]; [left|right; exact D]. intros k S. pose proof S as (v & s & E & _). apply G in E. exact (D k (B k v E) S).
Qed.

Lemma def_faulty n c d rs b o : process_def io ld (engine io ld n) c d rs b o = Err ECyclicIriMapping ->
  exists i, imported ld d i /\ (has_cycle d i \/ exists k, skipped d i k).
Proof.
  unfold process_def. destruct (match cd_version d with Some _ => is_10 o | None => false end); [discriminate|].
  intros H. apply bind_err in H. destruct H as [H|(i & I & H)]; [exfalso; exact (import_ac _ _ _ H)|]. exists i. split; [eapply import_loaded, I|].
  unfold process_merged in H. apply bind_err in H. destruct H as [H|(c1 & _ & H)].
  { exfalso. revert H. unfold process_base. match goal with |- ?x = _ -> False => change (acyclic x) end. repeat ac. }
  apply bind_err in H. destruct H as [H|(c2 & _ & H)].
  { exfalso. revert H. unfold process_vocab. match goal with |- ?x = _ -> False => change (acyclic x) end. destruct (m_field cd_vocab _) as [[|u]|]; try discriminate.
    apply acyclic_bind; [apply ac_simple|]. intros t. repeat ac. }
  apply bind_err in H. destruct H as [H|(c3 & _ & H)].
  { exfalso. revert H. unfold process_direction. match goal with |- ?x = _ -> False => change (acyclic x) end. repeat ac. }
  destruct (skipped_dec d i) as [N|S]; [left|right; exact S]. exact (all_fine io ld (MkMerged d i) N n c3 rs b o H).
Qed.

Lemma process_faulty n : forall a lc rs b o, process_context io ld n a lc rs b o = Err ECyclicIriMapping -> faulty lc.
Proof.
  unfold process_context. induction n as [|n IH]; intros a lc rs b o H; [discriminate H|]. cbn [engine e_process] in H. unfold process_body in H.
  apply bind_err in H. destruct H as [H|(o' & _ & H)].
  { exfalso. revert H. unfold propagate_of. match goal with |- ?x = _ -> False => change (acyclic x) end. repeat ac. }
  assert (L : forall es, (forall e, In e es -> In e (entries_of lc)) -> forall c rs, process_entries io ld (engine io ld n) es a c rs b o' = Err ECyclicIriMapping -> faulty lc).
  { clear H. induction es as [|e es IHe]; intros S c rs' H; [discriminate H|]. cbn [process_entries] in H. apply bind_err in H.
    destruct H as [H|([c' rs''] & _ & H)]; [|eapply IHe; [intros e' E'; apply S; right; exact E'|exact H]]. destruct e as [|u|d].
    - apply bind_err in H. destruct H as [H|(c' & _ & H)]; [|discriminate H]. unfold process_null in H. destruct (_ && _)%bool; discriminate H.
    - unfold process_iri in H. destruct (resolve_iri io u b) as [u'|]; [|discriminate H]. destruct (ps_push rs' u') as [[] rs1]; [|discriminate H].
      destruct (ld u') as [| |lc'] eqn:E; try discriminate H. apply bind_err in H. destruct H as [H|(c' & _ & H)]; [|discriminate H].
      apply IH in H. destruct H as (d & i & [A|A] & R); exists d, i; (split; [|exact R]); right; [exists u', lc'; auto|exact A].
    - apply bind_err in H. destruct H as [H|(c' & _ & H)]; [|discriminate H]. apply def_faulty in H. destruct H as (i & I & R).
      exists d, i. split; [left; apply S; left; reflexivity|auto]. }
  eapply (L (entries_of lc)); [auto|exact H].
Qed.
End Process.

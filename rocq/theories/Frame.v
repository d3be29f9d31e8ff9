(** Invariants of context processing, continued: conditions on the entries (for instance
    "not null") and on the chain of remote contexts. *)
From Verif Require Import Prelude Str Keyword Enums LangTag Container Stack ContextSyntax Ctx Process ProcessRel.

(** Every entry of a local context, resp. of every context the loader serves. *)
Definition entry_all (E : centry -> Prop) (lc : lcontext) : Prop := forall e, In e (entries_of lc) -> E e.
Definition load_entries (ld : loader) (E : centry -> Prop) : Prop :=
  forall u lc, ld u = LdContext lc -> entry_all E lc.

Lemma ps_push_grows rs u rs' : ps_push rs u = (true, rs') -> ps_is_empty rs' = false.
Proof. unfold ps_push. destruct (ps_cycle rs u); [discriminate|]. intros H. injection H as <-. reflexivity. Qed.

Section EntryInv.
Variable io : iops.
Variable ld : loader.
Variable I : actx -> Prop.
Variable E : centry -> Prop.
Variable R : pstack -> Prop.
Hypothesis Rpush : forall rs u b rs', R rs -> ps_push rs u = (b, rs') -> R rs'.
Hypothesis Iprev : forall c p, I c -> I p -> I (set_previous c p).
Hypothesis Inull : forall a c o c', E CENull -> process_null a c o = Ok c' -> I a -> I c -> I c'.
Hypothesis Imerged : forall n c m rs b o c', R rs -> E (CEDef (m_base m)) ->
  (forall i, m_imported m = Some i -> E (CEDef i)) ->
  process_merged io (engine io ld n) c m rs b o = Ok c' -> I c -> I c'.
Hypothesis Eload : load_entries ld E.

Lemma entry_def n c d rs b o c' : R rs -> E (CEDef d) ->
  process_def io ld (engine io ld n) c d rs b o = Ok c' -> I c -> I c'.
Proof.
  intros HR HE H. unfold process_def in H.
  destruct (match cd_version d with Some _ => _ | None => _ end); [discriminate|].
  apply bind_ok in H. destruct H as (i & Ei & H).
  eapply Imerged; [exact HR| | |exact H]; [exact HE|].
  cbn. intros i' ->. apply import_def in Ei. destruct Ei as (x & u & _ & _ & L & _).
  apply (Eload u _ L). left. reflexivity.
Qed.

Lemma entry_process n : forall a lc rs b o c', R rs -> entry_all E lc ->
  e_process (engine io ld n) a lc rs b o = Ok c' -> I a -> I c'.
Proof.
  induction n as [|n IH]; intros a lc rs b o c' HR HE H HI; [discriminate|].
  cbn in H. unfold process_body in H. apply bind_ok in H. destruct H as (o' & _ & H).
  unfold entry_all in HE. set (es := entries_of lc) in *.
  match type of H with process_entries _ _ _ _ _ ?c _ _ _ = _ => assert (I c) as HI' end.
  { destruct (_ && _)%bool; [|exact HI]. apply Iprev; exact HI. }
  revert H HI'. generalize (if (negb (po_propagate o') && match ac_prev a with Some _ => false | None => true end)%bool then set_previous a a else a) as c.
  clearbody es. revert rs HR. induction es as [|e es IHes]; intros rs HR c H HC; cbn in H.
  - injection H as <-. exact HC.
  - apply bind_ok in H. destruct H as ([c1 rs1] & Ee & H).
    assert (I c1 /\ R rs1) as [HI1 HR1].
    { destruct e as [|i|d].
      - apply bind_ok in Ee. destruct Ee as (c2 & Ee & E'). injection E' as <- <-. split; [|exact HR].
        eapply Inull; [|exact Ee|exact HI|exact HC]. apply HE. left. reflexivity.
      - unfold process_iri in Ee. destruct (resolve_iri io i b) as [u|]; [|discriminate].
        destruct (ps_push rs u) as [[] rs2] eqn:P; [|injection Ee as <- <-; split; [exact HC|eapply Rpush; eassumption]].
        destruct (ld u) as [| |lc'] eqn:L; try discriminate.
        apply bind_ok in Ee. destruct Ee as (c2 & Ee & E'). injection E' as <- <-.
        assert (R rs2) by (eapply Rpush; eassumption). split; [|assumption].
        eapply IH; [| |exact Ee|exact HC]; [assumption|]. eapply Eload; eassumption.
      - apply bind_ok in Ee. destruct Ee as (c2 & Ee & E'). injection E' as <- <-. split; [|exact HR].
        eapply entry_def; [exact HR| |exact Ee|exact HC]. apply HE. left. reflexivity. }
    eapply IHes; [|exact HR1|exact H|exact HI1]. intros e' He. apply HE. right. exact He.
Qed.
End EntryInv.

(** ** The settings other than the term definitions *)

Lemma define_all_settings io ld n c m rs b o c' :
  define_all (engine io ld n) c m rs b o = Ok c' -> same_settings c c'.
Proof.
  unfold define_all. intros H.
  apply bind_ok in H. destruct H as (s1 & E1 & H). apply bind_ok in H. destruct H as (s2 & E2 & H). injection H as <-.
  assert (same_settings c (fst s1)) as S1.
  { destruct (m_field cd_type m); [|injection E1 as <-; unfold same_settings; auto 10].
    apply define_settings in E1. exact E1. }
  assert (same_settings (fst s1) (fst s2)) as S2.
  { eapply (keys_rel io ld (fun s s' => same_settings (fst s) (fst s'))); [..|exact E2]; unfold same_settings.
    - auto 10.
    - intuition congruence.
    - intros s k s' H. apply define_settings in H. exact H. }
  unfold same_settings in *. intuition congruence.
Qed.

Lemma process_base_spec io c m rs c' : process_base io c m rs = Ok c' ->
  ac_orig c' = ac_orig c /\ ac_vocab c' = ac_vocab c /\ ac_lang c' = ac_lang c /\ ac_dir c' = ac_dir c /\
  ac_prev c' = ac_prev c /\
  ((ps_is_empty rs = false \/ m_field cd_base m = None) -> ac_base c' = ac_base c).
Proof.
  unfold process_base. destruct (ps_is_empty rs); [|intros H; injection H as <-; auto 10].
  destruct (m_field cd_base m) as [[|i]|].
  - intros H; injection H as <-. cbn. intuition discriminate.
  - destruct (iri_ok io i); [intros H; injection H as <-; cbn; intuition discriminate|].
    destruct (resolve_iri io i (ac_base c)); [|discriminate]. intros H; injection H as <-; cbn; intuition discriminate.
  - intros H; injection H as <-; auto 10.
Qed.
Lemma process_vocab_spec io c m o c' : process_vocab io c m o = Ok c' ->
  ac_orig c' = ac_orig c /\ ac_base c' = ac_base c /\ ac_lang c' = ac_lang c /\ ac_dir c' = ac_dir c /\
  ac_prev c' = ac_prev c /\ (m_field cd_vocab m = None -> ac_vocab c' = ac_vocab c).
Proof.
  unfold process_vocab. destruct (m_field cd_vocab m) as [[|i]|]; try (intros H; injection H as <-; cbn; intuition discriminate).
  intros H. apply bind_ok in H. destruct H as (t & _ & H). destruct t as [[]|]; try discriminate.
  injection H as <-; cbn; intuition discriminate.
Qed.
Lemma process_direction_spec c m o c' : process_direction (process_language c m) m o = Ok c' ->
  ac_orig c' = ac_orig c /\ ac_base c' = ac_base c /\ ac_vocab c' = ac_vocab c /\ ac_prev c' = ac_prev c /\
  ac_lang c' = match m_field cd_language m with
               | None => ac_lang c | Some NNull => None | Some (NSome l) => Some l end /\
  ac_dir c' = match m_field cd_direction m with
              | None => ac_dir c | Some NNull => None | Some (NSome d) => Some d end.
Proof.
  unfold process_direction, process_language.
  destruct (m_field cd_direction m) as [[|]|]; [destruct (is_10 o); [discriminate|]..|]; intros H; injection H as <-;
  destruct (m_field cd_language m) as [[|]|]; cbn; auto 10.
Qed.

(** What a context definition does to the settings. *)
Lemma process_merged_settings io ld n c m rs b o c' : process_merged io (engine io ld n) c m rs b o = Ok c' ->
  ac_orig c' = ac_orig c /\ ac_prev c' = ac_prev c /\
  ac_lang c' = match m_field cd_language m with
               | None => ac_lang c | Some NNull => None | Some (NSome l) => Some l end /\
  ac_dir c' = match m_field cd_direction m with
              | None => ac_dir c | Some NNull => None | Some (NSome d) => Some d end /\
  ((ps_is_empty rs = false \/ m_field cd_base m = None) -> ac_base c' = ac_base c) /\
  (m_field cd_vocab m = None -> ac_vocab c' = ac_vocab c).
Proof.
  unfold process_merged. intros H.
  apply bind_ok in H. destruct H as (c1 & E1 & H). apply bind_ok in H. destruct H as (c2 & E2 & H).
  apply bind_ok in H. destruct H as (c3 & E3 & H).
  apply process_base_spec in E1. apply process_vocab_spec in E2. apply process_direction_spec in E3.
  apply define_all_settings in H. unfold same_settings in H.
  destruct E1 as (A1 & A2 & A3 & A4 & A5 & A6). destruct E2 as (B1 & B2 & B3 & B4 & B5 & B6).
  destruct E3 as (D1 & D2 & D3 & D4 & D5 & D6). destruct H as (F1 & F2 & F3 & F4 & F5 & F6).
  rewrite <- F1, <- F2, <- F3, <- F4, <- F5, <- F6, D1, D2, D3, D4, D5, D6, B1, B2, B3, B4, B5, A1, A3, A4, A5.
  repeat split; auto. intros V. rewrite (B6 V). exact A2.
Qed.

(** ** The original base IRI never changes *)
Lemma process_orig io ld n a lc rs b o c' :
  process_context io ld n a lc rs b o = Ok c' -> ac_orig c' = ac_orig a.
Proof.
  intros H. refine (entry_process io ld (fun c => ac_orig c = ac_orig a) (fun _ => True) (fun _ => True) _ _ _ _ _ n a lc rs b o c' I _ H eq_refl).
  - auto.
  - auto.
  - intros x c o0 c0 _ E Ha _. unfold process_null in E. destruct (_ && _)%bool; [discriminate|].
    injection E as <-. destruct (po_propagate o0); exact Ha.
  - intros n0 c m rs0 b0 o0 c0 _ _ _ E Hc. apply process_merged_settings in E. destruct E as (E & _). congruence.
  - intros u l _ e _. exact Logic.I.
  - intros e _. exact Logic.I.
Qed.

(** ** Remote contexts do not change the base IRI *)
Definition not_null (e : centry) : Prop := e <> CENull.
Lemma process_remote_base io ld n a lc rs b o c' :
  ps_is_empty rs = false -> entry_all not_null lc -> load_entries ld not_null ->
  process_context io ld n a lc rs b o = Ok c' -> ac_base c' = ac_base a.
Proof.
  intros HR HE HL H.
  refine (entry_process io ld (fun c => ac_base c = ac_base a) not_null (fun rs => ps_is_empty rs = false) _ _ _ _ HL n a lc rs b o c' HR HE H eq_refl).
  - intros r u x r' Hr P. destruct x; [eapply ps_push_grows, P|]. unfold ps_push in P.
    destruct (ps_cycle r u); [|discriminate]. injection P as <-. exact Hr.
  - auto.
  - intros x c o0 c0 N. destruct (N eq_refl).
  - intros n0 c m rs0 b0 o0 c0 Hr _ _ E Hc. apply process_merged_settings in E. destruct E as (_ & _ & _ & _ & E & _).
    rewrite E; auto.
Qed.

(** ** Terms without an entry keep their definition *)
Definition binds (k : string) (d : cdef tdef) : Prop := assoc k (cd_bindings d) <> None.
Definition not_binding (k : string) (e : centry) : Prop :=
  e <> CENull /\ forall d, e = CEDef d -> ~ binds k d.

Lemma define_all_untouched io ld n c m rs b o c' k : m_get m (KKey k) = None ->
  define_all (engine io ld n) c m rs b o = Ok c' -> get_normal c' k = get_normal c k.
Proof.
  unfold define_all. intros M H.
  apply bind_ok in H. destruct H as (s1 & E1 & H). apply bind_ok in H. destruct H as (s2 & E2 & H). injection H as <-.
  assert (get_normal (fst s1) k = get_normal c k) as S1.
  { destruct (m_field cd_type m); [|injection E1 as <-; reflexivity].
    eapply define_untouched in E1; [|exact M]. exact E1. }
  rewrite <- S1.
  apply (keys_rel io ld (fun s s' => get_normal (fst s') k = get_normal (fst s) k)) in E2; [exact E2|auto|congruence|].
  intros s k1 s' H. eapply define_untouched; eassumption.
Qed.

Lemma process_frame io ld n a lc rs b o c' k :
  entry_all (not_binding k) lc -> load_entries ld (not_binding k) ->
  process_context io ld n a lc rs b o = Ok c' -> get_normal c' k = get_normal a k.
Proof.
  intros HE HL H.
  refine (entry_process io ld (fun c => get_normal c k = get_normal a k) (not_binding k) (fun _ => True) _ _ _ _ HL n a lc rs b o c' I HE H eq_refl).
  - auto.
  - auto.
  - intros x c o0 c0 [N _]. destruct (N eq_refl).
  - intros n0 c m rs0 b0 o0 c0 _ Hb Hi E Hc. rewrite <- Hc.
    unfold process_merged in E. apply bind_ok in E. destruct E as (c1 & E1 & E).
    apply bind_ok in E. destruct E as (c2 & E2 & E). apply bind_ok in E. destruct E as (c3 & E3 & E).
    apply base_defs in E1. apply vocab_defs in E2. apply direction_defs in E3.
    apply (define_all_untouched _ _ _ _ _ _ _ _ _ k) in E.
    + rewrite E. unfold get_normal. replace (ac_defs c3) with (ac_defs c) by intuition congruence. reflexivity.
    + destruct Hb as [_ Hb]. specialize (Hb _ eq_refl). unfold binds in Hb. unfold m_get, or_else, def_get.
      destruct (assoc k (cd_bindings (m_base m))); [exfalso; apply Hb; discriminate|]. cbn.
      destruct (m_imported m) as [i|] eqn:Mi; [|reflexivity]. destruct (Hi i eq_refl) as [_ Hi'].
      specialize (Hi' _ eq_refl). unfold binds in Hi'.
      destruct (assoc k (cd_bindings i)); [exfalso; apply Hi'; discriminate|]. reflexivity.
Qed.

(** ** Settings without an entry keep their value *)
Definition sets_no {A} (f : cdef tdef -> option A) (e : centry) : Prop :=
  e <> CENull /\ forall d, e = CEDef d -> f d = None.
Lemma m_field_none {A} (f : cdef tdef -> option A) m :
  sets_no f (CEDef (m_base m)) -> (forall i, m_imported m = Some i -> sets_no f (CEDef i)) -> m_field f m = None.
Proof.
  intros [_ H] Hi. unfold m_field, or_else. rewrite (H _ eq_refl).
  destruct (m_imported m) as [i|] eqn:E; [|reflexivity]. destruct (Hi i eq_refl) as [_ H']. apply H'. reflexivity.
Qed.

Lemma process_setting {A B} (f : cdef tdef -> option A) (g : actx -> B) io ld n a lc rs b o c' :
  (forall c p, g (set_previous c p) = g c) ->
  (forall n c m rs b o c', process_merged io (engine io ld n) c m rs b o = Ok c' -> m_field f m = None -> g c' = g c) ->
  entry_all (sets_no f) lc -> load_entries ld (sets_no f) ->
  process_context io ld n a lc rs b o = Ok c' -> g c' = g a.
Proof.
  intros HP HM HE HL H.
  refine (entry_process io ld (fun c => g c = g a) (sets_no f) (fun _ => True) _ _ _ _ HL n a lc rs b o c' I HE H eq_refl).
  - auto.
  - intros c p Hc _. rewrite HP. exact Hc.
  - intros x c o0 c0 [N _]. destruct (N eq_refl).
  - intros n0 c m rs0 b0 o0 c0 _ Hb Hi E Hc. rewrite <- Hc. eapply HM; [exact E|]. apply m_field_none; auto.
Qed.

Lemma process_language io ld n a lc rs b o c' :
  entry_all (sets_no cd_language) lc -> load_entries ld (sets_no cd_language) ->
  process_context io ld n a lc rs b o = Ok c' -> ac_lang c' = ac_lang a.
Proof.
  apply process_setting; [reflexivity|]. intros n0 c m rs0 b0 o0 c0 E F. apply process_merged_settings in E.
  destruct E as (_ & _ & E & _). rewrite F in E. exact E.
Qed.
Lemma process_direction io ld n a lc rs b o c' :
  entry_all (sets_no cd_direction) lc -> load_entries ld (sets_no cd_direction) ->
  process_context io ld n a lc rs b o = Ok c' -> ac_dir c' = ac_dir a.
Proof.
  apply process_setting; [reflexivity|]. intros n0 c m rs0 b0 o0 c0 E F. apply process_merged_settings in E.
  destruct E as (_ & _ & _ & E & _). rewrite F in E. exact E.
Qed.
Lemma process_vocab_kept io ld n a lc rs b o c' :
  entry_all (sets_no cd_vocab) lc -> load_entries ld (sets_no cd_vocab) ->
  process_context io ld n a lc rs b o = Ok c' -> ac_vocab c' = ac_vocab a.
Proof.
  apply process_setting; [reflexivity|]. intros n0 c m rs0 b0 o0 c0 E F. apply process_merged_settings in E.
  destruct E as (_ & _ & _ & _ & _ & E). apply E, F.
Qed.

(** ** Sequences of inline contexts *)
Definition is_inline (e : centry) : Prop := forall i, e <> CEIri i.

Lemma entries_active io ld n es : forall a a' c rs b o, ac_orig a = ac_orig a' ->
  process_entries io ld (engine io ld n) es a c rs b o = process_entries io ld (engine io ld n) es a' c rs b o.
Proof.
  induction es as [|e es IH]; intros a a' c rs b o HA; [reflexivity|]. cbn [process_entries].
  replace (process_null a c o) with (process_null a' c o) by (unfold process_null; rewrite HA; reflexivity).
  match goal with |- bind ?x _ = _ => destruct x as [[c1 rs1]|] end; [|reflexivity]. cbn [bind]. apply IH, HA.
Qed.

Lemma entries_app io ld n es es' : forall a c rs b o, (forall e, In e es -> is_inline e) ->
  process_entries io ld (engine io ld n) (es ++ es') a c rs b o =
  (do c' <- process_entries io ld (engine io ld n) es a c rs b o ;
   process_entries io ld (engine io ld n) es' a c' rs b o).
Proof.
  induction es as [|e es IH]; intros a c rs b o HI; [reflexivity|]. cbn [app process_entries].
  assert (forall e, In e es -> is_inline e) as HI' by (intros; apply HI; right; assumption).
  destruct e as [|i|d].
  - destruct (process_null a c o); [|reflexivity]. cbn [bind]. apply IH, HI'.
  - exfalso. apply (HI (CEIri i) (or_introl eq_refl) i eq_refl).
  - destruct (process_def io ld (engine io ld n) c d rs b o); [|reflexivity]. cbn [bind]. apply IH, HI'.
Qed.

Lemma process_many_app io ld n a es es' rs b o : (forall e, In e es -> is_inline e) -> po_propagate o = true ->
  process_context io ld n a (LMany (es ++ es')) rs b o =
  (do c <- process_context io ld n a (LMany es) rs b o ; process_context io ld n c (LMany es') rs b o).
Proof.
  intros HI HP. destruct n as [|n]; [reflexivity|].
  destruct (process_context io ld (S n) a (LMany es) rs b o) as [c|e] eqn:E.
  - pose proof (process_orig io ld (S n) a (LMany es) rs b o c E) as HO.
    unfold process_context in *. cbn [engine e_process] in *. unfold process_body in *.
    cbn [propagate_of bind entries_of] in *. rewrite HP in *. cbn [negb andb] in *.
    rewrite entries_app by exact HI. rewrite E. cbn [bind]. apply entries_active. symmetry. exact HO.
  - unfold process_context in *. cbn [engine e_process] in *. unfold process_body in *.
    cbn [propagate_of bind entries_of] in *. rewrite HP in *. cbn [negb andb] in *.
    rewrite entries_app by exact HI. rewrite E. reflexivity.
Qed.

(** Property theorems: C50 (processing mode 1.0), C51 (previous contexts), C52 (references in
    remote contexts), and complements to C47 and C48. *)
From Verif Require Import Prelude Str Keyword Enums LangTag Container Stack ContextSyntax Ctx Process
  ProcessRel Null IriSpec Frame Samples.

Lemma m_field_base {A} (f : cdef tdef -> option A) m x : f (m_base m) = Some x -> m_field f m = Some x.
Proof. intros H. unfold m_field, or_else. rewrite H. reflexivity. Qed.

(** ** C50 *)

(** In mode 1.0 no context definition, wherever it is in the local context, may have an entry of
    JSON-LD 1.1. *)
Theorem C50_mode_10 : forall io ld n a lc rs b o c' d,
  po_mode o = JsonLd10 -> process_context io ld n a lc rs b o = Ok c' -> In (CEDef d) (entries_of lc) ->
  cd_version d = None /\ cd_import d = None /\ cd_direction d = None /\ cd_type d = None.
Proof.
  intros io ld n a lc rs b o c' d HM H HD. unfold process_context in H. destruct n as [|n]; [discriminate|].
  cbn [engine e_process] in H. unfold process_body in H. apply bind_ok in H. destruct H as (o' & Ho & H).
  assert (M : is_10 o' = true).
  { unfold propagate_of in Ho. unfold is_10 in *. rewrite HM in Ho.
    destruct lc as [[| |d']|]; try (injection Ho as <-; rewrite HM; reflexivity).
    destruct (cd_propagate d'); [discriminate|]. injection Ho as <-. rewrite HM. reflexivity. }
  clear Ho. revert H HD. generalize (entries_of lc) as es.
  match goal with |- forall es, process_entries _ _ _ _ _ ?c _ _ _ = _ -> _ => generalize c end.
  intros c es. revert c rs. induction es as [|e es IH]; intros c rs H HD; [destruct HD|].
  destruct HD as [->|HD]; cbn [process_entries] in H;
    apply bind_ok in H; destruct H as ([c1 rs1] & E & H); [|eapply IH; eassumption].
  apply bind_ok in E. destruct E as (c2 & E & _). unfold process_def in E. rewrite M in E.
  destruct (cd_version d); [discriminate|]. apply bind_ok in E. destruct E as (i & EI & E). unfold import_of in EI. rewrite M in EI.
  destruct (cd_import d); [discriminate|]. injection EI as <-. split; [reflexivity|]. split; [reflexivity|].
  unfold process_merged in E. apply bind_ok in E. destruct E as (c3 & _ & E). apply bind_ok in E. destruct E as (c4 & _ & E).
  apply bind_ok in E. destruct E as (c5 & ED & E). unfold Process.process_direction in ED. rewrite M in ED.
  destruct (cd_direction d) eqn:DD; [rewrite (m_field_base _ _ _ (DD : cd_direction (m_base (MkMerged d None)) = _)) in ED; discriminate|].
  split; [reflexivity|]. unfold define_all in E. apply bind_ok in E. destruct E as (s1 & ET & _).
  destruct (cd_type d) as [t|] eqn:DT; [|reflexivity]. exfalso.
  rewrite (m_field_base _ _ _ (DT : cd_type (m_base (MkMerged d None)) = _)) in ET.
  destruct n as [|n]; [discriminate|]. cbn [engine e_define] in ET. unfold define_body in ET. cbn [snd dget] in ET.
  unfold m_get, or_else, def_get in ET. cbn [m_base] in ET. rewrite DT in ET. cbn [option_map] in ET.
  apply bind_ok in ET. destruct ET as (x & ET & _). unfold define_type_term in ET. rewrite M in ET. discriminate.
Qed.
Print Assumptions C50_mode_10.

(** [@propagate] is refused too, when the local context is a single definition. *)
Theorem C50_mode_10_propagate : forall io ld n a d rs b o p,
  po_mode o = JsonLd10 -> cd_propagate d = Some p ->
  process_context io ld (S n) a (LOne (CEDef d)) rs b o = Err EInvalidContextEntry.
Proof.
  intros io ld n a d rs b o p HM HP. unfold process_context. cbn [engine e_process]. unfold process_body, propagate_of, is_10.
  rewrite HP, HM. reflexivity.
Qed.
Print Assumptions C50_mode_10_propagate.

Definition propagate_def (p : bool) : cdef tdef := MkDef None None None None (Some p) None None None None [].
(** In an array it is neither refused in mode 1.0 nor taken into account in mode 1.1. *)
Theorem C50_array_propagate_refuted :
  (exists io ld n a d c', cd_propagate d = Some false /\
     process_full io ld n a (LMany [CEDef d]) None (MkOpts JsonLd10 false true AKeep) = Ok c') /\
  (exists io ld n a d c', cd_propagate d = Some false /\ ac_prev a = None /\
     process_full io ld n a (LMany [CEDef d]) None popts_default = Ok c' /\ ac_prev c' = None).
Proof.
  split; exists sample_iops, no_loader, 3, (ctx_new None), (propagate_def false); eexists; vm_compute; auto.
Qed.
Print Assumptions C50_array_propagate_refuted.

(** The errors. *)
Theorem C50_errors : forall io ld n a d rs b o, po_mode o = JsonLd10 -> cd_propagate d = None ->
  (cd_version d <> None -> process_context io ld (S n) a (LOne (CEDef d)) rs b o = Err EProcessingModeConflict) /\
  (cd_version d = None -> cd_import d <> None -> process_context io ld (S n) a (LOne (CEDef d)) rs b o = Err EInvalidContextEntry) /\
  (cd_version d = None -> cd_import d = None -> cd_base d = None -> cd_vocab d = None -> cd_direction d <> None ->
   process_context io ld (S n) a (LOne (CEDef d)) rs b o = Err EInvalidContextEntry) /\
  (cd_version d = None -> cd_import d = None -> cd_base d = None -> cd_vocab d = None -> cd_direction d = None -> cd_type d <> None ->
   process_context io ld (S (S n)) a (LOne (CEDef d)) rs b o = Err EKeywordRedefinition).
Proof.
  intros io ld n a d rs b o HM HP. unfold process_context. cbn [engine e_process]. unfold process_body, propagate_of, is_10.
  rewrite HP. cbn [bind entries_of process_entries]. unfold process_def, import_of, is_10. rewrite HM.
  split; [intros HV; destruct (cd_version d); [reflexivity|congruence]|].
  split; [intros -> HI; destruct (cd_import d); [reflexivity|congruence]|].
  assert (MF : forall A (f : cdef tdef -> option A), m_field f (MkMerged d None) = f d).
  { intros A f. unfold m_field, or_else. cbn. destruct (f d); reflexivity. }
  split; [intros -> -> HB HV HD|intros -> -> HB HV HD HT]; cbn [bind]; unfold process_merged, process_base, process_vocab, Process.process_language, Process.process_direction;
    rewrite !MF, HB, HV; (destruct (ps_is_empty rs); cbn [bind]);
    try (destruct (cd_direction d); [unfold is_10; rewrite HM; reflexivity|congruence]);
    rewrite HD; cbn [bind]; unfold define_all; rewrite !MF; (destruct (cd_type d) as [t|] eqn:ET; [|congruence]);
    cbn [engine e_define]; unfold define_body; cbn [snd dget]; unfold m_get, or_else, def_get; cbn [m_base]; rewrite ET;
    cbn [option_map]; unfold define_type_term, is_10; rewrite HM; reflexivity.
Qed.
Print Assumptions C50_errors.

Example C50_example :
  let d := MkDef None None None (Some (NSome Ltr)) None None None None None [] in
  process_full sample_iops no_loader 3 (ctx_new None) (LMany [CENull; CEDef d]) None (MkOpts JsonLd10 false true AKeep) = Err EInvalidContextEntry /\
  process_full sample_iops no_loader 3 (ctx_new None) (LMany [CENull; CEDef d]) None popts_default = Ok (set_default_direction (ctx_new None) (Some Ltr)).
Proof. vm_compute. auto. Qed.

(** ** C51 *)

(** The value of [propagate] for a local context. *)
Definition propagates (lc : lcontext) (o : popts) : bool :=
  match lc with LOne (CEDef d) => match cd_propagate d with Some p => p | None => po_propagate o end | _ => po_propagate o end.

(** Inline contexts without null: with [propagate] the previous context is that of the active
    context; without, it is kept if there is one and is the active context itself otherwise. *)
Theorem C51_previous : forall io ld n a lc rs b o c',
  (forall e, In e (entries_of lc) -> exists d, e = CEDef d) ->
  process_context io ld n a lc rs b o = Ok c' ->
  ac_prev c' = if propagates lc o then ac_prev a
               else Some (match ac_prev a with Some p => p | None => a end).
Proof.
  intros io ld n a lc rs b o c' HE H. unfold process_context in H. destruct n as [|n]; [discriminate|].
  cbn [engine e_process] in H. unfold process_body in H. apply bind_ok in H. destruct H as (o' & Ho & H).
  assert (P : po_propagate o' = propagates lc o).
  { unfold propagate_of in Ho. unfold propagates. destruct lc as [[| |d']|]; try (injection Ho as <-; reflexivity).
    destruct (cd_propagate d'); [|injection Ho as <-; reflexivity]. destruct (is_10 o); [discriminate|]. injection Ho as <-. reflexivity. }
  rewrite P in H. clear Ho P.
  assert (G : forall es c rs, (forall e, In e es -> exists d, e = CEDef d) ->
    process_entries io ld (engine io ld n) es a c rs b o' = Ok c' -> ac_prev c' = ac_prev c).
  { clear. induction es as [|e es IH]; intros c rs HE H; cbn [process_entries] in H; [injection H as <-; reflexivity|].
    apply bind_ok in H. destruct H as ([c1 rs1] & E & H). destruct (HE e (or_introl eq_refl)) as [d ->].
    apply bind_ok in E. destruct E as (c2 & E & E'). injection E' as <- <-.
    apply IH in H; [|intros e He; apply HE; right; exact He]. rewrite H. unfold process_def in E.
    destruct (match cd_version d with Some _ => _ | None => _ end); [discriminate|].
    apply bind_ok in E. destruct E as (i & _ & E). apply process_merged_settings in E. apply E. }
  apply G in H; [|exact HE]. rewrite H. destruct (propagates lc o); cbn [negb andb]; [reflexivity|].
  destruct (ac_prev a) eqn:E; [exact E|reflexivity].
Qed.
Print Assumptions C51_previous.

(** A null context without [propagate] keeps the whole context it replaces. *)
Theorem C51_null : forall io ld n a b o c', po_propagate o = false ->
  process_full io ld n a (LOne CENull) b o = Ok c' ->
  exists q, initial (ac_orig a) (Some q) c' /\
    ac_orig q = ac_orig a /\ ac_base q = ac_base a /\ ac_vocab q = ac_vocab a /\ ac_lang q = ac_lang a /\ ac_dir q = ac_dir a /\
    ac_defs q = ac_defs a /\ ac_type q = ac_type a /\ ac_prev q = Some (match ac_prev a with Some p => p | None => a end).
Proof.
  intros io ld n a b o c' HP H. unfold process_full, process_context in H. destruct n as [|n]; [discriminate|].
  cbn [engine e_process] in H. unfold process_body in H. cbn [propagate_of bind entries_of process_entries] in H.
  rewrite HP in H. cbn [negb andb] in H. apply bind_ok in H. destruct H as ([c1 r1] & E & H). injection H as <-.
  apply bind_ok in E. destruct E as (c2 & E & H). injection H as <- _.
  set (c := match ac_prev a with Some _ => false | None => true end) in E. unfold process_null in E.
  destruct (_ && _)%bool; [discriminate|]. rewrite HP in E. injection E as <-.
  exists (if c then set_previous a a else a). split; [repeat split|]. subst c.
  destruct (ac_prev a) eqn:EP; cbn; auto 10.
Qed.
Print Assumptions C51_null.

Example C51_example :
  let a := ctx_of [("t", ndef_of "http://t/" true false)] in
  exists c c2 c3, process_full sample_iops no_loader 3 a (LOne (CEDef (propagate_def false))) None popts_default = Ok c /\ ac_prev c = Some a /\
    process_full sample_iops no_loader 3 c (LOne (CEDef (propagate_def false))) None popts_default = Ok c2 /\ ac_prev c2 = Some a /\
    process_full sample_iops no_loader 3 c (LOne CENull) None popts_default = Ok c3 /\ ac_prev c3 = None.
Proof. cbv zeta. eexists. eexists. eexists. vm_compute. auto 10. Qed.

(** ** C52 *)

(** Documents that only refer to the next one, by a reference relative to their own URL. *)
Fixpoint linked (io : iops) (ld : loader) (us : list string) : Prop :=
  match us with
  | u :: (v :: _) as r => (exists j, ld u = LdContext (LOne (CEIri j)) /\ resolve io u j = v) /\ linked io ld r
  | _ => True
  end.

Lemma linked_process io ld n a u lc m voc : forall us i b rs o,
  ld u = LdContext lc -> linked io ld (us ++ [u]) -> NoDup (us ++ [u]) ->
  (forall x, In x (us ++ [u]) -> ~ In x (ps_urls rs)) ->
  po_propagate o = true -> po_mode o = m -> po_vocab o = voc ->
  resolve_iri io i b = Some (hd u us) ->
  exists rs', ps_urls rs' = rev (us ++ [u]) ++ ps_urls rs /\
    process_context io ld (S (length us) + n) a (LOne (CEIri i)) rs b o =
    process_context io ld n a lc rs' (Some u) (MkOpts m false true voc).
Proof.
  intros us i b rs o HL. revert i b rs o. induction us as [|x us IH]; intros i b rs o HK HN HR HP HM HV HI.
  - destruct (ps_push_spec rs u) as [_ PS]. destruct (PS (HR u (or_introl eq_refl))) as (rs' & E & U).
    exists rs'. split; [exact U|]. unfold process_context. cbn [length Nat.add engine e_process]. unfold process_body.
    cbn [propagate_of bind entries_of process_entries]. rewrite HP. cbn [negb andb]. unfold process_iri. cbn [hd] in HI.
    rewrite HI, E, HL, HM, HV. destruct (e_process (engine io ld n) a lc rs' (Some u) (MkOpts m false true voc)); reflexivity.
  - destruct (ps_push_spec rs x) as [_ PS]. destruct (PS (HR x (or_introl eq_refl))) as (rs1 & E & U). cbn [hd] in HI.
    assert (X : exists j, ld x = LdContext (LOne (CEIri j)) /\ resolve io x j = hd u us /\ linked io ld (us ++ [u])).
    { cbn [app linked] in HK. destruct us as [|y us]; cbn [app hd] in *; destruct HK as [(j & A & B) C]; eauto. }
    destruct X as (j & LX & RX & HK'). cbn [app] in HN. inversion HN as [|? ? HN1 HN2]; subst.
    destruct (IH j (Some x) rs1 (MkOpts (po_mode o) false true (po_vocab o)) HK' HN2) as (rs' & U' & E').
    { intros y Hy. rewrite U. intros [->|Hy']; [contradiction|]. apply (HR y); [right; exact Hy|exact Hy']. }
    { reflexivity. } { reflexivity. } { reflexivity. } { cbn. congruence. }
    exists rs'. split.
    { rewrite U', U. cbn [app rev]. rewrite <- app_assoc. reflexivity. }
    rewrite <- E'. unfold process_context.
    change (S (length (x :: us)) + n) with (S (S (length us) + n)).
    cbn [engine e_process]. unfold process_body at 1.
    cbn [propagate_of bind entries_of process_entries]. rewrite HP. cbn [negb andb]. unfold process_iri at 1.
    rewrite HI, E, LX.
    destruct (e_process (engine io ld (S (length us) + n)) a (LOne (CEIri j)) rs1 (Some x) (MkOpts (po_mode o) false true (po_vocab o))); reflexivity.
Qed.

(** A chain of documents is followed with each reference resolved against the URL of the document
    it is in, and the contexts of the last one are processed relative to its own URL, without
    the right to override protected terms. *)
Theorem C52_relative_references : forall io ld n a us u lc i b o,
  linked io ld (us ++ [u]) -> NoDup (us ++ [u]) -> ld u = LdContext lc -> po_propagate o = true ->
  resolve_iri io i b = Some (hd u us) ->
  exists rs, ps_urls rs = rev (us ++ [u]) /\
    process_full io ld (S (length us) + n) a (LOne (CEIri i)) b o =
    process_context io ld n a lc rs (Some u) (MkOpts (po_mode o) false true (po_vocab o)).
Proof.
  intros io ld n a us u lc i b o HK HN HL HP HI.
  destruct (linked_process io ld n a u lc (po_mode o) (po_vocab o) us i b ps_new o) as (rs & U & E); auto.
  exists rs. split; [|exact E]. rewrite U, app_nil_r. reflexivity.
Qed.
Print Assumptions C52_relative_references.

(** A reference to a document that is already being processed changes nothing. *)
Theorem C52_repeated : forall io ld n a i u rs b o, po_propagate o = true ->
  resolve_iri io i b = Some u -> In u (ps_urls rs) ->
  process_context io ld (S n) a (LOne (CEIri i)) rs b o = Ok a.
Proof.
  intros io ld n a i u rs b o HP HI HU. unfold process_context. cbn [engine e_process]. unfold process_body.
  cbn [propagate_of bind entries_of process_entries]. rewrite HP. cbn [negb andb]. unfold process_iri. rewrite HI.
  destruct (ps_push_spec rs u) as [PS _]. rewrite (PS HU). reflexivity.
Qed.
Print Assumptions C52_repeated.

Example C52_example :
  let ld := fun u => if streq u "http://a/" then LdContext (LOne (CEIri "b")) else
                     if streq u "http://a/b" then LdContext (LOne (CEIri "c")) else
                     if streq u "http://a/bc" then LdContext (lc_of [("t", NSome (TSimple "http://t/"))]) else LdFail in
  linked sample_iops ld ["http://a/"; "http://a/b"; "http://a/bc"] /\
  process_full sample_iops ld 6 (ctx_new None) (LOne (CEIri "http://a/")) None popts_default = Ok (ctx_of [("t", ndef_of "http://t/" true false)]).
Proof.
  cbv zeta. split; [|vm_compute; reflexivity]. cbn [linked]. split; [exists "b"; split; reflexivity|].
  split; [exists "c"; split; reflexivity|exact I].
Qed.

(** ** C47: base IRI and vocabulary *)

(** [@base] of an inline definition: absolute, or relative to the current base IRI. *)
Theorem C47_base : forall io ld n a d b o c', cd_import d = None ->
  process_full io ld n a (LOne (CEDef d)) b o = Ok c' ->
  match cd_base d with
  | None => ac_base c' = ac_base a
  | Some NNull => ac_base c' = None
  | Some (NSome i) => exists u, ac_base c' = Some u /\
      (u = i /\ iri_ok io i = true \/ exists p, iri_ok io i = false /\ ac_base a = Some p /\ u = resolve io p i)
  end.
Proof.
  intros io ld n a d b o c' HI H. unfold process_full, process_context in H. destruct n as [|n]; [discriminate|]. cbn [engine e_process] in H.
  unfold process_body in H. apply bind_ok in H. destruct H as (o' & _ & H). cbn [entries_of process_entries] in H.
  set (a' := if (negb (po_propagate o') && _)%bool then _ else a) in H.
  assert (BA : ac_base a' = ac_base a) by (subst a'; destruct (_ && _)%bool; reflexivity). clearbody a'.
  apply bind_ok in H. destruct H as ([c1 r1] & E & H). injection H as <-.
  apply bind_ok in E. destruct E as (c2 & E & H). injection H as <- _. unfold process_def in E.
  destruct (match cd_version d with Some _ => _ | None => _ end); [discriminate|].
  unfold import_of in E. rewrite HI in E. cbn [bind] in E.
  assert (M : forall A (f : cdef tdef -> option A), m_field f (MkMerged d None) = f d).
  { intros A f. unfold m_field, or_else. cbn. destruct (f d); reflexivity. }
  unfold process_merged in E. apply bind_ok in E. destruct E as (c3 & E1 & E). apply bind_ok in E. destruct E as (c4 & E2 & E).
  apply bind_ok in E. destruct E as (c5 & E3 & E).
  apply process_vocab_spec in E2. destruct E2 as (_ & B2 & _).
  apply process_direction_spec in E3. apply define_all_settings in E. destruct E as (_ & E & _). destruct E3 as (_ & E3 & _).
  assert (BC : ac_base c2 = ac_base c3) by congruence. rewrite BC, <- BA. clear - E1 M.
  unfold process_base in E1. cbn [ps_is_empty ps_new] in E1. rewrite M in E1. destruct (cd_base d) as [[|i]|].
  - injection E1 as <-. reflexivity.
  - destruct (iri_ok io i) eqn:EI; [injection E1 as <-; exists i; cbn; auto|].
    destruct (resolve_iri io i (ac_base a')) as [u|] eqn:ER; [|discriminate]. injection E1 as <-. exists u. split; [reflexivity|].
    right. unfold resolve_iri in ER. destruct (ac_base a') as [p|]; [|rewrite EI in ER; discriminate]. injection ER as <-. eauto.
  - injection E1 as <-. reflexivity.
Qed.
Print Assumptions C47_base.

(** [@vocab]: the expansion of its value, also relative to the (new) base IRI, with the terms and
    the vocabulary of the active context. *)
Theorem C47_vocab : forall io ld n a d rs b o c' v, cd_import d = None -> cd_vocab d = Some (NSome v) ->
  process_context io ld n a (LOne (CEDef d)) rs b o = Ok c' ->
  exists i c0, ac_vocab c' = Some (TmId i) /\ ac_base c0 = ac_base c' /\ ac_defs c0 = ac_defs a /\ ac_vocab c0 = ac_vocab a /\
    expansion io c0 true (Some (po_vocab o)) (NSome (xp_of_str v)) (OTerm (TmId i)).
Proof.
  intros io ld n a d rs b o c' v HI HV H. unfold process_context in H. destruct n as [|n]; [discriminate|]. cbn [engine e_process] in H.
  unfold process_body in H. apply bind_ok in H. destruct H as (o' & Ho & H). cbn [entries_of process_entries] in H.
  assert (PV : po_vocab o' = po_vocab o).
  { unfold propagate_of in Ho. destruct (cd_propagate d); [destruct (is_10 o); [discriminate|]|]; injection Ho as <-; reflexivity. }
  set (a' := if (negb (po_propagate o') && _)%bool then _ else a) in H.
  assert (BA : ac_defs a' = ac_defs a /\ ac_vocab a' = ac_vocab a) by (subst a'; destruct (_ && _)%bool; auto). clearbody a'. destruct BA as [DA VA].
  apply bind_ok in H. destruct H as ([c1 r1] & E & H). injection H as <-.
  apply bind_ok in E. destruct E as (c2 & E & H). injection H as <- _. unfold process_def in E.
  destruct (match cd_version d with Some _ => _ | None => _ end); [discriminate|].
  unfold import_of in E. rewrite HI in E. cbn [bind] in E.
  assert (M : forall A (f : cdef tdef -> option A), m_field f (MkMerged d None) = f d).
  { intros A f. unfold m_field, or_else. cbn. destruct (f d); reflexivity. }
  unfold process_merged in E. apply bind_ok in E. destruct E as (c3 & E1 & E). apply bind_ok in E. destruct E as (c4 & E2 & E).
  apply bind_ok in E. destruct E as (c5 & E3 & E).
  apply process_direction_spec in E3. apply define_all_settings in E. destruct E as (_ & EB & EV & _). destruct E3 as (_ & E3 & E3' & _).
  assert (D3 : ac_defs c3 = ac_defs a' /\ ac_vocab c3 = ac_vocab a').
  { clear - E1. unfold process_base in E1. destruct (ps_is_empty rs); [|injection E1 as <-; auto].
    destruct (m_field cd_base _) as [[|i]|]; [injection E1 as <-; auto| |injection E1 as <-; auto].
    destruct (iri_ok io i); [injection E1 as <-; auto|]. destruct (resolve_iri io i (ac_base a')); [|discriminate]. injection E1 as <-; auto. }
  destruct D3 as [D3 V3]. unfold process_vocab in E2. rewrite M, HV, PV in E2.
  apply bind_ok in E2. destruct E2 as (t & ET & E2). destruct t as [[|i|k]|]; try discriminate. injection E2 as <-. cbn [ac_base ac_vocab set_vocabulary] in E3, E3'.
  exists i, c3. split; [congruence|]. split; [congruence|]. split; [congruence|]. split; [congruence|].
  apply expansion_iff. unfold outcome_of. rewrite ET. reflexivity.
Qed.
Print Assumptions C47_vocab.

(** ** C48: [@type] *)
Theorem C48_type : forall io ld n a d rs b o c', cd_import d = None ->
  process_context io ld n a (LOne (CEDef d)) rs b o = Ok c' ->
  ac_type c' = match cd_type d with
               | None => ac_type a
               | Some t => Some (negb (po_override o) && (match ac_type a with Some p => p | None => false end) ||
                                 match dt_protected t with Some p => p | None => false end)%bool
               end.
Proof.
  intros io ld n a d rs b o c' HI H. unfold process_context in H. destruct n as [|n]; [discriminate|]. cbn [engine e_process] in H.
  unfold process_body in H. apply bind_ok in H. destruct H as (o' & Ho & H). cbn [entries_of process_entries] in H.
  assert (PV : po_override o' = po_override o).
  { unfold propagate_of in Ho. destruct (cd_propagate d); [destruct (is_10 o); [discriminate|]|]; injection Ho as <-; reflexivity. }
  set (a' := if (negb (po_propagate o') && _)%bool then _ else a) in H.
  assert (BA : ac_type a' = ac_type a) by (subst a'; destruct (_ && _)%bool; auto). clearbody a'.
  apply bind_ok in H. destruct H as ([c1 r1] & E & H). injection H as <-.
  apply bind_ok in E. destruct E as (c2 & E & H). injection H as <- _. unfold process_def in E.
  destruct (match cd_version d with Some _ => _ | None => _ end); [discriminate|].
  unfold import_of in E. rewrite HI in E. cbn [bind] in E.
  unfold process_merged in E. apply bind_ok in E. destruct E as (c3 & E1 & E). apply bind_ok in E. destruct E as (c4 & E2 & E).
  apply bind_ok in E. destruct E as (c5 & E3 & E).
  apply base_defs in E1. apply vocab_defs in E2. apply direction_defs in E3.
  assert (T5 : ac_type c5 = ac_type a) by (destruct E1, E2, E3; congruence). clear E1 E2 E3.
  unfold define_all in E. apply bind_ok in E. destruct E as (s1 & ET & E). apply bind_ok in E. destruct E as (s2 & EK & E). injection E as <-.
  assert (K : ac_type (fst s2) = ac_type (fst s1)).
  { revert EK. apply (keys_rel io ld (fun s s' => ac_type (fst s') = ac_type (fst s))); [reflexivity|intros; congruence|].
    intros. eapply define_key_type. eassumption. }
  rewrite K. clear K EK. assert (M : m_field cd_type (MkMerged d None) = cd_type d).
  { unfold m_field, or_else. cbn. destruct (cd_type d); reflexivity. }
  rewrite M in ET. destruct (cd_type d) as [t|] eqn:DT; [|injection ET as <-; exact T5].
  destruct n as [|n]; [discriminate|]. cbn [engine e_define] in ET. unfold define_body in ET. cbn [snd dget] in ET.
  unfold m_get, or_else, def_get in ET. cbn [m_base] in ET. rewrite DT in ET. cbn [option_map] in ET.
  apply bind_ok in ET. destruct ET as (x & ET & E'). injection E' as <-. unfold define_type_term in ET. cbn [fst] in ET. rewrite PV, T5 in ET.
  destruct (is_10 o'); [discriminate|]. injection ET as <-. cbn.
  destruct (po_override o), (ac_type a) as [[]|], (dt_protected t) as [[]|]; reflexivity.
Qed.
Print Assumptions C48_type.

(** A scoped context is processed when the term is defined, with the right to override protected
    terms; an invalid one is refused. *)
Example C48_scoped_example :
  let a := ctx_of [("t", ndef_of "http://t/" true true)] in
  let scoped lc := LOne (CEDef (MkDef None None None None None None None None None
     [("u", NSome (TExpanded (MkTExp (Some (NSome (TIdTerm "http://u/"))) None (Some lc) None None None None None None None None None)))])) in
  (exists c, process_full sample_iops no_loader 5 a (scoped (LOne CENull)) None popts_default = Ok c) /\
  process_full sample_iops no_loader 5 a (LOne CENull) None popts_default = Err EInvalidContextNullification /\
  process_full sample_iops no_loader 5 a (scoped (lc_of [("@vocab:", NSome (TSimple "_"))])) None popts_default = Err EInvalidScopedContext.
Proof. cbv zeta. vm_compute. repeat split; eauto. Qed.

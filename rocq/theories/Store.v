(** What an answer owes to the documents that were loaded: used for C100. *)
From Verif Require Import Prelude Json Enums LangTag LangString Str Keyword Container Stack ContextSyntax Ctx Process Object ObjectEq Expand CompactIri Compact.

(** ** Specification *)

(** The result [x], obtained with the source [src], depends on finitely many of its answers, all of them good: [y], the
    same computation as a function of the source, gives the same with any source that has the same answers there. *)
Definition owes {X A E} (good : X -> Prop) (src : string -> X) (x : result A E) (y : (string -> X) -> result A E) : Prop :=
  forall a, x = Ok a -> exists urls, (forall u, In u urls -> good (src u)) /\
    forall src', (forall u, In u urls -> src' u = src u) -> y src' = Ok a.

(** ** Proof *)
Section Owes.
Context {X : Type} (good : X -> Prop) (src : string -> X).
Lemma owes_refl {A E} (x : result A E) : owes good src x (fun _ => x).
Proof. intros a H. exists []. split; [intros u []|]. intros. exact H. Qed.
Lemma owes_err {A E} (e : E) (y : (string -> X) -> result A E) : owes good src (Err e) y.
Proof. intros a H. discriminate. Qed.
Lemma owes_bind {A B E} (x : result A E) y (f : A -> result B E) g : owes good src x y -> (forall a, owes good src (f a) (fun s => g s a)) ->
  owes good src (do a <- x ; f a) (fun s => do a <- y s ; g s a).
Proof.
  intros H F b E0. destruct x as [a|e]; cbn in E0; [|discriminate]. destruct (H a eq_refl) as (u1 & G1 & H1). destruct (F a b E0) as (u2 & G2 & H2).
  exists (u1 ++ u2). split.
  - intros u I. apply in_app_or in I. destruct I; auto.
  - intros s S. rewrite H1 by (intros u I; apply S, in_or_app; auto). cbn. apply H2. intros u I. apply S, in_or_app. auto.
Qed.
Lemma owes_map_err {A E F} (f : E -> F) (x : result A E) y : owes good src x y -> owes good src (map_err f x) (fun s => map_err f (y s)).
Proof.
  intros H a E0. destruct x as [b|e]; cbn in E0; [|discriminate]. injection E0 as ->. destruct (H a eq_refl) as (u & G & S). exists u. split; [exact G|].
  intros s T. rewrite (S s T). reflexivity.
Qed.
Lemma owes_fold {A B E} (f : A -> B -> result A E) g : (forall a x, owes good src (f a x) (fun s => g s a x)) -> forall l a, owes good src (fold_r f a l) (fun s => fold_r (g s) a l).
Proof. intros H. induction l as [|x l IH]; intros a; cbn [fold_r]; [apply owes_refl|]. apply (owes_bind _ _ _ (fun s b => fold_r (g s) b l)); [apply H|intros b; apply IH]. Qed.
Lemma owes_flat {A B E} (f : A -> result (list B) E) g : (forall x, owes good src (f x) (fun s => g s x)) -> forall l, owes good src (flat_r f l) (fun s => flat_r (g s) l).
Proof.
  intros H. induction l as [|x l IH]; cbn [flat_r]; [apply owes_refl|]. apply (owes_bind _ _ _ (fun s y => do ys <- flat_r (g s) l ; Ok (y ++ ys))); [apply H|intros y].
  apply (owes_bind _ _ _ (fun s ys => Ok (y ++ ys))); [apply IH|intros ys; apply owes_refl].
Qed.
End Owes.

Definition is_context (x : loaded) : Prop := exists l, x = LdContext l.

Section Processing.
Variable io : iops.
Variable ld : loader.
Notation ow := (owes is_context ld).
Section Mono.
Variable r : eng.
Variable r' : loader -> eng.
Hypothesis HP : forall a lc rs b o, ow (e_process r a lc rs b o) (fun s => e_process (r' s) a lc rs b o).
Hypothesis HD : forall s0 m k rs b p o, ow (e_define r s0 m k rs b p o) (fun s => e_define (r' s) s0 m k rs b p o).

Ltac bnd := refine (owes_bind _ _ _ _ _ _ _ _).
Ltac same := apply owes_refl.

Lemma st_expand s0 v dr vo m rs o : ow (expand_iri_with io r s0 v dr vo m rs o) (fun s => expand_iri_with io (r' s) s0 v dr vo m rs o).
Proof.
  unfold expand_iri_with. destruct v as [|[k|s]]; try same.
  destruct (is_keyword_like s); [same|]. bnd; [apply HD|]. intros s1.
  destruct (expand_defined (fst s1) s vo); [same|]. destruct (colon_inside s); [|same]. destruct (blank_ok io s); [same|].
  destruct (streq s "_:"); [same|]. destruct (compact_iri_of io s) as [[p x]|]; [|same].
  bnd; [apply HD|]. intros s2. same.
Qed.
Lemma st_type s0 m rs o e d : ow (define_type io r s0 m rs o e d) (fun s => define_type io (r' s) s0 m rs o e d).
Proof. unfold define_type. destruct (te_type e); [|same]. bnd; [apply st_expand|]. intros [s1 t]. same. Qed.
Lemma st_reverse s0 m k rs o e d rev : ow (define_reverse io r s0 m k rs o e d rev) (fun s => define_reverse io (r' s) s0 m k rs o e d rev).
Proof.
  unfold define_reverse. destruct (_ || _)%bool; [same|]. destruct (is_keyword_like rev); [same|]. bnd; [apply st_expand|]. intros [s1 t]. same.
Qed.
Lemma st_id s0 m k rs o b i d : ow (define_id io r s0 m k rs o b i d) (fun s => define_id io (r' s) s0 m k rs o b i d).
Proof.
  unfold define_id. destruct (_ && _)%bool; [same|]. bnd; [apply st_expand|]. intros [s1 v].
  destruct (match v with Some (TmKw KContext) => true | _ => false end); [same|].
  destruct (match v with Some (TmId p) => negb (id_valid p) | _ => false end); [same|].
  bnd; [|intros s2; same]. destruct (_ || _)%bool; [|same]. bnd; [apply st_expand|]. intros [s2 t]. same.
Qed.
Lemma st_no_id s0 m k rs o : ow (define_no_id io r s0 m k rs o) (fun s => define_no_id io (r' s) s0 m k rs o).
Proof. unfold define_no_id. destruct (compact_iri_of io k) as [[p x]|]; [|same]. bnd; [apply HD|]. intros s1. same. Qed.
Lemma st_mapping s0 m k rs o b e d : ow (define_mapping io r s0 m k rs o b e d) (fun s => define_mapping io (r' s) s0 m k rs o b e d).
Proof.
  unfold define_mapping.
  assert (N : ow (do (s1, t) <- define_no_id io r s0 m k rs o ; Ok (s1, Some (nd_set_value d (Some t))))
                 (fun s => do (s1, t) <- define_no_id io (r' s) s0 m k rs o ; Ok (s1, Some (nd_set_value d (Some t)))) ).
  { bnd; [apply st_no_id|]. intros [s1 t]. same. }
  destruct (te_id e) as [i|]; [|exact N]. destruct (id_differs i k); [|exact N]. destruct i; [same|apply st_id].
Qed.
Lemma st_context c rs b o e d : ow (define_context r c rs b o e d) (fun s => define_context (r' s) c rs b o e d).
Proof.
  unfold define_context. destruct (te_context e) as [lc|]; [|same]. destruct (is_10 o); [same|].
  intros a H. pose proof (HP c lc rs b (with_override o)) as P. destruct (e_process r c lc rs b (with_override o)) as [c'|err].
  - destruct (P c' eq_refl) as (u & G & S). exists u. split; [exact G|]. intros s T. rewrite (S s T). exact H.
  - exfalso. destruct err; discriminate.
Qed.
Lemma st_rest s0 k rs b o e prev d : ow (define_rest io r s0 k rs b o e prev d) (fun s => define_rest io (r' s) s0 k rs b o e prev d).
Proof. unfold define_rest. bnd; [same|]. intros ?. bnd; [same|]. intros ?. bnd; [apply st_context|]. intros ?. same. Qed.
Lemma st_normal s0 m k rs b p o v : ow (define_normal io r s0 m k rs b p o v) (fun s => define_normal io (r' s) s0 m k rs b p o v).
Proof.
  unfold define_normal. bnd; [same|]. intros d. bnd; [apply st_type|]. intros [s1 d1].
  destruct (te_reverse (expanded_of v)); [apply st_reverse|]. bnd; [apply st_mapping|]. intros [s2 d2].
  destruct d2; [|same]. bnd; [apply st_rest|]. intros s3. same.
Qed.
Lemma st_define_body s0 m k rs b p o : ow (define_body io r s0 m k rs b p o) (fun s => define_body io (r' s) s0 m k rs b p o).
Proof.
  unfold define_body. destruct (dget k (snd s0)) as [[]|]; try same.
  destruct (match k with KKey s => streq s "" | KKeyword _ => false end); [same|].
  destruct (m_get m k) as [[]|]; try same. destruct k; [|same]. bnd; [apply st_normal|]. intros [s1 b1]. same.
Qed.
Lemma st_keys ks m rs b p o : forall s0, ow (define_keys r ks s0 m rs b p o) (fun s => define_keys (r' s) ks s0 m rs b p o).
Proof. induction ks as [|k ks IH]; intros s0; cbn; [same|]. bnd; [apply HD|]. intros s1. apply IH. Qed.
Lemma st_all c m rs b o : ow (define_all r c m rs b o) (fun s => define_all (r' s) c m rs b o).
Proof. unfold define_all. bnd; [destruct (m_field cd_type m); [apply HD|same]|]. intros ?. bnd; [apply st_keys|]. intros ?. same. Qed.
Lemma st_merged c m rs b o : ow (process_merged io r c m rs b o) (fun s => process_merged io (r' s) c m rs b o).
Proof. unfold process_merged. bnd; [same|]. intros ?. bnd; [same|]. intros ?. bnd; [same|]. intros ?. apply st_all. Qed.
(** The two places where a document is loaded. *)
Lemma st_load {A} u (f : loaded -> result A cerr) g : f LdFail = Err EContextLoadingFailed -> f LdNoContext = Err EContextExtractionFailed ->
  (forall l, ow (f (LdContext l)) (fun s => g s (LdContext l))) -> ow (f (ld u)) (fun s => g s (s u)).
Proof.
  intros F N H a E. destruct (ld u) as [| |l] eqn:L; try congruence. destruct (H l a E) as (us & G & S). exists (u :: us). split.
  - intros v [<-|I]; [exists l; exact L|auto].
  - intros s T. rewrite (T u (or_introl eq_refl)), L. apply S. intros v I. apply T. right. exact I.
Qed.
Lemma st_import d b o : ow (import_of io ld d b o) (fun s => import_of io s d b o).
Proof.
  unfold import_of. destruct (cd_import d) as [i|]; [|same]. destruct (is_10 o); [same|]. destruct (resolve_iri io i b) as [u|]; [|same].
  apply (st_load u (fun x => match x with LdFail => Err EContextLoadingFailed | LdNoContext => Err EContextExtractionFailed
    | LdContext (LOne (CEDef i)) => match cd_import i with Some _ => Err EInvalidContextEntry | None => Ok (Some i) end | LdContext _ => Err EInvalidRemoteContext end)
    (fun _ x => match x with LdFail => Err EContextLoadingFailed | LdNoContext => Err EContextExtractionFailed
    | LdContext (LOne (CEDef i)) => match cd_import i with Some _ => Err EInvalidContextEntry | None => Ok (Some i) end | LdContext _ => Err EInvalidRemoteContext end)); [reflexivity|reflexivity|].
  intros l. same.
Qed.
Lemma st_def c d rs b o : ow (process_def io ld r c d rs b o) (fun s => process_def io s (r' s) c d rs b o).
Proof.
  unfold process_def. destruct (match cd_version d with Some _ => _ | None => _ end); [same|]. bnd; [apply st_import|]. intros i. apply st_merged.
Qed.
Lemma st_iri c i rs b o : ow (process_iri io ld r c i rs b o) (fun s => process_iri io s (r' s) c i rs b o).
Proof.
  unfold process_iri. destruct (resolve_iri io i b) as [u|]; [|same]. destruct (ps_push rs u) as [[] rs']; [|same].
  apply (st_load u (fun x => match x with LdFail => Err EContextLoadingFailed | LdNoContext => Err EContextExtractionFailed
    | LdContext lc => do c' <- e_process r c lc rs' (Some u) (MkOpts (po_mode o) false true (po_vocab o)) ; Ok (c', rs') end)
    (fun s x => match x with LdFail => Err EContextLoadingFailed | LdNoContext => Err EContextExtractionFailed
    | LdContext lc => do c' <- e_process (r' s) c lc rs' (Some u) (MkOpts (po_mode o) false true (po_vocab o)) ; Ok (c', rs') end)); [reflexivity|reflexivity|].
  intros l. bnd; [apply HP|]. intros ?. same.
Qed.
Lemma st_entries es a b o : forall c rs, ow (process_entries io ld r es a c rs b o) (fun s => process_entries io s (r' s) es a c rs b o).
Proof.
  induction es as [|e es IH]; intros c rs; cbn; [same|]. bnd; [|intros [c' rs']; apply IH].
  destruct e; [same|apply st_iri|]. bnd; [apply st_def|]. intros ?. same.
Qed.
Lemma st_body a lc rs b o : ow (process_body io ld r a lc rs b o) (fun s => process_body io s (r' s) a lc rs b o).
Proof. unfold process_body. bnd; [same|]. intros ?. apply st_entries. Qed.
End Mono.
Lemma engine_owes n :
  (forall a lc rs b o, ow (e_process (engine io ld n) a lc rs b o) (fun s => e_process (engine io s n) a lc rs b o)) /\
  (forall s0 m k rs b p o, ow (e_define (engine io ld n) s0 m k rs b p o) (fun s => e_define (engine io s n) s0 m k rs b p o)).
Proof.
  induction n as [|n [IH1 IH2]]; [split; intros; apply owes_err|]. split; intros; [apply (st_body _ (fun s => engine io s n))|apply (st_define_body _ (fun s => engine io s n))]; assumption.
Qed.
Theorem process_owes n c lc b o : ow (process_full io ld n c lc b o) (fun s => process_full io s n c lc b o).
Proof. apply engine_owes. Qed.
End Processing.

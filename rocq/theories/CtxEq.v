(** Comparing active contexts, and mapping their identifiers: [PartialEq] and [map_ids] of core/src/context/mod.rs. *)
From Verif Require Import Prelude Str Keyword Enums LangTag Container ContextSyntax Ctx Process Inverse Interchange.

(** ** Model *)

(** context/mod.rs 326-335 ([PartialEq for Context]): the definitions are not compared. *)
Fixpoint ctx_eqb (a b : actx) {struct a} : bool :=
  match a, b with
  | MkCtx o i v l d p _ _, MkCtx o' i' v' l' d' p' _ _ =>
      (opt_eqb streq o o' && opt_eqb streq i i' && opt_eqb term_eqb v v' && opt_eqb lang_eqb l l' && opt_eqb direction_eqb d d'
       && match p, p' with Some x, Some y => ctx_eqb x y | None, None => true | _, _ => false end)%bool
  end.

Section MapIds.
Variables (f : string -> string) (g : id -> id).

(** id.rs 209-214 ([Id::map]): [g] is only applied to valid identifiers. *)
Definition valid_ids (i : id) : id := match i with IInvalid s => IInvalid s | _ => g i end.
(** term.rs 50-59 ([Term::map_id]). *)
Definition term_ids (t : term) : term := match t with TmNull => TmNull | TmKw k => TmKw k | TmId i => TmId (valid_ids i) end.
(** ty.rs 43-51 ([Type::map]). *)
Definition ty_ids (t : ty) : ty := match t with TyIri s => TyIri (f s) | _ => t end.
(** definition.rs 643-662. *)
Definition ndef_ids (d : ndef) : ndef :=
  MkNDef (option_map term_ids (nd_value d)) (nd_prefix d) (nd_protected d) (nd_reverse d) (option_map f (nd_base_url d)) (nd_context d)
    (nd_container d) (nd_direction d) (nd_index d) (nd_language d) (nd_nest d) (option_map ty_ids (nd_typ d)).
(** context/mod.rs 257-284, definition.rs 207-220. *)
Fixpoint ctx_ids (c : actx) : actx :=
  match c with
  | MkCtx o i v l d p ds t =>
      MkCtx (option_map f o) (option_map f i) (option_map term_ids v) l d (match p with Some p => Some (ctx_ids p) | None => None end)
        (map (fun x => (fst x, ndef_ids (snd x))) ds) t
  end.

(** What is asked of the inverse context, in terms of the mapped identifiers. *)
Definition tsel_ids (s : tsel) : tsel := match s with TsType t => TsType (ty_ids t) | _ => s end.
Definition sel_ids (s : selection) : selection := match s with SelType l => SelType (map tsel_ids l) | _ => s end.
End MapIds.

(** ** Specification *)

(** Two active contexts with the same settings, up to the case of language tags, at every depth; nothing is said of their
    definitions. *)
Inductive same_settings : actx -> actx -> Prop :=
| SameSettings c c' : ac_orig c = ac_orig c' -> ac_base c = ac_base c' -> ac_vocab c = ac_vocab c' -> same_lang (ac_lang c) (ac_lang c') ->
    ac_dir c = ac_dir c' -> prev_settings (ac_prev c) (ac_prev c') -> same_settings c c'
with prev_settings : option actx -> option actx -> Prop :=
| SettingsNone : prev_settings None None
| SettingsSome p p' : same_settings p p' -> prev_settings (Some p) (Some p').

(** Two active contexts with the same definitions and the same spelling of the default language, at every depth where both
    have a previous context. *)
Inductive same_definitions : actx -> actx -> Prop :=
| SameDefinitions c c' : ac_lang c = ac_lang c' -> ac_type c = ac_type c' -> NoDup (map fst (ac_defs c)) -> NoDup (map fst (ac_defs c')) ->
    (forall k, get_normal c k = get_normal c' k) -> prev_definitions (ac_prev c) (ac_prev c') -> same_definitions c c'
with prev_definitions : option actx -> option actx -> Prop :=
| DefinitionsSome p p' : same_definitions p p' -> prev_definitions (Some p) (Some p')
| DefinitionsLeft p : prev_definitions p None
| DefinitionsRight p : prev_definitions None p.

Section Mapped.
Variables (f : string -> string) (g : id -> id).
(** Identifiers are replaced, unless they are invalid; keywords and null stay. *)
Inductive term_mapped : term -> term -> Prop :=
| MappedNull : term_mapped TmNull TmNull
| MappedKw k : term_mapped (TmKw k) (TmKw k)
| MappedIri s : term_mapped (TmId (IIri s)) (TmId (g (IIri s)))
| MappedBlank s : term_mapped (TmId (IBlank s)) (TmId (g (IBlank s)))
| MappedInvalid s : term_mapped (TmId (IInvalid s)) (TmId (IInvalid s)).
Inductive ty_mapped : ty -> ty -> Prop :=
| MappedTyIri s : ty_mapped (TyIri s) (TyIri (f s))
| MappedTyKw t : (forall s, t <> TyIri s) -> ty_mapped t t.
Inductive iri_mapped : string -> string -> Prop := MappedI s : iri_mapped s (f s).
Inductive opt_mapped {A} (R : A -> A -> Prop) : option A -> option A -> Prop :=
| MappedNone : opt_mapped R None None
| MappedSome x y : R x y -> opt_mapped R (Some x) (Some y).
(** The definition is the same up to its IRI mapping, its type and the URL of its context. *)
Definition def_mapped (d d' : ndef) : Prop :=
  opt_mapped term_mapped (nd_value d) (nd_value d') /\ opt_mapped ty_mapped (nd_typ d) (nd_typ d') /\
  opt_mapped iri_mapped (nd_base_url d) (nd_base_url d') /\
  nd_prefix d = nd_prefix d' /\ nd_protected d = nd_protected d' /\ nd_reverse d = nd_reverse d' /\ nd_context d = nd_context d' /\
  nd_container d = nd_container d' /\ nd_direction d = nd_direction d' /\ nd_index d = nd_index d' /\ nd_language d = nd_language d' /\
  nd_nest d = nd_nest d'.
Inductive mapped : actx -> actx -> Prop :=
| Mapped c c' : opt_mapped iri_mapped (ac_orig c) (ac_orig c') -> opt_mapped iri_mapped (ac_base c) (ac_base c') ->
    opt_mapped term_mapped (ac_vocab c) (ac_vocab c') -> ac_lang c = ac_lang c' -> ac_dir c = ac_dir c' -> ac_type c = ac_type c' ->
    (forall k, opt_mapped def_mapped (get_normal c k) (get_normal c' k)) -> prev_mapped (ac_prev c) (ac_prev c') -> mapped c c'
with prev_mapped : option actx -> option actx -> Prop :=
| PrevMappedNone : prev_mapped None None
| PrevMappedSome p p' : mapped p p' -> prev_mapped (Some p) (Some p').
(** No term is defined twice, at any depth. *)
Inductive once : actx -> Prop :=
| Once c : NoDup (map fst (ac_defs c)) -> (forall p, ac_prev c = Some p -> once p) -> once c.
(** [g] maps valid identifiers to valid ones ([FnMut(Id<T, B>) -> Id<U, C>], with the type of valid identifiers). *)
Definition keeps_valid : Prop := forall i, id_valid i = true -> id_valid (g i) = true.
Definition injective_ids : Prop :=
  (forall s s', f s = f s' -> s = s') /\ keeps_valid /\ forall i j, id_valid i = true -> id_valid j = true -> g i = g j -> i = j.
End Mapped.

(** ** Proof: equality *)
Lemma opt_eqb_iff {A} (e : A -> A -> bool) (H : forall x y, reflect (x = y) (e x y)) a b : opt_eqb e a b = true <-> a = b.
Proof. destruct (opt_eqb_spec e H a b); split; congruence. Qed.
Lemma lang_iff a b : opt_eqb lang_eqb a b = true <-> same_lang a b.
Proof. unfold lang_eqb, same_lang. destruct a, b; cbn; try (split; [discriminate|tauto]); try tauto. apply ci_eq_spec. Qed.
Lemma dir_iff (a b : option direction) : opt_eqb direction_eqb a b = true <-> a = b.
Proof. destruct a as [[]|], b as [[]|]; cbn; split; congruence. Qed.
Fixpoint ctx_eqb_settings a b {struct a} : ctx_eqb a b = true <-> same_settings a b.
Proof.
  destruct a as [o i v l d p ds t], b as [o' i' v' l' d' p' ds' t']. cbn [ctx_eqb].
  rewrite !Bool.andb_true_iff, !(opt_eqb_iff _ streq_spec), (opt_eqb_iff _ term_eqb_spec), lang_iff, dir_iff.
  assert (P : match p, p' with Some x, Some y => ctx_eqb x y | None, None => true | _, _ => false end = true <-> prev_settings p p').
  { destruct p as [x|], p' as [y|].
    - split; [intros H; constructor; apply (ctx_eqb_settings x y), H|intros H; inversion H; subst; apply (ctx_eqb_settings x y); assumption].
    - split; [discriminate|intros H; inversion H].
    - split; [discriminate|intros H; inversion H].
    - split; [constructor|reflexivity]. }
  rewrite P. split.
  - intros (((((-> & ->) & ->) & L) & ->) & Q). constructor; try reflexivity; assumption.
  - intros H. inversion H as [? ? H1 H2 H3 H4 H5 H6]; subst. cbn in *. tauto.
Qed.
Lemma same_lang_refl a : same_lang a a.
Proof. apply lang_iff. destruct a; [apply ci_eq_refl|reflexivity]. Qed.
Fixpoint alike_settings a b (H : answers_alike a b) {struct H} : same_settings a b.
Proof.
  destruct H as [c c' E1 E2 E3 E4 E5 E6 N N' G P]. constructor; auto; [rewrite E4; apply same_lang_refl|].
  destruct P as [|p p' Q]; constructor. exact (alike_settings _ _ Q).
Qed.
Fixpoint settings_refl c : same_settings c c.
Proof. destruct c as [o i v l d [p|] ds t]; constructor; cbn; auto using same_lang_refl; constructor. apply settings_refl. Qed.
Fixpoint settings_sym a b (H : same_settings a b) {struct H} : same_settings b a.
Proof.
  destruct H as [c c' E1 E2 E3 E4 E5 P]. constructor; auto using same_lang_sym. destruct P as [|p p' Q]; constructor. exact (settings_sym _ _ Q).
Qed.
Fixpoint settings_trans a b c (H : same_settings a b) (K : same_settings b c) {struct H} : same_settings a c.
Proof.
  destruct H as [x y E1 E2 E3 E4 E5 P]. destruct K as [y z F1 F2 F3 F4 F5 Q]. constructor; try congruence; [eapply same_lang_trans; eassumption|].
  destruct P as [|p p' P]; inversion Q as [|? ? Q']; subst; constructor. exact (settings_trans _ _ _ P Q').
Qed.
Fixpoint settings_definitions a b (H : same_settings a b) {struct H} : same_definitions a b -> answers_alike a b.
Proof.
  destruct H as [c c' E1 E2 E3 E4 E5 P]. intros D. inversion D as [? ? L T N N' G Q]; subst. constructor; auto.
  destruct P as [|p p' P]; constructor. apply (settings_definitions _ _ P). inversion Q; assumption.
Qed.

(** ** Proof: mapping *)
Section MappedProofs.
Variables (f : string -> string) (g : id -> id).
Lemma term_ids_mapped t : term_mapped g t (term_ids g t).
Proof. destruct t as [|[s|s|s]|k]; cbn; constructor. Qed.
Lemma ty_ids_mapped t : ty_mapped f t (ty_ids f t).
Proof. destruct t; cbn; constructor; discriminate. Qed.
Lemma opt_ids {A} (R : A -> A -> Prop) h (H : forall x, R x (h x)) o : opt_mapped R o (option_map h o).
Proof. destruct o; constructor. apply H. Qed.
Lemma ndef_ids_mapped d : def_mapped f g d (ndef_ids f g d).
Proof. unfold def_mapped. cbn. repeat split; auto using (opt_ids _ _ term_ids_mapped), (opt_ids _ _ ty_ids_mapped). apply opt_ids. constructor. Qed.
Lemma get_ids c k : get_normal (ctx_ids f g c) k = option_map (ndef_ids f g) (get_normal c k).
Proof.
  destruct c as [o i v l d p ds t]. unfold get_normal. cbn [ctx_ids ac_defs]. induction ds as [|[x e] ds IH]; cbn; [reflexivity|].
  destruct (streq k x); [reflexivity|exact IH].
Qed.
Fixpoint ctx_ids_mapped c : mapped f g c (ctx_ids f g c).
Proof.
  constructor; try (intros k; rewrite get_ids; apply opt_ids; apply ndef_ids_mapped); destruct c as [o i v l d p ds t]; cbn; try reflexivity;
    try (apply opt_ids; constructor); [apply opt_ids, term_ids_mapped|].
  destruct p as [p|]; constructor. apply ctx_ids_mapped.
Qed.
Lemma opt_mapped_same {A} (R : A -> A -> Prop) (U : forall x y z, R x y -> R x z -> y = z) o a b : opt_mapped R o a -> opt_mapped R o b -> a = b.
Proof. intros [|x y H] K; inversion K as [|? z H']; subst; [reflexivity|]. f_equal. exact (U _ _ _ H H'). Qed.
Lemma term_mapped_same x y z : term_mapped g x y -> term_mapped g x z -> y = z.
Proof. intros [] H; inversion H; reflexivity. Qed.
Lemma ty_mapped_same x y z : ty_mapped f x y -> ty_mapped f x z -> y = z.
Proof. intros [s|t N] H; inversion H as [|? M]; subst; try reflexivity; [destruct (M s)|destruct (N s)]; reflexivity. Qed.
Lemma iri_mapped_same x y z : iri_mapped f x y -> iri_mapped f x z -> y = z.
Proof. intros [] H; inversion H; reflexivity. Qed.
Lemma def_mapped_same x y z : def_mapped f g x y -> def_mapped f g x z -> y = z.
Proof.
  intros (V & T & B & H1 & H2 & H3 & H4 & H5 & H6 & H7 & H8 & H9) (V' & T' & B' & K1 & K2 & K3 & K4 & K5 & K6 & K7 & K8 & K9).
  pose proof (opt_mapped_same _ term_mapped_same _ _ _ V V'). pose proof (opt_mapped_same _ ty_mapped_same _ _ _ T T').
  pose proof (opt_mapped_same _ iri_mapped_same _ _ _ B B'). destruct y, z; cbn in *. congruence.
Qed.
Fixpoint mapped_same c c1 c2 (H : mapped f g c c1) {struct H} : mapped f g c c2 -> once c1 -> once c2 -> answers_alike c1 c2.
Proof.
  destruct H as [c c1 E1 E2 E3 E4 E5 E6 G P]. intros K O1 O2. inversion K as [? ? F1 F2 F3 F4 F5 F6 G' Q]; subst.
  inversion O1 as [? N1 P1]; inversion O2 as [? N2 P2]; subst.
  constructor; try congruence; try assumption.
  - exact (opt_mapped_same _ iri_mapped_same _ _ _ E1 F1).
  - exact (opt_mapped_same _ iri_mapped_same _ _ _ E2 F2).
  - exact (opt_mapped_same _ term_mapped_same _ _ _ E3 F3).
  - intros k. exact (opt_mapped_same _ def_mapped_same _ _ _ (G k) (G' k)).
  - destruct P as [|p p' P]; inversion Q as [|? q Q']; subst; [constructor|]. constructor. apply (mapped_same _ _ _ P Q'); [apply P1|apply P2]; congruence.
Qed.
Fixpoint ctx_ids_once c (H : once c) {struct H} : once (ctx_ids f g c).
Proof.
  destruct H as [c N P]. constructor.
  - destruct c as [o i v l d p ds t]. cbn in *. rewrite map_map. exact N.
  - intros q E. destruct c as [o i v l d [p|] ds t]; cbn in E; [|discriminate]. injection E as <-. apply ctx_ids_once. apply P. reflexivity.
Qed.
Lemma ids_protected c : has_protected_items (ctx_ids f g c) = has_protected_items c.
Proof.
  destruct c as [o i v l d p ds t]. unfold has_protected_items. cbn [ctx_ids ac_defs ac_type]. f_equal.
  induction ds as [|[x e] ds IH]; cbn; [reflexivity|]. rewrite IH. reflexivity.
Qed.

(** *** Selection *)
Hypothesis INJ : injective_ids f g.
Lemma valid_ids_inj i j : valid_ids g i = valid_ids g j -> i = j.
Proof.
  destruct INJ as (_ & KV & IG). intros E.
  destruct (id_valid i) eqn:Vi, (id_valid j) eqn:Vj.
  - apply IG; auto. destruct i, j; try discriminate; exact E.
  - pose proof (KV i Vi) as W. assert (E' : g i = j) by (destruct i, j; try discriminate; exact E). rewrite E' in W. congruence.
  - pose proof (KV j Vj) as W. assert (E' : i = g j) by (destruct i, j; try discriminate; exact E). rewrite <- E' in W. congruence.
  - destruct i, j; try discriminate; exact E.
Qed.
Lemma term_ids_inj a b : term_ids g a = term_ids g b -> a = b.
Proof. destruct a, b; cbn; try discriminate; try congruence. intros E. f_equal. apply valid_ids_inj. congruence. Qed.
Lemma ty_ids_inj a b : ty_ids f a = ty_ids f b -> a = b.
Proof. destruct INJ as (IF & _). destruct a, b; cbn; try discriminate; try reflexivity. intros E. f_equal. apply IF. congruence. Qed.
Definition req_ids (q : request) : request := match q with RqType s => RqType (tsel_ids f s) | _ => q end.
Lemma requests_ids s : requests (sel_ids f s) = map req_ids (requests s).
Proof. destruct s; cbn; [reflexivity| |]; rewrite !map_map; reflexivity. Qed.
Lemma wants_ids l r q d : wants l r (req_ids q) (ndef_ids f g d) <-> wants l r q d.
Proof.
  assert (S : forall y t, option_map (ty_ids f) y = Some (ty_ids f t) <-> y = Some t).
  { intros y t. split; [|intros ->; reflexivity]. destruct y as [y|]; cbn; [|discriminate]. intros E. f_equal. apply ty_ids_inj. congruence. }
  assert (N : forall y, option_map (ty_ids f) y = None <-> y = None) by (intros [y|]; split; (discriminate || reflexivity)).
  destruct q as [|[| |t]|[|x]]; cbn; try tauto.
  - pose proof (S (nd_typ d) TyNone). cbn in *. tauto.
  - destruct t; cbn; rewrite ?N; try tauto.
    + pose proof (S (nd_typ d) TyId). cbn in *. tauto.
    + pose proof (S (nd_typ d) TyJson). cbn in *. tauto.
    + pose proof (S (nd_typ d) TyVocab). cbn in *. tauto.
    + pose proof (S (nd_typ d) (TyIri s)). cbn in *. tauto.
  - pose proof (S (nd_typ d) TyNone). cbn in *. tauto.
  - rewrite N. tauto.
Qed.
Lemma candidate_ids c v cn q k : candidate (ctx_ids f g c) (term_ids g v) cn (req_ids q) k <-> candidate c v cn q k.
Proof.
  destruct c as [o i w l r p ds t]. unfold candidate. cbn [ctx_ids ac_defs ac_lang ac_dir]. split.
  - intros (d' & I & V & C & W). apply in_map_iff in I. destruct I as ([x d] & E & I). cbn in E. injection E as -> <-. exists d.
    split; [exact I|]. split; [|split; [exact C|apply wants_ids, W]]. cbn in V. destruct (nd_value d) as [u|]; [|discriminate]. cbn in V.
    f_equal. apply term_ids_inj. congruence.
  - intros (d & I & V & C & W). exists (ndef_ids f g d). split; [apply in_map_iff; exists (k, d); auto|].
    split; [cbn; rewrite V; reflexivity|]. split; [exact C|apply wants_ids, W].
Qed.
Lemma map_split {A B} (h : A -> B) l : forall a y b, map h l = a ++ y :: b -> exists a' x b', l = a' ++ x :: b' /\ map h a' = a /\ h x = y /\ map h b' = b.
Proof.
  induction l as [|z l IH]; intros [|w a] y b E; try discriminate; cbn in E; injection E as <- E.
  - exists [], z, l. auto.
  - destruct (IH _ _ _ E) as (a' & x & b' & -> & <- & <- & <-). exists (z :: a'), x, b'. auto.
Qed.
Lemma selected_ids c v cs qs k : selected (ctx_ids f g c) (term_ids g v) cs (map req_ids qs) k <-> selected c v cs qs k.
Proof.
  unfold selected, least_candidate. split.
  - intros (cs1 & cn & cs2 & qs1 & q & qs2 & -> & E & A & B & C & L). apply map_split in E. destruct E as (a & x & b & -> & <- & <- & <-).
    exists cs1, cn, cs2, a, x, b. split; [reflexivity|]. split; [reflexivity|]. split; [|split; [|split]].
    + intros cn' q' k' I J K. apply (A cn' (req_ids q') k' I); [apply in_map, J|apply candidate_ids, K].
    + intros q' k' I K. apply (B (req_ids q') k'); [apply in_map, I|apply candidate_ids, K].
    + apply candidate_ids, C.
    + intros k' K. apply L, candidate_ids, K.
  - intros (cs1 & cn & cs2 & qs1 & q & qs2 & -> & -> & A & B & C & L). exists cs1, cn, cs2, (map req_ids qs1), (req_ids q), (map req_ids qs2).
    split; [reflexivity|]. split; [rewrite map_app; reflexivity|]. split; [|split; [|split]].
    + intros cn' q' k' I J K. apply in_map_iff in J. destruct J as (y & <- & J). apply (A cn' y k' I J). apply candidate_ids, K.
    + intros q' k' I K. apply in_map_iff in I. destruct I as (y & <- & I). apply (B y k' I). apply candidate_ids, K.
    + apply candidate_ids, C.
    + intros k' K. apply L. exact (proj1 (candidate_ids c v cn q k') K).
Qed.
Lemma select_ids c v cs s : select (inverse_of (ctx_ids f g c)) (term_ids g v) cs (sel_ids f s) = select (inverse_of c) v cs s.
Proof.
  assert (H : forall k, select (inverse_of (ctx_ids f g c)) (term_ids g v) cs (sel_ids f s) = Some k <-> select (inverse_of c) v cs s = Some k).
  { intros k. rewrite !select_spec, requests_ids. apply selected_ids. }
  destruct (select (inverse_of c) v cs s) as [k|]; [apply H; reflexivity|].
  destruct (select (inverse_of (ctx_ids f g c)) (term_ids g v) cs (sel_ids f s)) as [k|]; [|reflexivity]. symmetry. apply H. reflexivity.
Qed.
End MappedProofs.

Section Undone.
Variables (f f' : string -> string) (g g' : id -> id).
Hypothesis F : forall s, f' (f s) = s.
Hypothesis G : forall i, id_valid i = true -> g' (g i) = i.
Hypothesis KV : keeps_valid g.
Lemma opt_undone {A} (h h' : A -> A) (H : forall x, h' (h x) = x) o : option_map h' (option_map h o) = o.
Proof. destruct o; cbn; [rewrite H|]; reflexivity. Qed.
Lemma term_undone t : term_ids g' (term_ids g t) = t.
Proof.
  destruct t as [|i|k]; cbn; try reflexivity. f_equal. destruct (id_valid i) eqn:V; [|destruct i; try discriminate; reflexivity].
  assert (E : valid_ids g i = g i) by (destruct i; try discriminate; reflexivity). rewrite E.
  pose proof (KV i V) as W. assert (E' : valid_ids g' (g i) = g' (g i)) by (destruct (g i); try discriminate; reflexivity). rewrite E'. apply G, V.
Qed.
Lemma ndef_undone d : ndef_ids f' g' (ndef_ids f g d) = d.
Proof.
  destruct d. unfold ndef_ids. cbn. rewrite (opt_undone _ _ term_undone), (opt_undone _ _ F). f_equal. apply opt_undone. intros []; cbn; rewrite ?F; reflexivity.
Qed.
Fixpoint ctx_undone c : ctx_ids f' g' (ctx_ids f g c) = c.
Proof.
  destruct c as [o i v l d p ds t]. cbn. rewrite !(opt_undone _ _ F), (opt_undone _ _ term_undone). f_equal.
  - destruct p as [p|]; [rewrite ctx_undone|]; reflexivity.
  - rewrite map_map. rewrite <- (map_id ds) at 2. apply map_ext. intros [k e]. cbn. rewrite ndef_undone. reflexivity.
Qed.
End Undone.

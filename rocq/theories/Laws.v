(** Laws of expansion: notations of a document that mean the same. *)
From Verif Require Import Prelude Json Str Keyword Enums LangTag LangString Container Stack ContextSyntax Ctx Process
  Object ObjectJson Expand ExpandValue ExpandOk ExpandFuel.

Section Laws.
Variables (io : iops) (ld : loader) (fin rnd : list word -> N) (pf : nat) (o : xopts) (base : option string).
Notation XE := (expand_element io ld fin rnd pf o base).
Notation XP n := (expand_property io ld fin rnd pf o (XE n)).
Notation xkey := (xkey io o).

(** ** Specification *)

(** Two values with the same expansion, in the given active context, for the given property, and
    inside a map or not. *)
Definition alike (c : actx) (ap : option string) (fm : bool) (j j' : json) : Prop :=
  forall n, json_size j < n -> json_size j' < n -> XE n c ap j fm = XE n c ap j' fm.

(** The contexts used for the entries of the object [m]: [tsc] is the active context after the
    context of the property and [@context], [c'] after the contexts of the types. *)
Definition in_effect (c : actx) (ap : option string) (m : jobject) (fm : bool) (tsc c' : actx) : Prop :=
  element_context io ld pf o base c ap m fm = Ok tsc /\
  exists ts, type_entries io o tsc m = Ok ts /\ type_scoped io ld pf o tsc ts = Ok c'.
(** The key names a property. *)
Definition property_key (tsc c' : actx) (key : string) (p : id) : Prop :=
  xkey tsc key <> Ok (Some (TmKw KType)) /\ xkey c' key = Ok (Some (TmId p)).

(** ** Proof *)
Definition eventually (c : actx) (ap : option string) (fm : bool) (j j' : json) : Prop := exists N, forall n, N <= n -> XE n c ap j fm = XE n c ap j' fm.
Lemma alike_iff c ap fm j j' : alike c ap fm j j' <-> eventually c ap fm j j'.
Proof.
  split.
  - intros H. exists (S (json_size j + json_size j')). intros n L. apply H; lia.
  - intros [N H] n L L'. rewrite <- (expand_stable io ld fin rnd pf o base n (n + N)) by lia. rewrite <- (expand_stable io ld fin rnd pf o base n (n + N) _ _ j') by lia. apply H. lia.
Qed.
Lemma alike_refl c ap fm j : alike c ap fm j j.
Proof. intros n _ _. reflexivity. Qed.
Lemma alike_sym c ap fm j k : alike c ap fm j k -> alike c ap fm k j.
Proof. intros H n L L'. symmetry. auto. Qed.
Lemma alike_trans c ap fm i j k : alike c ap fm i j -> alike c ap fm j k -> alike c ap fm i k.
Proof. rewrite !alike_iff. intros [N H] [M G]. exists (N + M). intros n L. rewrite H, G by lia. reflexivity. Qed.

Lemma flat_r_cong {A B E} (f g : A -> result (list B) E) l : (forall x, f x = g x) -> flat_r f l = flat_r g l.
Proof. intros H. induction l as [|x l IH]; [reflexivity|]. cbn [flat_r]. rewrite H, IH. reflexivity. Qed.
Lemma flat_r_cong_in {A B E} (f g : A -> result (list B) E) l : (forall x, In x l -> f x = g x) -> flat_r f l = flat_r g l.
Proof. induction l as [|x l IH]; intros H; [reflexivity|]. cbn [flat_r]. rewrite (H x (or_introl eq_refl)), IH by (intros; apply H; right; assumption). reflexivity. Qed.
Lemma flat_r_app {A B E} (f : A -> result (list B) E) l m : flat_r f (l ++ m) = do x <- flat_r f l ; do y <- flat_r f m ; Ok (x ++ y).
Proof.
  induction l as [|x l IH]; cbn [app flat_r bind].
  - destruct (flat_r f m); reflexivity.
  - destruct (f x) as [y|]; [|reflexivity]. cbn [bind]. rewrite IH. destruct (flat_r f l) as [z|]; [|reflexivity]. cbn [bind].
    destruct (flat_r f m); cbn [bind]; [rewrite app_assoc|]; reflexivity.
Qed.
Lemma flat_r_cons {A B E} (f : A -> result (list B) E) x l : flat_r f (x :: l) = do y <- f x ; do z <- flat_r f l ; Ok (y ++ z).
Proof. reflexivity. Qed.

(** *** Changing the value of an entry *)
Lemma get_other k key v v' es1 es2 : key <> k -> get_unique k (es1 ++ (key, v) :: es2) = get_unique k (es1 ++ (key, v') :: es2).
Proof.
  intros N. unfold get_unique. replace (get_all k (es1 ++ (key, v') :: es2)) with (get_all k (es1 ++ (key, v) :: es2)); [reflexivity|].
  unfold get_all. rewrite !filter_app. cbn [filter fst]. destruct (streq_spec key k) as [E|_]; [destruct (N E)|reflexivity].
Qed.
Lemma preliminary_other c key v v' es1 es2 : preliminary io o c (es1 ++ (key, v) :: es2) = preliminary io o c (es1 ++ (key, v') :: es2).
Proof.
  unfold preliminary. rewrite !fold_r_app. match goal with |- bind ?r _ = _ => destruct r as [s|] end; reflexivity.
Qed.
Lemma context_other c ap fm key v v' es1 es2 : key <> "@context" ->
  element_context io ld pf o base c ap (es1 ++ (key, v) :: es2) fm = element_context io ld pf o base c ap (es1 ++ (key, v') :: es2) fm.
Proof.
  intros N. unfold element_context. rewrite (preliminary_other _ _ v v'). rewrite (get_other _ _ v v' _ _ N).
  rewrite !app_length. reflexivity.
Qed.
Lemma types_other tsc key v v' es1 es2 : xkey tsc key <> Ok (Some (TmKw KType)) ->
  type_entries io o tsc (es1 ++ (key, v) :: es2) = type_entries io o tsc (es1 ++ (key, v') :: es2).
Proof.
  intros N. unfold type_entries. rewrite !flat_r_app, !flat_r_cons. cbn [fst].
  destruct (xkey tsc key) as [[[]|]|]; try reflexivity. destruct k; try reflexivity. congruence.
Qed.
Lemma key_not_context c key p : xkey c key = Ok (Some (TmId p)) -> key <> "@context".
Proof. intros H ->. discriminate H. Qed.

(** The terms of the entries of an object, other than the keyword entries that make it something else than a node. *)
Lemma last_app k A B : last_entry k (A ++ B) = match last_entry k B with Some v => Some v | None => last_entry k A end.
Proof.
  unfold last_entry. rewrite fold_left_app. induction B as [|e B IH] using rev_ind; [reflexivity|]. rewrite !fold_left_app. cbn [fold_left].
  destruct (snd (fst e)); try apply IH. destruct (keyword_eqb k0 k); [reflexivity|apply IH].
Qed.
Lemma last_cons k e B : last_entry k (e :: B) = match last_entry k B with
  | Some v => Some v
  | None => match snd (fst e) with TmKw k' => if keyword_eqb k' k then Some (snd e) else None | _ => None end end.
Proof. exact (last_app k [e] B). Qed.

(** The entry [(key, t, v)] may be replaced by [(key, t, v')] when the term is neither [@type] nor a
    keyword of another kind of objects. *)
Definition node_kw (t : term) : bool :=
  match t with TmKw KList | TmKw KSet | TmKw KValue | TmKw KType | TmKw KContext | TmKw KIndex | TmKw KLanguage | TmKw KDirection => false | _ => true end.
Lemma last_other k key t v v' A B : node_kw t = true -> k = KList \/ k = KSet \/ k = KValue ->
  last_entry k (A ++ (key, t, v) :: B) = last_entry k (A ++ (key, t, v') :: B).
Proof.
  intros T K. rewrite !last_app, !last_cons. cbn [fst snd]. destruct (last_entry k B); [reflexivity|].
  destruct t as [| |k']; try reflexivity. destruct K as [->|[->| ->]]; destruct k'; try reflexivity; discriminate T.
Qed.
Lemma entry_swap n c ap fm es1 key v v' es2 tsc c' t : in_effect c ap (es1 ++ (key, v) :: es2) fm tsc c' ->
  key <> "@context" -> xkey tsc key <> Ok (Some (TmKw KType)) -> xkey c' key = Ok (Some t) -> node_kw t = true ->
  (forall m s, node_entry io ld fin rnd pf o (XE n) (node_entries io ld fin rnd pf o (XE n) m ap tsc) ap c' tsc s (key, t, v) =
               node_entry io ld fin rnd pf o (XE n) (node_entries io ld fin rnd pf o (XE n) m ap tsc) ap c' tsc s (key, t, v')) ->
  XE (S n) c ap (JObj (es1 ++ (key, v) :: es2)) fm = XE (S n) c ap (JObj (es1 ++ (key, v') :: es2)) fm.
Proof.
  intros (EC & ts & TE & TS) NC NT XK T NE. cbn [expand_element element_body]. unfold expand_map.
  rewrite <- (context_other c ap fm key v v' es1 es2 NC), EC. cbn [bind]. rewrite <- (types_other tsc key v v' es1 es2 NT), TE. cbn [bind].
  rewrite TS. cbn [bind]. destruct (input_type io o c' ts) as [it|]; [|reflexivity]. cbn [bind].
  unfold expand_entries. rewrite !flat_r_app, !flat_r_cons. cbn [fst snd]. rewrite XK. cbn [bind].
  match goal with |- bind (bind ?r _) _ = _ => destruct r as [A|] end; [|reflexivity]. cbn [bind].
  match goal with |- bind (bind (bind ?r _) _) _ = _ => destruct r as [B|] end; [|reflexivity]. cbn [bind app].
  rewrite (last_other KList key t v v' A B T), (last_other KSet key t v v' A B T), (last_other KValue key t v v' A B T) by auto.
  assert (LI : list_index (A ++ (key, t, v) :: B) = list_index (A ++ (key, t, v') :: B)).
  { unfold list_index. rewrite !fold_r_app. match goal with |- bind ?r _ = _ => destruct r as [s|] end; [|reflexivity]. cbn [bind fold_r snd fst].
    destruct t as [| |[]]; try reflexivity; discriminate T. }
  assert (SE : set_check (A ++ (key, t, v) :: B) = set_check (A ++ (key, t, v') :: B)).
  { unfold set_check. rewrite !fold_r_app. reflexivity. }
  assert (VE : forall w, expand_value io o it tsc (A ++ (key, t, v) :: B) w = expand_value io o it tsc (A ++ (key, t, v') :: B) w).
  { intros w. unfold expand_value. rewrite !fold_r_app. match goal with |- bind (bind ?r _) _ = _ => destruct r as [s|] end; [|reflexivity]. cbn [bind fold_r].
    destruct t as [| |[]]; try reflexivity; discriminate T. }
  assert (NN : expand_node io ld fin rnd pf o (XE n) n ap c' tsc (A ++ (key, t, v) :: B) = expand_node io ld fin rnd pf o (XE n) n ap c' tsc (A ++ (key, t, v') :: B)).
  { unfold expand_node. destruct n as [|m]; [reflexivity|]. cbn [node_entries]. rewrite !fold_r_app.
    match goal with |- bind (bind ?r _) _ = _ => destruct r as [s|] end; [|reflexivity]. cbn [bind fold_r]. rewrite (NE m s). reflexivity. }
  rewrite LI, SE, NN. destruct (last_entry KValue _); [rewrite VE|]; reflexivity.
Qed.
Lemma property_swap n c ap fm es1 key v v' es2 tsc c' p : in_effect c ap (es1 ++ (key, v) :: es2) fm tsc c' -> property_key tsc c' key p ->
  XP n c' key v = XP n c' key v' ->
  XE (S n) c ap (JObj (es1 ++ (key, v) :: es2)) fm = XE (S n) c ap (JObj (es1 ++ (key, v') :: es2)) fm.
Proof.
  intros E [NT XK] H. eapply entry_swap; try eassumption; [eapply key_not_context; exact XK|reflexivity|].
  intros m s. cbn [node_entry]. unfold property_entry. rewrite H. reflexivity.
Qed.

(** ** Value objects *)

(** A string with its language and direction. *)
Definition spell_string (s : string) (l : option string) (d : option direction) : json :=
  JObj (("@value", JStr s) :: match l with Some l => [("@language", JStr l)] | None => [] end
        ++ match d with Some d => [("@direction", JStr (dir_str d))] | None => [] end).
(** The direction of strings of the property. *)
Definition own_direction (c : actx) (d : ndef) : option direction :=
  match nd_direction d with Some x => nullable_option x | None => ac_dir c end.
Definition own_language (c : actx) (d : ndef) : option string :=
  match nd_language d with Some x => nullable_option x | None => ac_lang c end.

Lemma xkw c k : xkey c (kw_str k) = Ok (Some (TmKw k)).
Proof. destruct k; reflexivity. Qed.
Lemma string_expands n c ap fm s l dir : (forall d, prop_def c ap = Some d -> nd_context d = None) -> l <> Some "@none" -> is_some ap = true ->
  XE (S n) c ap (spell_string s l dir) fm = Ok (XObj (None, OVal (string_value s l dir))).
Proof.
  intros NC NL AP. unfold spell_string. cbn [expand_element element_body]. unfold expand_map.
  set (m := ("@value", JStr s) :: _).
  assert (EC : element_context io ld pf o base c ap m fm = Ok c).
  { unfold element_context. assert (P : preliminary io o c m = Ok (true, false)).
    { subst m. destruct l, dir; reflexivity. }
    rewrite P. cbn [bind]. assert (R : match ac_prev c with Some p => if negb fm && negb true && negb (Nat.eqb (length m) 1 && false) then p else c | None => c end = c).
    { destruct (ac_prev c); [|reflexivity]. destruct fm; reflexivity. }
    rewrite R. destruct (prop_def c ap) as [d|]; [rewrite (NC d eq_refl)|]; cbn [bind]; subst m; destruct l, dir; reflexivity. }
  rewrite EC. cbn [bind]. assert (TE : type_entries io o c m = Ok []) by (subst m; destruct l, dir; reflexivity). rewrite TE. cbn [bind type_scoped fold_r input_type].
  assert (EE : expand_entries io o c m = Ok (("@value", TmKw KValue, JStr s) :: match l with Some l => [("@language", TmKw KLanguage, JStr l)] | None => [] end
        ++ match dir with Some d => [("@direction", TmKw KDirection, JStr (dir_str d))] | None => [] end)) by (subst m; destruct l, dir; reflexivity).
  rewrite EE. cbn [bind]. set (es := ("@value", _, _) :: _).
  assert (L1 : last_entry KList es = None) by (subst es; destruct l, dir; reflexivity).
  assert (L2 : last_entry KSet es = None) by (subst es; destruct l, dir; reflexivity).
  assert (L3 : last_entry KValue es = Some (JStr s)) by (subst es; destruct l, dir; reflexivity).
  rewrite L1, L2, L3. replace (if is_some ap && negb (ap_is ap KGraph) then @None json else None) with (@None json) by (destruct (_ && _); reflexivity).
  unfold expand_value. assert (VS : fold_r (value_step io o c) (MkVs false None None None None) es = Ok (MkVs false None None l dir)).
  { subst es. destruct l as [x|]; cbn [app fold_r value_step as_str bind].
    - destruct (streq_spec x "@none") as [->|_]; [congruence|]. destruct dir as [[]|]; reflexivity.
    - destruct dir as [[]|]; reflexivity. }
  rewrite VS. cbn [bind vs_json vs_lang vs_dir vs_ty vs_index]. unfold string_value, ls_new. destruct l, dir; reflexivity.
Qed.

(** ** Language maps *)

(** The strings of the map, spelled out; [none] tells the keys that stand for no language. *)
Definition spell_languages (none : string -> bool) (dir : option direction) (m : jobject) : list json :=
  flat_map (fun e => flat_map (fun x => match x with
                                        | JStr s => [spell_string s (if none (fst e) then None else Some (fst e)) dir]
                                        | _ => []
                                        end) (force_array (snd e))) m.
Definition reads_none (c : actx) (k : string) : bool := match xkey c k with Ok (Some (TmKw KNone)) => true | _ => false end.
(** The values of the map are strings, or null. *)
Definition strings_only (m : jobject) : Prop :=
  Forall (fun e => Forall (fun x => x = JNull \/ exists s, x = JStr s) (force_array (snd e))) m.

Lemma language_items n c key d m : prop_def c (Some key) = Some d -> nd_context d = None -> strings_only m ->
  (forall k, In k (keys m) -> exists t, xkey c k = Ok t) ->
  exists l, flat_r (fun e => flat_r (fun item =>
      match item with
      | JNull => Ok []
      | JStr s => do t <- xkey c (fst e) ; Ok [(None, OVal (string_value s (match t with Some (TmKw KNone) => None | _ => Some (fst e) end) (dir_for c (Some d))))]
      | _ => Err XInvalidLanguageMapValue
      end) (force_array (snd e))) m = Ok l /\
    flat_r (fun x => do y <- XE (S n) c (Some key) x false ; Ok (items y)) (spell_languages (reads_none c) (own_direction c d) m) = Ok l.
Proof.
  intros D ND S K. induction m as [|[k v] m IH]; [exists []; split; reflexivity|].
  destruct IH as (l & A & B); [inversion S; assumption|intros; apply K; right; assumption|].
  destruct (K k (or_introl eq_refl)) as [t T]. inversion S as [|? ? SV _]; subst. cbn [fst snd] in SV. unfold spell_languages. cbn [flat_map fst snd].
  fold (spell_languages (reads_none c) (own_direction c d) m). cbn [flat_r fst snd]. rewrite flat_r_app, A, B. cbn [bind].
  enough (H : exists r, flat_r (fun item => match item with
      | JNull => Ok []
      | JStr s => do t <- xkey c k ; Ok [(None, OVal (string_value s (match t with Some (TmKw KNone) => None | _ => Some k end) (dir_for c (Some d))))]
      | _ => Err XInvalidLanguageMapValue
      end) (force_array v) = Ok r /\ flat_r (fun x => do y <- XE (Datatypes.S n) c (Some key) x false ; Ok (items y))
        (flat_map (fun x => match x with JStr s => [spell_string s (if reads_none c k then None else Some k) (own_direction c d)] | _ => [] end) (force_array v)) = Ok r).
  { destruct H as (r & -> & ->). cbn [bind]. eexists. split; reflexivity. }
  clear A B S. induction (force_array v) as [|x xs IH]; [exists []; split; reflexivity|]. inversion SV as [|? ? X XS]; subst. destruct (IH XS) as (r & A & B).
  destruct X as [->|[s ->]]; cbn [flat_map].
  - cbn [app flat_r bind]. rewrite A. cbn [bind app]. exists r. auto.
  - cbn [app]. rewrite !flat_r_cons, A, B. rewrite T. cbn [bind]. rewrite string_expands; [| |unfold reads_none; rewrite T|reflexivity].
    + cbn [bind items app]. unfold reads_none. rewrite T. eexists. split; [|reflexivity]. unfold own_direction, dir_for. destruct t as [[| |[]]|]; reflexivity.
    + intros d' D'. congruence.
    + intros E. assert (X : k <> "@none"). { intros ->. change "@none" with (kw_str KNone) in T. rewrite xkw in T. injection T as <-. discriminate E. } destruct t as [[| |[]]|]; congruence.
Qed.
Lemma language_not_list d : c_contains (nd_container d) CKLanguage = true -> c_contains (nd_container d) CKList = false.
Proof. destruct (nd_container d); cbn; congruence. Qed.
Theorem language_law c ap fm es1 key m es2 tsc c' p d : in_effect c ap (es1 ++ (key, JObj m) :: es2) fm tsc c' -> property_key tsc c' key p ->
  prop_def c' (Some key) = Some d -> c_contains (nd_container d) CKLanguage = true -> nd_typ d <> Some TyJson -> nd_context d = None ->
  strings_only m -> (forall k, In k (keys m) -> exists t, xkey c' k = Ok t) ->
  alike c ap fm (JObj (es1 ++ (key, JObj m) :: es2))
    (JObj (es1 ++ (key, JArr (spell_languages (reads_none c') (own_direction c' d) (entries_sorted o m))) :: es2)).
Proof.
  intros E PK D CL NJ NC S K. apply alike_iff. exists 3. intros n L. destruct n as [|[|[|n]]]; [lia|lia|lia|]. eapply property_swap; [exact E|exact PK|].
  assert (S' : strings_only (entries_sorted o m)). { unfold strings_only in *. apply Forall_forall. intros e I. rewrite Forall_forall in S. apply S. eapply entries_in, I. }
  assert (K' : forall k, In k (keys (entries_sorted o m)) -> exists t, xkey c' k = Ok t).
  { intros k I. apply in_map_iff in I. destruct I as (e & <- & I). apply K. apply in_map. eapply entries_in, I. }
  destruct (language_items n c' key d _ D NC S' K') as (l & A & B).
  unfold expand_property. rewrite D. replace (match nd_typ d with Some TyJson => true | _ => false end) with false by (destruct (nd_typ d) as [[]|]; congruence).
  cbn [has_container]. rewrite CL. unfold expand_language_map. rewrite A. cbn [bind].
  change (XE (Datatypes.S (Datatypes.S n)) c' (Some key) (JArr ?l) false) with (element_body io ld fin rnd pf o base (XE (Datatypes.S n)) (Datatypes.S n) c' (Some key) (JArr l) false).
  cbn [element_body]. rewrite B. cbn [bind]. rewrite D. cbn [has_container]. rewrite (language_not_list _ CL). reflexivity.
Qed.

(** ** Parts of documents *)

(** The property takes maps of values. *)
Definition takes_maps (d : option ndef) : bool :=
  has_container d CKLanguage || has_container d CKIndex || has_container d CKType || has_container d CKId.
Definition json_typed (d : option ndef) : bool := match d with Some d => match nd_typ d with Some TyJson => true | _ => false end | None => false end.
(** The second document is the first with a part replaced by another one with the same
    expansion. *)
Inductive changed : actx -> option string -> bool -> json -> json -> Prop :=
| ChHere c ap fm j j' : alike c ap fm j j' -> changed c ap fm j j'
| ChItem c ap fm l1 x x' l2 : changed c ap fm x x' -> changed c ap fm (JArr (l1 ++ x :: l2)) (JArr (l1 ++ x' :: l2))
| ChProperty c ap fm es1 key v v' es2 tsc c' p : in_effect c ap (es1 ++ (key, v) :: es2) fm tsc c' -> property_key tsc c' key p ->
    takes_maps (prop_def c' (Some key)) = false -> json_typed (prop_def c' (Some key)) = false ->
    changed c' (Some key) false v v' -> changed c ap fm (JObj (es1 ++ (key, v) :: es2)) (JObj (es1 ++ (key, v') :: es2))
| ChIndexed c ap fm es1 key l1 i v v' l2 es2 tsc c' p d : in_effect c ap (es1 ++ (key, JObj (l1 ++ (i, v) :: l2)) :: es2) fm tsc c' ->
    property_key tsc c' key p -> prop_def c' (Some key) = Some d -> nd_container d = CIndex \/ nd_container d = CIndexSet -> nd_typ d <> Some TyJson -> xo_ordered o = false ->
    changed c' (Some key) true v v' ->
    changed c ap fm (JObj (es1 ++ (key, JObj (l1 ++ (i, v) :: l2)) :: es2)) (JObj (es1 ++ (key, JObj (l1 ++ (i, v') :: l2)) :: es2))
| ChKeyword c ap fm es1 key v v' es2 tsc c' k : in_effect c ap (es1 ++ (key, v) :: es2) fm tsc c' ->
    xkey tsc key <> Ok (Some (TmKw KType)) -> xkey c' key = Ok (Some (TmKw k)) -> k = KGraph \/ k = KIncluded ->
    changed c' (Some (kw_str k)) false v v' -> changed c ap fm (JObj (es1 ++ (key, v) :: es2)) (JObj (es1 ++ (key, v') :: es2))
| ChReverse c ap fm es1 key l1 k v v' l2 es2 tsc c' : in_effect c ap (es1 ++ (key, JObj (l1 ++ (k, v) :: l2)) :: es2) fm tsc c' ->
    xkey tsc key <> Ok (Some (TmKw KType)) -> xkey c' key = Ok (Some (TmKw KReverse)) -> xo_ordered o = false ->
    changed c' (Some k) false v v' ->
    changed c ap fm (JObj (es1 ++ (key, JObj (l1 ++ (k, v) :: l2)) :: es2)) (JObj (es1 ++ (key, JObj (l1 ++ (k, v') :: l2)) :: es2))
| ChList c ap fm es1 key l1 x x' l2 es2 tsc c' : in_effect c ap (es1 ++ (key, JArr (l1 ++ x :: l2)) :: es2) fm tsc c' ->
    xkey tsc key <> Ok (Some (TmKw KType)) -> xkey c' key = Ok (Some (TmKw KList)) ->
    changed c' ap false x x' ->
    changed c ap fm (JObj (es1 ++ (key, JArr (l1 ++ x :: l2)) :: es2)) (JObj (es1 ++ (key, JArr (l1 ++ x' :: l2)) :: es2))
| ChSet c ap fm es1 key v v' es2 tsc c' : in_effect c ap (es1 ++ (key, v) :: es2) fm tsc c' ->
    xkey tsc key <> Ok (Some (TmKw KType)) -> xkey c' key = Ok (Some (TmKw KSet)) ->
    changed c' ap false v v' -> changed c ap fm (JObj (es1 ++ (key, v) :: es2)) (JObj (es1 ++ (key, v') :: es2)).

Lemma item_cong n c ap fm l1 x x' l2 : XE n c ap x fm = XE n c ap x' fm -> XE (S n) c ap (JArr (l1 ++ x :: l2)) fm = XE (S n) c ap (JArr (l1 ++ x' :: l2)) fm.
Proof. intros H. cbn [expand_element element_body]. rewrite !flat_r_app, !flat_r_cons, H. reflexivity. Qed.
Lemma property_cong n c key v v' : takes_maps (prop_def c (Some key)) = false -> json_typed (prop_def c (Some key)) = false ->
  XE n c (Some key) v false = XE n c (Some key) v' false -> XP n c key v = XP n c key v'.
Proof.
  intros M J H. unfold takes_maps in M. rewrite !orb_false_iff in M. destruct M as [[[M1 M2] M3] M4]. unfold expand_property.
  unfold json_typed in J. rewrite J, M1, M2, M3, M4. cbn [orb]. destruct v, v'; exact H.
Qed.
Lemma keyword_not_context c key k : xkey c key = Ok (Some (TmKw k)) -> k <> KContext -> key <> "@context".
Proof. intros H N ->. change "@context" with (kw_str KContext) in H. rewrite xkw in H. congruence. Qed.
Lemma reverse_cong n c k v v' nd : XE n c (Some k) v false = XE n c (Some k) v' false ->
  reverse_entry io o (XE n) c nd (k, v) = reverse_entry io o (XE n) c nd (k, v').
Proof. intros H. unfold reverse_entry. rewrite H. reflexivity. Qed.

(** What is done with the expanded entries of an object. *)
Definition object_of (n : nat) (ap : option string) (tsc c : actx) (it : option term) (es : list xentry) : result expanded xerr :=
  match (if is_some ap && negb (ap_is ap KGraph) then last_entry KList es else None) with
  | Some l =>
      do i <- list_index es ;
      do r <- flat_r (fun item => do x <- XE n c ap item false ; Ok (items x)) (force_array l) ;
      Ok (XObj (i, OList r))
  | None =>
      match last_entry KSet es with
      | Some s => do _ <- set_check es ; XE n c ap s false
      | None =>
          match last_entry KValue es with
          | Some v => do r <- map_err XValue (expand_value io o it tsc es v) ;
                      Ok (match r with Some x => XObj x | None => XNull end)
          | None => do r <- expand_node io ld fin rnd pf o (XE n) n ap c tsc es ;
                    Ok (match r with Some n => XObj (fst n, ONode (snd n)) | None => XNull end)
          end
      end
  end.
Lemma object_swap n c ap fm es1 key v v' es2 tsc c' t : in_effect c ap (es1 ++ (key, v) :: es2) fm tsc c' ->
  key <> "@context" -> xkey tsc key <> Ok (Some (TmKw KType)) -> xkey c' key = Ok (Some t) ->
  (forall it A B, object_of n ap tsc c' it (A ++ (key, t, v) :: B) = object_of n ap tsc c' it (A ++ (key, t, v') :: B)) ->
  XE (S n) c ap (JObj (es1 ++ (key, v) :: es2)) fm = XE (S n) c ap (JObj (es1 ++ (key, v') :: es2)) fm.
Proof.
  intros (EC & ts & TE & TS) NC NT XK OB. cbn [expand_element element_body]. unfold expand_map.
  rewrite <- (context_other c ap fm key v v' es1 es2 NC), EC. cbn [bind]. rewrite <- (types_other tsc key v v' es1 es2 NT), TE. cbn [bind].
  rewrite TS. cbn [bind]. destruct (input_type io o c' ts) as [it|]; [|reflexivity]. cbn [bind].
  unfold expand_entries. rewrite !flat_r_app, !flat_r_cons. cbn [fst snd]. rewrite XK. cbn [bind].
  match goal with |- bind (bind ?r _) _ = _ => destruct r as [A|] end; [|reflexivity]. cbn [bind].
  match goal with |- bind (bind (bind ?r _) _) _ = _ => destruct r as [B|] end; [|reflexivity]. cbn [bind app].
  exact (OB it A B).
Qed.
Lemma list_swap n c ap fm es1 key v v' es2 tsc c' : in_effect c ap (es1 ++ (key, v) :: es2) fm tsc c' ->
  xkey tsc key <> Ok (Some (TmKw KType)) -> xkey c' key = Ok (Some (TmKw KList)) ->
  flat_r (fun item => do x <- XE n c' ap item false ; Ok (items x)) (force_array v) = flat_r (fun item => do x <- XE n c' ap item false ; Ok (items x)) (force_array v') ->
  XE (S n) c ap (JObj (es1 ++ (key, v) :: es2)) fm = XE (S n) c ap (JObj (es1 ++ (key, v') :: es2)) fm.
Proof.
  intros E NT XK H. eapply object_swap; try eassumption; [eapply keyword_not_context; [exact XK|discriminate]|]. intros it A B. unfold object_of.
  assert (LI : list_index (A ++ (key, TmKw KList, v) :: B) = list_index (A ++ (key, TmKw KList, v') :: B)).
  { unfold list_index. rewrite !fold_r_app. reflexivity. }
  assert (SE : set_check (A ++ (key, TmKw KList, v) :: B) = set_check (A ++ (key, TmKw KList, v') :: B)) by (unfold set_check; rewrite !fold_r_app; reflexivity).
  assert (VE : forall w, expand_value io o it tsc (A ++ (key, TmKw KList, v) :: B) w = expand_value io o it tsc (A ++ (key, TmKw KList, v') :: B) w).
  { intros w. unfold expand_value. rewrite !fold_r_app. match goal with |- bind (bind ?r _) _ = _ => destruct r as [s|] end; reflexivity. }
  assert (NN : expand_node io ld fin rnd pf o (XE n) n ap c' tsc (A ++ (key, TmKw KList, v) :: B) = expand_node io ld fin rnd pf o (XE n) n ap c' tsc (A ++ (key, TmKw KList, v') :: B)).
  { unfold expand_node. destruct n as [|m]; [reflexivity|]. cbn [node_entries]. rewrite !fold_r_app.
    match goal with |- bind (bind ?r _) _ = _ => destruct r as [s|] end; reflexivity. }
  assert (LO : forall k, k <> KList -> last_entry k (A ++ (key, TmKw KList, v) :: B) = last_entry k (A ++ (key, TmKw KList, v') :: B)).
  { intros k NK. rewrite !last_app, !last_cons. cbn [fst snd]. destruct k; try reflexivity. congruence. }
  rewrite LI, SE, NN, (LO KSet), (LO KValue) by discriminate.
  assert (LL : match last_entry KList (A ++ (key, TmKw KList, v) :: B), last_entry KList (A ++ (key, TmKw KList, v') :: B) with
               | Some l, Some l' => l = l' \/ l = v /\ l' = v' | _, _ => False end).
  { rewrite !last_app, !last_cons. cbn [fst snd keyword_eqb]. destruct (last_entry KList B); [left; reflexivity|]. right. auto. }
  destruct (is_some ap && negb (ap_is ap KGraph)).
  - destruct (last_entry KList (A ++ (key, TmKw KList, v) :: B)), (last_entry KList (A ++ (key, TmKw KList, v') :: B)); try contradiction.
    destruct LL as [->|[-> ->]]; [|rewrite H]; reflexivity.
  - destruct (last_entry KSet _); [reflexivity|]. destruct (last_entry KValue _); [rewrite VE|]; reflexivity.
Qed.
Lemma set_swap n c ap fm es1 key v v' es2 tsc c' : in_effect c ap (es1 ++ (key, v) :: es2) fm tsc c' ->
  xkey tsc key <> Ok (Some (TmKw KType)) -> xkey c' key = Ok (Some (TmKw KSet)) ->
  XE n c' ap v false = XE n c' ap v' false ->
  XE (S n) c ap (JObj (es1 ++ (key, v) :: es2)) fm = XE (S n) c ap (JObj (es1 ++ (key, v') :: es2)) fm.
Proof.
  intros E NT XK H. eapply object_swap; try eassumption; [eapply keyword_not_context; [exact XK|discriminate]|]. intros it A B. unfold object_of.
  assert (LI : list_index (A ++ (key, TmKw KSet, v) :: B) = list_index (A ++ (key, TmKw KSet, v') :: B)).
  { unfold list_index. rewrite !fold_r_app. match goal with |- bind ?r _ = _ => destruct r as [s|] end; reflexivity. }
  assert (SE : set_check (A ++ (key, TmKw KSet, v) :: B) = set_check (A ++ (key, TmKw KSet, v') :: B)) by (unfold set_check; rewrite !fold_r_app; reflexivity).
  assert (LO : last_entry KList (A ++ (key, TmKw KSet, v) :: B) = last_entry KList (A ++ (key, TmKw KSet, v') :: B)).
  { rewrite !last_app, !last_cons. reflexivity. }
  rewrite LI, SE, LO. destruct (if is_some ap && negb (ap_is ap KGraph) then _ else _); [reflexivity|].
  rewrite !last_app, !last_cons. cbn [fst snd]. destruct (last_entry KSet B); [reflexivity|]. change (keyword_eqb KSet KSet) with true. cbn iota. rewrite H. reflexivity.
Qed.
Theorem changed_alike c ap fm j j' : changed c ap fm j j' -> alike c ap fm j j'.
Proof.
  rewrite alike_iff.
  induction 1 as [c ap fm j j' H|c ap fm l1 x x' l2 _ [N H]|c ap fm es1 key v v' es2 tsc c' p E PK M J _ [N H]
    |c ap fm es1 key l1 i v v' l2 es2 tsc c' p d E PK D CN NJ OR _ [N H]|c ap fm es1 key v v' es2 tsc c' k E NT XK K _ [N H]
    |c ap fm es1 key l1 k v v' l2 es2 tsc c' E NT XK OR _ [N H]|c ap fm es1 key l1 x x' l2 es2 tsc c' E NT XK _ [N H]|c ap fm es1 key v v' es2 tsc c' E NT XK _ [N H]].
  - apply alike_iff, H.
  - exists (S N). intros [|n] L; [lia|]. apply item_cong, H. lia.
  - exists (S N). intros [|n] L; [lia|]. eapply property_swap; try eassumption. apply property_cong; [assumption..|]. apply H. lia.
  - exists (S N). intros [|n] L; [lia|]. eapply property_swap; try eassumption. unfold expand_property. rewrite D.
    replace (match nd_typ d with Some TyJson => true | _ => false end) with false by (destruct (nd_typ d) as [[]|]; congruence). cbn [has_container].
    replace (c_contains (nd_container d) CKLanguage) with false by (destruct CN as [-> | ->]; reflexivity).
    replace (c_contains (nd_container d) CKIndex) with true by (destruct CN as [-> | ->]; reflexivity). cbn [orb].
    unfold expand_index_map, entries_sorted. rewrite OR. rewrite !flat_r_app, !flat_r_cons. cbn [has_container].
    replace (c_contains (nd_container d) CKType) with false by (destruct CN as [-> | ->]; reflexivity).
    replace (c_contains (nd_container d) CKId) with false by (destruct CN as [-> | ->]; reflexivity). cbn [orb bind].
    rewrite (H n) by lia. reflexivity.
  - exists (S N). intros [|n] L; [lia|]. eapply (entry_swap _ _ _ _ _ _ _ _ _ _ _ (TmKw k)); try eassumption.
    + eapply keyword_not_context; [exact XK|destruct K as [-> | ->]; discriminate].
    + destruct K as [-> | ->]; reflexivity.
    + intros m s. cbn [node_entry]. destruct K as [-> | ->]; cbn [kw_str] in H; unfold keyword_entry; rewrite (H n) by lia; reflexivity.
  - exists (S N). intros [|n] L; [lia|]. eapply (entry_swap _ _ _ _ _ _ _ _ _ _ _ (TmKw KReverse)); try eassumption; [eapply keyword_not_context; [exact XK|discriminate]|reflexivity|].
    intros m s. cbn [node_entry]. unfold keyword_entry, entries_sorted. rewrite OR. rewrite !fold_r_app.
    match goal with |- (if ?a then _ else if ?b then _ else bind (bind ?r _) _) = _ => destruct r as [nd|] end; [|reflexivity]. cbn [bind fold_r].
    rewrite (reverse_cong n c' k v v' nd) by (apply H; lia). reflexivity.
  - exists (S N). intros [|n] L; [lia|]. eapply list_swap; try eassumption. cbn [force_array]. rewrite !flat_r_app, !flat_r_cons, (H n) by lia. reflexivity.
  - exists (S N). intros [|n] L; [lia|]. eapply set_swap; try eassumption. apply H. lia.
Qed.
Theorem changed_expand c j j' : changed c None false j j' -> forall n, json_size j < n -> json_size j' < n ->
  expand io ld fin rnd pf o base n c j = expand io ld fin rnd pf o base n c j'.
Proof. intros H n L L'. apply changed_alike in H. unfold expand. rewrite (H n L L'). reflexivity. Qed.

(** ** Index, identifier and type maps *)
Lemma no_previous n : forall c ap j fm fm', ac_prev c = None -> XE n c ap j fm = XE n c ap j fm'.
Proof.
  induction n as [|n IH]; intros c ap j fm fm' P; [reflexivity|]. cbn [expand_element]. destruct j as [| | | | |m]; try reflexivity; cbn [element_body].
  - erewrite flat_r_cong; [reflexivity|]. intros x. cbn beta. rewrite (IH c ap x fm fm' P). reflexivity.
  - unfold expand_map. replace (element_context io ld pf o base c ap m fm) with (element_context io ld pf o base c ap m fm'); [reflexivity|].
    unfold element_context. rewrite P. reflexivity.
Qed.

(** What is done to the items of an expanded value. *)
Definition xmap (f : iobj -> iobj) (x : expanded) : expanded :=
  match x with XNull => XNull | XObj y => XObj (f y) | XArr l => XArr (map f l) end.
Lemma items_xmap f x : items (xmap f x) = map f (items x).
Proof. destruct x; reflexivity. Qed.

(** The members of a map as an array; [note] is the entry for the key of the map, and [none] tells
    the keys that stand for nothing. *)
Definition spell_member (note : string -> string * json) (none : string -> bool) (i : string) (x : json) : json :=
  match x with JObj mm => JObj (if none i then mm else mm ++ [note i]) | _ => x end.
Definition spell_map (note : string -> string * json) (none : string -> bool) (m : jobject) : list json :=
  flat_map (fun e => map (spell_member note none (fst e)) (force_array (snd e))) m.
Definition reads_nothing (c : actx) (k : string) : bool := match xkey c k with Ok (Some TmNull) | Ok (Some (TmKw KNone)) | Ok None => true | _ => false end.
(** The members of the map are objects with the given property, or null. *)
Definition members (P : string -> jobject -> Prop) (m : jobject) : Prop :=
  Forall (fun e => Forall (fun x => x = JNull \/ exists mm, x = JObj mm /\ P (fst e) mm) (force_array (snd e))) m.

Section Maps.
Variables (c : actx) (key : string) (d : ndef) (note : string -> string * json) (adj : string -> iobj -> iobj).
Hypothesis PV : ac_prev c = None.
Hypothesis PD : prop_def c (Some key) = Some d.
Hypothesis NL : c_contains (nd_container d) CKList = false.
Let index_key := match nd_index d with Some i => i | None => "@index" end.
Variable P : string -> jobject -> Prop.
Variable Q : string -> Prop.
Hypothesis ADJ : forall i t item, Q i -> reads_nothing c i = false -> xkey c i = Ok (Some t) -> index_item io fin rnd o c (has_container (Some d)) index_key i (Some t) item = Ok (Some (adj i item)).
Hypothesis NOG : c_contains (nd_container d) CKGraph = false.
Hypothesis MEM : forall n i mm, Q i -> reads_nothing c i = false -> P i mm ->
  XE (S n) c (Some key) (JObj (mm ++ [note i])) false = do y <- XE (S n) c (Some key) (JObj mm) false ; Ok (xmap (adj i) y).
Definition adjust (i : string) (l : list iobj) : list iobj := if reads_nothing c i then l else map (adj i) l.
Lemma flat_r_ok {A B E} (f : A -> result (list B) E) g l : (forall x, f x = Ok (g x)) -> flat_r f l = Ok (flat_map g l).
Proof. intros H. induction l as [|x l IH]; [reflexivity|]. cbn [flat_r flat_map]. rewrite H, IH. reflexivity. Qed.
Lemma adjust_items i t l : Q i -> xkey c i = Ok t ->
  flat_r (fun item => do r <- index_item io fin rnd o c (has_container (Some d)) index_key i (match t with Some TmNull | Some (TmKw KNone) => None | _ => t end) item ;
                      Ok (match r with Some y => [y] | None => [] end)) l = Ok (adjust i l).
Proof.
  intros QI T. destruct (reads_nothing c i) eqn:R.
  - unfold adjust. rewrite R. rewrite (flat_r_ok _ (fun x => [x])); [apply f_equal; clear; induction l as [|x l IH]; [reflexivity|cbn; rewrite ?IH; congruence]|].
    intros item. unfold reads_nothing in R. rewrite T in R. replace (match t with Some TmNull | Some (TmKw KNone) => None | _ => t end) with (@None term) by (destruct t as [[| |[]]|]; discriminate || reflexivity).
    unfold index_item. cbn [has_container]. rewrite NOG. reflexivity.
  - unfold adjust. rewrite R. rewrite (flat_r_ok _ (fun x => [adj i x])); [apply f_equal; clear; induction l as [|x l IH]; [reflexivity|cbn; rewrite ?IH; congruence]|].
    intros item. unfold reads_nothing in R. rewrite T in R. destruct t as [t|]; [|discriminate].
    replace (match Some t with Some TmNull | Some (TmKw KNone) => None | _ => Some t end) with (Some t) by (destruct t as [| |[]]; discriminate || reflexivity).
    rewrite (ADJ i t); [reflexivity|exact QI| |exact T]. unfold reads_nothing. rewrite T. exact R.
Qed.
Lemma member_spelled n i x t : Q i -> xkey c i = Ok t -> x = JNull \/ (exists mm, x = JObj mm /\ P i mm) ->
  (do y <- XE (S n) c (Some key) (spell_member note (reads_nothing c) i x) false ; Ok (items y)) = do y <- XE (S n) c (Some key) x false ; Ok (adjust i (items y)).
Proof.
  intros QI T [->|(mm & -> & M)]; [unfold adjust; cbn; destruct (reads_nothing c i); reflexivity|]. unfold spell_member, adjust. destruct (reads_nothing c i) eqn:R; [reflexivity|].
  rewrite (MEM n i mm QI R M). destruct (XE (S n) c (Some key) (JObj mm) false); [|reflexivity]. cbn [bind]. rewrite items_xmap. reflexivity.
Qed.
Lemma flat_adjust i f l : (do r <- flat_r f l ; Ok (adjust i r)) = flat_r (fun x : json => do y <- (f x : result (list iobj) xerr) ; Ok (adjust i y)) l.
Proof.
  induction l as [|x l IH]; cbn [flat_r bind]; [unfold adjust; destruct (reads_nothing c i); reflexivity|]. destruct (f x) as [y|]; [|reflexivity]. cbn [bind]. rewrite <- IH.
  destruct (flat_r f l) as [z|]; [|reflexivity]. cbn [bind]. f_equal. unfold adjust. destruct (reads_nothing c i); [reflexivity|apply map_app].
Qed.
Hypothesis CM : c_contains (nd_container d) CKIndex || c_contains (nd_container d) CKType || c_contains (nd_container d) CKId = true.
Hypothesis NJ : nd_typ d <> Some TyJson.
Lemma flat_r_map {A B C E} (f : B -> result (list C) E) (g : A -> B) l : flat_r f (map g l) = flat_r (fun x => f (g x)) l.
Proof. induction l as [|x l IH]; [reflexivity|]. cbn [map flat_r]. rewrite IH. reflexivity. Qed.
Lemma entry_spelled n i v t : Q i -> xkey c i = Ok t -> json_size v < S n -> Forall (fun x => x = JNull \/ exists mm, x = JObj mm /\ P i mm) (force_array v) ->
  (do ev <- XE (S (S n)) c (Some key) v false ; Ok (adjust i (items ev))) =
  flat_r (fun x => do y <- XE (S n) c (Some key) x false ; Ok (items y)) (map (spell_member note (reads_nothing c) i) (force_array v)).
Proof.
  intros QI T L M. rewrite flat_r_map.
  assert (E : flat_r (fun x => do y <- XE (S n) c (Some key) (spell_member note (reads_nothing c) i x) false ; Ok (items y)) (force_array v) =
              flat_r (fun x => do y <- XE (S n) c (Some key) x false ; Ok (adjust i (items y))) (force_array v)).
  { apply flat_r_cong_in. intros x I. rewrite Forall_forall in M. apply (member_spelled _ _ _ t QI T). exact (M x I). }
  rewrite E. destruct v as [| | | |l|mm].
  1: cbn; unfold adjust; destruct (reads_nothing c i); reflexivity.
  1-3: cbn [force_array] in M; inversion M as [|? ? [X|(mm & X & _)] _]; discriminate X.
  - change (XE (S (S n)) c (Some key) (JArr l) false) with (element_body io ld fin rnd pf o base (XE (S n)) (S n) c (Some key) (JArr l) false).
    cbn [element_body force_array]. rewrite PD. cbn [has_container]. rewrite NL.
    transitivity (do r <- flat_r (fun item => do x <- XE (S n) c (Some key) item false ; Ok (items x)) l ; Ok (adjust i r)).
    { destruct (flat_r _ l); reflexivity. }
    rewrite flat_adjust. apply flat_r_cong. intros x. destruct (XE (S n) c (Some key) x false); reflexivity.
  - rewrite (expand_stable io ld fin rnd pf o base (S n) (S (S n))) by lia. cbn [force_array flat_r bind].
    destruct (XE (S n) c (Some key) (JObj mm) false); cbn [bind]; [|reflexivity]. rewrite app_nil_r. reflexivity.
Qed.
Lemma map_spelled n m : (forall k, In k (keys m) -> Q k) -> (forall k, In k (keys m) -> exists t, xkey c k = Ok t) ->
  (forall k d', In k (keys m) -> c_contains (nd_container d) CKType = true -> prop_def c (Some k) = Some d' -> nd_context d' = None) ->
  Forall (fun e => json_size (snd e) < S n) m -> members P m ->
  expand_index_map io ld fin rnd pf o (XE (S (S n))) c (Some d) key m =
  flat_r (fun x => do y <- XE (S n) c (Some key) x false ; Ok (items y)) (spell_map note (reads_nothing c) (entries_sorted o m)).
Proof.
  intros QM K KC F M. unfold expand_index_map, spell_map. rewrite PV.
  assert (IM : forall e, In e (entries_sorted o m) -> In e m) by (intros e I; eapply entries_in, I).
  induction (entries_sorted o m) as [|[i v] es IH]; [reflexivity|]. cbn [flat_map fst snd]. rewrite flat_r_app, flat_r_cons.
  pose proof (IM _ (or_introl eq_refl)) as I. assert (IK : In i (keys m)) by (apply (in_map fst) in I; exact I).
  destruct (K i IK) as [t T]. rewrite <- IH by (intros; apply IM; right; assumption). clear IH. rewrite Forall_forall in F. pose proof (F _ I) as L. cbn [snd] in L.
  unfold members in M. rewrite Forall_forall in M. pose proof (M _ I) as MM. cbn [snd fst] in MM. rewrite <- (entry_spelled n i v t (QM i IK) T L MM).
  match goal with |- bind ?a _ = bind ?b _ => enough (H : a = b) by (rewrite H; reflexivity) end.
  assert (IF : (if has_container (Some d) CKType || has_container (Some d) CKId then c else c) = c) by (destruct (has_container (Some d) CKType || has_container (Some d) CKId); reflexivity). rewrite IF.
  assert (MC : (if has_container (Some d) CKType
                then match prop_def c (Some i) with Some id => match nd_context id with Some lc => xprocess io ld pf c lc (nd_base_url id) (popts_of o) | None => Ok c end | None => Ok c end
                else Ok c) = Ok c).
  { cbn [has_container]. destruct (c_contains (nd_container d) CKType) eqn:CT; [|reflexivity]. destruct (prop_def c (Some i)) as [d'|] eqn:PI; [|reflexivity]. rewrite (KC i d' IK eq_refl PI). reflexivity. }
  rewrite MC, T. cbn [bind]. rewrite (no_previous _ _ _ _ true false PV). destruct (XE (S (S n)) c (Some key) v false) as [ev|]; [|reflexivity]. cbn [bind].
  rewrite <- (adjust_items i t (items ev) (QM i IK) T). reflexivity.
Qed.
End Maps.

(** *** Adding a keyword entry to an object *)
Lemma expand_object n c ap m fm : XE (S n) c ap (JObj m) fm =
  do tsc <- element_context io ld pf o base c ap m fm ;
  do ts <- type_entries io o tsc m ;
  do c' <- type_scoped io ld pf o tsc ts ;
  do it <- input_type io o c' ts ;
  do es <- expand_entries io o c' m ;
  object_of n ap tsc c' it es.
Proof. reflexivity. Qed.
(** No entry of the object reads as one of the keywords. *)
Definition lacks (ks : list keyword) (c : actx) (ap : option string) (m : jobject) : Prop :=
  (forall tsc, element_context io ld pf o base c ap m false = Ok tsc -> forall key k, In key (keys m) -> In k ks -> xkey tsc key <> Ok (Some (TmKw k))) /\
  (forall tsc c', in_effect c ap m false tsc c' -> forall key k, In key (keys m) -> In k ks -> xkey c' key <> Ok (Some (TmKw k))).
Definition lacking (ks : list keyword) (es : list xentry) : Prop := forall e k, In e es -> In k ks -> snd (fst e) <> TmKw k.
Lemma lacks_entries ks c ap m tsc c' es : lacks ks c ap m -> in_effect c ap m false tsc c' -> expand_entries io o c' m = Ok es -> lacking ks es.
Proof.
  intros L E X e k I K T. unfold expand_entries in X.
  assert (exists key, In key (keys m) /\ xkey c' key = Ok (Some (snd (fst e)))) as (key & IK & XK).
  { clear L E T. revert es X I. induction m as [|[y v] m IH]; intros es X I; cbn [flat_r] in X; [injection X as <-; destruct I|]. cbn [fst snd] in X.
    destruct (xkey c' y) as [t|] eqn:Y; [|discriminate]. cbn [bind] in X. destruct (flat_r _ m) as [l|] eqn:F; [|discriminate]. cbn [bind] in X. injection X as <-.
    apply in_app_or in I. destruct I as [I|I].
    - destruct t as [t|]; [|destruct I]. destruct I as [<-|[]]. exists y. split; [left; reflexivity|exact Y].
    - destruct (IH l eq_refl I) as (key & A & B). exists key. split; [right; exact A|exact B]. }
  rewrite T in XK. exact (proj2 L tsc c' E key k IK K XK).
Qed.
Lemma context_added c ap fm mm k w : ac_prev c = None -> k <> KContext ->
  element_context io ld pf o base c ap (mm ++ [(kw_str k, w)]) fm = element_context io ld pf o base c ap mm fm.
Proof.
  intros P N. unfold element_context. rewrite P.
  assert (G : get_unique "@context" (mm ++ [(kw_str k, w)]) = get_unique "@context" mm).
  { unfold get_unique. replace (get_all "@context" (mm ++ [(kw_str k, w)])) with (get_all "@context" mm); [reflexivity|].
    unfold get_all. rewrite filter_app. cbn [filter fst]. destruct (streq_spec (kw_str k) "@context") as [E|_]; [destruct k; try discriminate E; congruence|]. cbn [map]. rewrite app_nil_r. reflexivity. }
  rewrite G. unfold preliminary. rewrite fold_r_app. match goal with |- bind (bind ?r _) _ = _ => destruct r as [[hv hi]|] end; [|reflexivity].
  cbn [bind fold_r fst]. rewrite xkw. cbn [bind]. destruct k; reflexivity.
Qed.
Lemma types_added tsc mm k w : k <> KType -> type_entries io o tsc (mm ++ [(kw_str k, w)]) = type_entries io o tsc mm.
Proof.
  intros N. unfold type_entries. rewrite flat_r_app. match goal with |- bind (bind ?r _) _ = _ => destruct r as [l|] end; [|reflexivity].
  cbn [bind flat_r fst]. rewrite xkw. cbn [bind]. destruct k; try (cbn [app bind]; rewrite app_nil_r; reflexivity). congruence.
Qed.
Lemma entries_added c mm k w : expand_entries io o c (mm ++ [(kw_str k, w)]) = do es <- expand_entries io o c mm ; Ok (es ++ [(kw_str k, TmKw k, w)]).
Proof.
  unfold expand_entries. rewrite flat_r_app. match goal with |- bind ?r _ = _ => destruct r as [l|] end; [|reflexivity].
  cbn [bind flat_r fst snd]. rewrite xkw. reflexivity.
Qed.
Lemma object_added n c ap fm mm k w ks f : ac_prev c = None -> k <> KContext -> k <> KType -> lacks ks c ap mm ->
  (forall tsc c' it es, lacking ks es -> object_of n ap tsc c' it (es ++ [(kw_str k, TmKw k, w)]) = do x <- object_of n ap tsc c' it es ; Ok (f tsc c' x)) ->
  (forall tsc c', in_effect c ap mm false tsc c' -> forall x, f tsc c' x = f c c x) ->
  XE (S n) c ap (JObj (mm ++ [(kw_str k, w)])) fm = do x <- XE (S n) c ap (JObj mm) fm ; Ok (f c c x).
Proof.
  intros P NC NT L H U. rewrite !(no_previous _ _ _ _ fm false P). rewrite !expand_object. rewrite (context_added _ _ _ _ _ _ P NC).
  destruct (element_context io ld pf o base c ap mm false) as [tsc|] eqn:EC; [|reflexivity]. cbn [bind]. rewrite (types_added _ _ _ _ NT).
  destruct (type_entries io o tsc mm) as [ts|] eqn:TE; [|reflexivity]. cbn [bind]. destruct (type_scoped io ld pf o tsc ts) as [c'|] eqn:TS; [|reflexivity]. cbn [bind].
  destruct (input_type io o c' ts) as [it|]; [|reflexivity]. cbn [bind]. rewrite entries_added. destruct (expand_entries io o c' mm) as [es|] eqn:EE; [|reflexivity]. cbn [bind].
  assert (IE : in_effect c ap mm false tsc c') by (split; [exact EC|exists ts; auto]).
  rewrite (H tsc c' it es (lacks_entries _ _ _ _ _ _ _ L IE EE)). destruct (object_of n ap tsc c' it es); [|reflexivity]. cbn [bind]. rewrite (U tsc c' IE). reflexivity.
Qed.

(** A property that is no keyword. *)
Definition plain_ap (ap : option string) : Prop := is_some ap = true /\ ap_is ap KGraph = false /\ ap_is ap KReverse = false.
Lemma property_plain c key p : xkey c key = Ok (Some (TmId p)) -> plain_ap (Some key).
Proof.
  intros X. split; [reflexivity|]. unfold ap_is. split; match goal with |- ?b = _ => destruct b eqn:B; [|reflexivity] end; exfalso; apply streq_true in B; subst key.
  - rewrite xkw in X. discriminate X.
  - rewrite xkw in X. discriminate X.
Qed.

(** *** What the entries of a node do not touch *)
Definition untouched (ks : list keyword) (s s' : nstate) : Prop :=
  (In KIndex ks -> fst (fst s') = fst (fst s)) /\ (In KLanguage ks -> In KDirection ks -> snd s' = snd s) /\
  (In KId ks -> n_id (snd (fst s')) = n_id (snd (fst s))) /\ (In KType ks -> n_types (snd (fst s')) = n_types (snd (fst s))).
Lemma untouched_refl ks s : untouched ks s s.
Proof. repeat split. Qed.
Lemma untouched_trans ks s1 s2 s3 : untouched ks s1 s2 -> untouched ks s2 s3 -> untouched ks s1 s3.
Proof. intros (A & B & C & D) (A' & B' & C' & D'). repeat split; intros; [rewrite A', A|rewrite B', B|rewrite C', C|rewrite D', D]; auto. Qed.
Lemma untouched_node ks f s : (forall n, n_id (f n) = n_id n) -> (forall n, n_types (f n) = n_types n) -> untouched ks s (on_node f s).
Proof. intros A B. repeat split; intros; cbn; auto. Qed.
Definition same_head (n n' : node) : Prop := n_id n' = n_id n /\ n_types n' = n_types n.
Lemma untouched_to ks s n : same_head (snd (fst s)) n -> untouched ks s (on_node (fun _ => n) s).
Proof. intros [A B]. repeat split; intros; cbn; auto. Qed.
Lemma same_refl n : same_head n n. Proof. split; reflexivity. Qed.
Lemma same_add_prop p l n : same_head n (add_prop p l n). Proof. destruct n; split; reflexivity. Qed.
Lemma same_add_reverse p l n : same_head n (add_reverse p l n). Proof. destruct n; split; reflexivity. Qed.
Lemma fold_r_keeps {A B E} (R : A -> A -> Prop) (f : A -> B -> result A E) l : (forall a, R a a) -> (forall a b c, R a b -> R b c -> R a c) ->
  (forall a x b, In x l -> f a x = Ok b -> R a b) -> forall a b, fold_r f a l = Ok b -> R a b.
Proof.
  intros RR RT. induction l as [|x l IH]; intros H a b X; cbn [fold_r] in X; [injection X as <-; apply RR|].
  destruct (f a x) as [y|] eqn:Y; [|discriminate]. cbn [bind] in X. eapply RT; [eapply H; [left; reflexivity|exact Y]|]. apply IH; [intros; eapply H; [right|]; eassumption|exact X].
Qed.
Lemma same_trans a b c : same_head a b -> same_head b c -> same_head a c.
Proof. intros [A B] [C D]. split; congruence. Qed.
Ltac okbind H := repeat match type of H with
  | Ok _ = Ok _ => injection H as <-
  | Err _ = Ok _ => discriminate H
  | bind ?r _ = Ok _ => let a := fresh "a" in destruct r as [a|] eqn:?; cbn [bind] in H; [|discriminate H]
  | (if ?b then _ else _) = Ok _ => destruct b
  | match ?x with _ => _ end = Ok _ => destruct x
  end.
Lemma reverse_same r c n e n' : reverse_entry io o r c n e = Ok n' -> same_head n n'.
Proof. destruct e as [k v]. unfold reverse_entry. intros H. okbind H; try apply same_refl; [apply same_add_prop|apply same_add_reverse]. Qed.
Lemma property_same r c key p v n n' : property_entry io ld fin rnd pf o r c key p v n = Ok n' -> same_head n n'.
Proof. unfold property_entry, store. intros H. okbind H; try apply same_refl; first [apply same_add_prop|apply same_add_reverse]. Qed.
Lemma types_same tsc v n n' : expand_types io o tsc v n = Ok n' -> n_id n' = n_id n.
Proof.
  unfold expand_types. apply (fold_r_keeps (fun a b => n_id b = n_id a)); [reflexivity|congruence|]. intros a x b _ H. cbn beta in H. okbind H; try reflexivity. destruct a0, a; reflexivity.
Qed.
Lemma entry_untouched ks r self ap c tsc s e s' : In KNest ks -> (forall k, In k ks -> snd (fst e) <> TmKw k) ->
  node_entry io ld fin rnd pf o r self ap c tsc s e = Ok s' -> untouched ks s s'.
Proof.
  destruct e as [[key t] v]. cbn [fst snd]. intros KN L H. unfold node_entry in H. destruct t as [|p|k].
  - injection H as <-. apply untouched_refl.
  - destruct (property_entry _ _ _ _ _ _ _ _ _ _ _ _) as [n'|] eqn:PE; [|discriminate]. injection H as <-. apply untouched_to. eapply property_same, PE.
  - assert (KE : k <> KNest /\ (In KIndex ks -> k <> KIndex) /\ (In KLanguage ks -> k <> KLanguage) /\ (In KDirection ks -> k <> KDirection) /\ (In KId ks -> k <> KId) /\ (In KType ks -> k <> KType)).
    { repeat split; intros; intros ->; eapply L; eauto. }
    destruct KE as (N1 & N2 & N3 & N4 & N5 & N6). clear L.
    assert (C : forall x, match k with KContext => Ok s | _ => keyword_entry io ld fin rnd pf o r self ap c tsc s key k v end = Ok x -> untouched ks s x); [|destruct k; exact (C _ H)].
    clear H s'. intros s' H. destruct s as [[ix n] hv]. unfold keyword_entry in H.
    destruct k; try (injection H as <-; apply untouched_refl);
      repeat match type of H with (if ?b then Err _ else _) = Ok _ => destruct b; [discriminate H|] end; cbn [fst snd] in H;
      try (injection H as <-; apply untouched_refl); try discriminate H; try congruence.
    all: okbind H; try apply untouched_refl; try (apply untouched_node; intros []; reflexivity).
    + split; [|split; [|split]]; cbn [fst snd]; intros; try reflexivity. destruct (N4 H0 eq_refl).
    + split; [|split; [|split]]; cbn [fst snd on_node]; intros; try reflexivity; [destruct (N5 H eq_refl)|destruct n; reflexivity].
    + split; [|split; [|split]]; cbn [fst snd]; intros; try reflexivity. destruct (N2 H eq_refl).
    + split; [|split; [|split]]; cbn [fst snd]; intros; try reflexivity. destruct (N3 H eq_refl).
    + apply untouched_to. cbn [fst snd]. match goal with X : fold_r _ _ _ = Ok _ |- _ => revert X end. apply (fold_r_keeps same_head); [apply same_refl|apply same_trans|]. intros. eapply reverse_same. eassumption.
    + split; [|split; [|split]]; cbn [fst snd on_node]; intros; try reflexivity; [eapply types_same; eassumption|destruct (N6 H eq_refl)].
Qed.
Lemma entries_untouched ks r m ap tsc c es s s' : In KNest ks -> lacking ks es ->
  node_entries io ld fin rnd pf o r m ap tsc c es s = Ok s' -> untouched ks s s'.
Proof.
  intros KN L. destruct m as [|m]; [discriminate|]. cbn [node_entries]. apply (fold_r_keeps (untouched ks)); [apply untouched_refl|apply untouched_trans|].
  intros a x b I H. eapply entry_untouched; [exact KN| |exact H]. intros k K. exact (L x k I K).
Qed.
Lemma lacking_last k ks es : In k ks -> lacking ks es -> last_entry k es = None.
Proof.
  intros K L. induction es as [|e es IH]; [reflexivity|]. rewrite last_cons, IH by (intros x k' I; apply L; right; exact I).
  assert (N : snd (fst e) <> TmKw k) by (apply L; [left; reflexivity|exact K]).
  destruct (snd (fst e)) as [| |k']; try reflexivity. destruct (keyword_eqb k' k) eqn:E; [|reflexivity]. destruct k, k'; try discriminate E; congruence.
Qed.
Lemma last_snoc k e es : (forall k', snd (fst e) = TmKw k' -> keyword_eqb k' k = false) -> last_entry k (es ++ [e]) = last_entry k es.
Proof.
  intros N. rewrite last_app. unfold last_entry at 1. cbn [fold_left]. destruct (snd (fst e)) as [| |k']; try reflexivity. rewrite (N k' eq_refl). reflexivity.
Qed.

(** *** [@index] *)
Definition put_index (i : string) (x : iobj) : iobj := match fst x with Some _ => x | None => (Some i, snd x) end.
Lemma value_index it tsc es v i : lacking [KIndex] es ->
  expand_value io o it tsc (es ++ [("@index", TmKw KIndex, JStr i)]) v = do r <- expand_value io o it tsc es v ; Ok (option_map (put_index i) r).
Proof.
  intros L. unfold expand_value. rewrite fold_r_app. destruct (fold_r (value_step io o tsc) _ es) as [s|] eqn:F; [|reflexivity].
  assert (I : vs_index s = None).
  { assert (G : vs_index s = vs_index (MkVs (match it with Some (TmKw KJson) => true | _ => false end) None None None None)); [|exact G]. revert F.
    apply (fold_r_keeps (fun a b => vs_index b = vs_index a)); [reflexivity|congruence|]. intros a [[key t] w] b IN H. specialize (L _ KIndex IN (or_introl eq_refl)). cbn [fst snd] in L.
    unfold value_step in H. destruct t as [| |k]; try discriminate H. destruct k; try discriminate H; try congruence; okbind H; try reflexivity; match goal with |- vs_index (if ?b then _ else _) = _ => destruct b; reflexivity end. }
  cbn [bind fold_r value_step as_str]. destruct s as [sj st si sl sd]. cbn [vs_json vs_ty vs_index vs_lang vs_dir] in *. subst si.
  destruct sj; [destruct (_ || _); reflexivity|]. destruct v; try reflexivity; destruct (is_some sl || is_some sd); try reflexivity; destruct (is_some st); try reflexivity. destruct (ls_new s sl sd); reflexivity.
Qed.
Lemma object_index n ap tsc c it es i : plain_ap ap -> lacking [KIndex; KSet; KNest] es ->
  object_of n ap tsc c it (es ++ [("@index", TmKw KIndex, JStr i)]) = do x <- object_of n ap tsc c it es ; Ok (xmap (put_index i) x).
Proof.
  intros (A1 & A2 & A3) L. unfold object_of. rewrite A1, A2. cbn [andb negb]. rewrite !last_snoc by (cbn; intros k' [= <-]; reflexivity).
  destruct (last_entry KList es) as [l|].
  { unfold list_index. rewrite fold_r_app. match goal with |- bind (bind ?r _) _ = _ => destruct r as [j|] eqn:F end; [|reflexivity]. cbn [bind fold_r fst snd as_str].
    assert (J : j = None).
    { assert (X : (fun a b : option string => b = a) None j); [|exact X]. revert F. apply (fold_r_keeps (fun a b => b = a)); [reflexivity|congruence|].
      intros a e b IN H. specialize (L e KIndex IN (or_introl eq_refl)). cbn beta in H. destruct (snd (fst e)) as [| |[]]; try discriminate H; congruence. }
    subst j. match goal with |- bind ?r _ = _ => destruct r as [r'|] end; reflexivity. }
  rewrite (lacking_last KSet [KIndex; KSet; KNest] es); [|cbn; auto|exact L]. destruct (last_entry KValue es) as [v|].
  { rewrite value_index; [|intros e k I K; apply L; [exact I|cbn in *; tauto]]. destruct (expand_value io o it tsc es v) as [[x|]|]; reflexivity. }
  unfold expand_node. destruct n as [|m]; [reflexivity|]. cbn [node_entries]. rewrite fold_r_app.
  destruct (fold_r _ _ es) as [s|] eqn:F; [|reflexivity].
  assert (U : untouched [KIndex; KSet; KNest] ((None, node_new None), false) s).
  { apply (entries_untouched _ (XE (S m)) (S m) ap tsc c es); [cbn; auto|exact L|exact F]. }
  destruct U as (U & _). specialize (U (or_introl eq_refl)). cbn [fst] in U. destruct s as [[ix nd] hv]. cbn [fst snd] in U. subst ix.
  cbn [bind fold_r node_entry]. unfold keyword_entry. rewrite A3. cbn [fst snd has_key as_str]. rewrite andb_false_r. cbn [bind]. unfold free_floating. rewrite A1, A2. cbn [negb orb andb fst snd].
  destruct (hv && n_empty nd && negb (is_some (n_id nd))); reflexivity.
Qed.
Lemma index_added n c ap mm i : ac_prev c = None -> plain_ap ap -> lacks [KIndex; KSet; KNest] c ap mm ->
  XE (S n) c ap (JObj (mm ++ [("@index", JStr i)])) false = do x <- XE (S n) c ap (JObj mm) false ; Ok (xmap (put_index i) x).
Proof.
  intros P A L. apply (object_added n c ap false mm KIndex (JStr i) [KIndex; KSet; KNest] (fun _ _ => xmap (put_index i))); try assumption; try discriminate; [|reflexivity].
  intros tsc c' it es L'. apply object_index; assumption.
Qed.
Lemma forall_sizes m : Forall (fun e : string * json => json_size (snd e) < json_size (JObj m)) m.
Proof. apply Forall_forall. intros e I. apply size_entry, I. Qed.
Lemma map_law c ap fm es1 key m es2 tsc c' p d note adj (P : string -> jobject -> Prop) : in_effect c ap (es1 ++ (key, JObj m) :: es2) fm tsc c' -> property_key tsc c' key p ->
  prop_def c' (Some key) = Some d -> nd_typ d <> Some TyJson -> ac_prev c' = None ->
  c_contains (nd_container d) CKIndex || c_contains (nd_container d) CKType || c_contains (nd_container d) CKId = true ->
  c_contains (nd_container d) CKGraph = false ->
  (forall i t item, In i (keys m) -> reads_nothing c' i = false -> xkey c' i = Ok (Some t) ->
     index_item io fin rnd o c' (has_container (Some d)) (match nd_index d with Some i => i | None => "@index" end) i (Some t) item = Ok (Some (adj i item))) ->
  (forall n i mm, In i (keys m) -> reads_nothing c' i = false -> P i mm ->
     XE (S n) c' (Some key) (JObj (mm ++ [note i])) false = do y <- XE (S n) c' (Some key) (JObj mm) false ; Ok (xmap (adj i) y)) ->
  (forall k, In k (keys m) -> exists t, xkey c' k = Ok t) ->
  (forall k d', In k (keys m) -> c_contains (nd_container d) CKType = true -> prop_def c' (Some k) = Some d' -> nd_context d' = None) ->
  members P m ->
  alike c ap fm (JObj (es1 ++ (key, JObj m) :: es2)) (JObj (es1 ++ (key, JArr (spell_map note (reads_nothing c') (entries_sorted o m))) :: es2)).
Proof.
  intros E PK D NJ PV CM NG ADJ MEM K KC M. apply alike_iff. exists (json_size (JObj m) + 3). intros [|[|[|n]]] L; try lia. eapply property_swap; [exact E|exact PK|].
  assert (NL : c_contains (nd_container d) CKList = false) by (destruct (nd_container d); cbn in CM |- *; congruence).
  assert (NLG : c_contains (nd_container d) CKLanguage = false) by (destruct (nd_container d); cbn in CM |- *; congruence).
  unfold expand_property. rewrite D. replace (match nd_typ d with Some TyJson => true | _ => false end) with false by (destruct (nd_typ d) as [[]|]; congruence).
  cbn [has_container]. rewrite NLG, CM.
  change (XE (S (S n)) c' (Some key) (JArr ?l) false) with (element_body io ld fin rnd pf o base (XE (S n)) (S n) c' (Some key) (JArr l) false).
  cbn [element_body]. rewrite D. cbn [has_container]. rewrite NL.
  rewrite (map_spelled c' key d note adj PV D NL P (fun i => In i (keys m))); try assumption; [destruct (flat_r _ _); reflexivity|auto|].
  eapply Forall_impl; [|apply forall_sizes]. intros e X. cbn beta in X |- *. lia.
Qed.
Definition index_note (i : string) : string * json := ("@index", JStr i).
Theorem index_law c ap fm es1 key m es2 tsc c' p d : in_effect c ap (es1 ++ (key, JObj m) :: es2) fm tsc c' -> property_key tsc c' key p ->
  prop_def c' (Some key) = Some d -> nd_container d = CIndex \/ nd_container d = CIndexSet -> nd_index d = None -> nd_typ d <> Some TyJson -> ac_prev c' = None ->
  (forall k, In k (keys m) -> exists t, xkey c' k = Ok t) -> members (fun _ => lacks [KIndex; KSet; KNest] c' (Some key)) m ->
  alike c ap fm (JObj (es1 ++ (key, JObj m) :: es2)) (JObj (es1 ++ (key, JArr (spell_map index_note (reads_nothing c') (entries_sorted o m))) :: es2)).
Proof.
  intros E PK D CN NI NJ PV K M. eapply (map_law _ _ _ _ _ _ _ _ _ _ _ index_note put_index); try eassumption.
  - destruct CN as [-> | ->]; reflexivity.
  - destruct CN as [-> | ->]; reflexivity.
  - intros i t item _ _ _. rewrite NI. unfold index_item. cbn [has_container]. destruct CN as [-> | ->]; cbn [c_contains andb negb streq]; unfold put_index; destruct item as [[x|] y]; reflexivity.
  - intros n i mm _ _ L. cbn beta in L. apply index_added; try assumption. eapply property_plain. exact (proj2 PK).
  - intros k d' _ T. destruct CN as [CN|CN]; rewrite CN in T; discriminate T.
Qed.


(** *** [@id] *)
Definition id_of_key (c : actx) (i : string) : option id := match xiri io c i true None with Ok (Some t) => node_id_of_term t | _ => None end.
Definition put_id (v : option id) (x : iobj) : iobj :=
  match snd x with ONode n => match n_id n with Some _ => x | None => (fst x, ONode (set_nid v n)) end | _ => x end.
Definition node_only : list keyword := [KList; KSet; KValue; KLanguage; KDirection; KNest].
(** Objects without these keywords are nodes. *)
Lemma object_node n ap tsc c it es : plain_ap ap -> lacking node_only es ->
  object_of n ap tsc c it es = do s <- node_entries io ld fin rnd pf o (XE n) n ap tsc c es ((None, node_new None), false) ; Ok (XObj (fst (fst s), ONode (snd (fst s)))).
Proof.
  intros (A1 & A2 & A3) L. unfold object_of. rewrite A1, A2. cbn [andb negb].
  rewrite (lacking_last KList node_only es), (lacking_last KSet node_only es), (lacking_last KValue node_only es) by (cbn; auto). unfold expand_node.
  destruct (node_entries _ _ _ _ _ _ _ _ _ _ _ _ _) as [s|] eqn:F; [|reflexivity]. apply entries_untouched with (ks := node_only) in F; [|cbn; tauto|exact L].
  destruct F as (_ & F & _). cbn [snd] in F. destruct s as [r hv]. cbn [bind snd] in *. rewrite F by (cbn; tauto). unfold free_floating. rewrite A1, A2. reflexivity.
Qed.
Lemma lacking_snoc ks es e : lacking ks es -> (forall k, In k ks -> snd (fst e) <> TmKw k) -> lacking ks (es ++ [e]).
Proof. intros L N x k I K. apply in_app_or in I. destruct I as [I|[<-|[]]]; [exact (L x k I K)|exact (N k K)]. Qed.
Lemma lacking_tail k ks es : lacking (k :: ks) es -> lacking ks es.
Proof. intros L e k' I K. apply L; [exact I|right; exact K]. Qed.
Lemma object_id n ap tsc c it es i : plain_ap ap -> lacking (KId :: node_only) es ->
  object_of n ap tsc c it (es ++ [("@id", TmKw KId, JStr i)]) = do x <- object_of n ap tsc c it es ; Ok (xmap (put_id (id_of_key c i)) x).
Proof.
  intros A L. rewrite !object_node; try assumption; [|eapply lacking_tail, L|apply lacking_snoc; [eapply lacking_tail, L|]; intros k K T; injection T as <-; cbn in K; intuition discriminate].
  destruct n as [|m]; [reflexivity|]. cbn [node_entries]. rewrite fold_r_app.
  destruct (fold_r _ _ es) as [s|] eqn:F; [|reflexivity]. apply (entries_untouched (KId :: node_only) (XE (S m)) (S m) ap tsc c es) in F; [|cbn; tauto|exact L].
  destruct F as (_ & _ & F & _). specialize (F (or_introl eq_refl)). destruct s as [[ix nd] hv]. cbn [fst snd n_id node_new] in F. cbn [bind fold_r node_entry].
  unfold keyword_entry. rewrite (proj2 (proj2 A)). cbn [fst snd has_key]. rewrite F. cbn [is_some]. rewrite andb_false_r. cbn [as_str].
  destruct (docrel_some io c i) as [t T]. rewrite T. unfold put_id, id_of_key. rewrite T. cbn [bind map_err on_node xmap fst snd]. rewrite F. reflexivity.
Qed.
Definition id_note (i : string) : string * json := ("@id", JStr i).
Lemma id_added n c ap mm i : ac_prev c = None -> plain_ap ap -> lacks (KId :: node_only) c ap mm ->
  (forall tsc c', in_effect c ap mm false tsc c' -> id_of_key c' i = id_of_key c i) ->
  XE (S n) c ap (JObj (mm ++ [id_note i])) false = do x <- XE (S n) c ap (JObj mm) false ; Ok (xmap (put_id (id_of_key c i)) x).
Proof.
  intros P A L U. apply (object_added n c ap false mm KId (JStr i) (KId :: node_only) (fun _ c' => xmap (put_id (id_of_key c' i)))); try assumption; try discriminate.
  - intros tsc c' it es L'. apply object_id; assumption.
  - intros tsc c' E x. rewrite (U tsc c' E). reflexivity.
Qed.
Theorem id_law c ap fm es1 key m es2 tsc c' p d : in_effect c ap (es1 ++ (key, JObj m) :: es2) fm tsc c' -> property_key tsc c' key p ->
  prop_def c' (Some key) = Some d -> nd_container d = CId \/ nd_container d = CIdSet -> nd_typ d <> Some TyJson -> ac_prev c' = None ->
  (forall k, In k (keys m) -> exists t, xkey c' k = Ok t) ->
  members (fun i mm => lacks (KId :: node_only) c' (Some key) mm /\
                       forall tsc2 c2, in_effect c' (Some key) mm false tsc2 c2 -> id_of_key c2 i = id_of_key c' i) m ->
  alike c ap fm (JObj (es1 ++ (key, JObj m) :: es2)) (JObj (es1 ++ (key, JArr (spell_map id_note (reads_nothing c') (entries_sorted o m))) :: es2)).
Proof.
  intros E PK D CN NJ PV K M. eapply (map_law _ _ _ _ _ _ _ _ _ _ _ id_note (fun i => put_id (id_of_key c' i))); try eassumption.
  - destruct CN as [-> | ->]; reflexivity.
  - destruct CN as [-> | ->]; reflexivity.
  - intros i t item _ _ _. unfold index_item. cbn [has_container]. destruct (docrel_some io c' i) as [t' T]. unfold put_id, id_of_key. rewrite T.
    destruct item as [x [v|[[ni|] ? ? ? ? ?]|l]]; destruct CN as [-> | ->]; reflexivity.
  - intros n i mm _ _ [L U]. apply id_added; try assumption. eapply property_plain. exact (proj2 PK).
  - intros k d' _ T. destruct CN as [CN|CN]; rewrite CN in T; discriminate T.
Qed.

(** *** [@type] *)
Definition put_type (t : id) (x : iobj) : iobj := match snd x with ONode n => (fst x, ONode (unshift_type t n)) | _ => x end.
Definition type_note (i : string) : string * json := ("@type", JStr i).
Definition valid_id (i : id) : bool := match i with IInvalid _ => false | _ => true end.
Lemma object_type n ap tsc c it it' es i t : plain_ap ap -> lacking (KType :: node_only) es -> xiri io tsc i true (Some (xo_vocab o)) = Ok (Some (TmId t)) -> valid_id t = true ->
  object_of n ap tsc c it (es ++ [("@type", TmKw KType, JStr i)]) = do x <- object_of n ap tsc c it' es ; Ok (xmap (put_type t) x).
Proof.
  intros A L XI V. rewrite !object_node; try assumption; [|eapply lacking_tail, L|apply lacking_snoc; [eapply lacking_tail, L|]; intros k K T; injection T as <-; cbn in K; intuition discriminate].
  destruct n as [|m]; [reflexivity|]. cbn [node_entries]. rewrite fold_r_app.
  destruct (fold_r _ _ es) as [s|] eqn:F; [|reflexivity]. apply (entries_untouched (KType :: node_only) (XE (S m)) (S m) ap tsc c es) in F; [|cbn; tauto|exact L].
  destruct F as (_ & _ & _ & F). specialize (F (or_introl eq_refl)). destruct s as [[ix nd] hv]. cbn [fst snd n_types node_new] in F. cbn [bind fold_r node_entry].
  unfold keyword_entry. rewrite (proj2 (proj2 A)). cbn [fst snd has_key]. rewrite F. cbn [is_some]. rewrite andb_false_r.
  unfold expand_types. cbn [force_array fold_r as_str]. rewrite XI. cbn [map_err bind id_of_term]. destruct t; try discriminate V; cbn [invalid_policy bind on_node put_type xmap fst snd];
    destruct nd as [? ts ? ? ? ?]; cbn [n_types] in F; subst ts; reflexivity.
Qed.
Lemma no_types c ap mm tsc ts : lacks (KType :: node_only) c ap mm -> element_context io ld pf o base c ap mm false = Ok tsc -> type_entries io o tsc mm = Ok ts ->
  ts = [] /\ flat_r (fun e => do t <- xkey tsc (fst e) ; Ok (match t with Some (TmKw KType) => [e] | _ => [] end)) mm = Ok [].
Proof.
  intros [L _] EC TE. specialize (L tsc EC). unfold type_entries in TE. destruct (flat_r _ mm) as [l|] eqn:F; [|discriminate]. cbn [bind] in TE.
  enough (X : l = []) by (subst l; injection TE as <-; split; reflexivity). clear TE EC. revert l F. induction mm as [|[k v] mm IH]; intros l F; cbn [flat_r fst] in F; [congruence|].
  assert (N : xkey tsc k <> Ok (Some (TmKw KType))) by (apply L; left; reflexivity).
  destruct (xkey tsc k) as [t|]; [|discriminate]. cbn [bind] in F. destruct (flat_r _ mm) as [l'|]; [|discriminate]. cbn [bind] in F. injection F as <-.
  rewrite (IH ltac:(intros; apply L; [right|]; assumption) l' eq_refl), app_nil_r. destruct t as [[| |[]]|]; try reflexivity. congruence.
Qed.
Lemma type_added n c ap mm i t : ac_prev c = None -> plain_ap ap -> lacks (KType :: node_only) c ap mm -> valid_id t = true ->
  (forall tsc, element_context io ld pf o base c ap mm false = Ok tsc -> xiri io tsc i true (Some (xo_vocab o)) = Ok (Some (TmId t)) /\ (exists x, xkey tsc i = Ok x) /\
     forall d, prop_def tsc (Some i) = Some d -> nd_context d = None) ->
  XE (S n) c ap (JObj (mm ++ [type_note i])) false = do x <- XE (S n) c ap (JObj mm) false ; Ok (xmap (put_type t) x).
Proof.
  intros P A L V U. rewrite !expand_object. unfold type_note. assert (CA := context_added c ap false mm KType (JStr i) P ltac:(discriminate)). cbn [kw_str] in CA. rewrite CA. clear CA.
  destruct (element_context io ld pf o base c ap mm false) as [tsc|] eqn:EC; [|reflexivity]. destruct (U tsc eq_refl) as (XI & (x & XK) & NC). cbn [bind].
  assert (TA : type_entries io o tsc (mm ++ [("@type", JStr i)]) = do ts <- type_entries io o tsc mm ; Ok [("@type", JStr i)]).
  { destruct (type_entries io o tsc mm) as [ts|] eqn:TE.
    - destruct (no_types c ap mm tsc ts L EC TE) as [-> F]. unfold type_entries. rewrite flat_r_app, F. cbn [bind flat_r fst]. change "@type" with (kw_str KType) at 1. rewrite xkw. reflexivity.
    - unfold type_entries in *. rewrite flat_r_app. destruct (flat_r _ mm); [discriminate|]. cbn [bind] in *. congruence. }
  rewrite TA. destruct (type_entries io o tsc mm) as [ts|] eqn:TE; [|reflexivity]. destruct (no_types c ap mm tsc ts L EC TE) as [-> _]. cbn [bind].
  assert (TS : type_scoped io ld pf o tsc [("@type", JStr i)] = Ok tsc).
  { change (type_scoped io ld pf o tsc [("@type", JStr i)]) with (do c <- (do c <- match prop_def tsc (Some i) with
      | Some d => match nd_context d with Some lc => xprocess io ld pf tsc lc (nd_base_url d) (without_propagation (popts_of o)) | None => Ok tsc end
      | None => Ok tsc end ; Ok c) ; Ok c). destruct (prop_def tsc (Some i)) as [d|] eqn:PI; [rewrite (NC d eq_refl)|]; reflexivity. }
  rewrite TS. cbn [bind type_scoped fold_r input_type force_array rev app]. rewrite XK. cbn [bind].
  change [("@type", JStr i)] with [(kw_str KType, JStr i)]. rewrite entries_added. destruct (expand_entries io o tsc mm) as [es|] eqn:EE; [|reflexivity]. cbn [bind].
  assert (IE : in_effect c ap mm false tsc tsc) by (split; [exact EC|exists []; auto]).
  exact (object_type n ap tsc tsc x None es i t A (lacks_entries _ _ _ _ _ _ _ L IE EE) XI V).
Qed.
Theorem type_law c ap fm es1 key m es2 tsc c' p d : in_effect c ap (es1 ++ (key, JObj m) :: es2) fm tsc c' -> property_key tsc c' key p ->
  prop_def c' (Some key) = Some d -> nd_container d = CType \/ nd_container d = CSetType -> nd_typ d <> Some TyJson -> ac_prev c' = None ->
  (forall k, In k (keys m) -> exists t, xkey c' k = Ok t) -> (forall k d', In k (keys m) -> prop_def c' (Some k) = Some d' -> nd_context d' = None) ->
  members (fun i mm => lacks (KType :: node_only) c' (Some key) mm /\
     (reads_nothing c' i = false -> exists t, xkey c' i = Ok (Some (TmId t)) /\ valid_id t = true /\
      forall tsc2, element_context io ld pf o base c' (Some key) mm false = Ok tsc2 -> xiri io tsc2 i true (Some (xo_vocab o)) = Ok (Some (TmId t)) /\
        (exists x, xkey tsc2 i = Ok x) /\ forall d2, prop_def tsc2 (Some i) = Some d2 -> nd_context d2 = None)) m ->
  (forall k, In k (keys m) -> reads_nothing c' k = false -> exists t, xkey c' k = Ok (Some (TmId t)) /\ valid_id t = true) ->
  alike c ap fm (JObj (es1 ++ (key, JObj m) :: es2)) (JObj (es1 ++ (key, JArr (spell_map type_note (reads_nothing c') (entries_sorted o m))) :: es2)).
Proof.
  intros E PK D CN NJ PV K KC M KT.
  eapply (map_law _ _ _ _ _ _ _ _ _ _ _ type_note (fun i => put_type (match xkey c' i with Ok (Some (TmId t)) => t | _ => IInvalid "" end))); try eassumption.
  - destruct CN as [-> | ->]; reflexivity.
  - destruct CN as [-> | ->]; reflexivity.
  - intros i t item I R T. destruct (KT i I R) as (t' & T' & V). rewrite T in T'. injection T' as ->. rewrite T. unfold index_item. cbn [has_container].
    destruct CN as [-> | ->]; cbn [c_contains andb negb id_of_term]; unfold put_type; destruct item as [x [v|nd|l]]; reflexivity.
  - intros n i mm _ R [L U]. destruct (U R) as (t & T & V & U'). rewrite T. apply type_added; try assumption. eapply property_plain. exact (proj2 PK).
  - intros k d' I _ PI. exact (KC k d' I PI).
Qed.
End Laws.

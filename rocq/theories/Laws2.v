(** More laws of expansion: lists, sets, literals, aliases, contexts and nested properties. *)
From Verif Require Import Prelude Json Str Keyword Enums LangTag LangString Container Stack ContextSyntax Ctx Process
  Object ObjectJson Expand ExpandValue ExpandOk ExpandFuel Laws.

Section Laws2.
Variables (io : iops) (ld : loader) (fin rnd : list word -> N) (pf : nat) (o : xopts) (base : option string).
Notation XE := (expand_element io ld fin rnd pf o base).
Notation XP n := (expand_property io ld fin rnd pf o (XE n)).
Notation xkey := (xkey io o).
Notation alike := (alike io ld fin rnd pf o base).
Notation in_effect := (in_effect io ld pf o base).
Notation property_key := (property_key io o).
Notation object_of := (object_of io ld fin rnd pf o base).
Notation lacks := (lacks io ld pf o base).

(** ** Objects with one entry *)

(** The property has no context of its own. *)
Definition no_context (c : actx) (ap : option string) : Prop := forall d, prop_def c ap = Some d -> nd_context d = None.
Lemma context_of_one c ap fm k v kw : xkey c k = Ok (Some (TmKw kw)) -> kw <> KContext -> ac_prev c = None \/ kw = KId \/ kw = KValue -> no_context c ap ->
  element_context io ld pf o base c ap [(k, v)] fm = Ok c.
Proof.
  intros X NC P ND. unfold element_context. cbn [preliminary fold_r fst length Nat.eqb andb]. unfold preliminary. cbn [fold_r fst]. rewrite X. cbn [bind].
  assert (G : get_unique "@context" [(k, v)] = Ok None).
  { unfold get_unique, get_all. cbn [filter fst]. destruct (streq_spec k "@context") as [->|_]; [|reflexivity]. change "@context" with (kw_str KContext) in X. rewrite xkw in X. congruence. }
  rewrite G. destruct P as [-> |[-> | ->]]; cbn [fst snd].
  - destruct (match kw with KValue => _ | _ => _ end) as [a b]. destruct (prop_def c ap) as [d|] eqn:D; [rewrite (ND d D)|]; reflexivity.
  - replace (match ac_prev c with Some p => _ | None => c end) with c by (destruct (ac_prev c); [destruct fm|]; reflexivity).
    destruct (prop_def c ap) as [d|] eqn:D; [rewrite (ND d D)|]; reflexivity.
  - replace (match ac_prev c with Some p => _ | None => c end) with c by (destruct (ac_prev c); [destruct fm|]; reflexivity).
    destruct (prop_def c ap) as [d|] eqn:D; [rewrite (ND d D)|]; reflexivity.
Qed.
Lemma object_of_one n c ap fm k v kw : xkey c k = Ok (Some (TmKw kw)) -> kw <> KContext -> kw <> KType -> ac_prev c = None \/ kw = KId \/ kw = KValue -> no_context c ap ->
  XE (S n) c ap (JObj [(k, v)]) fm = object_of n ap c c None [(k, TmKw kw, v)].
Proof.
  intros X NC NT P ND. rewrite expand_object. rewrite (context_of_one c ap fm k v kw X NC P ND). cbn [bind].
  assert (T : type_entries io o c [(k, v)] = Ok []).
  { unfold type_entries. cbn [flat_r fst]. rewrite X. cbn [bind]. destruct kw; try reflexivity. congruence. }
  rewrite T. cbn [bind type_scoped fold_r input_type]. unfold expand_entries. cbn [flat_r fst snd]. rewrite X. reflexivity.
Qed.

(** ** Lists *)
Definition no_list_object (c : actx) (ap : option string) (v : json) : Prop :=
  match v with JObj m => lacks [KList; KSet] c ap m | _ => True end.
Lemma list_object n c key v k : xkey c k = Ok (Some (TmKw KList)) -> ac_prev c = None -> no_context c (Some key) -> ap_is (Some key) KGraph = false ->
  XE (S n) c (Some key) (JObj [(k, v)]) false =
  do r <- flat_r (fun x => do y <- XE n c (Some key) x false ; Ok (items y)) (force_array v) ; Ok (XObj (None, OList r)).
Proof.
  intros X P ND NG. rewrite (object_of_one n c (Some key) false k v KList X) by (auto || discriminate). unfold object_of. rewrite NG. reflexivity.
Qed.
Lemma not_a_list n c ap m x : lacks [KList; KSet] c ap m -> XE (S n) c ap (JObj m) false = Ok x -> x_is_list x = false.
Proof.
  intros L H. rewrite expand_object in H. destruct (element_context io ld pf o base c ap m false) as [tsc|] eqn:EC; [|discriminate]. cbn [bind] in H.
  destruct (type_entries io o tsc m) as [ts|] eqn:TE; [|discriminate]. cbn [bind] in H. destruct (type_scoped io ld pf o tsc ts) as [c'|] eqn:TS; [|discriminate]. cbn [bind] in H.
  destruct (input_type io o c' ts) as [it|]; [|discriminate]. cbn [bind] in H. destruct (expand_entries io o c' m) as [es|] eqn:EE; [|discriminate]. cbn [bind] in H.
  assert (LK : lacking [KList; KSet] es) by (eapply lacks_entries; [exact L|split; [exact EC|exists ts; split; [exact TE|exact TS]]|exact EE]).
  unfold object_of in H. rewrite (lacking_last KList [KList; KSet] es), (lacking_last KSet [KList; KSet] es) in H by (cbn; auto).
  replace (if is_some ap && negb (ap_is ap KGraph) then @None json else None) with (@None json) in H by (destruct (_ && _); reflexivity).
  destruct (last_entry KValue es) as [w|].
  - destruct (expand_value io o it tsc es w) as [[y|]|] eqn:V; [|injection H as <-; reflexivity|discriminate]. injection H as <-. clear -V.
    unfold expand_value in V. destruct (fold_r _ _ es) as [s|]; [|discriminate]. cbn [bind] in V. destruct (vs_json s); [destruct (_ || _); [discriminate|injection V as <-; reflexivity]|].
    destruct w; try discriminate V; destruct (_ || _); try (destruct (is_some _)); try discriminate V; cbn in V; try (destruct (ls_new _ _ _)); try discriminate V; injection V as <-; reflexivity.
  - destruct (expand_node io ld fin rnd pf o (XE n) n ap c' tsc es) as [[y|]|]; [| |discriminate]; injection H as <-; reflexivity.
Qed.
Theorem list_law c ap fm es1 key v es2 tsc c' p d k : in_effect c ap (es1 ++ (key, v) :: es2) fm tsc c' -> property_key tsc c' key p ->
  prop_def c' (Some key) = Some d -> nd_container d = CList -> nd_typ d <> Some TyJson -> nd_context d = None -> ac_prev c' = None ->
  xkey c' k = Ok (Some (TmKw KList)) -> no_list_object c' (Some key) v ->
  alike c ap fm (JObj (es1 ++ (key, v) :: es2)) (JObj (es1 ++ (key, JObj [(k, v)]) :: es2)).
Proof.
  intros E [NT XK] D CL NJ NC PV LK NL. apply alike_iff. exists (json_size v + 4). intros [|[|n]] L; try lia.
  eapply entry_swap; try eassumption; [eapply key_not_context; exact XK|reflexivity|]. intros m s. cbn [node_entry].
  enough (H : (do x <- XP (S n) c' key v ; Ok (wrap_list (Some d) x)) = XP (S n) c' key (JObj [(k, v)]) /\
              (forall x, XP (S n) c' key (JObj [(k, v)]) = Ok x -> wrap_list (Some d) x = x)).
  { destruct H as [H1 H2]. unfold property_entry. rewrite <- H1 in H2. rewrite <- H1. rewrite D.
    destruct (id_has_colon p); [|reflexivity]. destruct (invalid_policy o p _) as [b|]; [|reflexivity]. cbn [bind]. destruct (negb b); [reflexivity|].
    destruct (XP (S n) c' key v) as [x|]; [|reflexivity]. cbn [bind] in *. rewrite (H2 _ eq_refl). reflexivity. }
  assert (ND : no_context c' (Some key)) by (intros d' D'; congruence).
  assert (NG : ap_is (Some key) KGraph = false) by (exact (proj1 (proj2 (property_plain _ _ _ _ _ XK)))).
  assert (XPE : forall w, XP (S n) c' key w = XE (S n) c' (Some key) w false).
  { intros w. unfold expand_property. rewrite D. replace (match nd_typ d with Some TyJson => true | _ => false end) with false by (destruct (nd_typ d) as [[]|]; congruence).
    cbn [has_container]. rewrite CL. destruct w; reflexivity. }
  rewrite !XPE. rewrite (list_object n c' key v k LK PV ND NG).
  assert (WR : forall l, wrap_list (Some d) (XObj (None, OList l)) = XObj (None, OList l)) by (intros l; unfold wrap_list; cbn; rewrite CL; reflexivity).
  split; [|intros x; destruct (flat_r _ (force_array v)); [|discriminate]; cbn [bind]; intros X; injection X as <-; apply WR].
  destruct v as [|b|w|t|l|m'].
  - cbn [force_array flat_r bind]. destruct n as [|n]; [cbn in L; lia|]. cbn. unfold wrap_list. cbn [has_container]. rewrite CL. reflexivity.
  - rewrite (expand_stable io ld fin rnd pf o base n (S n)) by (cbn in *; lia). cbn [force_array flat_r bind]. destruct n as [|n]; [cbn in L; lia|]. 
    destruct (XE (S n) c' (Some key) (JBool b) false) as [x|] eqn:X; [|reflexivity]. cbn [bind]. rewrite app_nil_r. unfold wrap_list. cbn [has_container]. rewrite CL.
    replace (x_is_list x) with false; [reflexivity|]. cbn in X. unfold expand_scalar in X. destruct (free_floating _); [injection X as <-; reflexivity|].
    match type of X with bind ?r _ = _ => destruct r as [cc|] end; [|discriminate]. cbn [bind given] in X. unfold expand_literal in X.
    destruct (match prop_def cc (Some key) with Some d => nd_typ d | None => None end) as [[]|]; cbn in X; try discriminate X; injection X as <-; reflexivity.
  - rewrite (expand_stable io ld fin rnd pf o base n (S n)) by (cbn in *; lia). cbn [force_array flat_r bind]. destruct n as [|n]; [cbn in L; lia|]. 
    destruct (XE (S n) c' (Some key) (JNum w) false) as [x|] eqn:X; [|reflexivity]. cbn [bind]. rewrite app_nil_r. unfold wrap_list. cbn [has_container]. rewrite CL.
    replace (x_is_list x) with false; [reflexivity|]. cbn in X. unfold expand_scalar in X. destruct (free_floating _); [injection X as <-; reflexivity|].
    match type of X with bind ?r _ = _ => destruct r as [cc|] end; [|discriminate]. cbn [bind given] in X. unfold expand_literal in X.
    destruct (match prop_def cc (Some key) with Some d => nd_typ d | None => None end) as [[]|]; cbn in X; try discriminate X; injection X as <-; reflexivity.
  - rewrite (expand_stable io ld fin rnd pf o base n (S n)) by (cbn in *; lia). cbn [force_array flat_r bind]. destruct n as [|n]; [cbn in L; lia|]. 
    destruct (XE (S n) c' (Some key) (JStr t) false) as [x|] eqn:X; [|reflexivity]. cbn [bind]. rewrite app_nil_r. unfold wrap_list. cbn [has_container]. rewrite CL.
    replace (x_is_list x) with false; [reflexivity|]. cbn in X. unfold expand_scalar in X. destruct (free_floating _); [injection X as <-; reflexivity|].
    match type of X with bind ?r _ = _ => destruct r as [cc|] end; [|discriminate]. cbn [bind given] in X. unfold expand_literal in X.
    destruct (match prop_def cc (Some key) with Some d => nd_typ d | None => None end) as [[]|]; cbn in X; try discriminate X; try (injection X as <-; reflexivity).
    + destruct (xiri io cc t true None) as [[u|]|]; try discriminate X. injection X as <-. reflexivity.
    + destruct (xiri io cc t true (Some (xo_vocab o))) as [u|]; try discriminate X. injection X as <-. reflexivity.
  - cbn [force_array]. change (XE (S n) c' (Some key) (JArr l) false) with (element_body io ld fin rnd pf o base (XE n) n c' (Some key) (JArr l) false). cbn [element_body]. rewrite D. cbn [has_container]. rewrite CL. cbn [c_contains].
    destruct (flat_r _ l) as [r|]; [|reflexivity]. cbn [bind]. change (c_contains CList CKList) with true. cbn iota. rewrite WR. reflexivity.
  - rewrite (expand_stable io ld fin rnd pf o base n (S n)) by lia. cbn [force_array flat_r bind]. destruct n as [|n]; [lia|]. 
    destruct (XE (S n) c' (Some key) (JObj m') false) as [x|] eqn:X; [|reflexivity]. cbn [bind]. rewrite app_nil_r. unfold wrap_list. cbn [has_container]. rewrite CL.
    rewrite (not_a_list n c' (Some key) m' x NL X). reflexivity.
Qed.

(** ** Sets *)
Definition reads (c : actx) (k : string) (kw : keyword) : Prop := xkey c k = Ok (Some (TmKw kw)).
(** Objects whose entries are all read as keywords, other than [@context] and [@type]. *)
Lemma context_of_keywords c ap fm m : ac_prev c = None -> no_context c ap -> Forall (fun e => exists kw, reads c (fst e) kw /\ kw <> KContext) m ->
  element_context io ld pf o base c ap m fm = Ok c.
Proof.
  intros P ND F. unfold element_context. rewrite P.
  assert (G : get_unique "@context" m = Ok None).
  { unfold get_unique. replace (get_all "@context" m) with (@nil json); [reflexivity|]. unfold get_all. clear ND. induction F as [|e m (kw & R & N) F IH]; [reflexivity|]. cbn [filter].
    destruct (streq_spec (fst e) "@context") as [E|_]; [|exact IH]. unfold reads in R. rewrite E in R. change "@context" with (kw_str KContext) in R. rewrite xkw in R. congruence. }
  assert (PR : forall s, exists s', fold_r (fun s e => do t <- xkey c (fst e) ; Ok (match t with Some (TmKw KValue) => (true, snd s) | Some (TmKw KId) => (fst s, true) | _ => s end)) s m = Ok s').
  { clear G. induction F as [|e m (kw & R & N) F IH]; intros s; [eexists; reflexivity|]. cbn [fold_r]. rewrite R. cbn [bind]. apply IH. }
  unfold preliminary. destruct (PR (false, false)) as [[a b] ->]. cbn [bind]. rewrite G. destruct (prop_def c ap) as [d|] eqn:D; [rewrite (ND d D)|]; reflexivity.
Qed.
Definition as_entries (c : actx) (m : jobject) (es : list xentry) : Prop :=
  Forall2 (fun e x => exists t, xkey c (fst e) = Ok (Some t) /\ x = (fst e, t, snd e)) m es.
Lemma entries_all c m es : as_entries c m es -> expand_entries io o c m = Ok es.
Proof. unfold expand_entries. induction 1 as [|e x m es (t & T & ->) F IH]; [reflexivity|]. cbn [flat_r]. rewrite T. cbn [bind]. rewrite IH. reflexivity. Qed.
Theorem set_law c ap fm l1 k v l2 : ac_prev c = None -> no_context c ap -> reads c k KSet -> Forall (fun e => reads c (fst e) KIndex) (l1 ++ l2) ->
  alike c ap fm (JObj (l1 ++ (k, v) :: l2)) v.
Proof.
  intros P ND K F. apply alike_iff. exists (S (S (json_size v))). intros [|n] L; [lia|]. rewrite expand_object.
  apply Forall_app in F. destruct F as [F1 F2].
  assert (FK : Forall (fun e => exists kw, reads c (fst e) kw /\ kw <> KContext) (l1 ++ (k, v) :: l2)).
  { apply Forall_app. split; [|constructor]; [eapply Forall_impl; [|exact F1]|exists KSet|eapply Forall_impl; [|exact F2]]; try (intros e X; exists KIndex); split; assumption || discriminate. }
  rewrite (context_of_keywords c ap fm _ P ND FK). cbn [bind].
  assert (TE : type_entries io o c (l1 ++ (k, v) :: l2) = Ok []).
  { unfold type_entries. assert (X : forall l : jobject, Forall (fun e => reads c (fst e) KIndex \/ reads c (fst e) KSet) l -> flat_r (fun e => do t <- xkey c (fst e) ; Ok (match t with Some (TmKw KType) => [e] | _ => [] end)) l = Ok []).
    { induction 1 as [|e l R _ IH]; [reflexivity|]. cbn [flat_r]. unfold reads in R. destruct R as [R|R]; rewrite R; cbn [bind]; rewrite IH; reflexivity. }
    rewrite X; [reflexivity|]. apply Forall_app. split; [|constructor]; [eapply Forall_impl; [|exact F1]| |eapply Forall_impl; [|exact F2]]; cbn; auto. }
  rewrite TE. cbn [bind type_scoped fold_r input_type].
  assert (AE : forall l : jobject, Forall (fun e => reads c (fst e) KIndex) l -> as_entries c l (map (fun e => (fst e, TmKw KIndex, snd e)) l)).
  { induction 1 as [|e l R _ IH]; constructor; [exists (TmKw KIndex); split; [exact R|reflexivity]|exact IH]. }
  set (es := map (fun e => (fst e, TmKw KIndex, snd e)) l1 ++ (k, TmKw KSet, v) :: map (fun e => (fst e, TmKw KIndex, snd e)) l2).
  rewrite (entries_all c _ es) by (apply Forall2_app; [apply AE, F1|constructor; [exists (TmKw KSet); split; [exact K|reflexivity]|apply AE, F2]]).
  cbn [bind]. unfold object_of.
  assert (LN : forall kw l, kw <> KIndex -> last_entry kw (map (fun e : string * json => (fst e, TmKw KIndex, snd e)) l) = None).
  { intros kw l N. induction l as [|e l IH]; [reflexivity|]. cbn [map]. rewrite last_cons, IH. cbn [fst snd]. destruct kw; try reflexivity. congruence. }
  assert (L1 : last_entry KList es = None) by (unfold es; rewrite last_app, last_cons, !LN by discriminate; reflexivity).
  assert (L2 : last_entry KSet es = Some v) by (unfold es; rewrite last_app, last_cons, LN by discriminate; reflexivity).
  rewrite L1, L2. replace (if is_some ap && negb (ap_is ap KGraph) then @None json else None) with (@None json) by (destruct (_ && _); reflexivity).
  assert (SC : set_check es = Ok tt).
  { unfold set_check, es. assert (X : forall l u, fold_r (fun (_ : unit) (e : xentry) => match snd (fst e) with TmKw KIndex | TmKw KSet => Ok tt | _ => Err XInvalidSetOrListObject end) u
      (map (fun e : string * json => (fst e, TmKw KIndex, snd e)) l) = Ok tt) by (induction l as [|e l IH]; intros []; [reflexivity|apply IH]).
    rewrite fold_r_app, X. cbn [bind fold_r fst snd]. rewrite X. reflexivity. }
  rewrite SC. cbn [bind]. rewrite (expand_stable io ld fin rnd pf o base n (S n) c ap v fm) by lia. apply no_previous, P.
Qed.

(** *** Objects that are neither *)
Lemma entries_reads c m es k t : expand_entries io o c m = Ok es -> In k (keys m) -> xkey c k = Ok (Some t) -> exists v, In (k, t, v) es.
Proof.
  unfold expand_entries. revert es. induction m as [|[y w] m IH]; intros es X I T; [destruct I|]. cbn [flat_r fst snd] in X.
  destruct (xkey c y) as [u|] eqn:U; [|discriminate]. cbn [bind] in X. destruct (flat_r _ m) as [l|]; [|discriminate]. cbn [bind] in X. injection X as <-.
  destruct I as [<-|I].
  - cbn [fst] in T. rewrite T in U. injection U as <-. exists w. left. reflexivity.
  - destruct (IH l eq_refl I T) as [v V]. exists v. apply in_or_app. right. exact V.
Qed.
Lemma last_some kw es k v : In (k, TmKw kw, v) es -> exists w, last_entry kw es = Some w.
Proof.
  induction es as [|e es IH]; [intros []|]. intros [->|I]; rewrite last_cons.
  - cbn [fst snd]. destruct (last_entry kw es); [eexists; reflexivity|]. destruct kw; eexists; reflexivity.
  - destruct (IH I) as [w ->]. eexists; reflexivity.
Qed.
Lemma fold_r_rejects {A B E} (f : A -> B -> result A E) l x e : In x l -> (forall a, f a x = Err e) -> forall a r, fold_r f a l <> Ok r.
Proof.
  induction l as [|y l IH]; [intros []|]. intros [->|I] H a r; cbn [fold_r]; [rewrite H; discriminate|]. destruct (f a y); [|discriminate]. apply IH; assumption.
Qed.
Theorem set_rejects c ap fm m tsc c' k k' t : in_effect c ap m fm tsc c' -> In k (keys m) -> reads c' k KSet ->
  In k' (keys m) -> xkey c' k' = Ok (Some t) -> t <> TmKw KSet -> t <> TmKw KIndex -> forall n x, XE n c ap (JObj m) fm <> Ok x.
Proof.
  intros (EC & ts & TE & TS) I K I' K' N1 N2 [|n] x; [discriminate|]. rewrite expand_object, EC. cbn [bind]. rewrite TE. cbn [bind]. rewrite TS. cbn [bind].
  destruct (input_type io o c' ts) as [it|]; [|discriminate]. cbn [bind]. destruct (expand_entries io o c' m) as [es|] eqn:EE; [|discriminate]. cbn [bind].
  destruct (entries_reads _ _ _ _ _ EE I K) as [v V]. destruct (entries_reads _ _ _ _ _ EE I' K') as [v' V']. unfold object_of.
  destruct (if is_some ap && negb (ap_is ap KGraph) then last_entry KList es else None).
  - destruct (list_index es) as [i|] eqn:LI; [|discriminate]. exfalso. revert LI. unfold list_index. apply (fold_r_rejects _ _ _ XInvalidSetOrListObject V). reflexivity.
  - destruct (last_some _ _ _ _ V) as [w ->]. destruct (set_check es) as [u|] eqn:SC; [|discriminate]. exfalso. revert SC. unfold set_check. apply (fold_r_rejects _ _ _ XInvalidSetOrListObject V').
    intros a. cbn [fst snd]. destruct t as [| |[]]; try reflexivity; congruence.
Qed.
Theorem list_rejects c ap fm m tsc c' k k' t : in_effect c ap m fm tsc c' -> is_some ap = true -> ap_is ap KGraph = false -> In k (keys m) -> reads c' k KList ->
  In k' (keys m) -> xkey c' k' = Ok (Some t) -> t <> TmKw KList -> t <> TmKw KIndex -> forall n x, XE n c ap (JObj m) fm <> Ok x.
Proof.
  intros (EC & ts & TE & TS) A1 A2 I K I' K' N1 N2 [|n] x; [discriminate|]. rewrite expand_object, EC. cbn [bind]. rewrite TE. cbn [bind]. rewrite TS. cbn [bind].
  destruct (input_type io o c' ts) as [it|]; [|discriminate]. cbn [bind]. destruct (expand_entries io o c' m) as [es|] eqn:EE; [|discriminate]. cbn [bind].
  destruct (entries_reads _ _ _ _ _ EE I K) as [v V]. destruct (entries_reads _ _ _ _ _ EE I' K') as [v' V']. unfold object_of. rewrite A1, A2. cbn [andb negb].
  destruct (last_some _ _ _ _ V) as [w ->]. destruct (list_index es) as [i|] eqn:LI; [|discriminate]. exfalso. revert LI. unfold list_index. apply (fold_r_rejects _ _ _ XInvalidSetOrListObject V').
  intros a. cbn [fst snd]. destruct t as [| |[]]; try reflexivity; congruence.
Qed.

(** ** Literals *)
Definition typ_of (c : actx) (key : string) : option ty := match prop_def c (Some key) with Some d => nd_typ d | None => None end.
(** [t] is read as the datatype [i], and brings no context. *)
Definition names_type (c : actx) (t i : string) : Prop :=
  xiri io c t true (Some (xo_vocab o)) = Ok (Some (TmId (IIri i))) /\ (exists x, xkey c t = Ok x /\ x <> Some (TmKw KJson)) /\ no_context c (Some t).
(** A value and the same value spelled out. *)
Inductive spelled (c : actx) (key : string) : json -> json -> Prop :=
| SpNull : spelled c key JNull JNull
| SpId s k : typ_of c key = Some TyId -> reads c k KId -> spelled c key (JStr s) (JObj [(k, JStr s)])
| SpVocab s s' k : typ_of c key = Some TyVocab -> reads c k KId -> xiri io c s true (Some (xo_vocab o)) = xiri io c s' true None ->
    spelled c key (JStr s) (JObj [(k, JStr s')])
| SpTyped v l i kv kt t : typ_of c key = Some (TyIri i) -> given v = Some l -> reads c kv KValue -> reads c kt KType -> names_type c t i ->
    spelled c key v (JObj [(kv, v); (kt, JStr t)])
| SpString s : typ_of c key = None \/ typ_of c key = Some TyNone -> lang_for c (prop_def c (Some key)) <> Some "@none" ->
    spelled c key (JStr s) (spell_string s (lang_for c (prop_def c (Some key))) (dir_for c (prop_def c (Some key))))
| SpOther v l kv : match typ_of c key with Some (TyIri _) | Some TyJson => False | _ => True end -> given v = Some l -> (forall s, v <> JStr s) -> reads c kv KValue ->
    spelled c key v (JObj [(kv, v)])
| SpObject m : lacks [KList; KSet] c (Some key) m -> spelled c key (JObj m) (JObj m).

(** Objects do not depend on the property. *)
Lemma entries_ap ap ap' r m : ap_is ap KReverse = ap_is ap' KReverse -> forall tsc c es s,
  node_entries io ld fin rnd pf o r m ap tsc c es s = node_entries io ld fin rnd pf o r m ap' tsc c es s.
Proof.
  intros A. induction m as [|m IH]; intros tsc c es s; [reflexivity|]. cbn [node_entries]. apply fold_r_ext. intros a [[key t] v] _. unfold node_entry. destruct t as [| |k]; try reflexivity.
  assert (E : keyword_entry io ld fin rnd pf o r (node_entries io ld fin rnd pf o r m ap tsc) ap c tsc a key k v = keyword_entry io ld fin rnd pf o r (node_entries io ld fin rnd pf o r m ap' tsc) ap' c tsc a key k v).
  { unfold keyword_entry. rewrite A. destruct k; try reflexivity.
    assert (F : fold_r (nest_entry io ld pf o (node_entries io ld fin rnd pf o r m ap tsc) c key) a (force_array v) = fold_r (nest_entry io ld pf o (node_entries io ld fin rnd pf o r m ap' tsc) c key) a (force_array v)).
    { apply fold_r_ext. intros b x _. unfold nest_entry. destruct (match prop_def c (Some key) with Some _ => _ | None => _ end) as [c2|]; [|reflexivity]. cbn [bind]. destruct x; try reflexivity.
      destruct (flat_r _ _); [|reflexivity]. cbn [bind]. apply IH. }
    rewrite F. reflexivity. }
  destruct k; try reflexivity; exact E.
Qed.
Lemma element_ap c ap ap' m fm : no_context c ap -> no_context c ap' -> element_context io ld pf o base c ap m fm = element_context io ld pf o base c ap' m fm.
Proof.
  intros D D'. unfold element_context. destruct (preliminary io o c m) as [[a b]|]; [|reflexivity]. cbn [bind].
  destruct (prop_def c ap) as [d|] eqn:E; [rewrite (D d E)|]; (destruct (prop_def c ap') as [d'|] eqn:E'; [rewrite (D' d' E')|]); reflexivity.
Qed.
Lemma object_ap n c ap ap' m fm : plain_ap ap -> plain_ap ap' -> no_context c ap -> no_context c ap' -> lacks [KList; KSet] c ap m -> fm = false \/ ac_prev c = None ->
  XE (S n) c ap (JObj m) fm = XE (S n) c ap' (JObj m) fm.
Proof.
  intros (A1 & A2 & A3) (B1 & B2 & B3) D D' L FM. assert (FE : forall q, XE (S n) c q (JObj m) fm = XE (S n) c q (JObj m) false) by (intros q; destruct FM as [-> |P]; [reflexivity|apply no_previous, P]).
  rewrite !FE, !expand_object. rewrite <- (element_ap c ap ap' m false D D').
  destruct (element_context io ld pf o base c ap m false) as [tsc|] eqn:EC; [|reflexivity]. cbn [bind].
  destruct (type_entries io o tsc m) as [ts|] eqn:TE; [|reflexivity]. cbn [bind]. destruct (type_scoped io ld pf o tsc ts) as [c'|] eqn:TS; [|reflexivity]. cbn [bind].
  destruct (input_type io o c' ts) as [it|]; [|reflexivity]. cbn [bind]. destruct (expand_entries io o c' m) as [es|] eqn:EE; [|reflexivity]. cbn [bind].
  assert (LK : lacking [KList; KSet] es) by (eapply lacks_entries; [exact L|split; [exact EC|exists ts; split; [exact TE|exact TS]]|exact EE]).
  unfold object_of. rewrite (lacking_last KList [KList; KSet] es), (lacking_last KSet [KList; KSet] es) by (cbn; auto). rewrite A1, A2, B1, B2. cbn [andb negb].
  destruct (last_entry KValue es); [reflexivity|]. unfold expand_node. rewrite (entries_ap ap ap') by congruence. unfold free_floating. rewrite A1, A2, B1, B2. reflexivity.
Qed.
Lemma scalar_expands n c key v l fm : plain_ap (Some key) -> no_context c (Some key) -> given v = Some l ->
  XE (S n) c (Some key) v fm = do x <- map_err XLiteral (expand_literal io o c (Some key) l) ; Ok (XObj x).
Proof.
  intros (A1 & A2 & A3) D G. assert (E : XE (S n) c (Some key) v fm = expand_scalar io ld pf o c (Some key) v) by (destruct v; discriminate G || reflexivity).
  rewrite E. unfold expand_scalar, free_floating. rewrite A1, A2. cbn [negb orb]. destruct (prop_def c (Some key)) as [d|] eqn:PD; [rewrite (D d PD)|]; cbn [bind]; rewrite G; reflexivity.
Qed.
Lemma id_object n c key k s fm : plain_ap (Some key) -> no_context c (Some key) -> reads c k KId ->
  XE (S (S n)) c (Some key) (JObj [(k, JStr s)]) fm = Ok (XObj (None, ONode (node_new (id_of_key io c s)))).
Proof.
  intros (A1 & A2 & A3) D K. rewrite (object_of_one _ c (Some key) fm k (JStr s) KId K) by (auto || discriminate). unfold object_of. rewrite A1, A2. cbn [andb negb last_entry fold_left fst snd].
  change (keyword_eqb KId KList) with false. change (keyword_eqb KId KSet) with false. change (keyword_eqb KId KValue) with false. cbn iota.
  unfold expand_node. cbn [node_entries fold_r node_entry]. unfold keyword_entry. rewrite A3. cbn [fst snd has_key node_new n_id is_some]. rewrite andb_false_r. cbn [as_str].
  destruct (docrel_some io c s) as [t T]. unfold id_of_key. rewrite T. cbn [map_err bind on_node fst snd set_nid]. unfold free_floating. rewrite A1, A2. reflexivity.
Qed.
Lemma value_object n c key kv v l fm : reads c kv KValue -> no_context c (Some key) -> plain_ap (Some key) -> given v = Some l ->
  XE (S n) c (Some key) (JObj [(kv, v)]) fm = Ok (XObj (None, OVal (VLit l None))).
Proof.
  intros K D (A1 & A2 & A3) G. rewrite (object_of_one _ c (Some key) fm kv v KValue K) by (auto || discriminate). unfold object_of. rewrite A1, A2. cbn [andb negb last_entry fold_left fst snd].
  change (keyword_eqb KValue KList) with false. change (keyword_eqb KValue KSet) with false. change (keyword_eqb KValue KValue) with true. cbn iota.
  unfold expand_value. cbn [fold_r value_step bind vs_json vs_lang vs_dir vs_ty vs_index is_some orb]. destruct v; try discriminate G; injection G as <-; reflexivity.
Qed.
Lemma typed_object n c key kv kt v l t i fm : reads c kv KValue -> reads c kt KType -> names_type c t i -> no_context c (Some key) -> plain_ap (Some key) -> given v = Some l ->
  XE (S n) c (Some key) (JObj [(kv, v); (kt, JStr t)]) fm = Ok (XObj (None, OVal (VLit l (Some i)))).
Proof.
  intros K1 K2 (T1 & (x & T2 & T3) & T4) D (A1 & A2 & A3) G. rewrite expand_object.
  assert (EC : element_context io ld pf o base c (Some key) [(kv, v); (kt, JStr t)] fm = Ok c).
  { unfold element_context. unfold preliminary. cbn [fold_r fst snd]. rewrite K1. cbn [bind fst snd]. rewrite K2. cbn [bind fst snd].
    assert (GU : get_unique "@context" [(kv, v); (kt, JStr t)] = Ok None).
    { unfold get_unique, get_all. cbn [filter fst]. unfold reads in *. destruct (streq_spec kv "@context") as [->|_]; [change "@context" with (kw_str KContext) in K1; rewrite xkw in K1; discriminate|].
      destruct (streq_spec kt "@context") as [->|_]; [change "@context" with (kw_str KContext) in K2; rewrite xkw in K2; discriminate|]. reflexivity. }
    rewrite GU. replace (match ac_prev c with Some p => _ | None => c end) with c by (destruct (ac_prev c); [destruct fm|]; reflexivity).
    destruct (prop_def c (Some key)) as [d|] eqn:PD; [rewrite (D d PD)|]; reflexivity. }
  rewrite EC. cbn [bind].
  assert (TE : type_entries io o c [(kv, v); (kt, JStr t)] = Ok [(kt, JStr t)]). { unfold type_entries. cbn [flat_r fst]. rewrite K1, K2. reflexivity. }
  rewrite TE. cbn [bind]. unfold type_scoped. cbn [fold_r snd force_array flat_map as_str app sort_key fold_right insert_sorted].
  assert (PT : match prop_def c (Some t) with Some d => match nd_context d with Some lc => xprocess io ld pf c lc (nd_base_url d) (without_propagation (popts_of o)) | None => Ok c end | None => Ok c end = Ok c).
  { destruct (prop_def c (Some t)) as [d|] eqn:PD; [rewrite (T4 d PD)|]; reflexivity. }
  rewrite PT. cbn [bind]. unfold input_type. cbn [force_array rev app]. rewrite T2. cbn [bind].
  unfold expand_entries. cbn [flat_r fst snd]. rewrite K1, K2. cbn [bind app]. unfold object_of. rewrite A1, A2. cbn [andb negb last_entry fold_left fst snd].
  change (keyword_eqb KValue KList) with false. change (keyword_eqb KType KList) with false. change (keyword_eqb KValue KSet) with false. change (keyword_eqb KType KSet) with false.
  change (keyword_eqb KValue KValue) with true. change (keyword_eqb KType KValue) with false. cbn iota.
  unfold expand_value. replace (match x with Some (TmKw KJson) => true | _ => false end) with false by (destruct x as [[| |[]]|]; reflexivity || congruence).
  cbn [fold_r value_step as_str bind]. rewrite T1. cbn [map_err bind vs_json vs_lang vs_dir vs_ty vs_index is_some orb]. destruct v; try discriminate G; injection G as <-; reflexivity.
Qed.
Theorem spelled_expand c key key' v v' fm : plain_ap (Some key) -> plain_ap (Some key') -> no_context c (Some key) -> no_context c (Some key') -> fm = false \/ ac_prev c = None ->
  spelled c key v v' -> forall n, 1 <= n -> XE (S n) c (Some key) v fm = XE (S n) c (Some key') v' fm.
Proof.
  intros A A' D D' FM S [|n] L; [lia|]. destruct S as [|s k T K|s s' k T K E|v l i kv kt t T G K1 K2 N|s T NL|v l kv T G NS K|m LK].
  - reflexivity.
  - rewrite (scalar_expands _ c key (JStr s) (LStr s) fm A D eq_refl), (id_object _ c key' k s fm A' D' K). unfold expand_literal. unfold typ_of in T. rewrite T.
    destruct (docrel_some io c s) as [t X]. unfold id_of_key. rewrite X. reflexivity.
  - rewrite (scalar_expands _ c key (JStr s) (LStr s) fm A D eq_refl), (id_object _ c key' k s' fm A' D' K). unfold expand_literal. unfold typ_of in T. rewrite T.
    destruct (docrel_some io c s') as [t X]. unfold id_of_key. rewrite E, X. reflexivity.
  - rewrite (scalar_expands _ c key v l fm A D G), (typed_object _ c key' kv kt v l t i fm K1 K2 N D' A' G). unfold expand_literal. unfold typ_of in T. rewrite T. destruct l; reflexivity.
  - rewrite (scalar_expands _ c key (JStr s) (LStr s) fm A D eq_refl). rewrite string_expands; [|exact D'|exact NL|reflexivity]. unfold expand_literal. unfold typ_of in T. destruct T as [T|T]; rewrite T; reflexivity.
  - rewrite (scalar_expands _ c key v l fm A D G), (value_object _ c key' kv v l fm K D' A' G). unfold expand_literal. unfold typ_of in T.
    assert (NL : forall s, l <> LStr s) by (intros s ->; destruct v; try discriminate G; exact (NS _ eq_refl)).
    destruct (match prop_def c (Some key) with Some d => nd_typ d | None => None end) as [[]|]; try contradiction; destruct l; try reflexivity; destruct (NL s eq_refl).
  - apply object_ap; assumption.
Qed.

(** ** Changing the key of an entry *)
Lemma preliminary_ok c m : (exists s, preliminary io o c m = Ok s) <-> Forall (fun e => exists t, xkey c (fst e) = Ok t) m.
Proof.
  unfold preliminary. generalize (false, false). induction m as [|e m IH]; intros s; [split; [constructor|intros; eexists; reflexivity]|]. cbn [fold_r]. split.
  - destruct (xkey c (fst e)) as [t|] eqn:T; [|intros [? X]; discriminate X]. cbn [bind]. intros H. constructor; [exists t; exact T|]. eapply IH, H.
  - intros F. inversion F as [|? ? [t T] F']; subst. rewrite T. cbn [bind]. apply IH, F'.
Qed.
Lemma context_prev c ap fm m tsc : ac_prev c = None -> element_context io ld pf o base c ap m fm = Ok tsc ->
  Forall (fun e => exists t, xkey c (fst e) = Ok t) m /\
  forall m', Forall (fun e => exists t, xkey c (fst e) = Ok t) m' -> get_unique "@context" m' = get_unique "@context" m -> element_context io ld pf o base c ap m' fm = Ok tsc.
Proof.
  intros P H. unfold element_context in *. rewrite P in *. destruct (preliminary io o c m) as [[a b]|] eqn:PR; [|discriminate]. cbn [bind] in H. split.
  - apply preliminary_ok. eexists. exact PR.
  - intros m' F G. apply preliminary_ok in F. destruct F as [[a' b'] ->]. cbn [bind]. rewrite G. exact H.
Qed.
Lemma get_moved k key key' v v' es1 es2 : key <> k -> key' <> k -> get_unique k (es1 ++ (key', v') :: es2) = get_unique k (es1 ++ (key, v) :: es2).
Proof.
  intros N N'. unfold get_unique. replace (get_all k (es1 ++ (key', v') :: es2)) with (get_all k (es1 ++ (key, v) :: es2)); [reflexivity|].
  unfold get_all. rewrite !filter_app. cbn [filter fst]. destruct (streq_spec key k) as [E|_]; [destruct (N E)|]. destruct (streq_spec key' k) as [E|_]; [destruct (N' E)|reflexivity].
Qed.
(** The key is read in the contexts in effect, not as [@type] before the contexts of the types. *)
Definition read_as (c tsc c' : actx) (key : string) (t : term) : Prop :=
  key <> "@context" /\ (exists u, xkey c key = Ok u) /\ (exists u, xkey tsc key = Ok u /\ u <> Some (TmKw KType)) /\ xkey c' key = Ok (Some t).
Lemma entry_move n c ap fm es1 key v key' v' es2 tsc c' t : in_effect c ap (es1 ++ (key, v) :: es2) fm tsc c' -> ac_prev c = None ->
  read_as c tsc c' key t -> read_as c tsc c' key' t ->
  (forall it A B, object_of n ap tsc c' it (A ++ (key, t, v) :: B) = object_of n ap tsc c' it (A ++ (key', t, v') :: B)) ->
  XE (S n) c ap (JObj (es1 ++ (key, v) :: es2)) fm = XE (S n) c ap (JObj (es1 ++ (key', v') :: es2)) fm.
Proof.
  intros (EC & ts & TE & TS) P (N1 & _ & (u & U & NU) & XK) (N1' & (w & W) & (u' & U' & NU') & XK') OB. rewrite !expand_object.
  destruct (context_prev _ _ _ _ _ P EC) as [F H]. rewrite EC, H; [| |apply get_moved; assumption].
  2:{ apply Forall_app in F. destruct F as [F1 F2]. inversion F2; subst. apply Forall_app. split; [exact F1|]. constructor; [exists w; exact W|assumption]. }
  cbn [bind]. assert (TE' : type_entries io o tsc (es1 ++ (key', v') :: es2) = Ok ts).
  { rewrite <- TE. unfold type_entries. rewrite !flat_r_app, !flat_r_cons. cbn [fst]. rewrite U, U'. cbn [bind].
    assert (Z : forall u (e : string * json), u <> Some (TmKw KType) -> match u with Some (TmKw KType) => [e] | _ => [] end = []) by (intros x e N; destruct x as [[| |[]]|]; reflexivity || congruence).
    rewrite !Z by assumption. reflexivity. }
  rewrite TE, TE'. cbn [bind]. rewrite TS. cbn [bind]. destruct (input_type io o c' ts) as [it|]; [|reflexivity]. cbn [bind].
  unfold expand_entries. rewrite !flat_r_app, !flat_r_cons. cbn [fst snd]. rewrite XK, XK'. cbn [bind].
  match goal with |- bind (bind ?r _) _ = _ => destruct r as [A|] end; [|reflexivity]. cbn [bind].
  match goal with |- bind (bind (bind ?r _) _) _ = _ => destruct r as [B|] end; [|reflexivity]. cbn [bind app]. exact (OB it A B).
Qed.
(** An entry of a node object. *)
Lemma object_entry n ap tsc c' it A B e e' : snd (fst e) = snd (fst e') -> node_kw (snd (fst e)) = true ->
  (forall m s, node_entry io ld fin rnd pf o (XE n) (node_entries io ld fin rnd pf o (XE n) m ap tsc) ap c' tsc s e =
               node_entry io ld fin rnd pf o (XE n) (node_entries io ld fin rnd pf o (XE n) m ap tsc) ap c' tsc s e') ->
  object_of n ap tsc c' it (A ++ e :: B) = object_of n ap tsc c' it (A ++ e' :: B).
Proof.
  destruct e as [[key t] v], e' as [[key' t'] v']. cbn [fst snd]. intros <- T NE. unfold object_of.
  assert (LO : forall k, k = KList \/ k = KSet \/ k = KValue -> last_entry k (A ++ (key, t, v) :: B) = last_entry k (A ++ (key', t, v') :: B)).
  { intros k K. rewrite !last_app, !last_cons. cbn [fst snd]. destruct (last_entry k B); [reflexivity|]. destruct t as [| |k']; try reflexivity. destruct K as [->|[->| ->]]; destruct k'; try reflexivity; discriminate T. }
  assert (LI : list_index (A ++ (key, t, v) :: B) = list_index (A ++ (key', t, v') :: B)).
  { unfold list_index. rewrite !fold_r_app. match goal with |- bind ?r _ = _ => destruct r as [s|] end; [|reflexivity]. cbn [bind fold_r snd fst]. destruct t as [| |[]]; try reflexivity; discriminate T. }
  assert (SE : set_check (A ++ (key, t, v) :: B) = set_check (A ++ (key', t, v') :: B)) by (unfold set_check; rewrite !fold_r_app; reflexivity).
  assert (VE : forall w, expand_value io o it tsc (A ++ (key, t, v) :: B) w = expand_value io o it tsc (A ++ (key', t, v') :: B) w).
  { intros w. unfold expand_value. rewrite !fold_r_app. match goal with |- bind (bind ?r _) _ = _ => destruct r as [s|] end; [|reflexivity]. cbn [bind fold_r]. destruct t as [| |[]]; try reflexivity; discriminate T. }
  assert (NN : expand_node io ld fin rnd pf o (XE n) n ap c' tsc (A ++ (key, t, v) :: B) = expand_node io ld fin rnd pf o (XE n) n ap c' tsc (A ++ (key', t, v') :: B)).
  { unfold expand_node. destruct n as [|m]; [reflexivity|]. cbn [node_entries]. rewrite !fold_r_app.
    match goal with |- bind (bind ?r _) _ = _ => destruct r as [s|] end; [|reflexivity]. cbn [bind fold_r]. rewrite (NE m s). reflexivity. }
  rewrite LI, SE, NN, !LO by auto. destruct (last_entry KValue _); [rewrite VE|]; reflexivity.
Qed.

(** ** Terms *)

(** A term that adds at most a type, a language or a direction to its values. *)
Definition plain_term (c : actx) (key : string) : Prop :=
  match prop_def c (Some key) with
  | Some d => (nd_container d = CNone \/ nd_container d = CSet) /\ nd_reverse d = false /\ nd_context d = None
  | None => True
  end.
(** The value of a property, and the same value spelled out. *)
Inductive spelled_out (c : actx) (key : string) : json -> json -> Prop :=
| SoOne v v' : typ_of c key <> Some TyJson -> spelled c key v v' -> spelled_out c key v v'
| SoArray l l' : typ_of c key <> Some TyJson -> Forall2 (spelled c key) l l' -> spelled_out c key (JArr l) (JArr l')
| SoJson v kv kt : typ_of c key = Some TyJson -> reads c kv KValue -> reads c kt KType -> no_context c (Some "@json") ->
    spelled_out c key v (JObj [(kv, v); (kt, JStr "@json")]).
Lemma json_object n c key kv kt v fm : reads c kv KValue -> reads c kt KType -> no_context c (Some key) -> no_context c (Some "@json") -> plain_ap (Some key) ->
  XE (S n) c (Some key) (JObj [(kv, v); (kt, JStr "@json")]) fm = Ok (XObj (None, OVal (VJson v))).
Proof.
  intros K1 K2 D T4 (A1 & A2 & A3). rewrite expand_object.
  assert (EC : element_context io ld pf o base c (Some key) [(kv, v); (kt, JStr "@json")] fm = Ok c).
  { unfold element_context. unfold preliminary. cbn [fold_r fst snd]. rewrite K1. cbn [bind fst snd]. rewrite K2. cbn [bind fst snd].
    assert (GU : get_unique "@context" [(kv, v); (kt, JStr "@json")] = Ok None).
    { unfold get_unique, get_all. cbn [filter fst]. unfold reads in *. destruct (streq_spec kv "@context") as [->|_]; [change "@context" with (kw_str KContext) in K1; rewrite xkw in K1; discriminate|].
      destruct (streq_spec kt "@context") as [->|_]; [change "@context" with (kw_str KContext) in K2; rewrite xkw in K2; discriminate|]. reflexivity. }
    rewrite GU. replace (match ac_prev c with Some p => _ | None => c end) with c by (destruct (ac_prev c); [destruct fm|]; reflexivity).
    destruct (prop_def c (Some key)) as [d|] eqn:PD; [rewrite (D d PD)|]; reflexivity. }
  rewrite EC. cbn [bind].
  assert (TE : type_entries io o c [(kv, v); (kt, JStr "@json")] = Ok [(kt, JStr "@json")]). { unfold type_entries. cbn [flat_r fst]. rewrite K1, K2. reflexivity. }
  rewrite TE. cbn [bind]. unfold type_scoped. cbn [fold_r snd force_array flat_map as_str app sort_key fold_right insert_sorted].
  assert (PT : match prop_def c (Some "@json") with Some d => match nd_context d with Some lc => xprocess io ld pf c lc (nd_base_url d) (without_propagation (popts_of o)) | None => Ok c end | None => Ok c end = Ok c).
  { destruct (prop_def c (Some "@json")) as [d|] eqn:PD; [rewrite (T4 d PD)|]; reflexivity. }
  rewrite PT. cbn [bind]. unfold input_type. cbn [force_array rev app]. change "@json" with (kw_str KJson) at 1. rewrite xkw. cbn [bind].
  unfold expand_entries. cbn [flat_r fst snd]. rewrite K1, K2. cbn [bind app]. unfold object_of. rewrite A1, A2. cbn [andb negb last_entry fold_left fst snd].
  change (keyword_eqb KValue KList) with false. change (keyword_eqb KType KList) with false. change (keyword_eqb KValue KSet) with false. change (keyword_eqb KType KSet) with false.
  change (keyword_eqb KValue KValue) with true. change (keyword_eqb KType KValue) with false. cbn iota.
  unfold expand_value. cbn [fold_r value_step as_str bind].
  assert (J : xiri io c "@json" true (Some (xo_vocab o)) = Ok (Some (TmKw KJson))) by reflexivity. rewrite J. reflexivity.
Qed.
Lemma read_property c tsc c' key p : read_as c tsc c' key (TmId p) -> plain_ap (Some key).
Proof. intros (_ & _ & _ & X). eapply property_plain, X. Qed.
Lemma plain_no_context c key : plain_term c key -> no_context c (Some key).
Proof. intros H d D. unfold plain_term in H. rewrite D in H. apply H. Qed.
Lemma plain_cont c key k : plain_term c key -> k <> CKSet -> has_container (prop_def c (Some key)) k = false.
Proof.
  unfold plain_term. intros H N. destruct (prop_def c (Some key)) as [d|]; [|reflexivity]. cbn [has_container]. destruct H as [[-> | ->] _]; [reflexivity|]. destruct k; try reflexivity. congruence.
Qed.
Lemma plain_property n c key v : plain_term c key -> typ_of c key <> Some TyJson -> XP n c key v = XE n c (Some key) v false.
Proof.
  intros H NJ. unfold expand_property. rewrite !(plain_cont c key) by (exact H || discriminate). cbn [orb].
  replace (match prop_def c (Some key) with Some d => match nd_typ d with Some TyJson => true | _ => false end | None => false end) with false; [destruct v; reflexivity|].
  unfold typ_of in NJ. destruct (prop_def c (Some key)) as [d|]; [|reflexivity]. destruct (nd_typ d) as [[]|]; congruence.
Qed.
Theorem term_law c ap fm es1 key v key' v' es2 tsc c' p : in_effect c ap (es1 ++ (key, v) :: es2) fm tsc c' -> ac_prev c = None ->
  read_as c tsc c' key (TmId p) -> read_as c tsc c' key' (TmId p) -> plain_term c' key -> plain_term c' key' -> typ_of c' key' <> Some TyJson ->
  spelled_out c' key v v' -> alike c ap fm (JObj (es1 ++ (key, v) :: es2)) (JObj (es1 ++ (key', v') :: es2)).
Proof.
  intros E P R R' T T' NJ S. apply alike_iff. exists 4. intros [|n] L; [lia|]. eapply entry_move; try eassumption. intros it A B. apply object_entry; [reflexivity|reflexivity|].
  intros m s. cbn [node_entry]. enough (H : XP n c' key v = XP n c' key' v').
  { unfold property_entry. rewrite H. unfold wrap_graph, wrap_list. rewrite !(plain_cont c' key), !(plain_cont c' key') by (assumption || discriminate). cbn [andb].
    assert (RV : match prop_def c' (Some key) with Some d => nd_reverse d | None => false end = match prop_def c' (Some key') with Some d => nd_reverse d | None => false end).
    { unfold plain_term in T, T'. destruct (prop_def c' (Some key)) as [d|], (prop_def c' (Some key')) as [d'|]; try (destruct T as (_ & -> & _)); try (destruct T' as (_ & -> & _)); reflexivity. }
    unfold store. rewrite RV. reflexivity. }
  pose proof (read_property _ _ _ _ _ R) as A1. pose proof (read_property _ _ _ _ _ R') as A2.
  pose proof (plain_no_context _ _ T) as D1. pose proof (plain_no_context _ _ T') as D2. rewrite (plain_property n c' key' v' T' NJ).
  destruct n as [|[|[|n]]]; try lia. destruct S as [v v' N1 S|l l' N1 S|v kv kt TJ K1 K2 NC].
  - rewrite (plain_property _ c' key v T N1). apply spelled_expand; auto. lia.
  - rewrite (plain_property _ c' key (JArr l) T N1).
    change (element_body io ld fin rnd pf o base (XE (Datatypes.S (Datatypes.S n))) (Datatypes.S (Datatypes.S n)) c' (Some key) (JArr l) false =
            element_body io ld fin rnd pf o base (XE (Datatypes.S (Datatypes.S n))) (Datatypes.S (Datatypes.S n)) c' (Some key') (JArr l') false). cbn [element_body].
    rewrite (plain_cont c' key CKList T), (plain_cont c' key' CKList T') by discriminate.
    match goal with |- bind ?a _ = bind ?b _ => enough (H : a = b) by (rewrite H; reflexivity) end.
    clear - A1 A2 D1 D2 S. induction S as [|x x' l l' S F IH]; [reflexivity|]. cbn [flat_r]. rewrite (spelled_expand c' key key' x x' false A1 A2 D1 D2 (or_introl eq_refl) S (Datatypes.S n) ltac:(lia)). rewrite IH. reflexivity.
  - rewrite json_object by assumption. unfold expand_property. unfold typ_of in TJ. destruct (prop_def c' (Some key)) as [d|]; [|discriminate]. rewrite TJ. reflexivity.
Qed.

(** ** Aliases of keywords *)
Lemma object_alias n ap tsc c' it A B k k' kw v : kw <> KNest ->
  object_of n ap tsc c' it (A ++ (k, TmKw kw, v) :: B) = object_of n ap tsc c' it (A ++ (k', TmKw kw, v) :: B).
Proof.
  intros NN. unfold object_of.
  assert (LO : forall q, last_entry q (A ++ (k, TmKw kw, v) :: B) = last_entry q (A ++ (k', TmKw kw, v) :: B)) by (intros q; rewrite !last_app, !last_cons; reflexivity).
  assert (LI : list_index (A ++ (k, TmKw kw, v) :: B) = list_index (A ++ (k', TmKw kw, v) :: B)) by (unfold list_index; rewrite !fold_r_app; reflexivity).
  assert (SE : set_check (A ++ (k, TmKw kw, v) :: B) = set_check (A ++ (k', TmKw kw, v) :: B)) by (unfold set_check; rewrite !fold_r_app; reflexivity).
  assert (VE : forall w, expand_value io o it tsc (A ++ (k, TmKw kw, v) :: B) w = expand_value io o it tsc (A ++ (k', TmKw kw, v) :: B) w) by (intros w; unfold expand_value; rewrite !fold_r_app; reflexivity).
  assert (ND : expand_node io ld fin rnd pf o (XE n) n ap c' tsc (A ++ (k, TmKw kw, v) :: B) = expand_node io ld fin rnd pf o (XE n) n ap c' tsc (A ++ (k', TmKw kw, v) :: B)).
  { unfold expand_node. destruct n as [|m]; [reflexivity|]. cbn [node_entries]. rewrite !fold_r_app.
    match goal with |- bind (bind ?r _) _ = _ => destruct r as [s|] end; [|reflexivity]. cbn [bind fold_r node_entry]. unfold keyword_entry. destruct kw; try reflexivity. congruence. }
  rewrite LI, SE, ND, !LO. destruct (last_entry KValue _); [rewrite VE|]; reflexivity.
Qed.
(** Two names of the same keyword in the contexts in effect; [only] tells that no other entry is
    read as [@type]. *)
Definition same_keyword (c tsc c' : actx) (k k' : string) (kw : keyword) (only : Prop) : Prop :=
  kw <> KNest /\ (read_as c tsc c' k (TmKw kw) /\ read_as c tsc c' k' (TmKw kw) \/
   only /\ Forall (fun x => x <> "@context" /\ (exists u, xkey c x = Ok u) /\ reads tsc x KType /\ reads c' x kw) [k; k']).
Lemma no_types_in tsc es : Forall (fun e : string * json => ~ reads tsc (fst e) KType) es ->
  forall r, flat_r (fun e => do t <- xkey tsc (fst e) ; Ok (match t with Some (TmKw KType) => [e] | _ => [] end)) es = Ok r -> r = [].
Proof.
  unfold reads. induction 1 as [|e es N F IH]; intros r H; [injection H as <-; reflexivity|]. cbn [flat_r] in H. destruct (xkey tsc (fst e)) as [t|] eqn:T; [|discriminate]. cbn [bind] in H.
  destruct (flat_r _ es) as [l|]; [|discriminate]. injection H as <-. rewrite (IH l eq_refl), app_nil_r. destruct t as [[| |[]]|]; reflexivity || congruence.
Qed.
Theorem alias_law c ap fm es1 k k' v es2 tsc c' kw : in_effect c ap (es1 ++ (k, v) :: es2) fm tsc c' -> ac_prev c = None ->
  same_keyword c tsc c' k k' kw (Forall (fun e => ~ reads tsc (fst e) KType) (es1 ++ es2)) ->
  alike c ap fm (JObj (es1 ++ (k, v) :: es2)) (JObj (es1 ++ (k', v) :: es2)).
Proof.
  intros E P [NN SK]. apply alike_iff. exists 1. intros [|n] L; [lia|]. destruct SK as [[R R']|[ONLY F]].
  - eapply entry_move; try eassumption. intros it A B. apply object_alias, NN.
  - inversion F as [|? ? (N1 & _ & T1 & K1) F']; subst. inversion F' as [|? ? (N2 & (w & W) & T2 & K2) _]; subst. clear F F'.
    destruct E as (EC & ts & TE & TS). rewrite !expand_object. destruct (context_prev _ _ _ _ _ P EC) as [FO H]. rewrite EC, H; [| |apply get_moved; assumption].
    2:{ apply Forall_app in FO. destruct FO as [F1 F2]. inversion F2; subst. apply Forall_app. split; [exact F1|]. constructor; [exists w; exact W|assumption]. }
    cbn [bind]. assert (TT : ts = [(k, v)] /\ type_entries io o tsc (es1 ++ (k', v) :: es2) = Ok [(k', v)]).
    { clear - TE ONLY T1 T2. unfold type_entries in *. apply Forall_app in ONLY. destruct ONLY as [O1 O2]. rewrite !flat_r_app, !flat_r_cons in *. cbn [fst] in *. rewrite T1 in TE. rewrite T2. cbn [bind] in *.
      match type of TE with bind (bind ?r _) _ = _ => destruct r as [a|] eqn:A end; [|discriminate]. apply (no_types_in _ _ O1) in A. subst a. cbn [bind] in *.
      match type of TE with bind (bind (bind ?r _) _) _ = _ => destruct r as [a|] eqn:A end; [|discriminate]. apply (no_types_in _ _ O2) in A. subst a. cbn [bind app] in *. injection TE as <-. split; reflexivity. }
    destruct TT as [-> TE']. rewrite TE, TE'. cbn [bind]. replace (type_scoped io ld pf o tsc [(k', v)]) with (type_scoped io ld pf o tsc [(k, v)]) by reflexivity. rewrite TS. cbn [bind].
    replace (input_type io o c' [(k', v)]) with (input_type io o c' [(k, v)]) by reflexivity. destruct (input_type io o c' [(k, v)]) as [it|]; [|reflexivity]. cbn [bind].
    unfold expand_entries. rewrite !flat_r_app, !flat_r_cons. cbn [fst snd]. rewrite K1, K2. cbn [bind].
    match goal with |- bind (bind ?r _) _ = _ => destruct r as [A|] end; [|reflexivity]. cbn [bind].
    match goal with |- bind (bind (bind ?r _) _) _ = _ => destruct r as [B|] end; [|reflexivity]. cbn [bind app]. apply object_alias, NN.
Qed.

(** ** Contexts *)

(** An embedded context is processed first. *)
Theorem context_law c ap fm es1 lc l es2 c1 : ac_prev c = None -> ac_prev c1 = None -> no_context c ap -> no_context c1 ap ->
  context_of_json (iri_ref_ok io) lc = Ok l -> xprocess io ld pf c l base (popts_of o) = Ok c1 ->
  Forall (fun e => fst e <> "@context" /\ (exists t, xkey c (fst e) = Ok t) /\ (exists t, xkey c1 (fst e) = Ok t)) (es1 ++ es2) ->
  lacks [KList; KSet; KValue] c1 ap (es1 ++ es2) ->
  forall n, XE (S n) c ap (JObj (es1 ++ ("@context", lc) :: es2)) fm = XE (S n) c1 ap (JObj (es1 ++ es2)) fm.
Proof.
  intros P P1 D D1 CJ XP F L n. rewrite (no_previous _ _ _ _ _ _ _ _ c ap _ fm false P), (no_previous _ _ _ _ _ _ _ _ c1 ap _ fm false P1). rewrite !expand_object.
  assert (G0 : get_all "@context" es1 = [] /\ get_all "@context" es2 = []).
  { apply Forall_app in F. assert (X : forall es : jobject, Forall (fun e => fst e <> "@context" /\ (exists t, xkey c (fst e) = Ok t) /\ (exists t, xkey c1 (fst e) = Ok t)) es -> get_all "@context" es = []).
    { induction 1 as [|e es (N & _) _ IH]; [reflexivity|]. unfold get_all in *. cbn [filter]. destruct (streq_spec (fst e) "@context"); [congruence|exact IH]. }
    split; apply X, F. }
  assert (GA : forall a b, get_all "@context" (a ++ b) = get_all "@context" a ++ get_all "@context" b) by (intros a b; unfold get_all; rewrite filter_app, map_app; reflexivity).
  assert (EC : element_context io ld pf o base c ap (es1 ++ ("@context", lc) :: es2) false = Ok c1).
  { unfold element_context. assert (PR : exists s, preliminary io o c (es1 ++ ("@context", lc) :: es2) = Ok s).
    { apply preliminary_ok. apply Forall_app in F. destruct F as [F1 F2]. apply Forall_app. split; [eapply Forall_impl; [|exact F1]; cbn; tauto|]. constructor; [exists (Some (TmKw KContext)); reflexivity|eapply Forall_impl; [|exact F2]; cbn; tauto]. }
    destruct PR as [[a b] ->]. cbn [bind]. rewrite P. unfold get_unique. rewrite GA, (proj1 G0). cbn [app]. change (("@context", lc) :: es2) with ([("@context", lc)] ++ es2). rewrite GA, (proj2 G0). cbn [get_all filter fst snd streq map app].
    change (streq "@context" "@context") with true. cbn iota. cbn [map snd map_err bind app].
    destruct (prop_def c ap) as [d|] eqn:PD; [rewrite (D d PD)|]; cbn [bind map_err]; rewrite CJ; exact XP. }
  assert (EC1 : element_context io ld pf o base c1 ap (es1 ++ es2) false = Ok c1).
  { unfold element_context. assert (PR : exists s, preliminary io o c1 (es1 ++ es2) = Ok s) by (apply preliminary_ok; eapply Forall_impl; [|exact F]; cbn; tauto).
    destruct PR as [[a b] ->]. cbn [bind]. rewrite P1. unfold get_unique. rewrite GA, (proj1 G0), (proj2 G0). cbn [app map_err bind].
    destruct (prop_def c1 ap) as [d|] eqn:PD; [rewrite (D1 d PD)|]; reflexivity. }
  rewrite EC, EC1. cbn [bind].
  assert (TE : type_entries io o c1 (es1 ++ ("@context", lc) :: es2) = type_entries io o c1 (es1 ++ es2)).
  { unfold type_entries. rewrite !flat_r_app, flat_r_cons. cbn [fst]. change "@context" with (kw_str KContext). rewrite xkw. cbn [bind app].
    destruct (flat_r _ es1); [|reflexivity]. cbn [bind]. destruct (flat_r _ es2); reflexivity. }
  rewrite TE. destruct (type_entries io o c1 (es1 ++ es2)) as [ts|] eqn:TE1; [|reflexivity]. cbn [bind]. destruct (type_scoped io ld pf o c1 ts) as [c2|] eqn:TS; [|reflexivity]. cbn [bind].
  destruct (input_type io o c2 ts) as [it|]; [|reflexivity]. cbn [bind].
  destruct (expand_entries io o c2 (es1 ++ es2)) as [es|] eqn:EE.
  - assert (LK : lacking [KList; KSet; KValue] es) by (eapply lacks_entries; [exact L|split; [exact EC1|exists ts; split; [exact TE1|exact TS]]|exact EE]).
    unfold expand_entries in *. rewrite flat_r_app in *. rewrite flat_r_cons. change (fst ("@context", lc)) with (kw_str KContext). rewrite xkw. cbn [bind snd].
    destruct (flat_r _ es1) as [A|]; [|discriminate]. cbn [bind] in *. destruct (flat_r _ es2) as [B|]; [|discriminate]. cbn [bind] in *. injection EE as <-. cbn [app].
    assert (LK' : lacking [KList; KSet; KValue] (A ++ ("@context", TmKw KContext, lc) :: B)).
    { intros e k I K. apply in_app_or in I. destruct I as [I|[<-|I]]; [apply LK; [apply in_or_app; left; exact I|exact K]| |apply LK; [apply in_or_app; right; exact I|exact K]].
      cbn [fst snd]. intros X. injection X as <-. cbn in K. intuition discriminate. }
    unfold object_of. rewrite !(lacking_last KList [KList; KSet; KValue]), !(lacking_last KSet [KList; KSet; KValue]), !(lacking_last KValue [KList; KSet; KValue]) by (cbn; auto).
    replace (if is_some ap && negb (ap_is ap KGraph) then @None json else None) with (@None json) by (destruct (_ && _); reflexivity).
    unfold expand_node. destruct n as [|n]; [reflexivity|]. cbn [node_entries]. rewrite !fold_r_app. match goal with |- context [bind (fold_r ?f ?a A)] => destruct (fold_r f a A) as [s|] end; [|reflexivity]. reflexivity.
  - unfold expand_entries in *. rewrite flat_r_app in *. rewrite flat_r_cons. change (fst ("@context", lc)) with (kw_str KContext). rewrite xkw. cbn [bind snd].
    destruct (flat_r _ es1) as [A|]; [|cbn [bind] in *; congruence]. cbn [bind] in *. destruct (flat_r _ es2) as [B|]; [discriminate|]. cbn [bind] in *. congruence.
Qed.

(** ** Nested properties *)
Lemma node_entries_fuel r m m' ap tsc c es st : 0 < m -> 0 < m' -> Forall (fun e => json_size (snd e) < m /\ json_size (snd e) < m') es ->
  node_entries io ld fin rnd pf o r m ap tsc c es st = node_entries io ld fin rnd pf o r m' ap tsc c es st.
Proof.
  intros P P' F. apply (entries_two io ld fin rnd pf o base r r (m + m')); [reflexivity|exact P|exact P'|]. eapply Forall_impl; [|exact F]. cbn. intros e [A B]. lia.
Qed.
Theorem nest_law c ap fm es1 k m es2 tsc c' : in_effect c ap (es1 ++ (k, JObj m) :: es2) fm tsc c' -> ac_prev c = None -> xo_ordered o = false -> ap_is ap KReverse = false ->
  read_as c tsc c' k (TmKw KNest) -> no_context c' (Some k) ->
  Forall (fun e => fst e <> "@context" /\ (exists u, xkey c (fst e) = Ok u) /\ (exists u, xkey tsc (fst e) = Ok u /\ u <> Some (TmKw KType)) /\
                   exists u, xkey c' (fst e) = Ok u /\ ~ In u [Some (TmKw KList); Some (TmKw KSet); Some (TmKw KValue)]) m ->
  Forall (fun e => forall kw, In kw [KList; KSet; KValue] -> ~ reads c' (fst e) kw) (es1 ++ es2) ->
  alike c ap fm (JObj (es1 ++ (k, JObj m) :: es2)) (JObj (es1 ++ m ++ es2)).
Proof.
  intros (EC & ts & TE & TS) P OR AR (N1 & _ & (u & U & NU) & XK) NC FM FO. apply alike_iff. exists (json_size (JObj (es1 ++ (k, JObj m) :: es2)) + 3). intros [|n] L; [lia|].
  rewrite !expand_object. destruct (context_prev _ _ _ _ _ P EC) as [F H]. rewrite EC, H.
  2:{ apply Forall_app in F. destruct F as [F1 F2]. inversion F2; subst. apply Forall_app. split; [exact F1|]. apply Forall_app. split; [|assumption]. eapply Forall_impl; [|exact FM]. cbn; tauto. }
  2:{ unfold get_unique. replace (get_all "@context" (es1 ++ (k, JObj m) :: es2)) with (get_all "@context" (es1 ++ m ++ es2)); [reflexivity|]. unfold get_all. rewrite !filter_app. cbn [filter fst].
      destruct (streq_spec k "@context"); [congruence|]. f_equal. f_equal. clear -FM. induction FM as [|e m (N & _) _ IH]; [reflexivity|]. cbn [filter]. destruct (streq_spec (fst e) "@context"); [congruence|exact IH]. }
  cbn [bind]. assert (TE' : type_entries io o tsc (es1 ++ m ++ es2) = Ok ts).
  { rewrite <- TE. unfold type_entries. rewrite !flat_r_app, flat_r_cons. cbn [fst]. rewrite U. cbn [bind].
    assert (X : flat_r (fun e => do t <- xkey tsc (fst e) ; Ok (match t with Some (TmKw KType) => [e] | _ => [] end)) m = Ok []).
    { clear -FM. induction FM as [|e m (_ & _ & (u & U & N) & _) _ IH]; [reflexivity|]. cbn [flat_r]. rewrite U. cbn [bind]. rewrite IH. cbn [bind]. destruct u as [[| |[]]|]; reflexivity || congruence. }
    rewrite X. replace (match u with Some (TmKw KType) => [(k, JObj m)] | _ => [] end) with (@nil (string * json)) by (destruct u as [[| |[]]|]; reflexivity || congruence). reflexivity. }
  rewrite TE, TE'. cbn [bind]. rewrite TS. cbn [bind]. destruct (input_type io o c' ts) as [it|]; [|reflexivity]. cbn [bind].
  unfold expand_entries. rewrite !flat_r_app, flat_r_cons. cbn [fst snd]. rewrite XK. cbn [bind].
  match goal with |- bind (bind ?r _) _ = _ => destruct r as [A|] eqn:EA end; [|reflexivity]. cbn [bind].
  assert (EM : exists M, expand_entries io o c' m = Ok M /\ lacking [KList; KSet; KValue] M).
  { clear -FM. unfold expand_entries. induction FM as [|e m (_ & _ & _ & (u & U & N)) _ IH]; [exists []; split; [reflexivity|intros e k []]|]. destruct IH as (M & E & LK). cbn [flat_r]. rewrite U. cbn [bind]. rewrite E. cbn [bind].
    eexists. split; [reflexivity|]. intros x kw I K. apply in_app_or in I. destruct I as [I|I]; [|exact (LK x kw I K)]. destruct u as [t|]; [|destruct I]. destruct I as [<-|[]]. cbn [fst snd]. intros ->. apply N.
    cbn in K |- *. destruct K as [<-|[<-|[<-|[]]]]; auto. }
  destruct EM as (M & EM & LM). unfold expand_entries in EM. pose proof EM as EM2. rewrite EM. cbn [bind].
  match goal with |- bind (bind (bind ?r _) _) _ = _ => destruct r as [B|] eqn:EB end; [|reflexivity]. cbn [bind app].
  assert (FR : forall es X, flat_r (fun e => do t <- xkey c' (fst e) ; Ok (match t with Some t => [(fst e, t, snd e)] | None => [] end)) es = Ok X ->
    Forall (fun e => forall kw, In kw [KList; KSet; KValue] -> ~ reads c' (fst e) kw) es -> lacking [KList; KSet; KValue] X).
  { clear. intros es. induction es as [|e es IH]; intros X E FF; [injection E as <-; intros y kw []|]. cbn [flat_r] in E. inversion FF as [|? ? Q FF']; subst. destruct (xkey c' (fst e)) as [t|] eqn:T; [|discriminate]. cbn [bind] in E.
    destruct (flat_r _ es) as [Y|] eqn:EY; [|discriminate]. injection E as <-. intros y kw I K. apply in_app_or in I. destruct I as [I|I]; [|exact (IH Y eq_refl FF' y kw I K)]. destruct t as [t|]; [|destruct I]. destruct I as [<-|[]]. cbn [fst snd]. intros ->. apply (Q kw K). exact T. }
  apply Forall_app in FO. destruct FO as [FO1 FO2]. pose proof (FR _ _ EA FO1) as LA. pose proof (FR _ _ EB FO2) as LB. clear FR.
  assert (L1 : lacking [KList; KSet; KValue] (A ++ (k, TmKw KNest, JObj m) :: B)).
  { intros e kw I K. apply in_app_or in I. destruct I as [I|[<-|I]]; [exact (LA e kw I K)| |exact (LB e kw I K)]. cbn [fst snd]. intros X. injection X as <-. cbn in K. intuition discriminate. }
  assert (L2 : lacking [KList; KSet; KValue] (A ++ M ++ B)).
  { intros e kw I K. apply in_app_or in I. destruct I as [I|I]; [exact (LA e kw I K)|]. apply in_app_or in I. destruct I as [I|I]; [exact (LM e kw I K)|exact (LB e kw I K)]. }
  unfold object_of. rewrite !(lacking_last KList [KList; KSet; KValue]), !(lacking_last KSet [KList; KSet; KValue]), !(lacking_last KValue [KList; KSet; KValue]) by (cbn; auto).
  replace (if is_some ap && negb (ap_is ap KGraph) then @None json else None) with (@None json) by (destruct (_ && _); reflexivity).
  enough (EQ : node_entries io ld fin rnd pf o (XE n) n ap tsc c' (A ++ (k, TmKw KNest, JObj m) :: B) ((None, node_new None), false) =
               node_entries io ld fin rnd pf o (XE n) n ap tsc c' (A ++ M ++ B) ((None, node_new None), false)) by (unfold expand_node; rewrite EQ; reflexivity).
  assert (SZ : Forall (fun e : xentry => json_size (snd e) < json_size (JObj m)) M).
  { eapply flat_r_all; [|exact EM2]. intros e y I Y. apply size_entry in I. cbn beta in Y. destruct (xkey c' (fst e)) as [[t|]|]; [|cbn [bind] in Y; injection Y as <-; constructor|discriminate]. cbn [bind] in Y. injection Y as <-. constructor; [exact I|constructor]. }
  assert (LS : json_size (JObj m) + 2 < n).
  { assert (I : In (k, JObj m) (es1 ++ (k, JObj m) :: es2)) by (apply in_or_app; right; left; reflexivity). apply size_entry in I. cbn [snd] in I. lia. }
  destruct n as [|n]; [lia|]. cbn [node_entries]. rewrite !fold_r_app. match goal with |- bind ?r _ = _ => destruct r as [s|] end; [|reflexivity]. cbn [bind fold_r].
  rewrite fold_r_app. match goal with |- bind ?a _ = bind ?b _ => enough (X : a = b) by (rewrite X; reflexivity) end.
  cbn [node_entry]. unfold keyword_entry. rewrite AR. cbn [keyword_eqb has_key]. rewrite andb_false_r. cbn [force_array fold_r].
  unfold nest_entry. replace (match prop_def c' (Some k) with Some d => match nd_context d with Some lc => xprocess io ld pf c' lc (nd_base_url d) (with_override (popts_of o)) | None => Ok c' end | None => Ok c' end) with (@Ok actx xerr c').
  2:{ destruct (prop_def c' (Some k)) as [d|] eqn:PD; [rewrite (NC d PD)|]; reflexivity. }
  cbn [bind]. unfold entries_sorted. rewrite OR, EM2. cbn [bind].
  change (fold_r (node_entry io ld fin rnd pf o (XE (S n)) (node_entries io ld fin rnd pf o (XE (S n)) n ap tsc) ap c' tsc) s M) with (node_entries io ld fin rnd pf o (XE (S n)) (S n) ap tsc c' M s).
  rewrite (node_entries_fuel (XE (S n)) n (S n)) by (lia || (eapply Forall_impl; [|exact SZ]; cbn beta; intros e X; lia)).
  destruct (node_entries _ _ _ _ _ _ _ _ _ _ _ _ _); reflexivity.
Qed.

(** ** Entries without effect *)

(** The entry says nothing: its key is not read as anything, or as something that is neither a
    keyword nor an IRI nor a blank node identifier, or its value is null. *)
Definition says_nothing (c' : actx) (key : string) (v : json) : Prop :=
  xkey c' key = Ok None \/ xkey c' key = Ok (Some TmNull) \/
  (exists p, xkey c' key = Ok (Some (TmId p)) /\ id_has_colon p = false /\ xo_allow_undefined o = true /\ invalid_policy o p (XKeyExpansionFailed (id_str p)) <> Err (XKeyExpansionFailed (id_str p))) \/
  (exists p, xkey c' key = Ok (Some (TmId p)) /\ v = JNull /\ invalid_policy o p (XKeyExpansionFailed (id_str p)) <> Err (XKeyExpansionFailed (id_str p)) /\ id_has_colon p = true /\
     has_container (prop_def c' (Some key)) CKList = false /\ has_container (prop_def c' (Some key)) CKGraph = false /\ json_typed (prop_def c' (Some key)) = false).
Lemma policy_ok p e : invalid_policy o p e <> Err e -> exists b, invalid_policy o p e = Ok b.
Proof. unfold invalid_policy. destruct p; [eexists; reflexivity|eexists; reflexivity|]. destruct (xo_invalid o); try (eexists; reflexivity). congruence. Qed.
Theorem dropped_law c ap fm es1 key v es2 tsc c' : in_effect c ap (es1 ++ (key, v) :: es2) fm tsc c' -> ac_prev c = None -> key <> "@context" ->
  ~ reads tsc key KType -> says_nothing c' key v ->
  Forall (fun e => forall kw, In kw [KList; KSet; KValue] -> ~ reads c' (fst e) kw) (es1 ++ es2) ->
  alike c ap fm (JObj (es1 ++ (key, v) :: es2)) (JObj (es1 ++ es2)).
Proof.
  intros (EC & ts & TE & TS) P NC NT SN FO. apply alike_iff. exists 3. intros [|n] L; [lia|]. rewrite !expand_object.
  destruct (context_prev _ _ _ _ _ P EC) as [F H]. rewrite EC, H.
  2:{ apply Forall_app in F. destruct F as [F1 F2]. inversion F2; subst. apply Forall_app. split; assumption. }
  2:{ unfold get_unique. replace (get_all "@context" (es1 ++ (key, v) :: es2)) with (get_all "@context" (es1 ++ es2)); [reflexivity|]. unfold get_all. rewrite !filter_app. cbn [filter fst]. destruct (streq_spec key "@context"); [congruence|reflexivity]. }
  cbn [bind]. assert (TE' : type_entries io o tsc (es1 ++ es2) = Ok ts).
  { rewrite <- TE. unfold type_entries in *. rewrite !flat_r_app, flat_r_cons in *. cbn [fst] in *. unfold reads in NT. destruct (xkey tsc key) as [u|]; [|destruct (flat_r _ es1); discriminate TE]. cbn [bind].
    replace (match u with Some (TmKw KType) => [(key, v)] | _ => [] end) with (@nil (string * json)) by (destruct u as [[| |[]]|]; reflexivity || congruence).
    destruct (flat_r _ es1); [|reflexivity]. cbn [bind]. destruct (flat_r _ es2); reflexivity. }
  rewrite TE, TE'. cbn [bind]. rewrite TS. cbn [bind]. destruct (input_type io o c' ts) as [it|]; [|reflexivity]. cbn [bind].
  unfold expand_entries. rewrite !flat_r_app, flat_r_cons. cbn [fst snd].
  match goal with |- bind (bind ?r _) _ = _ => destruct r as [A|] eqn:EA end; [|reflexivity]. cbn [bind].
  assert (XO : exists t, xkey c' key = Ok t) by (destruct SN as [X|[X|[(p & X & _)|(p & X & _)]]]; eexists; exact X).
  destruct XO as [t XK]. rewrite XK. cbn [bind].
  match goal with |- bind (bind (bind ?r _) _) _ = _ => destruct r as [B|] eqn:EB end; [|reflexivity]. cbn [bind app].
  assert (FR : forall es X, flat_r (fun e => do t <- xkey c' (fst e) ; Ok (match t with Some t => [(fst e, t, snd e)] | None => [] end)) es = Ok X ->
    Forall (fun e => forall kw, In kw [KList; KSet; KValue] -> ~ reads c' (fst e) kw) es -> lacking [KList; KSet; KValue] X).
  { clear. intros es. induction es as [|e es IH]; intros X E FF; [injection E as <-; intros y kw []|]. cbn [flat_r] in E. inversion FF as [|? ? Q FF']; subst. destruct (xkey c' (fst e)) as [t|] eqn:T; [|discriminate]. cbn [bind] in E.
    destruct (flat_r _ es) as [Y|] eqn:EY; [|discriminate]. injection E as <-. intros y kw I K. apply in_app_or in I. destruct I as [I|I]; [|exact (IH Y eq_refl FF' y kw I K)]. destruct t as [t|]; [|destruct I]. destruct I as [<-|[]]. cbn [fst snd]. intros ->. apply (Q kw K). exact T. }
  apply Forall_app in FO. destruct FO as [FO1 FO2]. pose proof (FR _ _ EA FO1) as LA. pose proof (FR _ _ EB FO2) as LB. clear FR.
  destruct t as [t|]; [|reflexivity]. cbn [app].
  assert (NK : forall kw, t <> TmKw kw) by (intros kw ->; destruct SN as [X|[X|[(p & X & _)|(p & X & _)]]]; rewrite X in XK; discriminate XK).
  assert (L1 : lacking [KList; KSet; KValue] (A ++ (key, t, v) :: B)).
  { intros e kw I K. apply in_app_or in I. destruct I as [I|[<-|I]]; [exact (LA e kw I K)| |exact (LB e kw I K)]. apply NK. }
  assert (L2 : lacking [KList; KSet; KValue] (A ++ B)) by (intros e kw I K; apply in_app_or in I; destruct I as [I|I]; [exact (LA e kw I K)|exact (LB e kw I K)]).
  unfold object_of. rewrite !(lacking_last KList [KList; KSet; KValue]), !(lacking_last KSet [KList; KSet; KValue]), !(lacking_last KValue [KList; KSet; KValue]) by (cbn; auto).
  replace (if is_some ap && negb (ap_is ap KGraph) then @None json else None) with (@None json) by (destruct (_ && _); reflexivity).
  unfold expand_node. destruct n as [|n]; [reflexivity|]. cbn [node_entries]. rewrite !fold_r_app. match goal with |- context [bind (fold_r ?f ?a A)] => destruct (fold_r f a A) as [s|] end; [|reflexivity]. cbn [bind fold_r].
  match goal with |- context [bind (node_entry ?a ?b ?c ?d ?e ?f ?g ?h ?i ?j ?k s ?x) _] => enough (X : node_entry a b c d e f g h i j k s x = Ok s) by (rewrite X; reflexivity) end.
  cbn [node_entry]. destruct t as [|p|kw]; [reflexivity| |destruct (NK kw eq_refl)].
  assert (ON : forall m, m = Ok (snd (fst s)) -> (do nd <- m ; Ok (on_node (fun _ : node => nd) s)) = @Ok nstate xerr s) by (intros m ->; destruct s as [[] ?]; reflexivity). apply ON. clear ON.
  unfold property_entry. destruct SN as [X|[X|[(q & X & NCo & AU & IP)|(q & X & -> & IP & CO & NL & NG & NJ)]]]; rewrite X in XK; try discriminate XK; injection XK as ->.
  - rewrite NCo. destruct (policy_ok _ _ IP) as [b ->]. cbn [bind]. rewrite AU. reflexivity.
  - rewrite CO. destruct (policy_ok _ _ IP) as [b ->]. cbn [bind]. destruct (negb b); [reflexivity|]. unfold expand_property. unfold json_typed in NJ. rewrite NJ.
    assert (XN : XE (S n) c' (Some key) JNull false = Ok XNull) by reflexivity. rewrite XN. cbn [bind]. unfold wrap_graph, wrap_list. rewrite NL. cbn [andb]. rewrite NG. reflexivity.
Qed.
End Laws2.

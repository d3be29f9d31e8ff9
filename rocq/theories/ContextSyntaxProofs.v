(** Lemmas about the local context syntax: parsing what was printed. *)
From Verif Require Import Prelude Keyword Enums Container Json ContextSyntax.

Definition opt_entry (k : string) (o : option json) : jobject :=
  match o with Some v => [(k, v)] | None => [] end.

Lemma insert_notin k v l : ~ In k (keys l) -> insert k v l = l ++ [(k, v)].
Proof.
  induction l as [|[k' v'] l IH]; cbn; [reflexivity|]. intros N.
  destruct (streq_spec k' k) as [->|NE]; [tauto|]. rewrite IH; [reflexivity|tauto].
Qed.

Lemma keys_insert_opt k o l x : In x (keys (insert_opt k o l)) -> x = k \/ In x (keys l).
Proof. unfold insert_opt. destruct o; [rewrite keys_insert|]; tauto. Qed.

Lemma insert_opt_notin k o l : ~ In k (keys l) -> insert_opt k o l = l ++ opt_entry k o.
Proof. destruct o; cbn; [apply insert_notin|rewrite app_nil_r; reflexivity]. Qed.

Ltac solve_notin :=
  let H := fresh in
  intro H; repeat (apply keys_insert_opt in H; destruct H as [H|H]; [discriminate H|]); exact H.

Section Facts.
  Variable iri_ref_ok : string -> bool.
  Notation P := (parse_all iri_ref_ok).
  Notation tagged := (fun e : string * json => (fst e, snd e, P (snd e))).

  Lemma foldm_app {A B} (f : A -> B -> result A ctx_err) l1 l2 a :
    foldm f a (l1 ++ l2) = do a' <- foldm f a l1 ; foldm f a' l2.
  Proof.
    revert a. induction l1 as [|x l1 IH]; intros a; cbn; [reflexivity|].
    destruct (f a x); cbn; [apply IH|reflexivity].
  Qed.

  Lemma foldm_opt {A} (f : A -> string * json * parsed -> result A ctx_err) a a' k o :
    (forall v, o = Some v -> f a (k, v, P v) = Ok a') -> (o = None -> a = a') ->
    foldm f a (map tagged (opt_entry k o)) = Ok a'.
  Proof.
    intros Hs Hn. destruct o as [v|]; cbn.
    - rewrite (Hs v eq_refl). reflexivity.
    - rewrite (Hn eq_refl). reflexivity.
  Qed.

  Lemma mapm_map_inv {A B} (f : B -> result A ctx_err) (g : A -> B) l :
    Forall (fun a => f (g a) = Ok a) l -> mapm f (map g l) = Ok l.
  Proof.
    induction 1 as [|a l H _ IH]; cbn; [reflexivity|]. rewrite H. cbn. rewrite IH. reflexivity.
  Qed.

  (** Field round-trips. *)
  Lemma rt_nullable {A} (f : json -> result A ctx_err) (g : A -> json) n :
    (forall a, n = NSome a -> f (g a) = Ok a /\ g a <> JNull) ->
    nullable_of_json f (nullable_to_json g n) = Ok n.
  Proof.
    intros H. destruct n as [|a]; cbn; [reflexivity|]. destruct (H a eq_refl) as [E N].
    unfold nullable_of_json. destruct (g a); try congruence; rewrite E; reflexivity.
  Qed.

  Lemma rt_str n : nullable_of_json str_of_json (nullable_to_json JStr n) = Ok n.
  Proof. apply rt_nullable. intros a _. split; [reflexivity|discriminate]. Qed.
  Lemma rt_dir n : nullable_of_json dir_of_json (nullable_to_json (fun x => JStr (dir_str x)) n) = Ok n.
  Proof. apply rt_nullable. intros a _. cbn [dir_of_json]. rewrite dir_roundtrip. split; [reflexivity|discriminate]. Qed.
  Lemma rt_container c : container_of_json (container_to_json c) = Ok c.
  Proof.
    assert (K : forall k, ckind_of_json (ckind_to_json k) = Ok k).
    { intros k. unfold ckind_of_json, ckind_to_json. rewrite ckind_roundtrip. reflexivity. }
    destruct c as [k|l]; unfold container_of_json, container_to_json.
    - specialize (K k). unfold ckind_to_json in *. rewrite K. reflexivity.
    - rewrite mapm_map_inv; [reflexivity|]. apply Forall_forall. intros; apply K.
  Qed.
  Lemma rt_ncontainer n : nullable_of_json container_of_json (nullable_to_json container_to_json n) = Ok n.
  Proof.
    apply rt_nullable. intros a _. split; [apply rt_container|]. destruct a; discriminate.
  Qed.
  Lemma rt_dtype t : dtype_of_json (dtype_to_json t) = Ok t.
  Proof. destruct t as [[b|]]; reflexivity. Qed.

  (** What parsing guarantees about identifiers, types and nest values. *)
  Lemma tid_norm s : tid_of_str (tid_str (tid_of_str s)) = tid_of_str s.
  Proof.
    unfold tid_of_str at 2 3. destruct (kw_of_str s) as [k|] eqn:E; cbn.
    - unfold tid_of_str. rewrite kw_of_str_kw_str. reflexivity.
    - unfold tid_of_str. rewrite E. reflexivity.
  Qed.
  Lemma ttype_norm s : ttype_of_str (ttype_str (ttype_of_str s)) = ttype_of_str s.
  Proof.
    unfold ttype_of_str at 2 3. destruct (tkw_of_str s) as [k|] eqn:E; cbn.
    - unfold ttype_of_str. rewrite tkw_roundtrip. reflexivity.
    - unfold ttype_of_str. rewrite E. reflexivity.
  Qed.
  Lemma tnest_norm s n : tnest_of_str s = Ok n -> tnest_of_str (tnest_str n) = Ok n.
  Proof.
    intros H. assert (E : tnest_str n = s).
    { unfold tnest_of_str in H. destruct (streq_spec s "@nest") as [->|_].
      - injection H as <-. reflexivity.
      - destruct (is_keyword s); [discriminate|]. injection H as <-. reflexivity. }
    rewrite E. exact H.
  Qed.

  (** *** Expanded term definitions *)
  Definition texp_ok (e : texp lcontext) : Prop :=
    (forall i, te_id e = Some (NSome i) -> tid_of_str (tid_str i) = i) /\
    (forall t, te_type e = Some (NSome t) -> ttype_of_str (ttype_str t) = t) /\
    (forall c, te_context e = Some c -> p_ctx (P (context_to_json c)) = Ok c) /\
    (forall n, te_nest e = Some n -> tnest_of_str (tnest_str n) = Ok n).

  Lemma texp_obj_entries (e : texp json) : texp_to_obj e =
    ((((((((((([] ++ opt_entry "@id" (option_map (nullable_to_json (fun t => JStr (tid_str t))) (te_id e)))
    ++ opt_entry "@type" (option_map (nullable_to_json (fun t => JStr (ttype_str t))) (te_type e)))
    ++ opt_entry "@context" (te_context e))
    ++ opt_entry "@reverse" (option_map JStr (te_reverse e)))
    ++ opt_entry "@index" (option_map JStr (te_index e)))
    ++ opt_entry "@language" (option_map (nullable_to_json JStr) (te_language e)))
    ++ opt_entry "@direction" (option_map (nullable_to_json (fun x => JStr (dir_str x))) (te_direction e)))
    ++ opt_entry "@container" (option_map (nullable_to_json container_to_json) (te_container e)))
    ++ opt_entry "@nest" (option_map (fun n => JStr (tnest_str n)) (te_nest e)))
    ++ opt_entry "@prefix" (option_map JBool (te_prefix e)))
    ++ opt_entry "@propagate" (option_map JBool (te_propagate e)))
    ++ opt_entry "@protected" (option_map JBool (te_protected e)).
  Proof.
    unfold texp_to_obj.
    repeat (rewrite insert_opt_notin by solve_notin; f_equal).
  Qed.

  Lemma texp_roundtrip e : texp_ok e ->
    foldm texp_step texp_new (map tagged (texp_to_obj (texp_map context_to_json e))) = Ok e.
  Proof.
    intros (Hi & Ht & Hc & Hn). rewrite texp_obj_entries.
    destruct e as [i t c r x l d ct n pf pp pt]. cbn [texp_map te_id te_type te_context te_reverse
      te_index te_language te_direction te_container te_nest te_prefix te_propagate te_protected] in *.
    repeat (rewrite map_app, foldm_app). cbn [app map foldm bind].
    rewrite (foldm_opt _ _ (MkTExp i None None None None None None None None None None None)); cbn [bind].
    2:{ destruct i as [i|]; intros v E; [|discriminate]. injection E as <-.
        unfold texp_step, texp_new. change (kw_of_str "@id") with (Some KId). cbv iota beta.
        rewrite rt_nullable; [reflexivity|]. intros a ->. cbn. rewrite (Hi a eq_refl).
        split; [reflexivity|discriminate]. }
    2:{ destruct i; [discriminate|reflexivity]. }
    rewrite (foldm_opt _ _ (MkTExp i t None None None None None None None None None None)); cbn [bind].
    2:{ destruct t as [t|]; intros v E; [|discriminate]. injection E as <-.
        unfold texp_step. change (kw_of_str "@type") with (Some KType). cbv iota beta.
        rewrite rt_nullable; [reflexivity|]. intros a ->. cbn. rewrite (Ht a eq_refl).
        split; [reflexivity|discriminate]. }
    2:{ destruct t; [discriminate|reflexivity]. }
    rewrite (foldm_opt _ _ (MkTExp i t c None None None None None None None None None)); cbn [bind].
    2:{ destruct c as [c|]; intros v E; [|discriminate]. injection E as <-.
        unfold texp_step. change (kw_of_str "@context") with (Some KContext). cbv iota beta.
        rewrite (Hc c eq_refl). reflexivity. }
    2:{ destruct c; [discriminate|reflexivity]. }
    rewrite (foldm_opt _ _ (MkTExp i t c r None None None None None None None None)); cbn [bind].
    2:{ destruct r as [r|]; intros v E; [|discriminate]. injection E as <-. reflexivity. }
    2:{ destruct r; [discriminate|reflexivity]. }
    rewrite (foldm_opt _ _ (MkTExp i t c r x None None None None None None None)); cbn [bind].
    2:{ destruct x as [x|]; intros v E; [|discriminate]. injection E as <-. reflexivity. }
    2:{ destruct x; [discriminate|reflexivity]. }
    rewrite (foldm_opt _ _ (MkTExp i t c r x l None None None None None None)); cbn [bind].
    2:{ destruct l as [l|]; intros v E; [|discriminate]. injection E as <-.
        unfold texp_step. change (kw_of_str "@language") with (Some KLanguage). cbv iota beta.
        rewrite rt_str. reflexivity. }
    2:{ destruct l; [discriminate|reflexivity]. }
    rewrite (foldm_opt _ _ (MkTExp i t c r x l d None None None None None)); cbn [bind].
    2:{ destruct d as [d|]; intros v E; [|discriminate]. injection E as <-.
        unfold texp_step. change (kw_of_str "@direction") with (Some KDirection). cbv iota beta.
        rewrite rt_dir. reflexivity. }
    2:{ destruct d; [discriminate|reflexivity]. }
    rewrite (foldm_opt _ _ (MkTExp i t c r x l d ct None None None None)); cbn [bind].
    2:{ destruct ct as [ct|]; intros v E; [|discriminate]. injection E as <-.
        unfold texp_step. change (kw_of_str "@container") with (Some KContainer). cbv iota beta.
        rewrite rt_ncontainer. reflexivity. }
    2:{ destruct ct; [discriminate|reflexivity]. }
    rewrite (foldm_opt _ _ (MkTExp i t c r x l d ct n None None None)); cbn [bind].
    2:{ destruct n as [n|]; intros v E; [|discriminate]. injection E as <-.
        unfold texp_step. change (kw_of_str "@nest") with (Some KNest). cbv iota beta.
        unfold tnest_of_json. rewrite (Hn n eq_refl). reflexivity. }
    2:{ destruct n; [discriminate|reflexivity]. }
    rewrite (foldm_opt _ _ (MkTExp i t c r x l d ct n pf None None)); cbn [bind].
    2:{ destruct pf as [pf|]; intros v E; [|discriminate]. injection E as <-. reflexivity. }
    2:{ destruct pf; [discriminate|reflexivity]. }
    rewrite (foldm_opt _ _ (MkTExp i t c r x l d ct n pf pp None)); cbn [bind].
    2:{ destruct pp as [pp|]; intros v E; [|discriminate]. injection E as <-. reflexivity. }
    2:{ destruct pp; [discriminate|reflexivity]. }
    rewrite (foldm_opt _ _ (MkTExp i t c r x l d ct n pf pp pt)); cbn [bind].
    { reflexivity. }
    { destruct pt as [pt|]; intros v E; [|discriminate]. injection E as <-. reflexivity. }
    { destruct pt; [discriminate|reflexivity]. }
  Qed.

  (** *** Context definitions *)
  Definition handled (k : string) : bool :=
    match kw_of_str k with
    | Some (KBase | KImport | KLanguage | KDirection | KPropagate | KProtected | KType | KVersion | KVocab) => true
    | _ => false
    end.

  Definition cdef_ok (d : cdef tdef) : Prop :=
    (forall b, cd_base d = Some (NSome b) -> iri_ref_ok b = true) /\
    (forall b, cd_import d = Some b -> iri_ref_ok b = true) /\
    NoDup (keys (cd_bindings d)) /\
    Forall (fun b => handled (fst b) = false /\
                     forall t, snd b = NSome t -> p_tdef (P (tdef_to_json t)) = Ok t) (cd_bindings d).

  Lemma cdef_obj_entries (d : cdef json) :
    NoDup (keys (cd_bindings d)) -> Forall (fun b => handled (fst b) = false) (cd_bindings d) ->
    cdef_to_obj d =
    ((((((((([] ++ opt_entry "@base" (option_map (nullable_to_json JStr) (cd_base d)))
    ++ opt_entry "@import" (option_map JStr (cd_import d)))
    ++ opt_entry "@language" (option_map (nullable_to_json JStr) (cd_language d)))
    ++ opt_entry "@direction" (option_map (nullable_to_json (fun x => JStr (dir_str x))) (cd_direction d)))
    ++ opt_entry "@propagate" (option_map JBool (cd_propagate d)))
    ++ opt_entry "@protected" (option_map JBool (cd_protected d)))
    ++ opt_entry "@type" (option_map dtype_to_json (cd_type d)))
    ++ opt_entry "@version" (option_map (fun _ => JNum "1.1") (cd_version d)))
    ++ opt_entry "@vocab" (option_map (nullable_to_json JStr) (cd_vocab d)))
    ++ map (fun b => (fst b, nullable_to_json (fun j => j) (snd b))) (cd_bindings d).
  Proof.
    intros ND HF. unfold cdef_to_obj.
    match goal with |- fold_left ?f _ ?init = _ => set (F := f); set (o := init) end.
    assert (Ho : forall k, In k (keys o) -> handled k = true).
    { subst o. intros k H.
      repeat (apply keys_insert_opt in H; destruct H as [->|H]; [reflexivity|]). destruct H. }
    assert (G : forall l o, NoDup (keys l) -> (forall k, In k (keys l) -> ~ In k (keys o)) ->
      fold_left F l o = o ++ map (fun b => (fst b, nullable_to_json (fun j => j) (snd b))) l).
    { clear. induction l as [|[k v] l IH]; intros o ND HN; cbn [fold_left map].
      - rewrite app_nil_r. reflexivity.
      - inversion ND; subst. rewrite IH; auto.
        + unfold F at 1. cbn [fst snd]. rewrite insert_notin by (apply HN; left; reflexivity).
          rewrite <- app_assoc. reflexivity.
        + intros k' Hk' Hin. unfold F in Hin. cbn [fst] in Hin. apply keys_insert in Hin.
          destruct Hin as [->|Hin]; [contradiction|]. apply (HN k'); [right; exact Hk'|exact Hin]. }
    rewrite G; auto.
    - f_equal. subst o. repeat (rewrite insert_opt_notin by solve_notin; f_equal).
    - intros k Hk Hin. apply Ho in Hin. unfold keys in Hk. apply in_map_iff in Hk.
      destruct Hk as (b & <- & Hb). rewrite Forall_forall in HF. rewrite (HF b Hb) in Hin. discriminate.
  Qed.

  Lemma tdef_to_json_not_null t : tdef_to_json t <> JNull.
  Proof. destruct t; discriminate. Qed.

  Lemma handled_step d k v p :
    handled k = false ->
    cdef_step iri_ref_ok d (k, v, p) =
      (do a <- match v with JNull => Ok NNull | _ => do t <- p_tdef p ; Ok (NSome t) end ;
       match assoc k (cd_bindings d) with
       | Some _ => Err XDuplicateKey
       | None => Ok (MkDef (cd_base d) (cd_import d) (cd_language d) (cd_direction d) (cd_propagate d)
                  (cd_protected d) (cd_type d) (cd_version d) (cd_vocab d) (cd_bindings d ++ [(k, a)]))
       end).
  Proof.
    intros H. destruct d. unfold cdef_step, handled in *.
    destruct (kw_of_str k) as [[]|]; try discriminate H; reflexivity.
  Qed.

  Lemma bindings_roundtrip l : forall ba im la di pg pt ty ve vo pre,
    NoDup (keys (pre ++ l)) ->
    Forall (fun b => handled (fst b) = false /\
                     forall t, snd b = NSome t -> p_tdef (P (tdef_to_json t)) = Ok t) l ->
    foldm (cdef_step iri_ref_ok) (MkDef ba im la di pg pt ty ve vo pre)
      (map tagged (map (fun b => (fst b, nullable_to_json (fun j => j) (snd b))) (map_bindings tdef_to_json l)))
    = Ok (MkDef ba im la di pg pt ty ve vo (pre ++ l)).
  Proof.
    induction l as [|[k n] l IH]; intros ba im la di pg pt ty ve vo pre ND HF.
    - cbn. rewrite app_nil_r. reflexivity.
    - inversion HF as [|? ? [Hk Ht] HF']; subst. cbn [fst snd] in *.
      cbn [map map_bindings fst snd foldm].
      rewrite handled_step by exact Hk. cbn [cd_bindings cd_base cd_import cd_language cd_direction cd_propagate
        cd_protected cd_type cd_version cd_vocab].
      assert (E : match nullable_to_json (fun j : json => j)
                      match n with NNull => NNull | NSome a => NSome (tdef_to_json a) end with
                  | JNull => Ok NNull
                  | _ => do t <- p_tdef (P (nullable_to_json (fun j : json => j)
                      match n with NNull => NNull | NSome a => NSome (tdef_to_json a) end)) ; Ok (NSome t)
                  end = (Ok n : result (nullable tdef) ctx_err)).
      { destruct n as [|t]; cbn [nullable_to_json]; [reflexivity|]. specialize (Ht t eq_refl).
        pose proof (tdef_to_json_not_null t) as NN. rewrite Ht. cbn [bind].
        destruct (tdef_to_json t); congruence. }
      rewrite E. cbn [bind].
      assert (A : assoc k pre = None).
      { apply assoc_None_notin. intros Hin. unfold keys in ND. rewrite map_app in ND. cbn in ND.
        apply NoDup_remove_2 in ND. apply ND. apply in_or_app. left. exact Hin. }
      rewrite A. cbn [bind].
      change (pre ++ (k, n) :: l) with (pre ++ [(k, n)] ++ l) in ND |- *.
      rewrite app_assoc in ND |- *. apply IH; assumption.
  Qed.

  Lemma cdef_roundtrip d : cdef_ok d ->
    foldm (cdef_step iri_ref_ok) cdef_new (map tagged (cdef_to_obj (cdef_map tdef_to_json d))) = Ok d.
  Proof.
    intros (Hb & Hi & ND & HF). destruct d as [ba im la di pg pt ty ve vo bi]. cbn [cd_bindings cd_base cd_import] in *.
    rewrite cdef_obj_entries; cbn [cdef_map cd_bindings cd_base cd_import cd_language cd_direction cd_propagate
        cd_protected cd_type cd_version cd_vocab].
    2:{ unfold keys, map_bindings. rewrite map_map. exact ND. }
    2:{ apply Forall_map. eapply Forall_impl; [|exact HF]. intros b [H _]. exact H. }
    repeat (rewrite map_app, foldm_app). cbn [app map foldm bind].
    rewrite (foldm_opt _ _ (MkDef ba None None None None None None None None [])); cbn [bind].
    2:{ destruct ba as [b|]; intros v E; [|discriminate]. injection E as <-.
        unfold cdef_step, cdef_new. change (kw_of_str "@base") with (Some KBase). cbv iota beta.
        rewrite rt_nullable; [reflexivity|]. intros a ->. cbn. rewrite (Hb a eq_refl).
        split; [reflexivity|discriminate]. }
    2:{ destruct ba; [discriminate|reflexivity]. }
    rewrite (foldm_opt _ _ (MkDef ba im None None None None None None None [])); cbn [bind].
    2:{ destruct im as [b|]; intros v E; [|discriminate]. injection E as <-.
        unfold cdef_step. change (kw_of_str "@import") with (Some KImport). cbv iota beta.
        cbn [iriref_of_json]. rewrite (Hi b eq_refl). reflexivity. }
    2:{ destruct im; [discriminate|reflexivity]. }
    rewrite (foldm_opt _ _ (MkDef ba im la None None None None None None [])); cbn [bind].
    2:{ destruct la as [b|]; intros v E; [|discriminate]. injection E as <-.
        unfold cdef_step. change (kw_of_str "@language") with (Some KLanguage). cbv iota beta.
        rewrite rt_str. reflexivity. }
    2:{ destruct la; [discriminate|reflexivity]. }
    rewrite (foldm_opt _ _ (MkDef ba im la di None None None None None [])); cbn [bind].
    2:{ destruct di as [b|]; intros v E; [|discriminate]. injection E as <-.
        unfold cdef_step. change (kw_of_str "@direction") with (Some KDirection). cbv iota beta.
        rewrite rt_dir. reflexivity. }
    2:{ destruct di; [discriminate|reflexivity]. }
    rewrite (foldm_opt _ _ (MkDef ba im la di pg None None None None [])); cbn [bind].
    2:{ destruct pg as [b|]; intros v E; [|discriminate]. injection E as <-. reflexivity. }
    2:{ destruct pg; [discriminate|reflexivity]. }
    rewrite (foldm_opt _ _ (MkDef ba im la di pg pt None None None [])); cbn [bind].
    2:{ destruct pt as [b|]; intros v E; [|discriminate]. injection E as <-. reflexivity. }
    2:{ destruct pt; [discriminate|reflexivity]. }
    rewrite (foldm_opt _ _ (MkDef ba im la di pg pt ty None None [])); cbn [bind].
    2:{ destruct ty as [b|]; intros v E; [|discriminate]. injection E as <-.
        unfold cdef_step. change (kw_of_str "@type") with (Some KType). cbv iota beta.
        rewrite rt_dtype. reflexivity. }
    2:{ destruct ty; [discriminate|reflexivity]. }
    rewrite (foldm_opt _ _ (MkDef ba im la di pg pt ty ve None [])); cbn [bind].
    2:{ destruct ve as [[]|]; intros v E; [|discriminate]. injection E as <-. reflexivity. }
    2:{ destruct ve; [discriminate|reflexivity]. }
    rewrite (foldm_opt _ _ (MkDef ba im la di pg pt ty ve vo [])); cbn [bind].
    2:{ destruct vo as [b|]; intros v E; [|discriminate]. injection E as <-.
        unfold cdef_step. change (kw_of_str "@vocab") with (Some KVocab). cbv iota beta.
        rewrite rt_str. reflexivity. }
    2:{ destruct vo; [discriminate|reflexivity]. }
    apply (bindings_roundtrip bi); assumption.
  Qed.

  (** *** What a successful parse returns *)
  Definition rt_ok (j : json) : Prop :=
    (forall e, p_entry (P j) = Ok e -> p_entry (P (entry_to_json e)) = Ok e) /\
    (forall t, p_tdef (P j) = Ok t -> p_tdef (P (tdef_to_json t)) = Ok t) /\
    (forall c, p_ctx (P j) = Ok c -> p_ctx (P (context_to_json c)) = Ok c).

  Lemma foldm_inv {A B} (f : A -> B -> result A ctx_err) (I : A -> Prop) (Q : B -> Prop) :
    (forall a b a', I a -> Q b -> f a b = Ok a' -> I a') ->
    forall l a a', Forall Q l -> I a -> foldm f a l = Ok a' -> I a'.
  Proof.
    intros Hf. induction l as [|b l IH]; intros a a' HQ Ha H; cbn in H.
    - injection H as <-. exact Ha.
    - inversion HQ as [|? ? Qb Ql]; subst. destruct (f a b) as [a1|] eqn:E; [|discriminate]. cbn in H.
      exact (IH a1 a' Ql (Hf a b a1 Ha Qb E) H).
  Qed.

  Ltac inv_bind H :=
    match type of H with
    | bind ?x _ = Ok _ => let E := fresh "E" in let a := fresh "a" in
        destruct x as [a|] eqn:E; [cbn [bind] in H|discriminate H]
    end.

  Lemma nullable_inv {A} (f : json -> result A ctx_err) j n a :
    nullable_of_json f j = Ok n -> n = NSome a -> f j = Ok a.
  Proof.
    unfold nullable_of_json. intros H ->.
    destruct j; try discriminate H; inv_bind H; injection H as ->; reflexivity.
  Qed.

  Lemma texp_step_inv e b e' :
    texp_ok e -> (let '(k, v, p) := b in p = P v /\ rt_ok v) -> texp_step e b = Ok e' -> texp_ok e'.
  Proof.
    destruct b as [[k v] p]. intros (Hi & Ht & Hc & Hn) [-> (_ & _ & Rc)] H.
    destruct e as [i t c r x l d ct n pf pp pt]. unfold texp_ok in *. cbn [te_id te_type te_context te_nest] in *.
    unfold texp_step in H. destruct (kw_of_str k) as [[]|]; try discriminate H;
      inv_bind H; injection H as <-; cbn [te_id te_type te_context te_nest];
      repeat split; auto.
    - intros y Hy. injection Hy as ->. apply Rc. reflexivity.
    - intros y Hy. injection Hy as Hy. eapply nullable_inv in E; [|exact Hy].
      destruct v; try discriminate E. injection E as <-. apply tid_norm.
    - intros y Hy. injection Hy as ->. unfold tnest_of_json in E. destruct v; try discriminate E.
      eapply tnest_norm; exact E.
    - intros y Hy. injection Hy as Hy. eapply nullable_inv in E; [|exact Hy].
      destruct v; try discriminate E. injection E as <-. apply ttype_norm.
  Qed.

  Lemma cdef_step_inv e b e' :
    cdef_ok e -> (let '(k, v, p) := b in p = P v /\ rt_ok v) ->
    cdef_step iri_ref_ok e b = Ok e' -> cdef_ok e'.
  Proof.
    destruct b as [[k v] p]. intros (Hb & Hi & ND & HF) [-> (_ & Rt & _)] H.
    assert (IR : forall j s, iriref_of_json iri_ref_ok j = Ok s -> iri_ref_ok s = true).
    { intros j s Hj. destruct j; try discriminate Hj. cbn in Hj.
      destruct (iri_ref_ok s0) eqn:E; [|discriminate]. injection Hj as <-. exact E. }
    destruct (handled k) eqn:HK.
    - destruct e as [ba im la di pg pt ty ve vo bi]. unfold cdef_ok in *.
      cbn [cd_base cd_import cd_bindings] in *.
      unfold cdef_step in H. unfold handled in HK.
      destruct (kw_of_str k) as [[]|]; try discriminate HK; clear HK;
        inv_bind H; injection H as <-; cbn [cd_base cd_import cd_bindings]; repeat split; auto.
      + intros y Hy. injection Hy as Hy. eapply nullable_inv in E; [|exact Hy]. eapply IR; exact E.
      + intros y Hy. injection Hy as <-. eapply IR; exact E.
    - rewrite handled_step in H by exact HK. inv_bind H.
      destruct (assoc k (cd_bindings e)) eqn:A; [discriminate|]. injection H as <-.
      unfold cdef_ok. cbn [cd_base cd_import cd_bindings]. repeat split; auto.
      + unfold keys. rewrite map_app. cbn [map fst]. apply NoDup_Add with (a := k) (l := keys (cd_bindings e)).
        { rewrite <- (app_nil_r (keys (cd_bindings e))) at 1. apply Add_app. }
        split; [exact ND|]. apply assoc_None_notin. exact A.
      + apply Forall_app. split; [exact HF|]. constructor; [|constructor]. cbn [fst snd].
        split; [exact HK|]. intros t ->. apply Rt.
        destruct v; try discriminate E; inv_bind E; injection E as ->; reflexivity.
  Qed.

  Lemma entry_not_arr e : forall l, entry_to_json e <> JArr l.
  Proof. destruct e; discriminate. Qed.

  Lemma p_ctx_one j : (forall l, j <> JArr l) -> p_ctx (P j) = do e <- p_entry (P j) ; Ok (LOne e).
  Proof. destruct j; intros H; try reflexivity. destruct (H l eq_refl). Qed.

  Lemma parse_rt j : rt_ok j.
  Proof.
    assert (One : forall j, (forall l, j <> JArr l) ->
      (forall e, p_entry (P j) = Ok e -> p_entry (P (entry_to_json e)) = Ok e) ->
      forall c, p_ctx (P j) = Ok c -> p_ctx (P (context_to_json c)) = Ok c).
    { intros k Hk He c Hc. rewrite p_ctx_one in Hc by exact Hk. inv_bind Hc. injection Hc as <-.
      cbn [context_to_json]. rewrite p_ctx_one by apply entry_not_arr. rewrite (He a eq_refl). reflexivity. }
    induction j as [|b|n|s|l IH|l IH] using json_ind'; unfold rt_ok.
    - assert (He : forall e, p_entry (P JNull) = Ok e -> p_entry (P (entry_to_json e)) = Ok e).
      { intros e H. injection H as <-. reflexivity. }
      repeat split; auto. discriminate. apply One; [discriminate|exact He].
    - repeat split; discriminate.
    - repeat split; discriminate.
    - assert (He : forall e, p_entry (P (JStr s)) = Ok e -> p_entry (P (entry_to_json e)) = Ok e).
      { intros e H. cbn in H. destruct (iri_ref_ok s) eqn:E; [|discriminate]. injection H as <-. cbn. rewrite E. reflexivity. }
      repeat split; auto.
      + intros t H. injection H as <-. reflexivity.
      + apply One; [discriminate|exact He].
    - repeat split; try discriminate. intros c H. cbn [parse_all p_ctx] in H. inv_bind H. injection H as <-.
      cbn [context_to_json parse_all p_ctx].
      assert (G : mapm p_entry (map P (map entry_to_json a)) = Ok a).
      { clear One. revert a E. induction IH as [|x l Hx _ IHl]; intros a E.
        - injection E as <-. reflexivity.
        - cbn [map mapm] in E. inv_bind E. inv_bind E. injection E as <-.
          destruct Hx as (Hx & _ & _). cbn [map mapm]. rewrite (Hx a0 E0). cbn [bind].
          rewrite (IHl a1 eq_refl). reflexivity. }
      change (parse_all iri_ref_ok) with P. rewrite G. reflexivity.
    - assert (Tag : Forall (fun b => let '(k, v, p) := b in p = P v /\ rt_ok v) (map tagged l)).
      { apply Forall_map. eapply Forall_impl; [|exact IH]. intros [k v] H. split; [reflexivity|exact H]. }
      assert (He : forall e, p_entry (P (JObj l)) = Ok e -> p_entry (P (entry_to_json e)) = Ok e).
      { intros e H. cbn [parse_all p_entry] in H. inv_bind H. injection H as <-.
        cbn [entry_to_json parse_all p_entry]. rewrite cdef_roundtrip; [reflexivity|].
        revert E. apply foldm_inv with (Q := fun b => let '(k, v, p) := b in p = P v /\ rt_ok v).
        - intros x b x'. apply cdef_step_inv.
        - exact Tag.
        - unfold cdef_ok, cdef_new. cbn. repeat split; try discriminate; constructor. }
      repeat split; auto.
      + intros t H. cbn [parse_all p_tdef] in H. inv_bind H. injection H as <-.
        cbn [tdef_to_json parse_all p_tdef]. rewrite texp_roundtrip; [reflexivity|].
        revert E. apply foldm_inv with (Q := fun b => let '(k, v, p) := b in p = P v /\ rt_ok v).
        * intros x b x'. apply texp_step_inv.
        * exact Tag.
        * unfold texp_ok, texp_new. cbn. repeat split; discriminate.
      + apply One; [discriminate|exact He].
  Qed.

  (** *** Every well-formed context is read back *)
  Lemma handled_spec k : handled k = true <-> In k definition_entries.
  Proof.
    unfold handled. split.
    - destruct (kw_of_str k) as [kw|] eqn:E; [|discriminate]. apply kw_of_str_sound in E. subst k.
      destruct kw; try discriminate; intros _; cbn; tauto.
    - intros H. cbn in H. repeat (destruct H as [<-|H]; [reflexivity|]). destruct H.
  Qed.

  Lemma tid_wf i : (forall s, i = TIdTerm s -> forall k, s <> kw_str k) -> tid_of_str (tid_str i) = i.
  Proof.
    intros H. destruct i as [k|s]; cbn; unfold tid_of_str.
    - rewrite kw_of_str_kw_str. reflexivity.
    - destruct (kw_of_str s) as [k|] eqn:E; [|reflexivity]. apply kw_of_str_sound in E.
      destruct (H s eq_refl k E).
  Qed.
  Lemma ttype_wf i : (forall s, i = TTyTerm s -> forall k, s <> tkw_str k) -> ttype_of_str (ttype_str i) = i.
  Proof.
    intros H. destruct i as [k|s]; cbn; unfold ttype_of_str.
    - rewrite tkw_roundtrip. reflexivity.
    - destruct (tkw_of_str s) as [k|] eqn:E; [|reflexivity]. apply tkw_sound in E.
      destruct (H s eq_refl k E).
  Qed.
  Lemma tnest_wf i : (forall s, i = TNestTerm s -> forall k, s <> kw_str k) -> tnest_of_str (tnest_str i) = Ok i.
  Proof.
    intros H. destruct i as [|s]; [reflexivity|]. cbn [tnest_str]. unfold tnest_of_str.
    destruct (streq_spec s "@nest") as [->|_].
    - destruct (H "@nest" eq_refl KNest eq_refl).
    - destruct (is_keyword s) eqn:E; [|reflexivity]. apply is_keyword_iff in E. destruct E as [k E].
      destruct (H s eq_refl k E).
  Qed.

  Lemma wf_roundtrip :
    (forall c, wf_ctx iri_ref_ok c -> p_ctx (P (context_to_json c)) = Ok c).
  Proof.
    intros c. pattern c. revert c.
    apply (lcontext_ind' _
      (fun e => wf_entry iri_ref_ok e -> p_entry (P (entry_to_json e)) = Ok e)
      (fun t => wf_tdef iri_ref_ok t -> p_tdef (P (tdef_to_json t)) = Ok t)).
    - intros e IH W. inversion W as [? We|]; subst. cbn [context_to_json].
      rewrite p_ctx_one by apply entry_not_arr. rewrite (IH We). reflexivity.
    - intros l IH W. inversion W as [|? Wl]; subst. cbn [context_to_json parse_all p_ctx].
      assert (G : mapm p_entry (map P (map entry_to_json l)) = Ok l).
      { clear W. induction IH as [|x l Hx _ IHl]; [reflexivity|]. inversion Wl; subst.
        cbn [map mapm]. rewrite Hx by assumption. cbn [bind]. rewrite IHl by assumption. reflexivity. }
      change (parse_all iri_ref_ok) with P. rewrite G. reflexivity.
    - reflexivity.
    - intros s W. inversion W; subst. cbn. rewrite H0. reflexivity.
    - intros d IH W. inversion W as [| |? Hb Hi ND HK HT]; subst.
      cbn [entry_to_json parse_all p_entry]. rewrite cdef_roundtrip; [reflexivity|].
      repeat split; auto. rewrite Forall_forall in *. intros [k n] Hin. cbn [fst snd]. split.
      + destruct (handled k) eqn:E; [|reflexivity]. apply handled_spec in E. destruct (HK _ Hin E).
      + intros t ->. apply (IH _ Hin). eapply HT. exact Hin.
    - reflexivity.
    - intros e IH W. inversion W as [|? Hi Ht Hn Hc]; subst.
      cbn [tdef_to_json parse_all p_tdef]. rewrite texp_roundtrip; [reflexivity|]. repeat split.
      + intros i E. apply tid_wf. intros s ->. exact (Hi s E).
      + intros i E. apply ttype_wf. intros s ->. exact (Ht s E).
      + intros c E. rewrite E in IH. auto.
      + intros i E. apply tnest_wf. intros s ->. exact (Hn s E).
  Qed.

  Theorem context_roundtrip j c :
    context_of_json iri_ref_ok j = Ok c -> context_of_json iri_ref_ok (context_to_json c) = Ok c.
  Proof. apply (parse_rt j). Qed.
End Facts.

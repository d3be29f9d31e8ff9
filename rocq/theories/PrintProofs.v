(** Printing is laying out a JSON value. *)
From Verif Require Import Prelude Json Enums LangTag LangString Str Keyword Container ContextSyntax ContextSyntaxProofs Ctx Process Object ObjectEq ObjectJson ObjectJsonProofs Print.

Section Layout.
  Context {sz : Type}.
  Variable lo : layout sz.
  Notation pre := (json_pre lo).
  Notation fmt := (json_fmt lo).
  Definition pre_all (l : jobject) : list (string * sized) := map (fun e => (fst e, pre (snd e))) l.
  Definition fmt_all (l : jobject) : list (string * printer) := map (fun e => (fst e, fmt (snd e))) l.

  Lemma size_spec j : fst (pre j) = size_of lo j.
  Proof.
    induction j as [| | | |l IH|l IH] using json_ind'; try reflexivity; cbn.
    - f_equal. rewrite map_map. apply map_ext_Forall. exact IH.
    - f_equal. rewrite map_map. apply map_ext_Forall. eapply Forall_impl; [|exact IH]. intros e E. cbn. rewrite E. reflexivity.
  Qed.

  Definition lays_out (j : json) : Prop := forall indent rest,
    fmt j indent (snd (pre j) ++ rest) = Some (text_of lo j indent, rest).

  Lemma in_order_spec l : Forall lays_out l -> forall indent rest,
    in_order (map fmt l) indent (flat_map snd (map pre l) ++ rest) = Some (map (fun x => text_of lo x indent) l, rest).
  Proof.
    induction 1 as [|x l H F IH]; intros indent rest; [reflexivity|]. cbn.
    rewrite <- app_assoc, H, IH. reflexivity.
  Qed.

  Lemma combine_texts (l : jobject) (f : json -> string) : combine (map fst l) (map f (map snd l)) = map (fun e => (fst e, f (snd e))) l.
  Proof. induction l as [|[k v] l IH]; [reflexivity|]. cbn. rewrite IH. reflexivity. Qed.

  Lemma layout_spec j : lays_out j.
  Proof.
    induction j as [| | | |l IH|l IH] using json_ind'; intros indent rest; try reflexivity.
    - destruct l as [|x l]; [reflexivity|].
      pose proof (in_order_spec _ IH) as E. pose proof (size_spec (JArr (x :: l))) as Z.
      cbn [json_fmt json_pre text_of array_size snd fst app] in *. unfold print_array. rewrite Z.
      replace (Nat.eqb (length (x :: l)) 0) with false by reflexivity. rewrite E. reflexivity.
    - destruct l as [|x l]; [reflexivity|].
      assert (IH' : Forall lays_out (map snd (x :: l))) by (apply Forall_map; exact IH).
      pose proof (in_order_spec _ IH') as E. pose proof (size_spec (JObj (x :: l))) as Z.
      cbn [json_fmt json_pre text_of object_size snd fst app] in *. unfold print_object. rewrite Z.
      replace (Nat.eqb (length (x :: l)) 0) with false by reflexivity.
      replace (map snd (map (fun e => (fst e, fmt (snd e))) (x :: l))) with (map fmt (map snd (x :: l))) by (rewrite !map_map; reflexivity).
      replace (flat_map (fun e => snd (snd e)) (map (fun e => (fst e, pre (snd e))) (x :: l))) with (flat_map snd (map pre (map snd (x :: l)))).
      2: { rewrite !flat_map_concat_map, !map_map. reflexivity. }
      rewrite E. f_equal. f_equal. f_equal. rewrite map_map. cbn [fst]. change (map (fun x0 : string * json => fst x0) (x :: l)) with (map fst (x :: l)).
      rewrite combine_texts. reflexivity.
  Qed.

  Lemma run_spec j p f indent : p = pre j -> (forall indent sizes, f indent sizes = fmt j indent sizes) ->
    run p f indent = Some (text_of lo j indent).
  Proof.
    intros -> F. unfold run. rewrite F. rewrite <- (app_nil_r (snd (pre j))), layout_spec. reflexivity.
  Qed.

  (** ** Documents *)
  Lemma pre_all_app l m : pre_all (l ++ m) = pre_all l ++ pre_all m. Proof. apply map_app. Qed.
  Lemma fmt_all_app l m : fmt_all (l ++ m) = fmt_all l ++ fmt_all m. Proof. apply map_app. Qed.
  Lemma pre_all_of {A} k (o : option A) f : pre_all (entry_of k o f) = entry_of k o (fun a => pre (f a)).
  Proof. destruct o; reflexivity. Qed.
  Lemma fmt_all_of {A} k (o : option A) f : fmt_all (entry_of k o f) = entry_of k o (fun a => fmt (f a)).
  Proof. destruct o; reflexivity. Qed.
  Lemma length_of {A B} k (o : option A) (f : A -> B) : length (entry_of k o f) = flag o.
  Proof. destruct o; reflexivity. Qed.
  Lemma entry_ext {A B} k (o : option A) (f g : A -> B) : (forall a, o = Some a -> f a = g a) -> entry_of k o f = entry_of k o g.
  Proof. destruct o as [a|]; [|reflexivity]. intros H. cbn. rewrite (H a eq_refl). reflexivity. Qed.

  Lemma value_spec v : value_pre lo v = pre_all (value_shown v) /\ value_fmt lo v = fmt_all (value_shown v) /\ value_len v = length (value_shown v).
  Proof.
    destruct v as [l t|[d l r]|j]; [destruct l, t|destruct l, r|]; repeat split; reflexivity.
  Qed.

  Definition object_spec (p : list (string * sized)) (f : list (string * printer)) (n : nat) (m : jobject) : Prop :=
    p = pre_all m /\ f = fmt_all m /\ n = length m.
  Lemma json_pre_obj m : pre (JObj m) = object_size lo (pre_all m). Proof. reflexivity. Qed.
  Lemma json_fmt_obj m : fmt (JObj m) = print_object lo (length m) (fmt_all m). Proof. reflexivity. Qed.
  Lemma json_pre_arr l : pre (JArr l) = array_size lo (map pre l). Proof. reflexivity. Qed.
  Lemma json_fmt_arr l : fmt (JArr l) = print_array lo (length l) (map fmt l). Proof. reflexivity. Qed.

  Lemma iobject_spec i p f n m : object_spec p f n m ->
    indexed_object_pre lo i p = pre (JObj (entry_of "@value" i JStr ++ m)) /\
    indexed_object_fmt lo i n f = fmt (JObj (entry_of "@value" i JStr ++ m)).
  Proof.
    intros (-> & -> & ->). unfold indexed_object_pre, indexed_object_fmt. rewrite json_pre_obj, json_fmt_obj, pre_all_app, fmt_all_app, pre_all_of, fmt_all_of.
    rewrite app_length, length_of, Nat.add_comm. split; reflexivity.
  Qed.
  Lemma inode_spec i p f n m : object_spec p f n m ->
    indexed_node_pre lo i p = pre (JObj (entry_of "@index" i JStr ++ m)) /\
    indexed_node_fmt lo i n f = fmt (JObj (entry_of "@index" i JStr ++ m)).
  Proof.
    intros (-> & -> & ->). unfold indexed_node_pre, indexed_node_fmt. rewrite json_pre_obj, json_fmt_obj, pre_all_app, fmt_all_app, pre_all_of, fmt_all_of.
    rewrite app_length, length_of, Nat.add_comm. split; reflexivity.
  Qed.

  Notation show := (obj_shown "@value").
  Notation nshow := (node_shown "@value").
  Definition o_ok (o : obj) : Prop := object_spec (obj_pre lo o) (obj_fmt lo o) (obj_len o) (show o).
  Definition n_ok (n : node) : Prop := object_spec (node_pre lo n) (node_fmt lo n) (node_len n) (nshow n).

  Lemma objects_spec (l : list iobj) : Forall (fun x => o_ok (snd x)) l ->
    array_size lo (map (fun x => indexed_object_pre lo (fst x) (obj_pre lo (snd x))) l) = pre (JArr (map (fun x => JObj (entry_of "@value" (fst x) JStr ++ show (snd x))) l)) /\
    print_array lo (length l) (map (fun x => indexed_object_fmt lo (fst x) (obj_len (snd x)) (obj_fmt lo (snd x))) l)
      = fmt (JArr (map (fun x => JObj (entry_of "@value" (fst x) JStr ++ show (snd x))) l)).
  Proof.
    intros H. rewrite json_pre_arr, json_fmt_arr, map_length, !map_map. split; f_equal; apply map_ext_Forall; (eapply Forall_impl; [|exact H]);
      intros x X; apply (iobject_spec (fst x) _ _ _ _ X).
  Qed.
  Lemma nodes_spec (l : list inode) : Forall (fun x => n_ok (snd x)) l ->
    array_size lo (map (fun x => indexed_node_pre lo (fst x) (node_pre lo (snd x))) l) = pre (JArr (map (fun x => JObj (entry_of "@index" (fst x) JStr ++ nshow (snd x))) l)) /\
    print_array lo (length l) (map (fun x => indexed_node_fmt lo (fst x) (node_len (snd x)) (node_fmt lo (snd x))) l)
      = fmt (JArr (map (fun x => JObj (entry_of "@index" (fst x) JStr ++ nshow (snd x))) l)).
  Proof.
    intros H. rewrite json_pre_arr, json_fmt_arr, map_length, !map_map. split; f_equal; apply map_ext_Forall; (eapply Forall_impl; [|exact H]);
      intros x X; apply (inode_spec (fst x) _ _ _ _ X).
  Qed.

  Lemma object_both : (forall o, o_ok o) /\ (forall n, n_ok n).
  Proof.
    apply obj_node_ind.
    - intros v. apply value_spec.
    - intros n H. exact H.
    - intros l H. destruct (objects_spec l H) as [P F]. split; [|split; [|reflexivity]]; cbn [obj_pre obj_fmt obj_shown pre_all fmt_all map fst snd].
      + unfold iobj in *. rewrite P. reflexivity.
      + unfold iobj in *. rewrite F. reflexivity.
    - intros i ts g inc ps rs Hg Hi Hp Hr.
      split; [|split]; cbn [node_pre node_fmt node_shown node_len].
      + rewrite !pre_all_app, !pre_all_of. f_equal. f_equal; [|f_equal; [|f_equal; [|f_equal]]].
        * apply entry_ext. intros l _. rewrite json_pre_arr, map_map. reflexivity.
        * apply entry_ext. intros l ->. apply (objects_spec l Hg).
        * apply entry_ext. intros l ->. apply (nodes_spec l Hi).
        * apply entry_ext. intros l ->. rewrite json_pre_obj. f_equal. unfold pre_all. rewrite map_map. apply map_ext_Forall.
          eapply Forall_impl; [|exact Hr]. intros p X. cbn [fst snd]. f_equal. apply (nodes_spec (snd p) X).
        * unfold pre_all. rewrite map_map. apply map_ext_Forall.
          eapply Forall_impl; [|exact Hp]. intros p X. cbn [fst snd]. f_equal. apply (objects_spec (snd p) X).
      + rewrite !fmt_all_app, !fmt_all_of. f_equal. f_equal; [|f_equal; [|f_equal; [|f_equal]]].
        * apply entry_ext. intros l _. rewrite json_fmt_arr, map_map, map_length. reflexivity.
        * apply entry_ext. intros l ->. apply (objects_spec l Hg).
        * apply entry_ext. intros l ->. apply (nodes_spec l Hi).
        * apply entry_ext. intros l ->. rewrite json_fmt_obj, map_length. f_equal. unfold fmt_all. rewrite map_map. apply map_ext_Forall.
          eapply Forall_impl; [|exact Hr]. intros p X. cbn [fst snd]. f_equal. apply (nodes_spec (snd p) X).
        * unfold fmt_all. rewrite map_map. apply map_ext_Forall.
          eapply Forall_impl; [|exact Hp]. intros p X. cbn [fst snd]. f_equal. apply (objects_spec (snd p) X).
      + rewrite !app_length, !length_of, map_length. lia.
  Qed.

  Lemma document_spec doc : document_pre lo doc = pre (document_shown "@value" doc) /\ document_fmt lo doc = fmt (document_shown "@value" doc).
  Proof.
    apply (objects_spec doc). apply Forall_forall. intros x _. apply object_both.
  Qed.

  (** ** Contexts *)
  Lemma nullable_pre_spec {A} (p : A -> sized) (g : A -> json) n : (forall a, n = NSome a -> p a = pre (g a)) -> nullable_pre lo p n = pre (nullable_shown g n).
  Proof. destruct n; intros H; [reflexivity|apply H; reflexivity]. Qed.
  Lemma nullable_fmt_spec {A} (p : A -> printer) (g : A -> json) n : (forall a, n = NSome a -> p a = fmt (g a)) -> nullable_fmt p n = fmt (nullable_shown g n).
  Proof. destruct n; intros H; [reflexivity|apply H; reflexivity]. Qed.
  Lemma container_pre_spec c : container_pre lo c = pre (container_shown c).
  Proof. destruct c; cbn; [reflexivity|]. rewrite map_map. reflexivity. Qed.
  Lemma container_fmt_spec c : container_fmt lo c = fmt (container_shown c).
  Proof. destruct c; cbn; [reflexivity|]. rewrite map_map, map_length. reflexivity. Qed.
  Lemma dtype_pre_spec t : dtype_pre lo t = pre (dtype_shown t).
  Proof. destruct t as [[]]; reflexivity. Qed.
  Lemma dtype_fmt_spec t : dtype_fmt lo t = fmt (dtype_shown t).
  Proof. destruct t as [[]]; reflexivity. Qed.

  Ltac entries_pre := intros; first [reflexivity | apply dtype_pre_spec | apply nullable_pre_spec; intros; first [reflexivity|apply container_pre_spec] ].
  Ltac entries_fmt := intros; first [reflexivity | apply dtype_fmt_spec | apply nullable_fmt_spec; intros; first [reflexivity|apply container_fmt_spec] ].
  Lemma cdef_spec (d : cdef tdef) :
    Forall (fun b => on_nsome (fun t => tdef_pre lo t = pre (tdef_shown t) /\ tdef_fmt lo t = fmt (tdef_shown t)) (snd b)) (cd_bindings d) ->
    cdef_pre lo (cdef_map (tdef_pre lo) d) = pre_all (cdef_shown (cdef_map tdef_shown d)) /\
    cdef_fmt lo (cdef_map (tdef_fmt lo) d) = fmt_all (cdef_shown (cdef_map tdef_shown d)) /\
    cdef_len d = length (cdef_shown (cdef_map tdef_shown d)).
  Proof.
    intros H. unfold cdef_pre, cdef_fmt, cdef_shown, cdef_len, cdef_map. cbn [cd_base cd_import cd_language cd_direction cd_propagate cd_protected cd_type cd_version cd_vocab cd_bindings].
    split; [|split].
    - rewrite !pre_all_app, !pre_all_of. repeat (apply f_equal2; [apply entry_ext; entries_pre|]).
      unfold pre_all, map_bindings. rewrite !map_map. apply map_ext_Forall. eapply Forall_impl; [|exact H].
      intros [k n] X. cbn [fst snd] in *. f_equal. destruct n as [|t]; [reflexivity|apply X].
    - rewrite !fmt_all_app, !fmt_all_of. repeat (apply f_equal2; [apply entry_ext; entries_fmt|]).
      unfold fmt_all, map_bindings. rewrite !map_map. apply map_ext_Forall. eapply Forall_impl; [|exact H].
      intros [k n] X. cbn [fst snd] in *. f_equal. destruct n as [|t]; [reflexivity|apply X].
    - unfold map_bindings. rewrite !app_length, !length_of, !map_length. lia.
  Qed.
  Lemma texp_spec (e : texp lcontext) :
    on_some (fun c => context_pre lo c = pre (context_shown c) /\ context_fmt lo c = fmt (context_shown c)) (te_context e) ->
    texp_pre lo (texp_map (context_pre lo) e) = pre_all (texp_shown (texp_map context_shown e)) /\
    texp_fmt lo (texp_map (context_fmt lo) e) = fmt_all (texp_shown (texp_map context_shown e)) /\
    texp_len e = length (texp_shown (texp_map context_shown e)).
  Proof.
    intros H. unfold texp_pre, texp_fmt, texp_shown, texp_len, texp_map.
    cbn [te_id te_type te_context te_reverse te_index te_language te_direction te_container te_nest te_prefix te_propagate te_protected].
    split; [|split].
    - rewrite !pre_all_app, !pre_all_of. do 2 (apply f_equal2; [apply entry_ext; entries_pre|]).
      apply f_equal2; [|repeat (apply f_equal2; [apply entry_ext; entries_pre|])].
      + destruct (te_context e) as [c|]; [|reflexivity]. cbn. rewrite (proj1 H). reflexivity.
      + apply entry_ext; entries_pre.
    - rewrite !fmt_all_app, !fmt_all_of. do 2 (apply f_equal2; [apply entry_ext; entries_fmt|]).
      apply f_equal2; [|repeat (apply f_equal2; [apply entry_ext; entries_fmt|])].
      + destruct (te_context e) as [c|]; [|reflexivity]. cbn. rewrite (proj2 H). reflexivity.
      + apply entry_ext; entries_fmt.
    - rewrite !app_length, !length_of. destruct (te_context e); cbn [flag option_map]; lia.
  Qed.
  Lemma context_spec c : context_pre lo c = pre (context_shown c) /\ context_fmt lo c = fmt (context_shown c).
  Proof.
    revert c. apply (lcontext_ind' _ (fun e => centry_pre lo e = pre (centry_shown e) /\ centry_fmt lo e = fmt (centry_shown e))
      (fun t => tdef_pre lo t = pre (tdef_shown t) /\ tdef_fmt lo t = fmt (tdef_shown t))).
    - intros e H. exact H.
    - intros l H. cbn [context_pre context_fmt context_shown]. rewrite json_pre_arr, json_fmt_arr, map_length, !map_map.
      split; f_equal; apply map_ext_Forall; (eapply Forall_impl; [|exact H]); intros x X; apply X.
    - split; reflexivity.
    - split; reflexivity.
    - intros d H. destruct (cdef_spec d H) as (P & F & L). 
      change (centry_pre lo (CEDef d)) with (object_size lo (cdef_pre lo (cdef_map (tdef_pre lo) d))).
      change (centry_fmt lo (CEDef d)) with (print_object lo (cdef_len d) (cdef_fmt lo (cdef_map (tdef_fmt lo) d))).
      change (centry_shown (CEDef d)) with (JObj (cdef_shown (cdef_map tdef_shown d))).
      rewrite json_pre_obj, json_fmt_obj, P, F, L. split; reflexivity.
    - split; reflexivity.
    - intros e H. destruct (texp_spec e H) as (P & F & L). 
      change (tdef_pre lo (TExpanded e)) with (object_size lo (texp_pre lo (texp_map (context_pre lo) e))).
      change (tdef_fmt lo (TExpanded e)) with (print_object lo (texp_len e) (texp_fmt lo (texp_map (context_fmt lo) e))).
      change (tdef_shown (TExpanded e)) with (JObj (texp_shown (texp_map context_shown e))).
      rewrite json_pre_obj, json_fmt_obj, P, F, L. split; reflexivity.
  Qed.
End Layout.

(** ** Contexts are printed as they are converted *)
Lemma insert_list (l : list (string * option json)) : forall m,
  NoDup (map fst l) -> (forall k, In k (map fst l) -> ~ In k (keys m)) ->
  fold_left (fun m e => insert_opt (fst e) (snd e) m) l m = m ++ flat_map (fun e => entry_of (fst e) (snd e) (fun x => x)) l.
Proof.
  induction l as [|[k o] l IH]; intros m D H; cbn [fold_left flat_map fst snd]; [rewrite app_nil_r; reflexivity|].
  inversion D as [|? ? NI D']; subst. destruct o as [v|]; cbn [insert_opt entry_of app].
  - rewrite insert_app by (apply H; left; reflexivity). rewrite IH; [rewrite <- app_assoc; reflexivity|exact D'|].
    intros k' I. rewrite keys_app. intros J. apply in_app_or in J. destruct J as [J|[E|[]]].
    + apply (H k'); [right; exact I|exact J].
    + cbn in E. subst k'. exact (NI I).
  - apply IH; [exact D'|]. intros k' I. apply H. right. exact I.
Qed.
Lemma entry_option {A B} k (o : option A) (f : A -> B) : entry_of k (option_map f o) (fun x => x) = entry_of k o f.
Proof. destruct o; reflexivity. Qed.
Lemma entry_keys {A B} k (o : option A) (f : A -> B) x : In x (keys (entry_of k o f)) -> x = k.
Proof. destruct o; [|intros []]. intros [E|[]]; symmetry; exact E. Qed.

Lemma nullable_shown_spec {A} (f : A -> json) n : nullable_to_json f n = nullable_shown f n. Proof. reflexivity. Qed.
Lemma container_shown_spec c : container_to_json c = container_shown c. Proof. reflexivity. Qed.
Lemma dtype_shown_spec t : dtype_to_json t = dtype_shown t. Proof. destruct t as [[]]; reflexivity. Qed.

Lemma cdef_shown_spec (d : cdef json) : NoDup (map fst (cd_bindings d)) -> Forall (fun b => ~ In (fst b) definition_entries) (cd_bindings d) ->
  cdef_to_obj d = cdef_shown d.
Proof.
  intros D F. unfold cdef_to_obj.
  pose (l := [("@base", option_map (nullable_to_json JStr) (cd_base d)); ("@import", option_map JStr (cd_import d));
    ("@language", option_map (nullable_to_json JStr) (cd_language d)); ("@direction", option_map (nullable_to_json (fun x => JStr (dir_str x))) (cd_direction d));
    ("@propagate", option_map JBool (cd_propagate d)); ("@protected", option_map JBool (cd_protected d)); ("@type", option_map dtype_to_json (cd_type d));
    ("@version", option_map (fun _ => JNum "1.1") (cd_version d)); ("@vocab", option_map (nullable_to_json JStr) (cd_vocab d))]).
  match goal with |- fold_left _ _ ?a = _ => change a with (fold_left (fun m e => insert_opt (fst e) (snd e) m) l []) end.
  rewrite insert_list; [|repeat constructor; cbn; intuition discriminate|intros k _ []].
  rewrite (fold_insert (fun b : string * nullable json => fst b) (fun b => nullable_to_json (fun j => j) (snd b))); [|exact D|].
  - subst l. cbn [app flat_map fst snd]. rewrite !entry_option, app_nil_r, <- !app_assoc. unfold cdef_shown.
    do 6 (apply f_equal2; [reflexivity|]). apply f_equal2; [apply entry_ext; intros; apply dtype_shown_spec|].
    reflexivity.
  - intros b I J. pose proof (Forall_in _ _ _ F I) as N. apply N. subst l. cbn [app flat_map fst snd] in J. rewrite !keys_app in J.
    repeat (apply in_app_or in J; destruct J as [J|J]; [apply entry_keys in J; rewrite J; cbn; tauto|]). destruct J.
Qed.
Lemma texp_shown_spec (e : texp json) : texp_to_obj e = texp_shown e.
Proof.
  pose (l := [("@id", option_map (nullable_to_json (fun t => JStr (tid_str t))) (te_id e)); ("@type", option_map (nullable_to_json (fun t => JStr (ttype_str t))) (te_type e));
    ("@context", te_context e); ("@reverse", option_map JStr (te_reverse e)); ("@index", option_map JStr (te_index e));
    ("@language", option_map (nullable_to_json JStr) (te_language e)); ("@direction", option_map (nullable_to_json (fun x => JStr (dir_str x))) (te_direction e));
    ("@container", option_map (nullable_to_json container_to_json) (te_container e)); ("@nest", option_map (fun n => JStr (tnest_str n)) (te_nest e));
    ("@prefix", option_map JBool (te_prefix e)); ("@propagate", option_map JBool (te_propagate e)); ("@protected", option_map JBool (te_protected e))]).
  change (texp_to_obj e) with (fold_left (fun m e => insert_opt (fst e) (snd e) m) l []).
  rewrite insert_list; [|repeat constructor; cbn; intuition discriminate|intros k _ []].
  subst l. cbn [app flat_map fst snd]. rewrite !entry_option, app_nil_r. reflexivity.
Qed.

Lemma map_bindings_keys {A B} (f : A -> B) l : map fst (map_bindings f l) = map fst l.
Proof. unfold map_bindings. rewrite map_map. reflexivity. Qed.
Lemma context_shown_spec ok c : wf_ctx ok c -> context_to_json c = context_shown c.
Proof.
  revert c. apply (lcontext_ind' (fun c => wf_ctx ok c -> context_to_json c = context_shown c) (fun e => wf_entry ok e -> entry_to_json e = centry_shown e)
    (fun t => wf_tdef ok t -> tdef_to_json t = tdef_shown t)).
  - intros e H W. inversion W; subst. apply H. assumption.
  - intros l H W. inversion W as [|? Wl]; subst. cbn. f_equal. apply map_ext_in. intros x I. apply (Forall_in _ _ _ H I), (Forall_in _ _ _ Wl I).
  - reflexivity.
  - reflexivity.
  - intros d H W. inversion W as [| |? _ _ D F T]; subst.
    change (JObj (cdef_to_obj (cdef_map tdef_to_json d)) = JObj (cdef_shown (cdef_map tdef_shown d))). f_equal.
    assert (E : cdef_map tdef_to_json d = cdef_map tdef_shown d).
    { unfold cdef_map. f_equal. unfold map_bindings. apply map_ext_in. intros [k n] I. cbn. f_equal. destruct n as [|t]; [reflexivity|]. f_equal.
      apply (Forall_in _ _ _ H I). exact (T k t I). }
    rewrite E. apply cdef_shown_spec; cbn [cdef_map cd_bindings].
    + rewrite map_bindings_keys. exact D.
    + unfold map_bindings. apply Forall_map. eapply Forall_impl; [|exact F]. intros b X. exact X.
  - reflexivity.
  - intros e H W. inversion W as [|? _ _ _ C]; subst.
    change (JObj (texp_to_obj (texp_map context_to_json e)) = JObj (texp_shown (texp_map context_shown e))). f_equal.
    rewrite texp_shown_spec. f_equal. unfold texp_map. f_equal. destruct (te_context e) as [c|]; [|reflexivity]. cbn. f_equal. apply H. apply C. reflexivity.
Qed.

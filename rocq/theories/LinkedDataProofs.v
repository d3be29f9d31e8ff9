(** What serialization gives for the linked data of an expanded document. *)
From Verif Require Import Prelude Json Enums LangTag LangString Str Keyword Container ContextSyntax Ctx
  Object ObjectEq ObjectJson ObjectJsonProofs CompactIri Expand ExpandValue Rdf FlattenEffect LinkedData.

Section Exact.
Variables (io : ldops) (fin rnd : list word -> N).
Notation ser := (ser io fin rnd).
Notation remains := (remains io fin rnd).
Notation remains_node := (remains_node io fin rnd).
Notation remains_top := (remains_top io fin rnd).
Notation node_visit := (node_visit fin rnd).
Notation object_visit := (object_visit fin rnd).
Local Arguments rdf : simpl never.
Local Arguments xsd : simpl never.

Definition results (vs : list (vkind * list subj)) : list (vkind * list sres) := map (fun v => (fst v, map ser (snd v))) vs.
Lemma ser_eq r vs : ser (MkSubj r vs) = ser_of io fin rnd r (results vs).
Proof. reflexivity. Qed.

Lemma value_remains v : lit_value io (value_lit io v) = rem_value io v.
Proof.
  destruct v as [[|b|n|s] [t|]|[s [l|] d]|j]; cbn; try reflexivity.
  - destruct (ld_typed io t n) as [[]|]; reflexivity.
  - destruct (ld_i64 io n); reflexivity.
  - destruct (ld_tag io l); reflexivity.
Qed.

Lemma is_iri_spec i s : is_iri i s = true <-> i = IIri s.
Proof. destruct i; cbn; [destruct (streq_spec s0 s) as [->|N]|..]; (split; [try discriminate; congruence|intros E; inversion E; congruence]). Qed.
Lemma is_iri_not i s : i <> IIri s -> is_iri i s = false.
Proof. intros N. destruct (is_iri i s) eqn:E; [apply is_iri_spec in E; contradiction|reflexivity]. Qed.

Lemma set_key_new {A} k (v : A) l : ~ In k (map fst l) -> set_key k v l = l ++ [(k, v)].
Proof.
  induction l as [|[k' w] l IH]; cbn; intros N; [reflexivity|].
  destruct (id_eqb_spec k k') as [E|_]; [exfalso; apply N; left; congruence|]. rewrite IH; [reflexivity|tauto].
Qed.

(** What is known of the parts of a node. *)
Definition gives (f : obj -> obj) (l : list iobj) : Prop := Forall (fun x => r_object (ser (obj_subj io (snd x))) = Ok (f (snd x))) l.
Definition gives_node (l : list inode) : Prop := Forall (fun x => r_node (ser (node_subj io (snd x))) = Ok (remains_node (snd x))) l.
Definition bare (l : list iobj) : list iobj := map (fun x => (None, remains (snd x))) l.
Definition bare_nodes (l : list inode) : list inode := map (fun x => (None, remains_node (snd x))) l.

Lemma map_r_objects l : gives remains l ->
  map_r r_object (map ser (map (fun x => obj_subj io (snd x)) l)) = Ok (map (fun x => remains (snd x)) l).
Proof. induction 1 as [|x l E F IH]; [reflexivity|]. cbn [map map_r]. rewrite E. cbn [bind]. rewrite IH. reflexivity. Qed.
Lemma ser_objects_ok l : gives remains l -> ser_objects (map ser (map (fun x => obj_subj io (snd x)) l)) = Ok (bare l).
Proof. intros F. unfold ser_objects. rewrite (map_r_objects _ F). cbn [bind]. unfold bare. rewrite map_map. reflexivity. Qed.
Lemma ser_graph_ok l : gives remains l -> ser_graph fin rnd (map ser (map (fun x => obj_subj io (snd x)) l)) = Ok (oset fin rnd (bare l)).
Proof. intros F. unfold ser_graph. rewrite (map_r_objects _ F). cbn [bind]. unfold bare, oset. rewrite map_map. reflexivity. Qed.
Lemma ser_nodes_ok l : gives_node l -> ser_nodes (map ser (map (fun x => node_subj io (snd x)) l)) = Ok (bare_nodes l).
Proof.
  intros F. unfold ser_nodes. assert (G : map_r r_node (map ser (map (fun x => node_subj io (snd x)) l)) = Ok (map (fun x => remains_node (snd x)) l)).
  { induction F as [|x l E F IH]; [reflexivity|]. cbn [map map_r]. rewrite E. cbn [bind]. rewrite IH. reflexivity. }
  rewrite G. cbn [bind]. unfold bare_nodes. rewrite map_map. reflexivity.
Qed.

(** The visits of a node, kind by kind. *)
Definition type_visits (ts : option (list id)) : list (vkind * list subj) :=
  match opt_list ts with [] => [] | ts => [(iri_pred (rdf "type"), map id_subj (filter id_valid ts))] end.
Definition prop_visits (ps : list (id * list iobj)) : list (vkind * list subj) :=
  flat_map (fun p => if id_valid (fst p) then [(EPred (Some (DId (fst p))), map (fun x => obj_subj io (snd x)) (snd p))] else []) ps.
Definition rev_visits (rs : list (id * list inode)) : list (vkind * list subj) :=
  flat_map (fun p => if id_valid (fst p) then [(ERev (Some (DId (fst p))), map (fun x => node_subj io (snd x)) (snd p))] else []) rs.
Definition rem_props (ps : list (id * list iobj)) := flat_map (fun p => if id_valid (fst p) then [(fst p, bare (snd p))] else []) ps.
Definition rem_rev (rs : list (id * list inode)) := flat_map (fun p => if id_valid (fst p) then [(fst p, bare_nodes (snd p))] else []) rs.

Lemma fold_types ts i : fold_r node_visit (node_new i) (results (type_visits ts)) = Ok (MkNode i (non_empty (filter id_valid (opt_list ts))) None None [] None).
Proof.
  assert (G : forall l, map_r r_object (map ser (map id_subj l)) = Ok (map (fun i => ONode (node_new (Some i))) l)).
  { induction l as [|x l IH]; [reflexivity|]. cbn [map map_r]. cbn [ser id_subj ser_of r_object map visit_node fold_r bind]. rewrite IH. reflexivity. }
  assert (T : forall l, as_types (map bare_obj (map (fun i => ONode (node_new (Some i))) l)) = l).
  { induction l as [|x l IH]; [reflexivity|]. cbn. f_equal. exact IH. }
  assert (T' : forall l, not_types (map bare_obj (map (fun i => ONode (node_new (Some i))) l)) = []).
  { induction l as [|x l IH]; [reflexivity|]. cbn. exact IH. }
  unfold type_visits. destruct (opt_list ts) as [|t l] eqn:E; [reflexivity|]. rewrite <- E. clear E. set (L := filter id_valid (opt_list ts)).
  unfold results. cbn [map fst snd fold_r]. unfold node_visit, iri_pred, pred_id. cbn [LinkedData.node_visit bind]. unfold ser_objects. rewrite G. cbn [bind].
  unfold add_objects. rewrite (proj2 (is_iri_spec _ _) eq_refl), T, T'. destruct L; reflexivity.
Qed.
Lemma fold_props ps : forall i ts g inc rs done, Forall (fun p => ordinary_key (fst p)) ps -> NoDup (map fst done ++ map fst ps) -> Forall (fun p => gives remains (snd p)) ps ->
  fold_r node_visit (MkNode i ts g inc done rs) (results (prop_visits ps)) = Ok (MkNode i ts g inc (done ++ rem_props ps) rs).
Proof.
  induction ps as [|[p l] ps IH]; intros i ts g inc rs done K N F; [cbn; rewrite app_nil_r; reflexivity|].
  inversion K as [|? ? (K1 & K2 & K3) K']; inversion F as [|? ? F1 F']; subst; cbn [fst snd] in *. cbn [prop_visits rem_props flat_map fst snd]. destruct (id_valid p) eqn:V.
  - cbn [results map fst snd app fold_r]. unfold node_visit at 1. cbn [LinkedData.node_visit pred_id bind]. rewrite (ser_objects_ok _ F1). cbn [bind].
    unfold add_objects. rewrite (is_iri_not _ _ K1). cbn [on_props]. rewrite set_key_new.
    + change (fold_r node_visit (MkNode i ts g inc (done ++ [(p, bare l)]) rs) (results (prop_visits ps)) = Ok (MkNode i ts g inc (done ++ (p, bare l) :: rem_props ps) rs)).
      rewrite IH; [rewrite <- app_assoc; reflexivity|exact K'| |exact F']. rewrite map_app, <- app_assoc. exact N.
    + cbn [map fst] in N. apply NoDup_remove_2 in N. intros J. apply N. apply in_or_app. left. exact J.
  - apply IH; [exact K'| |exact F']. cbn [map fst] in N. exact (NoDup_remove_1 _ _ _ N).
Qed.
Lemma fold_rev_go rs : forall i ts g inc ps done, NoDup (map fst done ++ map fst rs) -> Forall (fun p => gives_node (snd p)) rs ->
  fold_r node_visit (MkNode i ts g inc ps (non_empty done)) (results (rev_visits rs)) = Ok (MkNode i ts g inc ps (non_empty (done ++ rem_rev rs))).
Proof.
  induction rs as [|[p l] rs IH]; intros i ts g inc ps done N F; [cbn; rewrite app_nil_r; reflexivity|].
  inversion F as [|? ? F1 F']; subst; cbn [fst snd] in *. cbn [rev_visits rem_rev flat_map fst snd]. destruct (id_valid p) eqn:V.
  - cbn [results map fst snd app fold_r]. unfold node_visit at 1. cbn [LinkedData.node_visit pred_id bind]. rewrite (ser_nodes_ok _ F1). cbn [bind add_reverse_nodes].
    assert (O : opt_list (non_empty done) = done) by (destruct done; reflexivity). rewrite O, set_key_new.
    + specialize (IH i ts g inc ps (done ++ [(p, bare_nodes l)])). rewrite map_app, <- app_assoc in IH. specialize (IH N F').
      rewrite <- app_assoc in IH. assert (S : non_empty (done ++ [(p, bare_nodes l)]) = Some (done ++ [(p, bare_nodes l)])) by (destruct done; reflexivity).
      rewrite S in IH. exact IH.
    + cbn [map fst] in N. apply NoDup_remove_2 in N. intros J. apply N. apply in_or_app. left. exact J.
  - apply IH; [|exact F']. cbn [map fst] in N. exact (NoDup_remove_1 _ _ _ N).
Qed.
Lemma fold_incl_go inc : forall i ts g ps rs done, gives_node inc ->
  fold_r node_visit (MkNode i ts g done ps rs) (results (map (fun x => (EIncl, [node_subj io (snd x)])) inc)) =
    Ok (MkNode i ts g (match inc with [] => done | _ => Some (fold_left (nset_insert fin rnd) (bare_nodes inc) (opt_list done)) end) ps rs).
Proof.
  induction inc as [|x inc IH]; intros i ts g ps rs done F; [reflexivity|]. inversion F as [|? ? F1 F']; subst.
  cbn [map results fst snd fold_r]. unfold node_visit at 1. cbn [LinkedData.node_visit]. assert (Z : ser_nodes [ser (node_subj io (snd x))] = Ok (bare_nodes [x])) by (exact (ser_nodes_ok [x] (Forall_cons _ F1 (Forall_nil _)))).
  rewrite Z. cbn [bind bare_nodes map fold_left include_node].
  etransitivity; [exact (IH _ _ _ _ _ _ F')|]. destruct inc; reflexivity.
Qed.
Lemma nset_some l : l <> [] -> non_empty (nset fin rnd l) = Some (nset fin rnd l).
Proof.
  intros N. assert (G : forall l s, s <> [] -> fold_left (nset_insert fin rnd) l s <> []).
  { induction l0 as [|y l0 IH]; cbn; intros s S; [exact S|]. apply IH. unfold nset_insert, set_insert. destruct (existsb _ s); [exact S|]. destruct s; discriminate. }
  unfold nset. destruct l as [|x l]; [contradiction|]. cbn [fold_left]. assert (X : fold_left (nset_insert fin rnd) l (nset_insert fin rnd [] x) <> []) by (apply G; discriminate).
  destruct (fold_left (nset_insert fin rnd) l (nset_insert fin rnd [] x)); [contradiction|reflexivity].
Qed.

Definition graph_visits (n : node) : list (vkind * list subj) :=
  match n_graph n with Some g => if is_graph n then [(EGraph, map (fun x => obj_subj io (snd x)) g)] else [] | None => [] end.
Definition incl_visits (inc : option (list inode)) : list (vkind * list subj) :=
  match inc with Some l => map (fun x => (EIncl, [node_subj io (snd x)])) l | None => [] end.
Definition rs_visits (rs : option (list (id * list inode))) : list (vkind * list subj) := match rs with Some rs => rev_visits rs | None => [] end.
Definition node_visits (n : node) : list (vkind * list subj) :=
  match n with MkNode i ts g inc ps rs => type_visits ts ++ prop_visits ps ++ rs_visits rs ++ graph_visits n ++ incl_visits inc end.
Lemma node_subj_eq n : node_subj io n = MkSubj (option_map DId (valid_only (n_id n))) (node_visits n).
Proof. destruct n as [[i|] ts g inc ps rs]; cbn; [destruct (id_valid i)|]; reflexivity. Qed.

Lemma fold_node i ts g inc ps rs j : ordinary_node (MkNode i ts g inc ps rs) ->
  gives remains (opt_list g) -> gives_node (opt_list inc) -> Forall (fun p => gives remains (snd p)) ps -> Forall (fun p => gives_node (snd p)) (opt_list rs) ->
  fold_r node_visit (node_new j) (results (node_visits (MkNode i ts g inc ps rs))) =
    Ok (match remains_node (MkNode i ts g inc ps rs) with MkNode _ ts' g' inc' ps' rs' => MkNode j ts' g' inc' ps' rs' end).
Proof.
  intros O Fg Fi Fp Fr. inversion O as [? ? ? ? ? ? _ _ Np Kp Nr _]; subst. unfold node_visits, results. rewrite !map_app.
  rewrite fold_r_app. change (map _ (type_visits ts)) with (results (type_visits ts)). rewrite fold_types. cbn [bind].
  rewrite fold_r_app. change (map _ (prop_visits ps)) with (results (prop_visits ps)). rewrite fold_props; [|exact (Forall_impl _ (fun p H => proj1 H) Kp)|exact Np|exact Fp]. cbn [bind app].
  rewrite fold_r_app.
  assert (R : forall i ts g inc ps, fold_r node_visit (MkNode i ts g inc ps None) (results (rs_visits rs)) = Ok (MkNode i ts g inc ps (match rs with Some rs => non_empty (rem_rev rs) | None => None end))).
  { intros. destruct rs as [rs|]; [|reflexivity]. cbn [rs_visits opt_list] in *. exact (fold_rev_go rs i0 ts0 g0 inc0 ps0 [] Nr Fr). }
  change (map _ (rs_visits rs)) with (results (rs_visits rs)). rewrite R. cbn [bind]. rewrite fold_r_app.
  set (n := MkNode i ts g inc ps rs).
  assert (G : forall i ts inc ps rs, fold_r node_visit (MkNode i ts None inc ps rs) (results (graph_visits n)) =
    Ok (MkNode i ts (match g with Some g => if is_graph n then Some (oset fin rnd (bare g)) else None | None => None end) inc ps rs)).
  { intros. unfold graph_visits. cbn [n n_graph]. destruct g as [g|]; [|reflexivity]. fold n. destruct (is_graph n); [|reflexivity].
    cbn [results map fst snd fold_r]. unfold node_visit at 1. cbn [LinkedData.node_visit]. cbn [opt_list] in Fg. rewrite (ser_graph_ok _ Fg). reflexivity. }
  change (map _ (graph_visits n)) with (results (graph_visits n)). rewrite G. cbn [bind].
  assert (C : forall i ts g ps rs, fold_r node_visit (MkNode i ts g None ps rs) (results (incl_visits inc)) =
    Ok (MkNode i ts g (match inc with Some l => non_empty (nset fin rnd (bare_nodes l)) | None => None end) ps rs)).
  { intros. destruct inc as [inc|]; [|reflexivity]. cbn [incl_visits opt_list] in *. rewrite (fold_incl_go inc _ _ _ _ _ _ Fi). f_equal. f_equal.
    destruct inc as [|x inc]; [reflexivity|]. symmetry. apply nset_some. discriminate. }
  exact (C _ _ _ _ _).
Qed.

(** A node without identifier gives the same as an object. *)
Definition no_list (vs : list (vkind * list sres)) : Prop :=
  Forall (fun v => match fst v with EPred (Some (DId p)) => p <> IIri (rdf "first") /\ p <> IIri (rdf "rest") | EPred _ => False | _ => True end) vs.
Lemma object_fold vs : no_list vs -> forall n f r, fold_r object_visit (n, f, r) vs = do n' <- fold_r node_visit n vs ; Ok (n', f, r).
Proof.
  induction 1 as [|[k os] vs H F IH]; intros n f r; [reflexivity|]. cbn [fold_r fst snd] in *. unfold object_visit at 1. cbn [LinkedData.object_visit fst snd].
  destruct k as [[[p|]|]|q| |]; try contradiction; try (match goal with |- context[LinkedData.node_visit fin rnd n ?v] => destruct (LinkedData.node_visit fin rnd n v) as [n'|e] end; cbn [bind]; [exact (IH n' f r)|reflexivity]).
  destruct H as [H1 H2]. cbn [pred_id bind LinkedData.node_visit]. rewrite (is_iri_not _ _ H1), (is_iri_not _ _ H2). cbn [bind]. unfold node_visit at 1. cbn [LinkedData.node_visit pred_id bind].
  destruct (ser_objects os) as [l|e]; cbn [bind]; [exact (IH _ f r)|reflexivity].
Qed.
Lemma rdf_inj a b : rdf a = rdf b -> a = b.
Proof. unfold rdf. intros E. apply (f_equal (fun s => s)) in E. cbn in E. repeat (injection E as E). exact E. Qed.
Lemma node_no_list n : ordinary_node n -> no_list (results (node_visits n)).
Proof.
  intros O. destruct O as [i ts g inc ps rs _ _ _ Kp _ _]. unfold no_list, results, node_visits. rewrite Forall_map. rewrite !Forall_app. repeat split.
  - unfold type_visits. destruct (opt_list ts); constructor; [|constructor]. cbn. split; intros E; injection E as E; discriminate.
  - unfold prop_visits. apply Forall_flat_map. eapply Forall_impl; [|exact Kp]. intros p ((_ & K2 & K3) & _). destruct (id_valid (fst p)); constructor; [|constructor]. cbn. tauto.
  - unfold rs_visits. destruct rs as [rs|]; [|constructor]. unfold rev_visits. apply Forall_flat_map. apply Forall_forall. intros p _. destruct (id_valid (fst p)); constructor; [exact I|constructor].
  - unfold graph_visits. cbn [n_graph]. destruct g; [|constructor]. destruct (is_graph _); constructor; [exact I|constructor].
  - unfold incl_visits. destruct inc; [|constructor]. apply Forall_map. apply Forall_forall. intros ? _. exact I.
Qed.

(** Lists. *)
Definition lost (x : iobj) : iobj := (None, if is_value (snd x) then OVal (VLit LNull None) else remains (snd x)).
Definition first_visit (x : iobj) : vkind * list subj := (iri_pred (rdf "first"), if is_value (snd x) then [] else [obj_subj io (snd x)]).
Lemma list_subj x l : obj_subj io (OList (x :: l)) = MkSubj None [first_visit x; (iri_pred (rdf "rest"), [obj_subj io (OList l)])].
Proof. reflexivity. Qed.
Lemma list_remains x l : remains (OList (x :: l)) = ONode (MkNode None None None None
  [(IIri (rdf "first"), if is_value (snd x) then [] else [(None, remains (snd x)); (None, remains (snd x))]);
   (IIri (rdf "rest"), [(None, remains (OList l)); (None, OList ((None, OVal (VLit LNull None)) :: rev (map lost l)))])] None).
Proof. reflexivity. Qed.
Definition first_of (x : iobj) : option obj := if is_value (snd x) then None else Some (remains (snd x)).
Definition gives1 (x : iobj) : Prop := r_object (ser (obj_subj io (snd x))) = Ok (remains (snd x)).
Lemma first_results x : gives1 x -> ser_first (map ser (snd (first_visit x))) = Ok (first_of x).
Proof. intros E. unfold gives1 in E. unfold ser_first, first_of. cbn [first_visit snd]. destruct (is_value (snd x)); [reflexivity|]. cbn [map fold_r]. rewrite E. reflexivity. Qed.
Lemma first_objects x : gives1 x -> ser_objects (map ser (snd (first_visit x))) = Ok (if is_value (snd x) then [] else [(None, remains (snd x))]).
Proof. intros E. unfold gives1 in E. unfold ser_objects. cbn [first_visit snd]. destruct (is_value (snd x)); [reflexivity|]. cbn [map map_r]. rewrite E. reflexivity. Qed.
Lemma list_visit_first s os : list_visit s (iri_pred (rdf "first"), os) = do f <- ser_first os ; Ok (f, snd s).
Proof. reflexivity. Qed.
Lemma list_visit_rest s os : list_visit s (iri_pred (rdf "rest"), os) = do r <- ser_rest os ; Ok (fst s, r).
Proof. reflexivity. Qed.
Lemma rest_list l : Forall gives1 l -> r_list (ser (obj_subj io (OList l))) = Ok ((None, OVal (VLit LNull None)) :: rev (map lost l)).
Proof.
  induction 1 as [|x l E F IH]; [reflexivity|]. rewrite list_subj, ser_eq. cbn [ser_of r_list]. unfold results, visit_list. cbn [map fst snd fold_r].
  change (fst (first_visit x)) with (iri_pred (rdf "first")). rewrite list_visit_first, (first_results _ E). cbn [bind].
  rewrite list_visit_rest. unfold ser_rest. cbn [fold_r]. rewrite IH. cbn [bind fst snd].
  cbn [map rev app]. f_equal. f_equal. f_equal. unfold lost, first_of, bare_obj. destruct (is_value (snd x)); reflexivity.
Qed.
Lemma object_visit_first n f r os : object_visit (n, f, r) (iri_pred (rdf "first"), os) = do f <- ser_first os ; do l <- ser_objects os ; Ok (add_objects (IIri (rdf "first")) l n, f, r).
Proof.
  transitivity (do (f, r) <- (do f <- ser_first os ; Ok (f, r)) ; do l <- ser_objects os ; Ok (add_objects (IIri (rdf "first")) l n, f, r)); [reflexivity|].
  destruct (ser_first os); reflexivity.
Qed.
Lemma object_visit_rest n f r os : object_visit (n, f, r) (iri_pred (rdf "rest"), os) = do r <- ser_rest os ; do l <- ser_objects os ; Ok (add_objects (IIri (rdf "rest")) l n, f, Some r).
Proof.
  transitivity (do (f, r) <- (do r <- ser_rest os ; Ok (f, Some r)) ; do l <- ser_objects os ; Ok (add_objects (IIri (rdf "rest")) l n, f, r)); [reflexivity|].
  destruct (ser_rest os); reflexivity.
Qed.
Lemma list_object l : Forall gives1 l -> r_object (ser (obj_subj io (OList l))) = Ok (remains (OList l)).
Proof.
  induction 1 as [|x l E F IH]; [reflexivity|]. rewrite list_subj, ser_eq. cbn [ser_of r_object]. unfold results, visit_object. cbn [map fst snd fold_r].
  change (fst (first_visit x)) with (iri_pred (rdf "first")). rewrite object_visit_first, (first_results _ E), (first_objects _ E). cbn [bind].
  rewrite object_visit_rest. unfold ser_rest. cbn [fold_r]. rewrite (rest_list _ F). cbn [bind].
  unfold ser_objects. cbn [map_r]. rewrite IH. cbn [bind map]. rewrite list_remains. unfold first_of. destruct (is_value (snd x)); reflexivity.
Qed.
Lemma list_node x l : Forall gives1 (x :: l) -> r_node (ser (obj_subj io (OList (x :: l)))) = Ok (MkNode None None None None
  [(IIri (rdf "first"), if is_value (snd x) then [] else [(None, remains (snd x))]); (IIri (rdf "rest"), [(None, remains (OList l))])] None).
Proof.
  intros F. inversion F as [|? ? E F']; subst. rewrite list_subj, ser_eq. cbn [ser_of r_node]. unfold results, visit_node. cbn [map fst snd fold_r].
  change (fst (first_visit x)) with (iri_pred (rdf "first")). unfold node_visit. cbn [LinkedData.node_visit iri_pred pred_id bind]. rewrite (first_objects _ E). cbn [bind].
  unfold ser_objects. cbn [map_r]. rewrite (list_object _ F'). reflexivity.
Qed.

(** Objects and nodes. *)
Lemma node_both n : ordinary_node n ->
  (match n with MkNode _ _ g inc ps rs => gives remains (opt_list g) /\ gives_node (opt_list inc) /\ Forall (fun p => gives remains (snd p)) ps /\ Forall (fun p => gives_node (snd p)) (opt_list rs) end) ->
  r_node (ser (node_subj io n)) = Ok (remains_node n) /\ r_object (ser (node_subj io n)) = Ok (ONode (remains_node n)).
Proof.
  intros O H. destruct n as [i ts g inc ps rs]. destruct H as (Fg & Fi & Fp & Fr).
  rewrite node_subj_eq, ser_eq. pose proof (fold_node i ts g inc ps rs (valid_only i) O Fg Fi Fp Fr) as G. pose proof (node_no_list _ O) as NL.
  set (n := MkNode i ts g inc ps rs) in *. change (n_id n) with i.
  assert (ID : (match remains_node n with MkNode _ ts' g' inc' ps' rs' => MkNode (valid_only i) ts' g' inc' ps' rs' end) = remains_node n) by reflexivity.
  rewrite ID in G. destruct (valid_only i) as [j|] eqn:V; cbn [option_map ser_of r_node r_object].
  - unfold visit_node. rewrite G. split; reflexivity.
  - unfold visit_node, visit_object. rewrite (object_fold _ NL), G. split; reflexivity.
Qed.
Lemma both_remain : (forall o, ordinary o -> r_object (ser (obj_subj io o)) = Ok (remains o)) /\
  (forall n, ordinary_node n -> r_node (ser (node_subj io n)) = Ok (remains_node n) /\ r_object (ser (node_subj io n)) = Ok (ONode (remains_node n))).
Proof.
  apply obj_node_ind.
  - intros v _. cbn. rewrite value_remains. reflexivity.
  - intros n IH O. inversion O; subst. exact (proj2 (IH H0)).
  - intros l IH O. inversion O as [| |? F]; subst. apply list_object. rewrite Forall_forall in *. intros x J. exact (IH x J (F x J)).
  - intros i ts g inc ps rs IHg IHi IHp IHr O. apply node_both; [exact O|]. inversion O as [? ? ? ? ? ? Og Oi _ Op _ Or]; subst.
    unfold gives, gives_node. rewrite !Forall_forall in *. repeat split.
    + intros x J. exact (IHg x J (Og x J)).
    + intros x J. exact (proj1 (IHi x J (Oi x J))).
    + intros p J. pose proof (IHp p J) as I1. pose proof (proj2 (Op p J)) as O1. rewrite Forall_forall in *. intros x K. exact (I1 x K (O1 x K)).
    + intros p J. pose proof (IHr p J) as I1. pose proof (Or p J) as O1. rewrite Forall_forall in *. intros x K. exact (proj1 (I1 x K (O1 x K))).
Qed.
Lemma top_remains o : ordinary o -> default_subject io fin rnd (obj_subj io o) = Ok (remains_top o).
Proof.
  intros O. unfold default_subject. destruct O as [v|n O|l F].
  - cbn [obj_subj s_repr remains_top LinkedData.remains]. rewrite value_remains. reflexivity.
  - change (obj_subj io (ONode n)) with (node_subj io n). assert (NL : forall l, s_repr (node_subj io n) <> Some (DLit l)).
    { intros l. rewrite node_subj_eq. cbn [s_repr]. destruct (valid_only (n_id n)); discriminate. }
    rewrite (proj1 (proj2 both_remain n O)). destruct (s_repr (node_subj io n)) as [[d|d]|]; [reflexivity|contradiction (NL d eq_refl)|reflexivity].
  - assert (G : Forall gives1 l). { eapply Forall_impl; [|exact F]. intros x. apply (proj1 both_remain). }
    destruct l as [|x l]; [reflexivity|]. change (s_repr (obj_subj io (OList (x :: l)))) with (@None dterm). cbv beta iota.
    exact (f_equal (fun r => do n <- r ; Ok (ONode n)) (list_node x l G)).
Qed.
Theorem serialize_exact e : Forall (fun x => ordinary (snd x)) e ->
  serialize io fin rnd (doc_data io e) = Ok (oset fin rnd (map (fun x => (None, remains_top (snd x))) e)).
Proof.
  intros F. unfold serialize, doc_data. cbn [fold_r doc_visit fst snd]. unfold oset.
  assert (G : forall s, fold_r (fun e s => do o <- default_subject io fin rnd s ; Ok (oset_insert fin rnd e (bare_obj o))) s (map (fun x => obj_subj io (snd x)) e) =
    Ok (fold_left (oset_insert fin rnd) (map (fun x => (None, remains_top (snd x))) e) s)).
  { induction F as [|x e O F IH]; intros s; [reflexivity|]. cbn [map fold_r fold_left]. rewrite (top_remains _ O). cbn [bind]. apply IH. }
  unfold doc_visit. cbn [fst snd]. rewrite G. reflexivity.
Qed.
End Exact.

(** ** The documents that come back *)
Section Kept.
Variables (io : ldops) (fin rnd : list word -> N).
Notation remains := (remains io fin rnd).
Notation remains_node := (remains_node io fin rnd).
Notation remains_top := (remains_top io fin rnd).

Lemma value_kept v : rem_value io v = v <-> kept_value io v.
Proof.
  destruct v as [[|b|n|s] [t|]|[s [l|] [d|]]|j]; cbn; try (split; [discriminate|contradiction]); try (split; [exact (fun _ => I)|reflexivity]).
  - split; [|contradiction]. unfold rem_number, rem_type. destruct (ld_typed io t n) as [[|s|u dt|u dt]|]; try discriminate. destruct (ld_num io u); discriminate.
  - destruct (ld_i64 io n) as [i|]; [|split; [discriminate|intros [E _]; discriminate]]. cbn. destruct (ld_num io i) eqn:N.
    + split; [intros E; injection E as ->; auto|intros [E _]; injection E as ->; reflexivity].
    + split; [discriminate|]. intros [E M]. injection E as ->. congruence.
  - unfold rem_type. destruct (streq_spec t (xsd "string")) as [->|N]; [split; [discriminate|intros N; contradiction (N eq_refl)]|split; [intros _; exact N|reflexivity]].
  - destruct (ld_tag io l); (split; [discriminate|contradiction]).
  - destruct (ld_tag io l); (split; [try discriminate; reflexivity|try discriminate; reflexivity]).
Qed.

Section Sets.
Context {A : Type} (ins : list A -> A -> list A).
Hypothesis INS : forall s x, ins s x = s \/ ins s x = s ++ [x].
Lemma set_shorter l : forall s, length (fold_left ins l s) <= length s + length l.
Proof.
  induction l as [|x l IH]; intros s; cbn; [lia|]. specialize (IH (ins s x)). destruct (INS s x) as [E|E]; rewrite E in IH |- *; [|rewrite app_length in IH; cbn in IH]; lia.
Qed.
Lemma set_full l : forall s, length (fold_left ins l s) = length s + length l -> fold_left ins l s = s ++ l.
Proof.
  induction l as [|x l IH]; intros s; cbn; intros E; [rewrite app_nil_r; reflexivity|]. destruct (INS s x) as [X|X]; rewrite X in *.
  - exfalso. pose proof (set_shorter l s). lia.
  - rewrite IH; [rewrite <- app_assoc; reflexivity|]. rewrite app_length. cbn. lia.
Qed.
End Sets.
Lemma oset_grow s x : oset_insert fin rnd s x = s \/ oset_insert fin rnd s x = s ++ [x].
Proof. unfold oset_insert, set_insert. destruct (existsb _ s); auto. Qed.
Lemma nset_grow s x : nset_insert fin rnd s x = s \/ nset_insert fin rnd s x = s ++ [x].
Proof. unfold nset_insert, set_insert. destruct (existsb _ s); auto. Qed.
Lemma oset_fixed (f : iobj -> iobj) l : oset fin rnd (map f l) = l -> map f l = l.
Proof. intros E. rewrite <- E at 2. symmetry. apply (set_full _ oset_grow (map f l) []). change (length (oset fin rnd (map f l)) = length (map f l)). rewrite E, map_length. reflexivity. Qed.
Lemma nset_fixed (f : inode -> inode) l : nset fin rnd (map f l) = l -> map f l = l.
Proof. intros E. rewrite <- E at 2. symmetry. apply (set_full _ nset_grow (map f l) []). change (length (nset fin rnd (map f l)) = length (map f l)). rewrite E, map_length. reflexivity. Qed.
Lemma map_fixed {A} (f : A -> A) l : map f l = l <-> Forall (fun x => f x = x) l.
Proof.
  induction l as [|x l IH]; [split; [constructor|reflexivity]|]. cbn. split.
  - intros E. injection E as E1 E2. constructor; [exact E1|exact (proj1 IH E2)].
  - intros F. inversion F as [|? ? F1 F2]; subst. rewrite F1, (proj2 IH F2). reflexivity.
Qed.
Lemma keys_fixed {A} (f : A -> A) (l : list (id * A)) :
  flat_map (fun p => if id_valid (fst p) then [(fst p, f (snd p))] else []) l = l <-> Forall (fun p => id_valid (fst p) = true /\ f (snd p) = snd p) l.
Proof.
  assert (S : forall l : list (id * A), length (flat_map (fun p => if id_valid (fst p) then [(fst p, f (snd p))] else []) l) <= length l).
  { induction l0 as [|p l0 IH]; cbn; [lia|]. rewrite app_length. destruct (id_valid (fst p)); cbn; lia. }
  induction l as [|[k v] l IH]; [split; [constructor|reflexivity]|]. cbn [flat_map fst snd]. destruct (id_valid k) eqn:V; cbn [app].
  - split.
    + intros E. injection E as E1 E2. constructor; [split; [exact V|exact E1]|exact (proj1 IH E2)].
    + intros F. inversion F as [|? ? [_ F1] F2]; subst. cbn in F1. rewrite F1, (proj2 IH F2). reflexivity.
  - split.
    + intros E. exfalso. specialize (S l). rewrite E in S. cbn in S. lia.
    + intros F. inversion F as [|? ? [F1 _] _]; subst. cbn in F1. congruence.
Qed.
Lemma filter_fixed (ts : list id) : filter id_valid ts = ts <-> Forall (fun t => id_valid t = true) ts.
Proof.
  assert (S : forall l, length (filter id_valid l) <= length l) by (induction l as [|t l IH]; cbn; [lia|destruct (id_valid t); cbn; lia]).
  induction ts as [|t ts IH]; [split; [constructor|reflexivity]|]. cbn [filter]. destruct (id_valid t) eqn:V; split.
  - intros E. injection E as E. constructor; [exact V|exact (proj1 IH E)].
  - intros F. inversion F as [|? ? _ F2]; subst. rewrite (proj2 IH F2). reflexivity.
  - intros E. exfalso. specialize (S ts). rewrite E in S. cbn in S. lia.
  - intros F. inversion F; subst. congruence.
Qed.
Lemma non_empty_fixed {A} (l : list A) o : non_empty l = o <-> o <> Some [] /\ opt_list o = l.
Proof.
  destruct l as [|x l]; cbn; (split; [intros <-; split; [discriminate|reflexivity]|]); intros [N E]; destruct o as [m|]; cbn in E; subst; try congruence.
Qed.

Lemma in_iff {A} (P Q : A -> Prop) l : (forall x, In x l -> (P x <-> Q x)) -> (Forall P l <-> Forall Q l).
Proof. intros H. rewrite !Forall_forall. split; intros F x J; apply (H x J); exact (F x J). Qed.
Lemma bare_fixed {A} (f : A -> A) (x : option string * A) : (@None string, f (snd x)) = x <-> fst x = None /\ f (snd x) = snd x.
Proof. destruct x as [i y]. cbn. split; [intros E; injection E as E1 E2; auto|intros [-> ->]; reflexivity]. Qed.

Lemma kept_both : (forall o, wf o -> (remains o = o <-> kept io o)) /\ (forall n, wf_node n -> (remains_node n = n <-> kept_node io n)).
Proof.
  apply obj_node_ind.
  - intros v _. cbn [LinkedData.remains]. split; [intros E; injection E as E; constructor; apply value_kept; exact E|].
    intros K. inversion K as [? V|]; subst. apply value_kept in V. rewrite V. reflexivity.
  - intros n IH W. inversion W as [|? Wn|]; subst. specialize (IH Wn). cbn [LinkedData.remains]. split.
    + intros E. injection E as E. constructor. apply IH. exact E.
    + intros K. inversion K as [|? V]; subst. apply IH in V. exact (f_equal ONode V).
  - intros l _ _. split; [|intros K; inversion K]. destruct l; discriminate.
  - intros i ts g inc ps rs IHg IHi IHp IHr W. inversion W as [? ? ? ? ? ? Wg Dg Wi Di _ Wp _ Wr]; subst.
    rewrite Forall_forall in IHg, IHi, IHp, IHr.
    assert (Ig : Forall (fun x => (@None string, remains (snd x)) = x) (opt_list g) <-> Forall (fun x => fst x = None /\ kept io (snd x)) (opt_list g)).
    { apply in_iff. intros x J. rewrite bare_fixed, (IHg x J (Forall_in _ _ _ Wg J)). reflexivity. }
    assert (Ii : Forall (fun x => (@None string, remains_node (snd x)) = x) (opt_list inc) <-> Forall (fun x => fst x = None /\ kept_node io (snd x)) (opt_list inc)).
    { apply in_iff. intros x J. rewrite bare_fixed, (IHi x J (Forall_in _ _ _ Wi J)). reflexivity. }
    assert (Ip : Forall (fun p => id_valid (fst p) = true /\ map (fun x => (@None string, remains (snd x))) (snd p) = snd p) ps <->
      Forall (fun p => id_valid (fst p) = true /\ Forall (fun x => fst x = None /\ kept io (snd x)) (snd p)) ps).
    { apply in_iff. intros p J. rewrite map_fixed. pose proof (IHp p J) as Ip. pose proof (Forall_in _ _ _ Wp J) as Wp'. rewrite Forall_forall in Ip. cbn beta in Wp'.
      assert (G : Forall (fun x => (@None string, remains (snd x)) = x) (snd p) <-> Forall (fun x => fst x = None /\ kept io (snd x)) (snd p)).
      { apply in_iff. intros x K. rewrite bare_fixed, (Ip x K (Forall_in _ _ _ Wp' K)). reflexivity. }
      rewrite G. reflexivity. }
    assert (Ir : Forall (fun p => id_valid (fst p) = true /\ map (fun x => (@None string, remains_node (snd x))) (snd p) = snd p) (opt_list rs) <->
      Forall (fun p => id_valid (fst p) = true /\ Forall (fun x => fst x = None /\ kept_node io (snd x)) (snd p)) (opt_list rs)).
    { apply in_iff. intros p J. rewrite map_fixed. pose proof (IHr p J) as Ip'. pose proof (Forall_in _ _ _ Wr J) as Wp'. rewrite Forall_forall in Ip'. cbn beta in Wp'.
      assert (G : Forall (fun x => (@None string, remains_node (snd x)) = x) (snd p) <-> Forall (fun x => fst x = None /\ kept_node io (snd x)) (snd p)).
      { apply in_iff. intros x K. rewrite bare_fixed, (Ip' x K (Forall_in _ _ _ Wp' K)). reflexivity. }
      rewrite G. reflexivity. }
    cbn [LinkedData.remains_node]. split.
    + intros E. injection E as Ei Et Eg Ec Ep Er. apply non_empty_fixed in Et. destruct Et as [T1 T2]. symmetry in T2. apply filter_fixed in T2.
      assert (Gg : (g <> None -> ts = None /\ inc = None /\ ps = [] /\ rs = None) /\ Forall (fun x => (@None string, remains (snd x)) = x) (opt_list g)).
      { destruct g as [g|]; [|split; [congruence|constructor]]. destruct ts; [discriminate|]. destruct inc; [discriminate|]. destruct ps; [|discriminate]. destruct rs; [discriminate|].
        cbn [is_graph] in Eg. split; [auto|]. injection Eg as Eg. apply map_fixed. apply oset_fixed. exact Eg. }
      assert (Gc : inc <> Some [] /\ Forall (fun x => (@None string, remains_node (snd x)) = x) (opt_list inc)).
      { destruct inc as [inc|]; [|split; [discriminate|constructor]]. apply non_empty_fixed in Ec. destruct Ec as [C1 C2]. split; [exact C1|]. apply map_fixed. apply nset_fixed. symmetry. exact C2. }
      assert (Gr : rs <> Some [] /\ Forall (fun p => id_valid (fst p) = true /\ map (fun x => (@None string, remains_node (snd x))) (snd p) = snd p) (opt_list rs)).
      { destruct rs as [rs|]; [|split; [discriminate|constructor]]. apply non_empty_fixed in Er. destruct Er as [R1 R2]. split; [exact R1|]. cbn [opt_list] in *. symmetry in R2.
        exact (proj1 (keys_fixed (map (fun x => (@None string, remains_node (snd x)))) rs) R2). }
      apply (keys_fixed (map (fun x => (@None string, remains (snd x))))) in Ep.
      constructor; try tauto. intros j ->. cbn in Ei. destruct (id_valid j); [reflexivity|discriminate].
    + intros K. inversion K as [? ? ? ? ? ? Vi T1 T2 G1 G2 C1 C2 P R1 R2]; subst. f_equal.
      * destruct i as [j|]; [|reflexivity]. cbn. rewrite (Vi j eq_refl). reflexivity.
      * apply non_empty_fixed. split; [exact T1|]. symmetry. apply filter_fixed. exact T2.
      * destruct g as [g|]; [|reflexivity]. destruct (G1 ltac:(discriminate)) as (-> & -> & -> & ->). cbn [is_graph]. f_equal. cbn [opt_list] in *.
        apply Ig, map_fixed in G2. transitivity (oset fin rnd g); [f_equal; exact G2|]. unfold oset, oset_insert. rewrite (set_insert_all (iobj_hash fin rnd) (iobj_eqb fin rnd) same_i g []); [reflexivity| |exact Dg].
        cbn [app]. intros x y I J. unfold iobj_eqb. rewrite andb_true_iff, opt_streq. intros [E X]. split; [exact E|].
        apply (proj1 (eqb_both fin rnd)) in X; [exact X|exact (Forall_in _ _ _ Wg I)|exact (Forall_in _ _ _ Wg J)].
      * destruct inc as [inc|]; [|reflexivity]. apply non_empty_fixed. split; [exact C1|]. cbn [opt_list] in *. apply Ii, map_fixed in C2. symmetry.
        transitivity (nset fin rnd inc); [f_equal; exact C2|]. unfold nset, nset_insert. rewrite (set_insert_all (inode_hash fin rnd) (inode_eqb fin rnd) same_in inc []); [reflexivity| |exact Di].
        cbn [app]. intros x y I J. unfold inode_eqb. rewrite andb_true_iff, opt_streq. intros [E X]. split; [exact E|].
        apply (proj2 (eqb_both fin rnd)) in X; [exact X|exact (Forall_in _ _ _ Wi I)|exact (Forall_in _ _ _ Wi J)].
      * apply (keys_fixed (map (fun x => (@None string, remains (snd x))))). apply Ip. exact P.
      * destruct rs as [rs|]; [|reflexivity]. apply non_empty_fixed. split; [exact R1|]. cbn [opt_list] in *. symmetry.
        apply (keys_fixed (map (fun x => (@None string, remains_node (snd x))))). apply Ir. exact R2.
Qed.

Theorem serialize_kept e : Forall (fun x => ordinary (snd x) /\ wf (snd x)) e -> distinct same_i e ->
  (serialize io fin rnd (doc_data io e) = Ok e <-> Forall (fun x => fst x = None /\ kept io (snd x)) e).
Proof.
  intros F D. assert (O : Forall (fun x : iobj => ordinary (snd x)) e) by (eapply Forall_impl; [|exact F]; cbn; tauto).
  assert (W : Forall (fun x : iobj => wf (snd x)) e) by (eapply Forall_impl; [|exact F]; cbn; tauto).
  assert (T : Forall (fun x : iobj => (@None string, remains_top (snd x)) = x) e <-> Forall (fun x : iobj => fst x = None /\ kept io (snd x)) e).
  { apply in_iff. intros x J. rewrite bare_fixed, <- (proj1 kept_both _ (Forall_in _ _ _ W J)). destruct (snd x) as [|?|[|? l]]; try reflexivity. split; intros [_ E]; discriminate. }
  rewrite (serialize_exact _ _ _ _ O), <- T. split.
  - intros E. injection E as E. apply map_fixed. apply oset_fixed. exact E.
  - intros E. apply map_fixed in E. f_equal. transitivity (oset fin rnd e); [f_equal; exact E|]. unfold oset, oset_insert. rewrite (set_insert_all (iobj_hash fin rnd) (iobj_eqb fin rnd) same_i e []); [reflexivity| |exact D].
    cbn [app]. intros x y I J. unfold iobj_eqb. rewrite andb_true_iff, opt_streq. intros [X Y]. split; [exact X|].
    apply (proj1 (eqb_both fin rnd)) in Y; [exact Y|exact (Forall_in _ _ _ W I)|exact (Forall_in _ _ _ W J)].
Qed.
End Kept.

(** ** Data in general *)
Section SubjInd.
Variable P : subj -> Prop.
Hypothesis H : forall r vs, Forall (fun v => Forall P (snd v)) vs -> P (MkSubj r vs).
Fixpoint subj_ind' (s : subj) : P s :=
  match s with
  | MkSubj r vs => H r vs ((fix gov (vs : list (vkind * list subj)) : Forall (fun v => Forall P (snd v)) vs :=
      match vs with
      | [] => Forall_nil _
      | v :: vs' => Forall_cons v ((fix go (l : list subj) : Forall P l :=
          match l with [] => Forall_nil _ | x :: l' => Forall_cons x (subj_ind' x) (go l') end) (snd v)) (gov vs')
      end) vs)
  end.
End SubjInd.

Section General.
Variables (io : ldops) (fin rnd : list word -> N).
Notation ser := (ser io fin rnd).
Notation node_visit := (node_visit fin rnd).
Notation object_visit := (object_visit fin rnd).

Lemma every_spec {A} (P : A -> Prop) l : every P l <-> Forall P l.
Proof. induction l as [|x l IH]; cbn; [split; [constructor|exact (fun _ => I)]|]. split; [intros [X Y]; constructor; tauto|intros F; inversion F; subst; tauto]. Qed.

(** No list is built. *)
Lemma set_key_some {A} k (v : A) l : set_key k v l <> [].
Proof. destruct l as [|[k' w] l]; cbn; [discriminate|]. destruct (id_eqb k k'); discriminate. Qed.
Lemma add_objects_props p l n : n_props n <> [] \/ is_iri p (rdf "type") = false -> n_props (add_objects p l n) <> [].
Proof.
  intros C. unfold add_objects. destruct (is_iri p (rdf "type")) eqn:E; [|destruct n; apply set_key_some].
  destruct C as [C|]; [|discriminate]. destruct n as [i ts g inc ps rs]. cbn [on_types on_props n_props] in *. destruct (not_types l); [exact C|apply set_key_some].
Qed.
Lemma include_props l : forall n, n_props (fold_left (fun n x => include_node fin rnd x n) l n) = n_props n.
Proof. induction l as [|x l IH]; intros n; [reflexivity|]. cbn. rewrite IH. destruct n; reflexivity. Qed.
Lemma node_visit_props n v n' : node_visit n v = Ok n' -> n_props n <> [] -> n_props n' <> [].
Proof.
  destruct v as [[p|p| |] os]; unfold node_visit; cbn [LinkedData.node_visit]; intros E N.
  - destruct (pred_id p); [|discriminate]. cbn in E. destruct (ser_objects os); [|discriminate]. injection E as <-. apply add_objects_props. left. exact N.
  - destruct (pred_id p); [|discriminate]. cbn in E. destruct (ser_nodes os); [|discriminate]. injection E as <-. destruct n; exact N.
  - destruct (ser_graph fin rnd os); [|discriminate]. injection E as <-. destruct n; exact N.
  - destruct (ser_nodes os); [|discriminate]. injection E as <-. rewrite include_props. exact N.
Qed.
Lemma object_visit_props n f r v n' f' r' : object_visit (n, f, r) v = Ok (n', f', r') -> (f <> None -> n_props n <> []) -> (f' <> None -> n_props n' <> []).
Proof.
  unfold object_visit. destruct v as [[p|p| |] os]; cbn [LinkedData.object_visit fst snd]; intros E N;
    [|(match type of E with bind ?x _ = _ => destruct x as [m|] eqn:V; [|discriminate] end; injection E as <- <- <-; intros F; exact (node_visit_props _ _ _ V (N F)))|(match type of E with bind ?x _ = _ => destruct x as [m|] eqn:V; [|discriminate] end; injection E as <- <- <-; intros F; exact (node_visit_props _ _ _ V (N F)))|(match type of E with bind ?x _ = _ => destruct x as [m|] eqn:V; [|discriminate] end; injection E as <- <- <-; intros F; exact (node_visit_props _ _ _ V (N F)))].
  destruct (pred_id p) as [i|]; [|discriminate]. cbn [bind] in E. destruct (is_iri i (rdf "first")) eqn:I.
  - destruct (ser_first os); [|discriminate]. cbn [bind] in E. destruct (ser_objects os); [|discriminate]. injection E as <- <- <-. intros _. apply add_objects_props. right.
    apply is_iri_spec in I. subst i. reflexivity.
  - destruct (is_iri i (rdf "rest")).
    + destruct (ser_rest os); [|discriminate]. cbn [bind] in E. destruct (ser_objects os); [|discriminate]. injection E as <- <- <-. intros F. apply add_objects_props. left. exact (N F).
    + cbn [bind] in E. destruct (ser_objects os); [|discriminate]. injection E as <- <- <-. intros F. apply add_objects_props. left. exact (N F).
Qed.
Lemma never_a_list s l : serialize_object io fin rnd s <> Ok (OList l).
Proof.
  destruct s as [r vs]. unfold serialize_object. rewrite ser_eq. cbn [ser_of r_object]. destruct r as [[i|t]|]; [|discriminate|].
  - match goal with |- bind ?x _ <> _ => destruct x end; cbn [bind]; discriminate.
  - unfold visit_object. set (V := results io fin rnd vs). clearbody V.
    assert (G : forall V n f r n' f' r', fold_r object_visit (n, f, r) V = Ok (n', f', r') -> (f <> None -> n_props n <> []) -> (f' <> None -> n_props n' <> [])).
    { induction V0 as [|v V0 IH]; cbn [fold_r]; intros n f r n' f' r' E N; [injection E as <- <- <-; exact N|].
      destruct (object_visit (n, f, r) v) as [[[n1 f1] r1]|] eqn:X; [|discriminate]. cbn [bind] in E. exact (IH _ _ _ _ _ _ E (object_visit_props _ _ _ _ _ _ _ X N)). }
    match goal with |- bind ?x _ <> _ => destruct x as [[[n f] r]|] eqn:E end; [|discriminate]. cbn [bind object_end].
    specialize (G V _ _ _ _ _ _ E ltac:(congruence)). destruct f as [x|]; [|destruct r; discriminate]. specialize (G ltac:(discriminate)).
    destruct r as [r|]; [|discriminate]. destruct n as [i [ts|] g inc [|p ps] rs]; cbn in *; try discriminate. contradiction.
Qed.

(** Proper data is serialized. *)
Definition fine {A E} (r : result A E) : Prop := exists x, r = Ok x.
Lemma fold_fine {A B E} (f : A -> B -> result A E) l : Forall (fun x => forall a, fine (f a x)) l -> forall a, fine (fold_r f a l).
Proof. induction 1 as [|x l H F IH]; intros a; [exists a; reflexivity|]. cbn. destruct (H a) as [b ->]. cbn. apply IH. Qed.
Lemma map_fine {A B E} (f : A -> result B E) l : Forall (fun x => fine (f x)) l -> fine (map_r f l).
Proof. induction 1 as [|x l [y H] F [ys IH]]; [exists []; reflexivity|]. exists (y :: ys). cbn. rewrite H. cbn. rewrite IH. reflexivity. Qed.
Definition runs (s : subj) : Prop :=
  proper s -> fine (r_object (ser s)) /\ (not_literal (s_repr s) -> fine (r_node (ser s))) /\ (listable s -> fine (r_list (ser s))).
Lemma objects_fine os : Forall (fun s => fine (r_object (ser s))) os -> fine (ser_objects (map ser os)) /\ fine (ser_graph fin rnd (map ser os)) /\ fine (ser_first (map ser os)).
Proof.
  intros F. rewrite <- (Forall_map ser (fun r => fine (r_object r))) in F. destruct (map_fine _ _ F) as [l E]. unfold ser_objects, ser_graph, ser_first. rewrite E. cbn.
  split; [eexists; reflexivity|]. split; [eexists; reflexivity|]. apply fold_fine. eapply Forall_impl; [|exact F]. intros r [x X] a. cbn beta. rewrite X. eexists. reflexivity.
Qed.
Lemma nodes_fine os : Forall (fun s => fine (r_node (ser s))) os -> fine (ser_nodes (map ser os)).
Proof. intros F. rewrite <- (Forall_map ser (fun r => fine (r_node r))) in F. destruct (map_fine _ _ F) as [l E]. unfold ser_nodes. rewrite E. eexists. reflexivity. Qed.
Lemma rest_fine os : Forall (fun s => fine (r_list (ser s))) os -> fine (ser_rest (map ser os)).
Proof. intros F. rewrite <- (Forall_map ser (fun r => fine (r_list r))) in F. apply fold_fine. eapply Forall_impl; [|exact F]. intros r X a. exact X. Qed.
Lemma both_forall {A} (P Q R : A -> Prop) l : (forall x, P x -> Q x -> R x) -> Forall P l -> Forall Q l -> Forall R l.
Proof. intros H F G. rewrite Forall_forall in *. intros x J. exact (H x (F x J) (G x J)). Qed.
Lemma proper_runs s : runs s.
Proof.
  induction s as [r vs IH] using subj_ind'. unfold runs. cbn [proper s_repr]. rewrite every_spec. intros P.
  assert (N : Forall (fun v => forall n, fine (node_visit n v)) (results io fin rnd vs)).
  { unfold results. apply Forall_map. refine (both_forall _ _ _ _ _ IH P). intros [k os] I [Pk Pv]. cbn [fst snd] in *. rewrite every_spec in Pk. intros n. unfold node_visit. cbn [LinkedData.node_visit].
    assert (O : Forall (fun s => fine (r_object (ser s))) os) by (refine (both_forall _ _ _ _ _ I Pk); intros s R Ps; exact (proj1 (R Ps))).
    assert (M : every (fun s => not_literal (s_repr s)) os -> Forall (fun s => fine (r_node (ser s))) os).
    { rewrite every_spec. intros L. pose proof (both_forall _ _ (fun s => proper s /\ not_literal (s_repr s)) _ (fun x a b => conj a b) Pk L) as PL.
      refine (both_forall _ _ _ _ _ I PL). intros s R [Ps Ls]. exact (proj1 (proj2 (R Ps)) Ls). }
    destruct (objects_fine _ O) as ([l1 E1] & [l2 E2] & _). destruct k as [p|p| |].
    - destruct Pv as [[i ->] _]. cbn [pred_id bind]. rewrite E1. eexists. reflexivity.
    - destruct Pv as [[i ->] L]. cbn [pred_id bind]. destruct (nodes_fine _ (M L)) as [l3 E3]. rewrite E3. eexists. reflexivity.
    - rewrite E2. eexists. reflexivity.
    - destruct (nodes_fine _ (M Pv)) as [l3 E3]. rewrite E3. eexists. reflexivity. }
  rewrite ser_eq. cbn [ser_of r_object r_node r_list]. split; [|split].
  - destruct r as [[i|l]|]; [|eexists; reflexivity|].
    + destruct (fold_fine _ _ N (node_new (Some i))) as [n E]. unfold visit_node. rewrite E. eexists. reflexivity.
    + assert (Ob : Forall (fun v => forall s, fine (object_visit s v)) (results io fin rnd vs)).
      { unfold results in *. rewrite Forall_map in N |- *. refine (both_forall _ _ _ _ _ N _). 2: exact (both_forall _ _ _ _ (fun x a b => conj a b) IH P).
        intros [k os] Nv [I [Pk Pv]] [[n f] rr]. cbn [fst snd] in *. rewrite every_spec in Pk. unfold object_visit. cbn [LinkedData.object_visit fst snd].
        destruct k as [p|p| |]; try (destruct (Nv n) as [m E]; rewrite E; eexists; reflexivity).
        assert (O : Forall (fun s => fine (r_object (ser s))) os) by (refine (both_forall _ _ _ _ _ I Pk); intros s R Ps; exact (proj1 (R Ps))).
        destruct (objects_fine _ O) as ([l1 E1] & _ & [l2 E2]). destruct Pv as [[i ->] L]. cbn [pred_id bind]. rewrite E2. destruct (is_iri i (rdf "first")) eqn:X1; [cbn [bind]; rewrite E1; eexists; reflexivity|].
        destruct (is_iri i (rdf "rest")) eqn:X2; [|cbn [bind]; rewrite E1; eexists; reflexivity].
        apply is_iri_spec in X2. subst i. specialize (L eq_refl eq_refl). rewrite every_spec in L.
        assert (R : Forall (fun s => fine (r_list (ser s))) os).
        { pose proof (both_forall _ _ (fun s => proper s /\ listable s) _ (fun x a b => conj a b) Pk L) as PL. refine (both_forall _ _ _ _ _ I PL). intros s R [Ps Ls]. exact (proj2 (proj2 (R Ps)) Ls). }
        destruct (rest_fine _ R) as [l3 E3]. rewrite E3. cbn [bind]. rewrite E1. eexists. reflexivity. }
      unfold visit_object. destruct (fold_fine _ _ Ob (node_new None, None, None)) as [s E]. rewrite E. eexists. reflexivity.
  - intros NL. destruct r as [[i|l]|]; [|contradiction (NL l eq_refl)|]; apply fold_fine; exact N.
  - cbn [listable]. rewrite every_spec. intros Ls. unfold visit_list.
    assert (Lv : Forall (fun v => forall s, fine (list_visit s v)) (results io fin rnd vs)).
    { unfold results. apply Forall_map. refine (both_forall _ _ _ _ _ IH _). 2: exact (both_forall _ _ _ _ (fun x a b => conj a b) P Ls).
      intros [k os] I [[Pk _] Lk] s. cbn [fst snd] in *. rewrite every_spec in Pk. unfold list_visit. cbn [fst snd]. destruct k as [p|p| |]; try contradiction; [|eexists; reflexivity].
      destruct Lk as [[i ->] L]. cbn [pred_id bind].
      assert (O : Forall (fun s => fine (r_object (ser s))) os) by (refine (both_forall _ _ _ _ _ I Pk); intros s' R Ps; exact (proj1 (R Ps))).
      destruct (objects_fine _ O) as (_ & _ & [l2 E2]). rewrite E2. destruct (is_iri i (rdf "first")); [eexists; reflexivity|].
      destruct (is_iri i (rdf "rest")) eqn:X2; [|eexists; reflexivity]. apply is_iri_spec in X2. subst i. specialize (L eq_refl). rewrite every_spec in L.
      assert (R : Forall (fun s => fine (r_list (ser s))) os).
      { pose proof (both_forall _ _ (fun s => proper s /\ listable s) _ (fun x a b => conj a b) Pk L) as PL. refine (both_forall _ _ _ _ _ I PL). intros s' R [Ps Ls']. exact (proj2 (proj2 (R Ps)) Ls'). }
      destruct (rest_fine _ R) as [l3 E3]. rewrite E3. eexists. reflexivity. }
    destruct (fold_fine _ _ Lv (None, [])) as [s E]. rewrite E. eexists. reflexivity.
Qed.
Theorem serialize_proper d : Forall (fun g => match fst g with GNamed r => not_literal r | GDefault => True end /\ Forall proper (snd g)) d ->
  exists e, serialize io fin rnd d = Ok e.
Proof.
  intros F. apply fold_fine. eapply Forall_impl; [|exact F]. intros [k os] [K P] e. cbn [fst snd] in *. unfold doc_visit. cbn [fst snd].
  assert (O : Forall (fun s => fine (r_object (ser s))) os) by (eapply Forall_impl; [|exact P]; intros s Ps; exact (proj1 (proper_runs s Ps))).
  destruct k as [|r].
  - apply fold_fine. eapply Forall_impl; [|exact P]. intros s Ps a. cbn beta. unfold default_subject. pose proof (proj1 (proj2 (proper_runs s Ps))) as N.
    destruct (s_repr s) as [[i|l]|]; [|eexists; reflexivity|]; (destruct N as [n E]; [intros l; discriminate|]; rewrite E; eexists; reflexivity).
  - destruct (objects_fine _ O) as (_ & [l E] & _). destruct r as [[i|t]|]; [|contradiction (K t eq_refl)|]; rewrite E; eexists; reflexivity.
Qed.
End General.

(** The names of properties and types when invalid identifiers are not kept. *)
From Verif Require Import Prelude Json Str Keyword Enums LangTag LangString Container Stack ContextSyntax Ctx Process ProcessRel
  Object ObjectEq ObjectJson ObjectJsonProofs CompactIri CompactIriRead Sound Expand ExpandOk.

(** ** Specification *)
(** All the properties, reverse properties and types, at any depth, satisfy [V]. *)
Inductive named (V : id -> Prop) : obj -> Prop :=
| NmVal v : named V (OVal v)
| NmNode n : named_node V n -> named V (ONode n)
| NmList l : Forall (fun x => named V (snd x)) l -> named V (OList l)
with named_node (V : id -> Prop) : node -> Prop :=
| NmMk i ts g inc ps rs :
    Forall V (opt_list ts) -> Forall (fun x => named V (snd x)) (opt_list g) -> Forall (fun x => named_node V (snd x)) (opt_list inc) ->
    Forall (fun p => V (fst p) /\ Forall (fun x => named V (snd x)) (snd p)) ps ->
    Forall (fun p => V (fst p) /\ Forall (fun x => named_node V (snd x)) (snd p)) (opt_list rs) ->
    named_node V (MkNode i ts g inc ps rs).
Definition valid (i : id) : Prop := forall s, i <> IInvalid s.

Section Names.
Variables (io : iops) (ld : loader) (fin rnd : list word -> N) (pf : nat) (o : xopts) (base_url : option string) (doc : json) (c0 : actx).
Notation reached := (reached io ld pf base_url doc c0).
Hypothesis HP : xo_invalid o <> AKeep.
Hypothesis HC : forall c t d, reached c -> get_normal c t = Some d -> nd_index d = None /\ c_contains (nd_container d) CKType = false.
Notation fine := (fun x : iobj => named valid (snd x)).
Notation fine_n := (fun x : inode => named_node valid (snd x)).
Notation fine_node := (named_node valid).

Lemma policy_valid i e : invalid_policy o i e = Ok true -> valid i.
Proof. unfold invalid_policy. destruct i as [i0|b0|s0]; intros H s; try discriminate. destruct (xo_invalid o); [exfalso; apply HP; reflexivity|discriminate|discriminate]. Qed.
Lemma new_names i : fine_node (node_new i).
Proof. constructor; constructor. Qed.
Lemma set_nid_names i n : fine_node n -> fine_node (set_nid i n). Proof. intros H. destruct n. inversion H; subst. constructor; assumption. Qed.
Lemma push_names t n : fine_node n -> valid t -> fine_node (push_type t n).
Proof. intros H T. destruct n. inversion H; subst. constructor; try assumption. cbn. apply Forall_app. auto. Qed.
Lemma set_graph_names l n : fine_node n -> Forall fine l -> fine_node (set_ngraph (Some l) n).
Proof. intros H T. destruct n. inversion H; subst. constructor; assumption. Qed.
Lemma graph_of_names x : fine x -> fine (graph_of fin rnd x).
Proof. intros H. constructor. exact (set_graph_names [x] (node_new None) (new_names None) (Forall_cons _ H (Forall_nil _))). Qed.
Lemma included_names l n : fine_node n -> Forall fine_n l -> fine_node (add_included fin rnd l n).
Proof. intros H T. destruct n. inversion H; subst. constructor; try assumption. cbn. apply set_sub; assumption. Qed.
Lemma insert_names {A} (P : A -> Prop) p v (ps : list (id * list A)) :
  Forall (fun e => valid (fst e) /\ Forall P (snd e)) ps -> valid p -> Forall P v -> Forall (fun e => valid (fst e) /\ Forall P (snd e)) (insert_all p v ps).
Proof.
  intros F R V. induction F as [|[k w] ps (R' & Fw) F IH]; cbn [insert_all]; [repeat constructor; assumption|].
  destruct (id_eqb p k); constructor; cbn [fst snd] in *; auto. split; [exact R'|]. apply Forall_app; auto.
Qed.
Lemma prop_names p l n : fine_node n -> valid p -> Forall fine l -> fine_node (add_prop p l n).
Proof. intros H V F. destruct n. inversion H; subst. constructor; try assumption. apply insert_names; assumption. Qed.
Lemma reverse_names p l n : fine_node n -> valid p -> Forall fine_n l -> fine_node (add_reverse p l n).
Proof. intros H V F. destruct n. inversion H; subst. constructor; try assumption. cbn. apply insert_names; assumption. Qed.
Lemma as_nodes_names e l r : as_nodes e l = Ok r -> Forall fine l -> Forall fine_n r.
Proof.
  intros H F. refine (map_r_forall _ _ _ _ H _). intros x y I E. destruct (as_node x) as [n|] eqn:N; [|discriminate]. injection E as <-.
  unfold as_node in N. pose proof (Forall_in _ _ _ F I) as G. cbn in G. destruct (snd x); try discriminate. injection N as <-. cbn. inversion G; assumption.
Qed.
Lemma value_names i v : fine (i, OVal v). Proof. constructor. Qed.
Lemma list_names i l : Forall fine l -> fine (i, OList l). Proof. intros F. constructor. exact F. Qed.
Lemma oset_names l : Forall fine l -> Forall fine (oset fin rnd l). Proof. intros F. apply (set_sub _ _ fine); [exact F|constructor]. Qed.
Lemma literal_names c ap v x : expand_literal io o c ap v = Ok x -> fine x.
Proof.
  unfold expand_literal. intros H. cbn zeta in H.
  assert (N : forall i, fine (None, ONode (node_new i))) by (intros i; constructor; apply new_names).
  destruct (match prop_def c ap with Some d => nd_typ d | None => None end) as [[]|]; destruct v; try discriminate; try (injection H as <-; constructor).
  - destruct (xiri io c s true None) as [[t|]|]; try discriminate. injection H as <-. apply N.
  - apply bind_ok in H. destruct H as (t & _ & H). injection H as <-. apply N.
Qed.
Lemma expand_value_names it tsc es ve x : expand_value io o it tsc es ve = Ok (Some x) -> fine x.
Proof.
  unfold expand_value. intros H. cbn zeta in H. apply bind_ok in H. destruct H as (s & _ & H).
  destruct (vs_json s); [destruct (_ || _); [discriminate|]; injection H as <-; constructor|].
  destruct ve; try discriminate; cbn [given] in H; repeat match type of H with
    | (if ?b then _ else _) = _ => destruct b; try discriminate
    | match ?r with Ok _ => _ | Err _ => _ end = _ => destruct r; try discriminate
    end; injection H as <-; constructor.
Qed.

Section Rec.
Variable rec : actx -> option string -> json -> bool -> result expanded xerr.
Hypothesis HR : forall c ap j fm x, reached c -> part j doc -> rec c ap j fm = Ok x -> Forall fine (items x).

Lemma types_names tsc v n n' : fine_node n -> expand_types io o tsc v n = Ok n' -> fine_node n'.
Proof.
  intros F H. refine (fold_inv_r _ fine_node _ _ _ H F _). intros a t a' _ Fa E. destruct (as_str t) as [s|]; [|discriminate].
  apply bind_ok in E. destruct E as (u & _ & E). destruct u as [u|]; [|injection E as <-; exact Fa]. destruct u as [|i|k]; cbn in E; try discriminate.
  apply bind_ok in E. destruct E as (b & B & E). injection E as <-. destruct b; [|exact Fa]. apply push_names; [exact Fa|exact (policy_valid _ _ B)].
Qed.
Lemma reverse_entry_names c n e n' : reached c -> part (snd e) doc -> fine_node n -> reverse_entry io o rec c n e = Ok n' -> fine_node n'.
Proof.
  intros C P F H. destruct e as [k v]. cbn [reverse_entry snd] in *. apply bind_ok in H. destruct H as (t & X & H).
  destruct t as [[|p|kw]|]; try discriminate; try (destruct (_ || _); [discriminate|injection H as <-; exact F]).
  destruct (id_has_colon p) eqn:Hc; [|destruct (_ || _); [discriminate|injection H as <-; exact F]].
  apply bind_ok in H. destruct H as (b & B & H). destruct b; cbn [negb] in H; [|injection H as <-; exact F]. apply policy_valid in B.
  apply bind_ok in H. destruct H as (x & E & H). pose proof (HR _ _ _ _ _ C P E) as Fx.
  destruct (match prop_def c (Some k) with Some d => nd_reverse d | None => false end).
  - injection H as <-. apply prop_names; auto.
  - apply bind_ok in H. destruct H as (l & El & H). injection H as <-. apply reverse_names; auto. exact (as_nodes_names _ _ _ El Fx).
Qed.
Lemma language_map_names c d m l : expand_language_map io o c d m = Ok l -> Forall fine l.
Proof.
  intros H. refine (flat_forall _ _ _ _ H _). intros e ys _ E. refine (flat_forall _ _ _ _ E _). intros it zs _ E'.
  destruct it; try discriminate; [injection E' as <-; constructor|]. apply bind_ok in E'. destruct E' as (t & _ & E'). injection E' as <-.
  constructor; [|constructor]. constructor.
Qed.
Lemma index_item_names c key ik index x item y : reached c ->
  ik = match prop_def c (Some key) with Some d => match nd_index d with Some i => i | None => "@index" end | None => "@index" end ->
  fine item -> index_item io fin rnd o c (has_container (prop_def c (Some key))) ik index x item = Ok (Some y) -> fine y.
Proof.
  intros C IK F H. unfold index_item in H. cbn zeta in H. set (cont := has_container (prop_def c (Some key))) in *.
  set (it := if cont CKGraph && negb (o_is_graph (snd item)) then graph_of fin rnd item else item) in *.
  assert (Fi : fine it) by (unfold it; destruct (_ && _); [apply graph_of_names|]; exact F). clearbody it.
  assert (K : ik = "@index" /\ cont CKType = false).
  { unfold cont, has_container. destruct (prop_def c (Some key)) as [d|] eqn:D; [|split; [exact IK|reflexivity]]. destruct (prop_get _ _ _ D) as (t & _ & G).
    destruct (HC _ _ _ C G) as [N T]. rewrite N in IK. split; [exact IK|exact T]. }
  destruct K as [Ki Kt]. rewrite Ki, Kt in H. rewrite streq_refl in H. cbn [negb] in H. rewrite andb_false_r in H.
  destruct x as [x|]; [|injection H as <-; exact Fi].
  destruct (cont CKIndex && negb (is_some (fst it))); [injection H as <-; exact Fi|].
  destruct (cont CKId && negb (is_some (o_id (snd it)))); [|injection H as <-; exact Fi].
  destruct (snd it) eqn:Si; try (injection H as <-; cbn in Fi |- *; rewrite ?Si in *; exact Fi). apply bind_ok in H. destruct H as (t & _ & H). injection H as <-.
  cbn in *. rewrite ?Si in Fi. inversion Fi; subst. constructor. apply set_nid_names. assumption.
Qed.
Lemma index_map_names c key m l : reached c -> part (JObj m) doc -> expand_index_map io ld fin rnd pf o rec c (prop_def c (Some key)) key m = Ok l -> Forall fine l.
Proof.
  intros C P H. refine (flat_forall _ _ _ _ H _). intros [index v] ys I E. apply entries_in in I. cbn zeta in E.
  set (cont := has_container (prop_def c (Some key))) in *.
  set (mc := if cont CKType || cont CKId then match ac_prev c with Some p => p | None => c end else c) in *.
  assert (Cm : reached mc).
  { unfold mc. destruct (_ || _); [|exact C]. destruct (ac_prev c) as [p|] eqn:Pv; [exact (RcPrevious _ _ _ _ _ _ _ _ C Pv)|exact C]. }
  clearbody mc. apply bind_ok in E. destruct E as (mc' & E1 & E).
  assert (Cm' : reached mc').
  { destruct (cont CKType); [|injection E1 as <-; exact Cm]. destruct (prop_def mc (Some index)) as [d|] eqn:D; [|injection E1 as <-; exact Cm].
    destruct (nd_context d) as [lc|] eqn:N; [|injection E1 as <-; exact Cm]. exact (scoped_reached _ _ _ _ _ _ _ _ _ _ _ _ _ Cm Cm D N E1). }
  apply bind_ok in E. destruct E as (x & E2 & E). apply bind_ok in E. destruct E as (ev & E3 & E).
  pose proof (HR _ _ _ _ _ Cm' (part_field _ _ _ _ P I) E3) as Fe.
  refine (flat_forall _ _ _ _ E _). intros item zs J E4. apply bind_ok in E4. destruct E4 as (r & E5 & E4). injection E4 as <-.
  destruct r as [y|]; [|constructor]. constructor; [|constructor].
  exact (index_item_names c key _ index _ item y C eq_refl (Forall_in _ _ _ Fe J) E5).
Qed.
Lemma property_names c key v x : reached c -> part v doc -> expand_property io ld fin rnd pf o rec c key v = Ok x -> Forall fine (items x).
Proof.
  intros C P H. unfold expand_property in H. cbn zeta in H.
  destruct (match prop_def c (Some key) with Some d => match nd_typ d with Some TyJson => true | _ => false end | None => false end).
  { injection H as <-. constructor; [|constructor]. constructor. }
  destruct v; try exact (HR _ _ _ _ _ C P H).
  destruct (has_container (prop_def c (Some key)) CKLanguage).
  { apply bind_ok in H. destruct H as (r & E & H). injection H as <-. exact (language_map_names _ _ _ _ E). }
  destruct (_ || _); [|exact (HR _ _ _ _ _ C P H)]. apply bind_ok in H. destruct H as (r & E & H). injection H as <-. exact (index_map_names _ _ _ _ C P E).
Qed.
Lemma wraps_names d x : Forall fine (items x) -> Forall fine (items (wrap_graph fin rnd d (wrap_list d x))).
Proof.
  intros F. assert (G : Forall fine (items (wrap_list d x))).
  { unfold wrap_list. destruct (_ && _); [|exact F]. constructor; [|constructor]. apply (list_names None); exact F. }
  unfold wrap_graph. destruct (_ && _ && _); [|exact G]. cbn [items]. apply Forall_forall. intros y I. apply in_map_iff in I.
  destruct I as (z & <- & I). apply graph_of_names. exact (Forall_in _ _ _ G I).
Qed.
Lemma property_entry_names c key p v n n' : reached c -> part v doc -> fine_node n ->
  property_entry io ld fin rnd pf o rec c key p v n = Ok n' -> fine_node n'.
Proof.
  intros C P F H. unfold property_entry in H. destruct (id_has_colon p) eqn:Hc.
  - apply bind_ok in H. destruct H as (b & B & H). destruct b; cbn [negb] in H; [|injection H as <-; exact F]. apply policy_valid in B. apply bind_ok in H. destruct H as (x & E & H).
    pose proof (wraps_names (prop_def c (Some key)) x (property_names _ _ _ _ C P E)) as Fx. cbn zeta in H. unfold store in H.
    destruct (wrap_graph fin rnd _ _) as [|y|l]; [injection H as <-; exact F| |];
      (destruct (match prop_def c (Some key) with Some d => nd_reverse d | None => false end);
       [apply bind_ok in H; destruct H as (r & Er & H); injection H as <-; apply reverse_names; auto; exact (as_nodes_names _ _ _ Er Fx)
       |injection H as <-; apply prop_names; auto]).
  - apply bind_ok in H. destruct H as (b & _ & H). destruct (xo_allow_undefined o); [injection H as <-; exact F|discriminate].
Qed.
Definition entry_in (e : xentry) : Prop := part (snd e) doc.
Definition self_names (self : actx -> list xentry -> nstate -> result nstate xerr) : Prop :=
  forall c es s s', reached c -> Forall entry_in es -> fine_node (snd (fst s)) -> self c es s = Ok s' -> fine_node (snd (fst s')).
Lemma entries_part c m l es : part (JObj m) doc -> incl l m ->
  flat_r (fun e : string * json => do t <- xkey io o c (fst e) ; Ok (match t with Some t => [(fst e, t, snd e)] | None => [] end)) l = Ok es -> Forall entry_in es.
Proof.
  intros P I H. refine (flat_forall _ _ _ _ H _). intros [k v] ys J E. cbn [fst snd] in E. apply bind_ok in E. destruct E as (t & X & E).
  injection E as <-. destruct t as [t|]; [|constructor]. constructor; [|constructor]. exact (part_field _ _ _ _ P (I _ J)).
Qed.
Lemma nest_names self c key s v s' : self_names self -> reached c -> part v doc -> fine_node (snd (fst s)) ->
  nest_entry io ld pf o self c key s v = Ok s' -> fine_node (snd (fst s')).
Proof.
  intros HS C P F H. unfold nest_entry in H. apply bind_ok in H. destruct H as (c1 & E1 & H).
  assert (C1 : reached c1).
  { destruct (prop_def c (Some key)) as [d|] eqn:D; [|injection E1 as <-; exact C].
    destruct (nd_context d) as [lc|] eqn:N; [|injection E1 as <-; exact C]. exact (scoped_reached _ _ _ _ _ _ _ _ _ _ _ _ _ C C D N E1). }
  destruct v; try discriminate. apply bind_ok in H. destruct H as (es & E2 & H). refine (HS _ _ _ _ C1 _ F H).
  refine (entries_part c1 l (entries_sorted o l) es P _ E2). intros e. apply entries_in.
Qed.
Lemma keyword_names self ap c tsc s key k v s' : self_names self -> reached c -> part v doc -> fine_node (snd (fst s)) ->
  keyword_entry io ld fin rnd pf o rec self ap c tsc s key k v = Ok s' -> fine_node (snd (fst s')).
Proof.
  intros HS C P F H. unfold keyword_entry in H. cbn zeta in H. destruct (ap_is ap KReverse); [discriminate|].
  match type of H with (if ?b then _ else _) = _ => destruct b end; [discriminate|].
  destruct k; try (injection H as <-; exact F); try discriminate.
  - (* @graph *) apply bind_ok in H. destruct H as (x & E & H). injection H as <-. cbn. apply set_graph_names; [exact F|]. apply oset_names.
    apply Forall_forall. intros y I. apply filter_In in I. exact (Forall_in _ _ _ (HR _ _ _ _ _ C P E) (proj1 I)).
  - (* @id *) destruct (as_str v) as [i|]; [|discriminate]. apply bind_ok in H. destruct H as (t & E & H). injection H as <-. cbn. apply set_nid_names. exact F.
  - (* @included *) destruct (xo_mode o); [injection H as <-; exact F|]. apply bind_ok in H. destruct H as (x & E & H). apply bind_ok in H. destruct H as (l & El & H).
    injection H as <-. cbn. apply included_names; [exact F|]. exact (as_nodes_names _ _ _ El (HR _ _ _ _ _ C P E)).
  - (* @index *) destruct (as_str v); [|discriminate]. injection H as <-. exact F.
  - (* @nest *) refine (fold_inv_r _ (fun s => fine_node (snd (fst s))) _ _ _ H F _). intros a x a' I Fa E. exact (nest_names _ _ _ _ _ _ HS C (part_force _ _ _ P I) Fa E).
  - (* @reverse *) destruct v; try discriminate. apply bind_ok in H. destruct H as (n & E & H). injection H as <-. cbn.
    refine (fold_inv_r _ fine_node _ _ _ E F _). intros a e a' I Fa E'. apply entries_in in I. destruct e as [k x].
    exact (reverse_entry_names c _ (k, x) _ C (part_field _ _ _ _ P I) Fa E').
  - (* @type *) apply bind_ok in H. destruct H as (n & E & H). injection H as <-. cbn. exact (types_names _ _ _ _ F E).
Qed.
Lemma node_entries_names m ap tsc : self_names (node_entries io ld fin rnd pf o rec m ap tsc).
Proof.
  induction m as [|m IH]; intros c es s s' C F Fs H; [discriminate|]. cbn [node_entries] in H.
  refine (fold_inv_r _ (fun s => fine_node (snd (fst s))) _ _ _ H Fs _). intros a [[key t] v] a' I Fa E.
  pose proof (Forall_in _ _ _ F I) as P. unfold entry_in in P. cbn [fst snd] in *. unfold node_entry in E. destruct t as [|p|k]; [injection E as <-; exact Fa| |].
  - apply bind_ok in E. destruct E as (n & E & X). injection X as <-. cbn. exact (property_entry_names _ _ _ _ _ _ C P Fa E).
  - destruct k; try exact (keyword_names _ _ _ _ _ _ _ _ _ IH C P Fa E). injection E as <-. exact Fa.
Qed.
Lemma expand_node_names m ap c tsc es n : reached c -> Forall entry_in es -> expand_node io ld fin rnd pf o rec m ap c tsc es = Ok (Some n) -> fine_node (snd n).
Proof.
  intros C F H. unfold expand_node in H. apply bind_ok in H. destruct H as ([r hv] & E & H).
  pose proof (node_entries_names m ap tsc c es ((None, node_new None), false) _ C F (new_names None) E) as Fr. cbn in Fr.
  destruct (_ && _ && _); [discriminate|]. destruct (_ && _ && _); [discriminate|]. injection H as <-. exact Fr.
Qed.
Lemma map_names m c ap jm fm x : reached c -> part (JObj jm) doc -> expand_map io ld fin rnd pf o base_url rec m c ap jm fm = Ok x -> Forall fine (items x).
Proof.
  intros C P H. unfold expand_map in H. apply bind_ok in H. destruct H as (tsc & E1 & H). pose proof (context_reached _ _ _ _ _ _ _ _ _ _ _ _ C P E1) as T.
  apply bind_ok in H. destruct H as (ts & _ & H). apply bind_ok in H. destruct H as (c1 & E2 & H). pose proof (type_scoped_reached _ _ _ _ _ _ _ _ _ _ T E2) as C1.
  apply bind_ok in H. destruct H as (it & _ & H). apply bind_ok in H. destruct H as (es & E3 & H).
  pose proof (entries_part c1 jm jm es P (incl_refl _) E3) as Fe.
  assert (PE : forall k v, last_entry k es = Some v -> part v doc).
  { intros k v Lk. destruct (last_entry_in _ _ _ Lk) as (e & I & <-). apply (Forall_in _ _ _ Fe I). }
  destruct (if is_some ap && negb (ap_is ap KGraph) then last_entry KList es else None) as [l|] eqn:EL.
  { destruct (is_some ap && negb (ap_is ap KGraph)); [|discriminate]. apply bind_ok in H. destruct H as (i & _ & H). apply bind_ok in H. destruct H as (r & E & H).
    injection H as <-. constructor; [|constructor]; apply (list_names i); refine (flat_forall _ _ _ _ E _); intros y ys I X; apply bind_ok in X; destruct X as (z & Ez & X);
      injection X as <-; exact (HR _ _ _ _ _ C1 (part_force _ _ _ (PE _ _ EL) I) Ez). }
  destruct (last_entry KSet es) as [s|] eqn:ES; [apply bind_ok in H; destruct H as (u & _ & H); exact (HR _ _ _ _ _ C1 (PE _ _ ES) H)|].
  destruct (last_entry KValue es) as [v|] eqn:EV.
  - apply bind_ok in H. destruct H as (r & E & H). injection H as <-. destruct r as [y|]; [|constructor]. constructor; [|constructor].
    unfold map_err in E. destruct (expand_value io o it tsc es v) eqn:E'; [|discriminate]. injection E as ->. exact (expand_value_names _ _ _ _ _ E').
  - apply bind_ok in H. destruct H as (r & E & H). injection H as <-. destruct r as [n|]; [|constructor]. constructor; [|constructor].
    constructor. exact (expand_node_names _ _ _ _ _ _ C1 Fe E).
Qed.
Lemma scalar_names c ap j x : expand_scalar io ld pf o c ap j = Ok x -> Forall fine (items x).
Proof.
  intros H. unfold expand_scalar in H. destruct (free_floating ap); [injection H as <-; constructor|]. apply bind_ok in H. destruct H as (c1 & E1 & H).
  destruct (given j) as [l|] eqn:G; [|discriminate]. apply bind_ok in H. destruct H as (y & E & H). injection H as <-. constructor; [|constructor].
  unfold map_err in E. destruct (expand_literal io o c1 ap l) eqn:E'; [|discriminate]. injection E as ->. exact (literal_names _ _ _ _ E').
Qed.
Lemma body_names m c ap j fm x : reached c -> part j doc -> element_body io ld fin rnd pf o base_url rec m c ap j fm = Ok x -> Forall fine (items x).
Proof.
  intros C P H. unfold element_body in H. destruct j; try exact (scalar_names _ _ _ _ H).
  - injection H as <-. constructor.
  - apply bind_ok in H. destruct H as (r & E & H). injection H as <-.
    assert (F : Forall fine r).
    { refine (flat_forall _ _ _ _ E _). intros y ys I X. apply bind_ok in X. destruct X as (z & Ez & X). injection X as <-. exact (HR _ _ _ _ _ C (part_item _ _ _ P I) Ez). }
    destruct (has_container _ _); [|exact F]. constructor; [apply (list_names None), F|constructor].
  - exact (map_names _ _ _ _ _ _ C P H).
Qed.
End Rec.
Lemma element_names n : forall c ap j fm x, reached c -> part j doc -> expand_element io ld fin rnd pf o base_url n c ap j fm = Ok x -> Forall fine (items x).
Proof. induction n as [|n IH]; intros c ap j fm x C P H; [discriminate|]. exact (body_names _ IH _ _ _ _ _ _ C P H). Qed.
Lemma expand_names n l : expand io ld fin rnd pf o base_url n c0 doc = Ok l -> Forall fine l.
Proof.
  intros H. unfold expand in H. apply bind_ok in H. destruct H as (x & E & H). pose proof (element_names _ _ _ _ _ _ (RcSelf _ _ _ _ _ _) (PaSelf _) E) as F.
  assert (G : Forall fine (filter top_level (items x))).
  { apply Forall_forall. intros y I. apply filter_In in I. exact (Forall_in _ _ _ F (proj1 I)). }
  injection H as <-. destruct (items x) as [|y [|z r]]; [apply oset_names, G| |apply oset_names, G].
  destruct (unnamed_graph y) as [g|] eqn:U; [|destruct (top_level y); [apply oset_names, F|constructor]].
  unfold unnamed_graph in U. inversion F as [|? ? Fy _]; subst. destruct (snd y) as [v|n0|l0]; try discriminate. destruct (_ && _); [|discriminate].
  inversion Fy as [|? Fn|]; subst. destruct n0. cbn in U. subst. inversion Fn; assumption.
Qed.
End Names.

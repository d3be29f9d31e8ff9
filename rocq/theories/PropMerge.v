(** Merging the graphs of a node map: C94. *)
From Verif Require Import Prelude Json Enums LangTag LangString Str Keyword Container ContextSyntax Ctx Object ObjectEq ObjectJson Relabel PropRelabel
  Flatten FlattenProofs FlattenEffect FlattenOutput PropFlatten NodeEdit Merge.
From Coq Require Import Permutation.

(** ** C94 *)
(** Whatever the order of the graphs and of their nodes, the merged graph has a node for each identifier of a node
    of some graph, and no other; that node has the last index given to it, all its types in order, all its values
    and reverse values up to equivalence, and the graph and included nodes of its last occurrence. *)
Theorem C94_merged : forall fin rnd m, graph_ok (fst m) ->
  graph_ok (merge fin rnd m) /\
  forall i, match get_id i (merge fin rnd m) with
            | Some x => called i (nodes_in m) <> [] /\ merged fin rnd i (called i (nodes_in m)) x
            | None => called i (nodes_in m) = []
            end.
Proof. intros fin rnd m H. exact (merge_holds fin rnd m H). Qed.
Print Assumptions C94_merged.

(** The order of the hash maps: it changes neither the nodes, nor their types up to order, nor their values up to
    equivalence. *)
Definition same_entries {A} (R : A -> A -> Prop) (l l' : list (id * A)) : Prop :=
  exists l1, Permutation l l1 /\ Forall2 (fun e e' => fst e = fst e' /\ R (snd e) (snd e')) l1 l'.
Definition same_graphs (m m' : nmap) : Prop := Permutation (fst m) (fst m') /\ same_entries (@Permutation (id * inode)) (snd m) (snd m').
Definition same_values {A} (eqv : A -> A -> bool) (ps qs : list (id * list A)) : Prop :=
  (forall p, In p (map fst ps) -> In p (map fst qs)) /\
  (forall p v, holds ps p v -> exists w, holds qs p w /\ (w = v \/ eqv w v = true)).
Lemma called_perm i l l' : Permutation l l' -> Permutation (called i l) (called i l').
Proof. unfold called. induction 1; cbn; repeat match goal with |- context [if ?b then _ else _] => destruct b end; try match goal with |- context [match ?o with _ => _ end] => destruct o end; eauto using Permutation. Qed.
Lemma flat_perm {A B} (f : A -> list B) l l' : Permutation l l' -> Permutation (flat_map f l) (flat_map f l').
Proof. apply Permutation_flat_map. Qed.
Lemma nodes_perm m m' : same_graphs m m' -> Permutation (nodes_in m) (nodes_in m').
Proof.
  intros (P & l & Q & F). unfold nodes_in. apply Permutation_app; [apply Permutation_map, P|]. rewrite (flat_perm _ _ _ Q). clear Q.
  induction F as [|e e' l l' (_ & H) F IH]; cbn; [constructor|]. apply Permutation_app; [apply Permutation_map, H|exact IH].
Qed.
Lemma gathers_same {A} (eqv : A -> A -> bool) l l' ps qs : (forall x, In x l -> In x l') -> gathers eqv l ps -> gathers eqv l' qs -> same_values eqv ps qs.
Proof.
  intros I (K & S & C) (K' & S' & C'). split.
  - intros p H. apply K in H. apply K'. destruct H as (us & X & Y). exists us. auto.
  - intros p v H. destruct (S p v H) as (us & X & Y). exact (C' us p v (I _ X) Y).
Qed.
Theorem C94_order : forall fin rnd m m', graph_ok (fst m) -> same_graphs m m' ->
  forall i, match get_id i (merge fin rnd m), get_id i (merge fin rnd m') with
            | Some x, Some y => Permutation (opt_list (n_types (snd x))) (opt_list (n_types (snd y))) /\
                                same_values (equivalent fin rnd) (n_props (snd x)) (n_props (snd y)) /\
                                same_values (equivalent_node fin rnd) (opt_list (n_reverse (snd x))) (opt_list (n_reverse (snd y)))
            | None, None => True
            | _, _ => False
            end.
Proof.
  intros fin rnd m m' H S i. assert (H' : graph_ok (fst m')).
  { destruct S as (P & _), H as (N & F). split; [exact (Permutation_NoDup (Permutation_map fst P) N)|exact (Permutation_Forall P F)]. }
  pose proof (called_perm i _ _ (nodes_perm m m' S)) as P.
  pose proof (proj2 (C94_merged fin rnd m H) i) as M. pose proof (proj2 (C94_merged fin rnd m' H') i) as M'.
  destruct (get_id i (merge fin rnd m)) as [x|], (get_id i (merge fin rnd m')) as [y|].
  - destruct M as (_ & M), M' as (_ & M'). split; [|split].
    + rewrite (mg_types _ _ _ _ _ M), (mg_types _ _ _ _ _ M').
      assert (Q : forall l : list (option (list id)), opt_list (all_given l) = flat_map opt_list l).
      { intros l. unfold all_given. destruct (existsb is_some l) eqn:E; [reflexivity|]. cbn. symmetry. induction l as [|[z|] l IH]; cbn in *; [reflexivity|discriminate|auto]. }
      rewrite !Q. apply flat_perm, Permutation_map, P.
    + eapply gathers_same; [|exact (mg_props _ _ _ _ _ M)|exact (mg_props _ _ _ _ _ M')]. intros z. apply Permutation_in, Permutation_map, P.
    + eapply gathers_same; [|exact (mg_reverse _ _ _ _ _ M)|exact (mg_reverse _ _ _ _ _ M')]. intros z. apply Permutation_in, Permutation_map, P.
  - rewrite M' in P. destruct M as (M & _). destruct M. apply Permutation_nil, Permutation_sym, P.
  - rewrite M in P. destruct M' as (M' & _). destruct M'. exact (Permutation_nil P).
  - exact I.
Qed.
Print Assumptions C94_order.

(** No value is given twice: merging adds no equivalent values. *)
Inductive no_twice {A} (eqv : A -> A -> bool) : list A -> Prop :=
| nt_nil : no_twice eqv []
| nt_snoc l v : no_twice eqv l -> (forall u, In u l -> eqv u v = false) -> no_twice eqv (l ++ [v]).
Definition values_once (fin rnd : list word -> N) (g : graph) : Prop :=
  forall i x, In (i, x) g -> Forall (fun e => no_twice (equivalent fin rnd) (snd e)) (n_props (snd x)) /\
                             Forall (fun e => no_twice (equivalent_node fin rnd) (snd e)) (opt_list (n_reverse (snd x))).
Lemma push_all_once {A} (eqv : A -> A -> bool) vs : forall w, no_twice eqv w -> no_twice eqv (fold_left (push_new eqv) vs w).
Proof.
  induction vs as [|v vs IH]; cbn; intros w H; [exact H|]. apply IH. unfold push_new. destruct (forallb (fun x => negb (eqv x v)) w) eqn:F; [|exact H].
  constructor; [exact H|]. intros u I. rewrite forallb_forall in F. specialize (F u I). destruct (eqv u v); [discriminate|reflexivity].
Qed.
Lemma change_once {A} (eqv : A -> A -> bool) k f (l : list (id * list A)) : (forall w, no_twice eqv w -> no_twice eqv (f w)) ->
  Forall (fun e => no_twice eqv (snd e)) l -> Forall (fun e => no_twice eqv (snd e)) (change k f l).
Proof. intros H F. induction F as [|[k' w] l Hx F IH]; cbn; [constructor|]. destruct (id_eqb k k'); constructor; auto. cbn in *. auto. Qed.
Lemma extend_once {A} (eqv : A -> A -> bool) qs : forall l, Forall (fun e => no_twice eqv (snd e)) l -> Forall (fun e => no_twice eqv (snd e)) (apply eqv l (ExtendUnique qs)).
Proof.
  cbn [apply]. induction qs as [|[k vs] qs IH]; cbn; intros l F; [exact F|]. apply IH. unfold p_insert_all_unique. destruct (get_id k l).
  - apply change_once; [|exact F]. intros w. apply push_all_once.
  - apply Forall_app. split; [exact F|]. constructor; [|constructor]. cbn. apply push_all_once. constructor.
Qed.
Lemma set_in {A} i (v : A) l k w : In (k, w) (set_id i v l) -> In (k, w) l \/ w = v.
Proof. induction l as [|[k' u] l IH]; cbn; [intros [E|[]]; injection E as <- <-; auto|]. destruct (id_eqb i k'); cbn; intros [E|I]; try (injection E as <- <-); auto. destruct (IH I); auto. Qed.
Lemma merge_node_once fin rnd g x : values_once fin rnd g -> values_once fin rnd (merge_node fin rnd g x).
Proof.
  intros H. unfold merge_node. destruct (n_id (snd x)) as [i|]; [|exact H]. intros k y I. apply set_in in I. destruct I as [I|E]; [exact (H _ _ I)|].
  set (z := match get_id i g with Some y => _ | None => _ end) in E.
  assert (Z : Forall (fun e => no_twice (equivalent fin rnd) (snd e)) (n_props (snd z)) /\ Forall (fun e => no_twice (equivalent_node fin rnd) (snd e)) (opt_list (n_reverse (snd z)))).
  { unfold z. destruct (get_id i g) as [w|] eqn:G; [|split; constructor]. apply get_id_in in G. exact (H _ _ G). }
  clearbody z. subst y. cbn [snd]. destruct (snd z) as [zi zt zg zc zp zr], (snd x) as [xi xt xg xc xp xr]. cbn [merge_into n_props n_reverse] in *. destruct Z as (Z1 & Z2). split.
  - apply extend_once. exact Z1.
  - destruct xr as [r|]; [cbn [opt_list]; apply extend_once|]; exact Z2.
Qed.
Theorem C94_once : forall fin rnd m, values_once fin rnd (fst m) -> values_once fin rnd (merge fin rnd m).
Proof.
  intros fin rnd m. unfold merge. generalize (fst m) as g. induction (snd m) as [|e r IH]; cbn; intros g H; [exact H|]. apply IH. unfold merge_with. clear IH.
  revert g H. induction (snd e) as [|y l IH]; cbn; intros g H; [exact H|]. apply IH, merge_node_once, H.
Qed.
Print Assumptions C94_once.

(** The node map of a document is fit for that. *)
Section Generated.
  Variables (fin rnd : list word -> N).
  Variable P : id -> node -> Prop.
  Hypothesis P_new : forall i, P i (node_new (Some i)).
  Hypothesis P_types : forall i n ts, P i n -> P i (set_types ts n).
  Hypothesis P_graph : forall i n l, P i n -> P i (extend_graph fin rnd l n).
  Hypothesis P_props : forall i n p l, P i n -> P i (add_props fin rnd p l n).
  Definition under_id (g : graph) : Prop := Forall (fun e => P (fst e) (snd (snd e))) g.
  Definition ids_ok (m : nmap) : Prop := under_id (fst m) /\ Forall (fun e => under_id (snd e)) (snd m).
  Lemma set_under i x g : under_id g -> P i (snd x) -> under_id (set_id i x g).
  Proof.
    intros F H. induction F as [|[k w] l Hx F IH]; cbn; [repeat constructor; exact H|]. destruct (id_eqb_spec i k) as [->|N]; constructor; auto.
  Qed.
  Lemma get_under i x g : under_id g -> get_id i g = Some x -> P i (snd x).
  Proof. intros K Y. apply get_id_in in Y. exact (Forall_in _ _ _ K Y). Qed.
  Lemma in_graph_ids m b f m' : in_graph m b f = Ok m' -> (forall g g', f g = Ok g' -> under_id g -> under_id g') -> ids_ok m -> ids_ok m'.
  Proof.
    intros E H (K1 & K2). apply in_graph_ok in E. destruct E as (g & g' & G & F & ->). destruct b as [i|]; cbn in G |- *.
    - assert (Kg : under_id g) by (apply get_id_in in G; exact (Forall_in _ _ _ K2 G)).
      split; [exact K1|]. cbn. apply (set_id_forall under_id); [exact K2|]. eapply H; eassumption.
    - injection G as <-. split; [eapply H; eassumption|assumption].
  Qed.
  Lemma do_op_ids m q m' : do_op fin rnd m q = Ok m' -> ids_ok m -> ids_ok m'.
  Proof.
    assert (N : forall b j f, (forall n, P j n -> P j (f n)) -> in_node m b j f = Ok m' -> ids_ok m -> ids_ok m').
    { intros b j f X E. eapply in_graph_ids; [exact E|]. cbn. intros g g' F K. destruct (get_id j g) as [x|] eqn:Y; [|discriminate]. injection F as <-.
      apply set_under; [exact K|]. apply X. exact (get_under _ _ _ K Y). }
    destruct q as [b j x|b j ts|j|b j l|b j p l]; cbn [do_op]; intros E; try (eapply N; [|exact E]; auto).
    - eapply in_graph_ids; [exact E|]. unfold declare_node. intros g g' D K. destruct (get_id j g) as [[[y|] n]|] eqn:Y.
      + destruct x as [x|]; [destruct (streq y x); [|discriminate]|]; injection D as <-; exact K.
      + destruct x as [x|]; injection D as <-; [|exact K]. apply set_under; [exact K|]. exact (get_under _ _ _ K Y).
      + injection D as <-. apply Forall_app. split; [exact K|]. constructor; [apply P_new|constructor].
    - injection E as <-. intros (K1 & K2). unfold declare_graph. destruct (get_id j (snd m)); [split; assumption|]. split; [exact K1|]. cbn. apply Forall_app. split; [exact K2|repeat constructor].
  Qed.
  Lemma do_ops_ids l : forall m m', do_ops fin rnd m l = Ok m' -> ids_ok m -> ids_ok m'.
  Proof.
    induction l as [|q l IH]; cbn; intros m m' E; [injection E as <-; auto|]. destruct (do_op fin rnd m q) as [m1|] eqn:E1; [|discriminate].
    cbn in E. intros K. eapply IH; [exact E|]. eapply do_op_ids; eassumption.
  Qed.
End Generated.
Lemma insert_all_once fin rnd k vs ps : Forall (fun e => no_twice (equivalent fin rnd) (snd e)) ps -> Forall (fun e => no_twice (equivalent fin rnd) (snd e)) (insert_all_unique fin rnd k vs ps).
Proof.
  induction 1 as [|[k' w] l Hx F IH]; cbn; [constructor; [|constructor]; cbn; apply (push_all_once (equivalent fin rnd)); constructor|].
  destruct (id_eqb k k'); constructor; auto. cbn in *. apply (push_all_once (equivalent fin rnd)). exact Hx.
Qed.
Theorem C94_generated : forall fin rnd gen d m, node_map fin rnd gen d = Ok m -> nmap_ok m /\ values_once fin rnd (fst m).
Proof.
  intros fin rnd gen d m E. rewrite node_map_trace in E.
  destruct (do_ops_keys fin rnd _ _ _ E) as (K1 & _ & K2); [repeat constructor|].
  destruct (do_ops_ids fin rnd (fun i n => n_id n = Some i /\ n_reverse n = None /\ Forall (fun e => no_twice (equivalent fin rnd) (snd e)) (n_props n))) with (5 := E) as (I1 & I2).
  - intros i. repeat constructor.
  - intros i n ts H. destruct n. exact H.
  - intros i n l H. destruct n. exact H.
  - intros i n p l (A & B & H). destruct n. split; [exact A|]. split; [exact B|]. cbn in *. apply insert_all_once. exact H.
  - split; constructor.
  - unfold under_id in *. rewrite Forall_forall in K2, I1, I2. split; [split; [split; [exact K1|]|]|].
    + apply Forall_forall. intros e I. exact (proj1 (I1 e I)).
    + apply Forall_forall. intros e I. split; [exact (K2 e I)|]. specialize (I2 e I). rewrite Forall_forall in I2. apply Forall_forall. intros e' I'. exact (proj1 (I2 e' I')).
    + intros i x I. destruct (I1 _ I) as (_ & R & S). cbn in R, S. rewrite R. split; [exact S|constructor].
Qed.
Print Assumptions C94_generated.

(** The graph of a node is lost if a later occurrence of the node has none; which index and which graph a node keeps
    depends on the order of the graphs. *)
Definition c94_doc : list iobj :=
  [(None, ONode (MkNode (Some (IIri "http://x/")) (Some [IIri "http://t/"]) (Some [(Some "a", ONode (MkNode (Some (IIri "http://x/")) (Some [IIri "http://u/"]) None None [(IIri "http://p/", [str "v"])] None))]) None
     [(IIri "http://p/", [str "v"; str "w"])] None));
   (None, ONode (MkNode (Some (IIri "http://y/")) None (Some [(Some "b", ONode (MkNode (Some (IIri "http://x/")) None None None [(IIri "http://q/", [str "w"])] None))]) None [] None))].
Theorem C94_graph_refuted : exists fin rnd gen d m i x y l, node_map fin rnd gen d = Ok m /\ get_id i (fst m) = Some x /\ n_graph (snd x) = Some l /\ l <> [] /\
  get_id i (merge fin rnd m) = Some y /\ n_graph (snd y) = None.
Proof.
  exists word_fin, word_fin, gen_b, c94_doc. eexists. exists (IIri "http://x/"). eexists. eexists. eexists.
  split; [vm_compute; reflexivity|]. split; [vm_compute; reflexivity|]. split; [vm_compute; reflexivity|]. split; [discriminate|]. split; vm_compute; reflexivity.
Qed.
Print Assumptions C94_graph_refuted.
Theorem C94_index_refuted : exists fin rnd gen d m m' i x y, node_map fin rnd gen d = Ok m /\ same_graphs m m' /\
  get_id i (merge fin rnd m) = Some x /\ get_id i (merge fin rnd m') = Some y /\ fst x = Some "b" /\ fst y = Some "a".
Proof.
  exists word_fin, word_fin, gen_b, c94_doc. destruct (node_map word_fin word_fin gen_b c94_doc) as [[g [|a [|b l]]]|] eqn:E; try (vm_compute in E; discriminate E).
  exists (g, [a; b] ++ l), (g, [b; a] ++ l), (IIri "http://x/").
  vm_compute in E. injection E as <- <- <- <-. eexists. eexists. split; [reflexivity|]. split; [|vm_compute; repeat split; reflexivity].
  split; [reflexivity|]. cbn [fst snd]. eexists. split; [apply perm_swap|]. repeat constructor; reflexivity.
Qed.
Print Assumptions C94_index_refuted.

Example C94_example : exists m, node_map word_fin word_fin gen_b c94_doc = Ok m /\ nmap_ok m /\
  merge word_fin word_fin m =
  [(IIri "http://x/", (Some "b", MkNode (Some (IIri "http://x/")) (Some [IIri "http://t/"; IIri "http://u/"]) None None
      [(IIri "http://p/", [str "v"; str "w"]); (IIri "http://q/", [str "w"])] None));
   (IIri "http://y/", (None, MkNode (Some (IIri "http://y/")) None (Some [ref (IIri "http://x/")]) None [] None))].
Proof.
  destruct (node_map word_fin word_fin gen_b c94_doc) as [m|] eqn:E; [|vm_compute in E; discriminate E].
  exists m. split; [reflexivity|]. split; [exact (proj1 (C94_generated _ _ _ _ _ E))|]. vm_compute in E. injection E as <-. vm_compute. reflexivity.
Qed.

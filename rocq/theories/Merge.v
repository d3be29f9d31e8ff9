(** Merging the graphs of a node map: crates/core/src/flattening/node_map.rs 81-93, 211-262. *)
From Verif Require Import Prelude Json Enums LangTag LangString Str Keyword Container ContextSyntax Ctx Object ObjectEq ObjectJson Relabel Flatten FlattenProofs FlattenEffect NodeEdit.
From Coq Require Import Permutation.

Section Merge.
  Variables (fin rnd : list word -> N).
  (** node_map.rs 248-260; what is merged into [n] is the node [n']. *)
  Definition merge_into (n n' : node) : node :=
    match n, n' with
    | MkNode i ts _ _ ps rs, MkNode _ ts' g' inc' ps' rs' =>
        MkNode i (match ts' with Some l => Some (opt_list ts ++ l) | None => ts end) g' inc'
          (apply (equivalent fin rnd) ps (ExtendUnique ps'))
          (match rs' with Some r => Some (apply (equivalent_node fin rnd) (opt_list rs) (ExtendUnique r)) | None => rs end)
    end.
  (** node_map.rs 229-262. *)
  Definition merge_node (g : graph) (x : inode) : graph :=
    match n_id (snd x) with
    | Some i =>
        let y := match get_id i g with
                 | Some y => (match fst x with Some z => Some z | None => fst y end, snd y)
                 | None => (fst x, node_new (Some i))
                 end in
        set_id i (fst y, merge_into (snd y) (snd x)) g
    | None => g
    end.
  (** node_map.rs 211-219. *)
  Definition merge_with (g other : graph) : graph := fold_left (fun g e => merge_node g (snd e)) other g.
  (** node_map.rs 81-93. *)
  Definition merge (m : nmap) : graph := fold_left (fun g e => merge_with g (snd e)) (snd m) (fst m).
End Merge.

(** ** Specification *)
(** Keys are distinct, and nodes are under their identifier. *)
Definition graph_ok (g : graph) : Prop := NoDup (map fst g) /\ Forall (fun e => n_id (snd (snd e)) = Some (fst e)) g.
Definition nmap_ok (m : nmap) : Prop := graph_ok (fst m) /\ Forall (fun e => graph_ok (snd e)) (snd m).
(** The nodes called [i], from the default graph and then from the others in order. *)
Definition nodes_in (m : nmap) : list inode := map snd (fst m) ++ flat_map (fun e => map snd (snd e)) (snd m).
Definition called (i : id) (l : list inode) : list inode := filter (fun x => match n_id (snd x) with Some j => id_eqb i j | None => false end) l.
(** A value of a property. *)
Definition holds {A} (ps : list (id * list A)) (p : id) (v : A) : Prop := exists vs, In (p, vs) ps /\ In v vs.
Definition last_of {A} (d : A) (l : list A) : A := last l d.
(** The last index. *)
Fixpoint last_given {A} (l : list (option A)) : option A :=
  match l with [] => None | x :: l' => match last_given l' with Some y => Some y | None => x end end.
(** All the types, if any node has some. *)
Definition all_given {A} (l : list (option (list A))) : option (list A) :=
  if existsb is_some l then Some (flat_map opt_list l) else None.
(** The properties of [ps] are those of the maps of [l], up to equivalence. *)
Definition gathers {A} (eqv : A -> A -> bool) (l : list (list (id * list A))) (ps : list (id * list A)) : Prop :=
  (forall p, In p (map fst ps) <-> exists qs, In qs l /\ In p (map fst qs)) /\
  (forall p v, holds ps p v -> exists qs, In qs l /\ holds qs p v) /\
  (forall qs p v, In qs l -> holds qs p v -> exists w, holds ps p w /\ (w = v \/ eqv w v = true)).
Record merged (fin rnd : list word -> N) (i : id) (l : list inode) (x : inode) : Prop := MkMerged {
  mg_id : n_id (snd x) = Some i;
  mg_index : fst x = last_given (map fst l);
  mg_types : n_types (snd x) = all_given (map (fun y => n_types (snd y)) l);
  mg_graph : n_graph (snd x) = last_of None (map (fun y => n_graph (snd y)) l);
  mg_included : n_included (snd x) = last_of None (map (fun y => n_included (snd y)) l);
  mg_props : gathers (equivalent fin rnd) (map (fun y => n_props (snd y)) l) (n_props (snd x));
  mg_no_reverse : n_reverse (snd x) = None <-> Forall (fun y => n_reverse (snd y) = None) l;
  mg_reverse : gathers (equivalent_node fin rnd) (map (fun y => opt_list (n_reverse (snd y))) l) (opt_list (n_reverse (snd x))) }.

(** ** Proofs *)
Lemma last_given_snoc {A} (l : list (option A)) x : last_given (l ++ [x]) = match x with Some y => Some y | None => last_given l end.
Proof. induction l as [|y l IH]; cbn; [destruct x; reflexivity|]. rewrite IH. destruct x; [reflexivity|]. reflexivity. Qed.
Lemma all_given_snoc {A} (l : list (option (list A))) x : all_given (l ++ [x]) = match x with Some y => Some (opt_list (all_given l) ++ y) | None => all_given l end.
Proof.
  unfold all_given. rewrite existsb_app, flat_map_app. cbn. destruct x as [y|]; cbn.
  - rewrite orb_true_r, app_nil_r. destruct (existsb is_some l) eqn:E; [reflexivity|]. f_equal. cbn.
    replace (flat_map opt_list l) with (@nil A); [reflexivity|]. induction l as [|[z|] l IH]; cbn in *; [reflexivity|discriminate|auto].
  - rewrite !orb_false_r, app_nil_r. reflexivity.
Qed.
Lemma last_snoc {A} (d : A) l x : last_of d (l ++ [x]) = x. Proof. apply last_last. Qed.

Section Props.
  Context {A : Type} (eqv : A -> A -> bool).
  Notation pmap := (list (id * list A)).
  Lemma change_keys k f (l : pmap) : map fst (change k f l) = map fst l.
  Proof. induction l as [|[k' w] l IH]; cbn; [reflexivity|]. destruct (id_eqb k k'); cbn; [reflexivity|]. rewrite IH. reflexivity. Qed.
  Lemma push_all_in vs : forall w v, In v (fold_left (push_new eqv) vs w) -> In v w \/ In v vs.
  Proof.
    induction vs as [|u vs IH]; cbn; intros w v I; [auto|]. destruct (IH _ _ I) as [J|J]; [|auto]. unfold push_new in J.
    destruct (forallb _ w); [|auto]. apply in_app_or in J. destruct J as [J|[->|[]]]; auto.
  Qed.
  Lemma push_all_keep vs : forall w v, In v w -> In v (fold_left (push_new eqv) vs w).
  Proof. induction vs as [|u vs IH]; cbn; intros w v I; [exact I|]. apply IH. unfold push_new. destruct (forallb _ w); [apply in_or_app; auto|exact I]. Qed.
  Lemma push_all_new vs : forall w v, In v vs -> exists u, In u (fold_left (push_new eqv) vs w) /\ (u = v \/ eqv u v = true).
  Proof.
    induction vs as [|u vs IH]; cbn; intros w v I; [contradiction|]. destruct I as [->|I]; [|exact (IH _ _ I)].
    unfold push_new at 2. destruct (forallb (fun x => negb (eqv x v)) w) eqn:F.
    - exists v. split; [apply push_all_keep, in_or_app; cbn; auto|auto].
    - assert (X : exists x, In x w /\ eqv x v = true).
      { clear IH. induction w as [|x w IHw]; cbn in F; [discriminate|]. destruct (eqv x v) eqn:E; [exists x; cbn; auto|]. cbn in F. destruct (IHw F) as (y & Y & Z). exists y. cbn. auto. }
      destruct X as (x & X & Y). exists x. split; [apply push_all_keep, X|auto].
  Qed.
  Lemma change_holds k f (l : pmap) p v : holds (change k f l) p v -> holds l p v \/ (p = k /\ exists w, In (k, w) l /\ In v (f w)).
  Proof.
    intros (vs & I & J). induction l as [|[k' w] l IH]; cbn in I; [contradiction|]. destruct (id_eqb_spec k k') as [<-|N]; destruct I as [E|I].
    - injection E as <- <-. right. split; [reflexivity|]. exists w. cbn. auto.
    - left. exists vs. cbn. auto.
    - injection E as <- <-. left. exists w. cbn. auto.
    - destruct (IH I) as [(us & X & Y)|(-> & us & X & Y)]; [left; exists us; cbn; auto|right; split; [reflexivity|]; exists us; cbn; auto].
  Qed.
  Lemma change_keeps k f (l : pmap) p v : (forall w v, In v w -> In v (f w)) -> holds l p v -> holds (change k f l) p v.
  Proof.
    intros F (vs & I & J). induction l as [|[k' w] l IH]; cbn; [contradiction|]. destruct (id_eqb_spec k k') as [<-|N]; destruct I as [E|I].
    - injection E as <- <-. exists (f w). cbn. auto.
    - exists vs. cbn. auto.
    - injection E as <- <-. exists w. cbn. auto.
    - destruct (IH I) as (us & X & Y). exists us. cbn. auto.
  Qed.
  Lemma change_first k f (l : pmap) w : get_id k l = Some w -> In (k, f w) (change k f l).
  Proof.
    induction l as [|[k' u] l IH]; cbn; [discriminate|]. destruct (id_eqb_spec k k') as [<-|N]; [intros E; injection E as <-; cbn; auto|]. intros E. right. auto.
  Qed.
  Lemma get_none_keys k (l : pmap) : get_id k l = None -> ~ In k (map fst l). Proof. apply get_none. Qed.
  Lemma get_key k (l : pmap) w : get_id k l = Some w -> In k (map fst l). Proof. intros E. apply get_id_in in E. apply (in_map fst) in E. exact E. Qed.

  Lemma unique_step k vs (l : pmap) (qss : list pmap) : gathers eqv qss l -> gathers eqv (qss ++ [[(k, vs)]]) (p_insert_all_unique eqv k vs l).
  Proof.
    intros (K & S & C). unfold p_insert_all_unique.
    assert (Q : forall (P : pmap -> Prop), (exists qs, In qs (qss ++ [[(k, vs)]]) /\ P qs) <-> (exists qs, In qs qss /\ P qs) \/ P [(k, vs)]).
    { intros P. split.
      - intros (qs & I & H). apply in_app_or in I. destruct I as [I|[<-|[]]]; eauto.
      - intros [(qs & I & H)|H]; [exists qs; split; [apply in_or_app|]; auto|exists [(k, vs)]; split; [apply in_or_app; cbn|]; auto]. }
    destruct (get_id k l) as [w|] eqn:G; (split; [|split]).
    - intros p. rewrite change_keys, K, Q. cbn. split; [auto|]. intros [H|[<-|[]]]; [exact H|]. apply K. exact (get_key _ _ _ G).
    - intros p v H. apply Q. apply change_holds in H. destruct H as [H|(-> & u & I & J)]; [left; exact (S _ _ H)|]. destruct (push_all_in _ _ _ J) as [J'|J'].
      + left. apply S. exists u. auto.
      + right. exists vs. cbn. auto.
    - intros qs p v I H. apply in_app_or in I. destruct I as [I|[<-|[]]].
      + destruct (C qs p v I H) as (u & X & Y). exists u. split; [|exact Y]. apply change_keeps; [intros; apply push_all_keep; assumption|exact X].
      + destruct H as (us & [E|[]] & J). injection E as <- <-. destruct (push_all_new vs w v J) as (u & X & Y). exists u. split; [|exact Y].
        exists (fold_left (push_new eqv) vs w). split; [exact (change_first k _ l w G)|exact X].
    - intros p. rewrite map_app, in_app_iff, K, Q. cbn. intuition.
    - intros p v (us & I & J). apply Q. apply in_app_or in I. destruct I as [I|[E|[]]].
      + left. apply S. exists us. auto.
      + injection E as <- <-. destruct (push_all_in _ _ _ J) as [[]|J']. right. exists vs. cbn. auto.
    - intros qs p v I H. apply in_app_or in I. destruct I as [I|[<-|[]]].
      + destruct (C qs p v I H) as (u & (us & X & X') & Y). exists u. split; [|exact Y]. exists us. split; [apply in_or_app; auto|exact X'].
      + destruct H as (us & [E|[]] & J). injection E as <- <-. destruct (push_all_new vs [] v J) as (u & X & Y). exists u. split; [|exact Y].
        eexists. split; [apply in_or_app; right; left; reflexivity|exact X].
  Qed.
  Lemma gathers_split qss qs r : gathers eqv (qss ++ map (fun e => [e]) qs) r -> gathers eqv (qss ++ [qs]) r.
  Proof.
    intros (K & S & C).
    assert (Q : forall (P : id * list A -> Prop), (exists e, In e qs /\ P e) <-> exists e, In e qs /\ P e) by (intros; reflexivity).
    split; [|split].
    - intros p. rewrite K. split; intros (us & I & H).
      + apply in_app_or in I. destruct I as [I|I]; [exists us; split; [apply in_or_app|]; auto|]. apply in_map_iff in I. destruct I as (e & <- & I).
        destruct H as [<-|[]]. exists qs. split; [apply in_or_app; cbn; auto|]. apply in_map. exact I.
      + apply in_app_or in I. destruct I as [I|[<-|[]]]; [exists us; split; [apply in_or_app|]; auto|]. apply in_map_iff in H. destruct H as (e & <- & I).
        exists [e]. split; [apply in_or_app; right; apply in_map_iff; eauto|cbn; auto].
    - intros p v H. destruct (S p v H) as (us & I & (vs & X & Y)). apply in_app_or in I. destruct I as [I|I].
      + exists us. split; [apply in_or_app; auto|exists vs; auto].
      + apply in_map_iff in I. destruct I as (e & <- & I). destruct X as [->|[]]. exists qs. split; [apply in_or_app; cbn; auto|]. exists vs. auto.
    - intros us p v I (vs & X & Y). apply in_app_or in I. destruct I as [I|[<-|[]]].
      + apply (C us p v); [apply in_or_app; auto|exists vs; auto].
      + apply (C [(p, vs)] p v); [apply in_or_app; right; apply in_map_iff; eauto|exists vs; cbn; auto].
  Qed.
  Lemma extend_step qs (l : pmap) (qss : list pmap) : gathers eqv qss l -> gathers eqv (qss ++ [qs]) (apply eqv l (ExtendUnique qs)).
  Proof.
    intros H. apply gathers_split. cbn [apply]. revert l qss H. induction qs as [|[k vs] qs IH]; cbn; intros l qss H; [rewrite app_nil_r; exact H|].
    specialize (IH (p_insert_all_unique eqv k vs l) (qss ++ [[(k, vs)]]) (unique_step k vs l qss H)). rewrite <- app_assoc in IH. exact IH.
  Qed.
  Lemma gathers_nil : gathers eqv [] []. Proof. split; [|split]; cbn; [|intros p v (vs & [] & _)|contradiction]. intros p. split; [contradiction|intros (qs & [] & _)]. Qed.
  Lemma gathers_self (l : pmap) : gathers eqv [l] l.
  Proof.
    split; [|split].
    - intros p. split; [intros I; exists l; cbn; auto|intros (qs & [<-|[]] & I); exact I].
    - intros p v H. exists l. cbn. auto.
    - intros qs p v [<-|[]] H. exists v. auto.
  Qed.
  Lemma gathers_add_nil qss (l : pmap) : gathers eqv qss l -> gathers eqv (qss ++ [[]]) l.
  Proof. intros H. exact (extend_step [] l qss H). Qed.
End Props.

Section Merged.
  Variables (fin rnd : list word -> N).
  Notation merged := (merged fin rnd).
  Lemma merged_step i l y x z : merged i l y -> z = match fst x with Some z => Some z | None => fst y end -> merged i (l ++ [x]) (z, merge_into fin rnd (snd y) (snd x)).
  Proof.
    intros [Mi Mx Mt Mg Mc Mp Mn Mr] ->. destruct y as [yx [j ts g inc ps rs]], x as [xx [j' ts' g' inc' ps' rs']]. cbn [fst snd n_id n_types n_graph n_included n_props n_reverse merge_into] in *.
    constructor; cbn [fst snd n_id n_types n_graph n_included n_props n_reverse]; rewrite ?map_app; cbn [map fst snd n_id n_types n_graph n_included n_props n_reverse].
    - exact Mi.
    - rewrite last_given_snoc, Mx. reflexivity.
    - rewrite all_given_snoc, Mt. reflexivity.
    - rewrite last_snoc. reflexivity.
    - rewrite last_snoc. reflexivity.
    - apply extend_step. exact Mp.
    - rewrite Forall_app. destruct rs' as [r|].
      + split; [discriminate|]. intros [_ F]. inversion F as [|? ? E _]. discriminate E.
      + rewrite Mn. split; [intros F; split; [exact F|repeat constructor]|tauto].
    - destruct rs' as [r|]; cbn [opt_list]; [apply (extend_step (equivalent_node fin rnd)); exact Mr|apply gathers_add_nil; exact Mr].
  Qed.
  Lemma merged_new i : merged i [] (None, node_new (Some i)).
  Proof. constructor; cbn; try reflexivity; try apply gathers_nil. split; constructor. Qed.
  Lemma merged_self i x : n_id (snd x) = Some i -> merged i [x] x.
  Proof.
    intros E. destruct x as [z [j ts g inc ps rs]]. cbn in E. subst. constructor; cbn; try reflexivity.
    - unfold all_given. cbn. destruct ts as [ts|]; [|reflexivity]. cbn. rewrite app_nil_r. reflexivity.
    - apply gathers_self.
    - split; [intros ->; repeat constructor|intros F; inversion F; assumption].
    - apply gathers_self.
  Qed.
  (** A graph that holds the nodes of [l]. *)
  Definition holds_nodes (g : graph) (l : list inode) : Prop :=
    graph_ok g /\ forall i, match get_id i g with Some x => called i l <> [] /\ merged i (called i l) x | None => called i l = [] end.
  Lemma called_snoc i l x : called i (l ++ [x]) = called i l ++ (match n_id (snd x) with Some j => if id_eqb i j then [x] else [] | None => [] end).
  Proof. unfold called. rewrite filter_app. cbn. destruct (n_id (snd x)) as [j|]; [destruct (id_eqb i j)|]; reflexivity. Qed.
  Lemma holds_step g l x : holds_nodes g l -> holds_nodes (merge_node fin rnd g x) (l ++ [x]).
  Proof.
    intros [[N F] H]. unfold merge_node. destruct (n_id (snd x)) as [i|] eqn:E.
    2:{ split; [split; assumption|]. intros k. rewrite called_snoc, E, app_nil_r. apply H. }
    set (y := match get_id i g with Some y => _ | None => _ end). cbn zeta.
    assert (M : merged i (called i l ++ [x]) (fst y, merge_into fin rnd (snd y) (snd x))).
    { specialize (H i). unfold y. destruct (get_id i g) as [w|].
      - exact (merged_step i _ w x _ (proj2 H) eq_refl).
      - rewrite H. cbn [fst snd]. apply (merged_step i [] (None, node_new (Some i)) x); [apply merged_new|]. destruct (fst x); reflexivity. }
    clearbody y. split.
    - split.
      + destruct (get_id i g) as [w|] eqn:G; [rewrite (set_keys i _ w g G); exact N|].
        clear - N G. induction g as [|[k v] g IH]; cbn in *; [repeat constructor; auto|]. destruct (id_eqb i k) eqn:Ek; [discriminate|]. inversion N as [|? ? X Y]; subst.
        cbn. constructor; [|auto]. intros I. apply X. clear - I Ek. induction g as [|[k' v'] g IH]; cbn in *; [destruct I as [<-|[]]; destruct (id_eqb_spec i i); congruence|].
        destruct (id_eqb i k'); cbn in I; destruct I as [I|I]; auto.
      + pose proof (mg_id _ _ _ _ _ M) as Mi. cbn in Mi. clear - F Mi. induction F as [|[k v] g Hx F IH]; cbn; [repeat constructor; exact Mi|].
        destruct (id_eqb_spec i k) as [->|Nk]; constructor; auto.
    - intros k. rewrite get_set, called_snoc, E. destruct (id_eqb_spec k i) as [->|Nk].
      + split; [destruct (called i l); discriminate|exact M].
      + rewrite app_nil_r. apply H.
  Qed.
  Lemma holds_with other : forall g l, holds_nodes g l -> holds_nodes (merge_with fin rnd g other) (l ++ map snd other).
  Proof.
    induction other as [|e other IH]; cbn; intros g l H; [rewrite app_nil_r; exact H|]. specialize (IH _ _ (holds_step _ _ (snd e) H)). rewrite <- app_assoc in IH. exact IH.
  Qed.
  Lemma holds_default g : graph_ok g -> holds_nodes g (map snd g).
  Proof.
    intros [N F]. split; [split; assumption|]. intros i.
    assert (X : called i (map snd g) = match get_id i g with Some x => [x] | None => [] end).
    { clear - N F. induction F as [|[k v] g Hx F IH]; cbn; [reflexivity|]. cbn in Hx. rewrite Hx. inversion N as [|? ? A B]; subst. specialize (IH B).
      destruct (id_eqb_spec i k) as [->|Nk]; [|exact IH]. unfold called in IH. rewrite IH. unfold graph, inode in *. destruct (get_id k g) as [w|] eqn:G; [|reflexivity]. destruct A. apply get_id_in in G. exact (in_map fst _ _ G). }
    rewrite X. destruct (get_id i g) as [x|] eqn:G; [|reflexivity]. split; [discriminate|]. apply merged_self. apply get_id_in in G. exact (Forall_in _ _ _ F G).
  Qed.
  Lemma merge_holds m : graph_ok (fst m) -> holds_nodes (merge fin rnd m) (nodes_in m).
  Proof.
    intros H. apply holds_default in H. unfold merge, nodes_in. revert H. generalize (map snd (fst m)) as l. generalize (fst m) as g. induction (snd m) as [|e r IH]; cbn; intros g l H; [rewrite app_nil_r; exact H|].
    rewrite app_assoc. apply IH. apply holds_with. exact H.
  Qed.
End Merged.

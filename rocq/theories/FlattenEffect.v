(** The effect of the operations of flattening on each node of the node map. *)
From Verif Require Import Prelude Json Enums LangTag LangString Str Keyword Container ContextSyntax Ctx Object ObjectEq ObjectJson Traverse Relabel RelabelProofs Flatten FlattenProofs FlattenSpec.

Lemma id_eqb_refl i : id_eqb i i = true. Proof. destruct (id_eqb_spec i i); [reflexivity|congruence]. Qed.
Lemma id_eqb_neq i j : i <> j -> id_eqb i j = false. Proof. destruct (id_eqb_spec i j); [congruence|reflexivity]. Qed.
Lemma get_set {A} i j (v : A) l : get_id i (set_id j v l) = if id_eqb i j then Some v else get_id i l.
Proof.
  induction l as [|[k w] l IH]; cbn; [destruct (id_eqb i j); reflexivity|]. destruct (id_eqb_spec j k) as [->|N]; cbn.
  - destruct (id_eqb i k); reflexivity.
  - rewrite IH. destruct (id_eqb_spec i k) as [->|M]; [|reflexivity]. rewrite id_eqb_neq by congruence. reflexivity.
Qed.
Lemma get_app {A} i (l l' : list (id * A)) : get_id i (l ++ l') = match get_id i l with Some v => Some v | None => get_id i l' end.
Proof. induction l as [|[k w] l IH]; cbn; [reflexivity|]. destruct (id_eqb i k); auto. Qed.
Lemma get_none {A} i (l : list (id * A)) : get_id i l = None -> ~ In i (map fst l).
Proof. induction l as [|[k w] l IH]; cbn; [intros _ []|]. destruct (id_eqb_spec i k) as [->|N]; [discriminate|]. intros E [X|X]; [congruence|exact (IH E X)]. Qed.
Lemma set_keys {A} i (v w : A) l : get_id i l = Some w -> map fst (set_id i v l) = map fst l.
Proof. induction l as [|[k u] l IH]; cbn; [discriminate|]. destruct (id_eqb_spec i k) as [->|N]; intros E; cbn; [reflexivity|]. rewrite (IH E). reflexivity. Qed.
Lemma nodup_snoc {A} (l : list A) x : NoDup l -> ~ In x l -> NoDup (l ++ [x]).
Proof. intros N I. apply NoDup_rev in N. rewrite <- (rev_involutive (l ++ [x])), rev_app_distr. apply NoDup_rev. cbn. constructor; [|exact N]. rewrite <- in_rev. exact I. Qed.

(** ** The node [i] of the graph [a] *)
Definition at_node (m : nmap) (a : option id) (i : id) : option inode :=
  match get_graph m a with Some g => get_id i g | None => None end.
Definition opt_id_eqb (a b : option id) : bool := match a, b with None, None => true | Some i, Some j => id_eqb i j | _, _ => false end.
Lemma opt_id_eqb_spec a b : reflect (a = b) (opt_id_eqb a b).
Proof. destruct a as [i|], b as [j|]; cbn; try (constructor; congruence). destruct (id_eqb_spec i j); constructor; congruence. Qed.
Definition here (a : option id) (i : id) (b : option id) (j : id) : bool := opt_id_eqb a b && id_eqb i j.
Lemma here_spec a i b j : reflect (a = b /\ i = j) (here a i b j).
Proof. unfold here. destruct (opt_id_eqb_spec a b), (id_eqb_spec i j); constructor; tauto. Qed.
Lemma here_refl a i : here a i a i = true. Proof. destruct (here_spec a i a i); tauto. Qed.

Lemma get_set_graph m a b g g0 : get_graph m b = Some g0 -> get_graph (set_graph m b g) a = if opt_id_eqb a b then Some g else get_graph m a.
Proof. destruct a as [i|], b as [j|]; cbn; intros E; try reflexivity. rewrite get_set. reflexivity. Qed.
Lemma get_declare_graph m i a : get_graph (declare_graph m i) a = if opt_id_eqb a (Some i) then (match get_graph m a with Some g => Some g | None => Some [] end) else get_graph m a.
Proof.
  unfold declare_graph. destruct a as [j|]; cbn; [|destruct (get_id i (snd m)); reflexivity].
  destruct (id_eqb_spec j i) as [->|N].
  - destruct (get_id i (snd m)) eqn:E; cbn; rewrite ?get_app, ?E; [reflexivity|]. cbn. rewrite id_eqb_refl. reflexivity.
  - destruct (get_id i (snd m)) eqn:E; cbn; [reflexivity|]. rewrite get_app. cbn. rewrite id_eqb_neq by exact N. destruct (get_id j (snd m)); reflexivity.
Qed.

Section Effect.
  Variables (fin rnd : list word -> N).
  (** What [q] does to the node [i] of the graph [a]. *)
  Definition ap (a : option id) (i : id) (st : option inode) (q : op) : option inode :=
    match q with
    | ODeclare b j x =>
        if here a i b j then
          Some (match st with None => (x, node_new (Some i)) | Some (None, n) => (x, n) | Some (Some y, n) => (Some y, n) end)
        else st
    | OTypes b j ts => if here a i b j then match st with Some x => Some (fst x, set_types ts (snd x)) | None => None end else st
    | OGraph _ => st
    | OEntry b j l => if here a i b j then match st with Some x => Some (fst x, extend_graph fin rnd (collect_o fin rnd l) (snd x)) | None => None end else st
    | OProps b j p l => if here a i b j then match st with Some x => Some (fst x, add_props fin rnd p l (snd x)) | None => None end else st
    end.

  Lemma in_graph_ok m b f m' : in_graph m b f = Ok m' -> exists g g', get_graph m b = Some g /\ f g = Ok g' /\ m' = set_graph m b g'.
  Proof. unfold in_graph. destruct (get_graph m b) as [g|] eqn:E; [|discriminate]. cbn. destruct (f g) as [g'|] eqn:F; cbn; [|discriminate]. intros X. injection X as <-. exists g, g'. auto. Qed.
  Lemma at_set m b g g0 a i : get_graph m b = Some g0 -> at_node (set_graph m b g) a i = if opt_id_eqb a b then get_id i g else at_node m a i.
  Proof. intros E. unfold at_node. rewrite (get_set_graph m a b g g0 E). destruct (opt_id_eqb a b); reflexivity. Qed.
  Lemma in_node_at m b j f m' : in_node m b j f = Ok m' ->
    (exists x, at_node m b j = Some x) /\
    forall a i, at_node m' a i = if here a i b j then match at_node m a i with Some x => Some (fst x, f (snd x)) | None => None end else at_node m a i.
  Proof.
    intros E. apply in_graph_ok in E. destruct E as (g & g' & G & F & ->). destruct (get_id j g) as [x|] eqn:X; [|discriminate]. injection F as <-.
    split; [exists x; unfold at_node; rewrite G; exact X|]. intros a i. rewrite (at_set m b _ g a i G). unfold here.
    destruct (opt_id_eqb_spec a b) as [->|N]; cbn [andb]; [|reflexivity]. rewrite get_set. unfold at_node. rewrite G.
    destruct (id_eqb_spec i j) as [->|M]; [rewrite X|]; reflexivity.
  Qed.
  Lemma do_op_at m q m' : do_op fin rnd m q = Ok m' -> forall a i, at_node m' a i = ap a i (at_node m a i) q.
  Proof.
    destruct q as [b j x|b j ts|j|b j l|b j p l]; cbn [do_op ap]; intros E a i; try (apply (in_node_at _ _ _ _ _ E)).
    - apply in_graph_ok in E. destruct E as (g & g' & G & F & ->). rewrite (at_set m b _ g a i G). unfold here.
      destruct (opt_id_eqb_spec a b) as [->|N]; cbn [andb]; [|reflexivity]. unfold at_node. rewrite G. unfold declare_node in F.
      destruct (get_id j g) as [[[y|] n]|] eqn:X.
      + assert (g' = g) as ->. { destruct x as [x|]; [destruct (streq y x); [|discriminate]|]; injection F; auto. }
        destruct (id_eqb_spec i j) as [->|M]; [rewrite X|]; reflexivity.
      + destruct x as [x|]; injection F as <-; [rewrite get_set|]; destruct (id_eqb_spec i j) as [->|M]; rewrite ?X; reflexivity.
      + injection F as <-. rewrite get_app. cbn. destruct (id_eqb_spec i j) as [->|M]; [rewrite X; reflexivity|]. destruct (get_id i g); reflexivity.
    - injection E as <-. unfold at_node. rewrite get_declare_graph. destruct (opt_id_eqb a (Some j)); [|reflexivity]. destruct (get_graph m a); reflexivity.
  Qed.
  Lemma do_ops_at l : forall m m', do_ops fin rnd m l = Ok m' -> forall a i, at_node m' a i = fold_left (ap a i) l (at_node m a i).
  Proof.
    induction l as [|q l IH]; cbn; intros m m' E a i; [injection E as <-; reflexivity|]. destruct (do_op fin rnd m q) as [m1|] eqn:E1; [|discriminate].
    cbn in E. rewrite (IH _ _ E), (do_op_at _ _ _ E1). reflexivity.
  Qed.
  (** Graphs. *)
  Lemma do_op_graph m q m' : do_op fin rnd m q = Ok m' -> forall a, get_graph m' a <> None <-> get_graph m a <> None \/ exists i, a = Some i /\ q = OGraph i.
  Proof.
    assert (D : forall b f, in_graph m b f = Ok m' -> forall a, get_graph m' a <> None <-> get_graph m a <> None).
    { intros b f E a. apply in_graph_ok in E. destruct E as (g & g' & G & F & ->). rewrite (get_set_graph m a b g' g G).
      destruct (opt_id_eqb_spec a b) as [->|N]; [rewrite G; split; discriminate|tauto]. }
    assert (D' : forall b f, in_graph m b f = Ok m' -> (forall i, q <> OGraph i) -> forall a, get_graph m' a <> None <-> get_graph m a <> None \/ exists i, a = Some i /\ q = OGraph i).
    { intros b f E Q a. rewrite (D b f E a). split; [auto|]. intros [H|(i & _ & X)]; [exact H|contradiction (Q i X)]. }
    destruct q as [b j x|b j ts|j|b j l|b j p l]; cbn [do_op]; intros E a; try (eapply D'; [exact E|discriminate]).
    injection E as <-. rewrite get_declare_graph. destruct (opt_id_eqb_spec a (Some j)) as [->|N].
    - destruct (get_graph m (Some j)); split; try discriminate; eauto.
    - split; [auto|]. intros [H|(i & -> & X)]; [exact H|]. congruence.
  Qed.
  Lemma do_ops_graph l : forall m m', do_ops fin rnd m l = Ok m' -> forall a, get_graph m' a <> None <-> get_graph m a <> None \/ exists i, a = Some i /\ In (OGraph i) l.
  Proof.
    induction l as [|q l IH]; cbn; intros m m' E a; [injection E as <-; split; [auto|intros [H|(i & _ & [])]; exact H]|].
    destruct (do_op fin rnd m q) as [m1|] eqn:E1; [|discriminate]. cbn in E. rewrite (IH _ _ E), (do_op_graph _ _ _ E1). split.
    - intros [[H|(i & -> & ->)]|(i & -> & I)]; eauto.
    - intros [H|(i & -> & [->|I])]; eauto 6.
  Qed.
  (** No duplicate keys. *)
  Definition keys_ok (m : nmap) : Prop := NoDup (map fst (fst m)) /\ NoDup (map fst (snd m)) /\ Forall (fun g => NoDup (map fst (snd g))) (snd m).
  Lemma set_id_forall {A} (P : A -> Prop) i v l : Forall (fun g => P (snd g)) l -> P v -> Forall (fun g : id * A => P (snd g)) (set_id i v l).
  Proof. intros F H. induction F as [|[k w] l Hx F IH]; cbn; [repeat constructor; exact H|]. destruct (id_eqb i k); constructor; auto. Qed.
  Lemma in_graph_keys m b f m' : in_graph m b f = Ok m' -> (forall g g', f g = Ok g' -> NoDup (map fst g) -> NoDup (map fst g')) -> keys_ok m -> keys_ok m'.
  Proof.
    intros E H (K1 & K2 & K3). apply in_graph_ok in E. destruct E as (g & g' & G & F & ->). destruct b as [i|]; cbn in G |- *.
    - assert (Kg : NoDup (map fst g)). { apply get_id_in in G. exact (Forall_in _ _ _ K3 G). }
      split; [exact K1|]. cbn. split; [rewrite (set_keys i g' g) by exact G; exact K2|]. apply (set_id_forall (fun g : graph => NoDup (map fst g))); [exact K3|]. eapply H; eassumption.
    - injection G as <-. split; [eapply H; eassumption|]. split; assumption.
  Qed.
  Lemma declare_node_keys g i x g' : declare_node g i x = Ok g' -> NoDup (map fst g) -> NoDup (map fst g').
  Proof.
    unfold declare_node. destruct (get_id i g) as [[[y|] n]|] eqn:X; intros E K.
    - destruct x as [x|]; [destruct (streq y x); [|discriminate]|]; injection E as <-; exact K.
    - destruct x as [x|]; injection E as <-; [rewrite (set_keys i _ _ g X)|]; exact K.
    - injection E as <-. rewrite map_app. apply nodup_snoc; [exact K|apply get_none, X].
  Qed.
  Lemma do_op_keys m q m' : do_op fin rnd m q = Ok m' -> keys_ok m -> keys_ok m'.
  Proof.
    assert (N : forall b j f, in_node m b j f = Ok m' -> keys_ok m -> keys_ok m').
    { intros b j f E. eapply in_graph_keys; [exact E|]. cbn. intros g g' F K. destruct (get_id j g) as [x|] eqn:X; [|discriminate]. injection F as <-. rewrite (set_keys j _ _ g X). exact K. }
    destruct q as [b j x|b j ts|j|b j l|b j p l]; cbn [do_op]; intros E; try (eapply N; exact E).
    - eapply in_graph_keys; [exact E|]. intros g g'. apply declare_node_keys.
    - injection E as <-. intros (K1 & K2 & K3). unfold declare_graph. destruct (get_id j (snd m)) eqn:X; [split; [|split]; assumption|].
      split; [exact K1|]. split; cbn; [rewrite map_app; apply nodup_snoc; [exact K2|apply get_none, X]|]. apply Forall_app. split; [exact K3|repeat constructor].
  Qed.
  Lemma do_ops_keys l : forall m m', do_ops fin rnd m l = Ok m' -> keys_ok m -> keys_ok m'.
  Proof.
    induction l as [|q l IH]; cbn; intros m m' E; [injection E as <-; auto|]. destruct (do_op fin rnd m q) as [m1|] eqn:E1; [|discriminate].
    cbn in E. intros K. eapply IH; [exact E|]. eapply do_op_keys; eassumption.
  Qed.

  (** ** Scopes *)
  Definition graph_in (P : list op) (a : option id) : Prop := match a with None => True | Some i => In (OGraph i) P end.
  Definition declared (P : list op) (a : option id) (i : id) : Prop := exists x, In (ODeclare a i x) P.
  Definition good (P : list op) (q : op) : Prop :=
    match q with
    | ODeclare a i _ => graph_in P a
    | OGraph _ => True
    | OTypes a i _ => graph_in P a /\ declared P a i
    | OEntry a i _ => graph_in P a /\ declared P a i /\ In (OGraph i) P
    | OProps a i _ l => graph_in P a /\ declared P a i /\ Forall flat_value l
    end.
  Fixpoint fine (P l : list op) : Prop := match l with [] => True | q :: l' => good P q /\ fine (P ++ [q]) l' end.
  Lemma fine_app l : forall P l', fine P (l ++ l') <-> fine P l /\ fine (P ++ l) l'.
  Proof. induction l as [|q l IH]; cbn; intros P l'; [rewrite app_nil_r; tauto|]. rewrite IH, <- app_assoc. cbn. tauto. Qed.
  Lemma graph_in_incl P P' a : incl P P' -> graph_in P a -> graph_in P' a. Proof. destruct a; cbn; auto. Qed.
  Lemma declared_incl P P' a i : incl P P' -> declared P a i -> declared P' a i. Proof. intros I (x & H). exists x. auto. Qed.
  Lemma fine_incl l : forall P P', incl P P' -> fine P l -> fine P' l.
  Proof.
    induction l as [|q l IH]; cbn; intros P P' I; [auto|]. intros [G F]. split.
    - destruct q; cbn in *; intuition eauto using graph_in_incl, declared_incl.
    - eapply IH; [|exact F]. intros y J. apply in_app_or in J. apply in_or_app. destruct J; [left; auto|right; assumption].
  Qed.
  Lemma fine_flat {X} (f : X -> list op) l : forall P, (forall x P', In x l -> incl P P' -> fine P' (f x)) -> fine P (flat_map f l).
  Proof.
    induction l as [|x l IH]; intros P H; cbn; [exact I|]. apply fine_app. split; [apply H; [left; reflexivity|apply incl_refl]|].
    apply IH. intros y P' J Q. apply H; [right; exact J|]. intros z Z. apply Q, in_or_app. left. exact Z.
  Qed.
  Lemma ref_flat : (forall o x, flat_value (ref_o x o)) /\ (forall n : node, True).
  Proof.
    apply (obj_node_ind (fun o => forall x, flat_value (ref_o x o)) (fun _ => True)).
    1: intros v x; apply FvVal. 1: intros n _ x; apply FvRef. 2: exact (fun _ _ _ _ _ _ _ _ _ _ => I).
    intros l IH x. constructor. apply Forall_map. apply Forall_forall. intros y J. apply (Forall_in _ _ _ IH J).
  Qed.
  Lemma tr_n_declares a x n : In (ODeclare a (the_id n) x) (tr_n a x n). Proof. destruct n. left. reflexivity. Qed.
  Lemma tr_mk_eq' a x i ts g inc ps rs : let n := MkNode i ts g inc ps rs in tr_n a x n =
        [ODeclare a (the_id n) x]
        ++ match ts with Some l => [OTypes a (the_id n) l] | None => [] end
        ++ match g with Some l => OGraph (the_id n) :: flat_map (fun y => tr_o (Some (the_id n)) (fst y) (snd y)) l ++ [OEntry a (the_id n) (map ref_i l)] | None => [] end
        ++ match inc with Some l => flat_map (fun y => tr_n a (fst y) (snd y)) l | None => [] end
        ++ flat_map (fun p => flat_map (fun y => tr_o a (fst y) (snd y)) (snd p) ++ [OProps a (the_id n) (fst p) (map ref_i (snd p))]) ps
        ++ match rs with
           | Some l => flat_map (fun p => flat_map (fun y => tr_n a (fst y) (snd y) ++ [OProps a (the_id (snd y)) (fst p) [(None, ONode (node_new (Some (the_id n))))]]) (snd p)) l
           | None => []
           end.
  Proof. reflexivity. Qed.
  Lemma tr_fine : (forall o a x P, graph_in P a -> fine P (tr_o a x o)) /\ (forall n a x P, graph_in P a -> fine P (tr_n a x n)).
  Proof.
    apply (obj_node_ind (fun o => forall a x P, graph_in P a -> fine P (tr_o a x o)) (fun n => forall a x P, graph_in P a -> fine P (tr_n a x n))).
    - intros v a x P _. exact I.
    - intros n IH a x P G. apply IH, G.
    - intros l IH a x P G. change (tr_o a x (OList l)) with (flat_map (fun y => tr_o a (fst y) (snd y)) l). apply fine_flat.
      intros y P' J Q. apply (Forall_in _ _ _ IH J). eapply graph_in_incl; eassumption.
    - intros i ts g inc ps rs Hg Hi Hp Hr a x P G. pose proof (tr_mk_eq' a x i ts g inc ps rs) as E. cbv zeta in E. rewrite E. clear E.
      generalize (the_id (MkNode i ts g inc ps rs)). intros j.
      assert (In1 : forall P', incl (P ++ [ODeclare a j x]) P' -> graph_in P' a /\ declared P' a j).
      { intros P' Q. split; [eapply graph_in_incl; [|exact G]; intros z Z; apply Q, in_or_app; left; exact Z|]. exists x. apply Q, in_or_app. right. left. reflexivity. }
      apply fine_app. split; [cbn; auto|].
      apply fine_app. split. { destruct ts as [l|]; [|exact I]. split; [|exact I]. apply In1, incl_refl. }
      set (P1 := (P ++ [ODeclare a j x]) ++ _).
      assert (I1 : incl (P ++ [ODeclare a j x]) P1) by (intros z Z; apply in_or_app; left; exact Z).
      apply fine_app. split.
      { destruct g as [l|]; [|exact I]. split; [exact I|]. apply fine_app. split.
        - apply fine_flat. intros y P' J Q. apply (Forall_in _ _ _ Hg J). apply Q, in_or_app. right. left. reflexivity.
        - split; [|exact I]. split; [|split; [|apply in_or_app; left; apply in_or_app; right; left; reflexivity]];
            apply In1; intros z Z; apply in_or_app; left; apply in_or_app; left; apply I1, Z. }
      set (P2 := P1 ++ _). assert (I2 : incl (P ++ [ODeclare a j x]) P2) by (intros z Z; apply in_or_app; left; apply I1; exact Z).
      apply fine_app. split.
      { destruct inc as [l|]; [|exact I]. apply fine_flat. intros y P' J Q. apply (Forall_in _ _ _ Hi J). apply In1. intros z Z. apply Q, I2, Z. }
      set (P3 := P2 ++ _). assert (I3 : incl (P ++ [ODeclare a j x]) P3) by (intros z Z; apply in_or_app; left; apply I2; exact Z).
      apply fine_app. split.
      { apply fine_flat. intros p P' K Q. apply fine_app. split.
        - apply fine_flat. intros y P'' J Q'. apply (Forall_in _ _ _ (Forall_in _ _ _ Hp K) J). apply In1. intros z Z. apply Q', Q, I3, Z.
        - split; [|exact I]. split; [|split; [|apply Forall_map, Forall_forall; intros y _; apply ref_flat]]; apply In1; intros z Z; apply in_or_app; left; apply Q, I3, Z. }
      set (P4 := P3 ++ _). assert (I4 : incl (P ++ [ODeclare a j x]) P4) by (intros z Z; apply in_or_app; left; apply I3; exact Z).
      destruct rs as [l|]; [|exact I]. apply fine_flat. intros p P' K Q. apply fine_flat. intros y P'' J Q'.
      assert (Ga : graph_in P'' a) by (apply In1; intros z Z; apply Q', Q, I4, Z).
      apply fine_app. split; [apply (Forall_in _ _ _ (Forall_in _ _ _ Hr K) J), Ga|]. split; [|exact I]. split.
      + eapply graph_in_incl; [|exact Ga]. intros z Z. apply in_or_app; left; exact Z.
      + split; [|repeat constructor]. exists (fst y). apply in_or_app. right. apply tr_n_declares.
  Qed.
  Lemma tr_doc_fine d : fine [] (tr_doc d).
  Proof. apply fine_flat. intros y P J _. apply tr_fine. exact I. Qed.

  (** ** Errors *)
  (** [m] knows what was declared by [P]. *)
  Definition knows (m : nmap) (P : list op) : Prop := (forall a, graph_in P a -> get_graph m a <> None) /\ (forall a i, declared P a i -> at_node m a i <> None).
  Lemma ap_some a i st q : st <> None -> ap a i st q <> None.
  Proof. intros H. destruct q; cbn; try destruct (here _ _ _ _); try exact H; try discriminate; destruct st; try discriminate; exact H. Qed.
  Lemma knows_step m P q m' : knows m P -> do_op fin rnd m q = Ok m' -> knows m' (P ++ [q]).
  Proof.
    intros [K1 K2] E. split.
    - intros a G. apply (do_op_graph _ _ _ E). destruct a as [i|]; [|left; discriminate]. cbn in G. apply in_app_or in G. destruct G as [G|[->|[]]]; [left; apply K1, G|right; eauto].
    - intros a i (x & I). rewrite (do_op_at _ _ _ E). apply in_app_or in I. destruct I as [I|[->|[]]].
      + apply ap_some, K2. exists x. exact I.
      + cbn. rewrite here_refl. discriminate.
  Qed.
  Lemma do_op_panic m P q : knows m P -> good P q -> do_op fin rnd m q <> Err FPanic.
  Proof.
    intros [K1 K2] G.
    assert (N : forall a i f, graph_in P a -> declared P a i -> in_node m a i f <> Err FPanic).
    { intros a i f Ga Di E. specialize (K1 a Ga). specialize (K2 a i Di). unfold in_node, in_graph in E. unfold at_node in K2. destruct (get_graph m a) as [g|]; [|congruence].
      destruct (get_id i g); [discriminate|congruence]. }
    destruct q as [b j x|b j ts|j|b j l|b j p l]; cbn [do_op good] in *; try (apply N; tauto); [|discriminate].
    specialize (K1 b G). unfold in_graph. destruct (get_graph m b) as [g|]; [|congruence]. unfold declare_node.
    destruct (get_id j g) as [[[y|] n]|]; [|destruct x; discriminate|discriminate]. destruct x as [x|]; [destruct (streq y x)|]; discriminate.
  Qed.
  Lemma do_ops_panic l : forall m P, knows m P -> fine P l -> do_ops fin rnd m l <> Err FPanic.
  Proof.
    induction l as [|q l IH]; cbn; intros m P K F; [discriminate|]. destruct F as [G F].
    destruct (do_op fin rnd m q) as [m1|e] eqn:E; cbn; [eapply IH; [eapply knows_step; eassumption|exact F]|].
    intros X. injection X as ->. exact (do_op_panic m P q K G E).
  Qed.
  (** Indexes in the map were declared by [P]. *)
  Definition indexed (m : nmap) (P : list op) : Prop := forall a i x n, at_node m a i = Some (Some x, n) -> In (ODeclare a i (Some x)) P.
  Lemma indexed_step m P q m' : indexed m P -> do_op fin rnd m q = Ok m' -> indexed m' (P ++ [q]).
  Proof.
    intros K E a i x n H. rewrite (do_op_at _ _ _ E) in H. apply in_or_app.
    assert (D : forall y, at_node m a i = Some y -> fst y = Some x -> In (ODeclare a i (Some x)) P \/ In (ODeclare a i (Some x)) [q]).
    { intros [z n'] Y Z. cbn in Z. subst z. left. eapply K, Y. }
    destruct q as [b j z|b j ts|j|b j l|b j p l]; cbn [ap] in H; [| | eauto | |];
      destruct (here_spec a i b j) as [[-> ->]|_]; eauto; destruct (at_node m b j) as [y|] eqn:Y; try discriminate; try (injection H as H _; eauto; fail).
    - destruct y as [[y|] n']; injection H as H _; [subst; eauto|]. right. left. congruence.
    - injection H as -> _. right. left. reflexivity.
  Qed.
  Lemma do_op_conflict m q i c d : do_op fin rnd m q = Err (FConflict i c d) -> c <> d /\ exists a n, at_node m a i = Some (Some c, n) /\ q = ODeclare a i (Some d).
  Proof.
    assert (N : forall a j f, in_node m a j f <> Err (FConflict i c d)).
    { intros a j f. unfold in_node, in_graph. destruct (get_graph m a) as [g|]; [|discriminate]. destruct (get_id j g); discriminate. }
    destruct q as [b j x|b j ts|j|b j l|b j p l]; cbn [do_op]; intros E; try (contradiction (N _ _ _ E)); [|discriminate].
    unfold in_graph in E. destruct (get_graph m b) as [g|] eqn:G; [|discriminate]. unfold declare_node in E. destruct (get_id j g) as [[[y|] n]|] eqn:X; [| |discriminate].
    - destruct x as [x|]; [|discriminate]. destruct (streq y x) eqn:S; [discriminate|]. injection E as -> -> ->. split; [intros ->; rewrite streq_refl in S; discriminate|].
      exists b, n. unfold at_node. rewrite G. auto.
    - destruct x; discriminate.
  Qed.
  Lemma do_ops_conflict l : forall m P i c d, indexed m P -> do_ops fin rnd m l = Err (FConflict i c d) ->
    c <> d /\ exists a, In (ODeclare a i (Some c)) (P ++ l) /\ In (ODeclare a i (Some d)) (P ++ l).
  Proof.
    induction l as [|q l IH]; cbn; intros m P i c d K E; [discriminate|]. destruct (do_op fin rnd m q) as [m1|e] eqn:E1; cbn in E.
    - destruct (IH m1 (P ++ [q]) i c d (indexed_step _ _ _ _ K E1) E) as (N & a & I & J). rewrite <- app_assoc in I, J. split; [exact N|]. exists a. auto.
    - injection E as ->. destruct (do_op_conflict _ _ _ _ _ E1) as (N & a & n & H & ->). split; [exact N|]. exists a. split; apply in_or_app; [left; eapply K, H|right; left; reflexivity].
  Qed.
  Lemma ap_index a i q x n : forall st, st = Some (Some x, n) -> exists n', ap a i st q = Some (Some x, n').
  Proof. intros st ->. destruct q; cbn; try destruct (here _ _ _ _); eauto. Qed.
  Lemma do_ops_index l : forall m m', do_ops fin rnd m l = Ok m' -> forall a i x, (exists n, at_node m a i = Some (Some x, n)) \/ In (ODeclare a i (Some x)) l -> exists n, at_node m' a i = Some (Some x, n).
  Proof.
    induction l as [|q l IH]; cbn; intros m m' E a i x H; [injection E as <-; destruct H as [H|[]]; exact H|].
    destruct (do_op fin rnd m q) as [m1|] eqn:E1; [|discriminate]. cbn in E. apply (IH _ _ E).
    destruct H as [(n & H)|[->|H]]; [left|left|right; exact H].
    - rewrite (do_op_at _ _ _ E1). eapply ap_index, H.
    - pose proof (do_op_at _ _ _ E1 a i) as A. cbn [ap] in A. rewrite here_refl in A. destruct (at_node m a i) as [[[y|] n]|] eqn:Y; [|eauto|eauto].
      cbn [do_op] in E1. unfold in_graph in E1. unfold at_node in Y. destruct (get_graph m a) as [g|]; [|discriminate]. unfold declare_node in E1. rewrite Y in E1.
      destruct (streq y x) eqn:S; [|discriminate]. apply streq_true in S. rewrite S in *. eauto.
  Qed.
End Effect.

(** What the node map contains in the end, and the flattened document. *)
From Coq Require Import Permutation.
From Verif Require Import Prelude Json Enums LangTag LangString Str Keyword Container ContextSyntax Ctx Object ObjectEq ObjectJson Traverse Relabel RelabelProofs Flatten FlattenProofs FlattenSpec FlattenEffect.

Section Output.
  Variables (fin rnd : list word -> N).
  Notation add_unique := (add_unique fin rnd).
  Notation insert_all_unique := (insert_all_unique fin rnd).
  Notation equivalent := (equivalent fin rnd).

  (** ** Values *)
  Lemma add_unique_sound l v y : In y (add_unique l v) -> In y l \/ y = v.
  Proof. unfold Flatten.add_unique. destruct (forallb _ l); [|auto]. intros I. apply in_app_or in I. destruct I as [I|[I|[]]]; auto. Qed.
  Lemma add_unique_keep l v y : In y l -> In y (add_unique l v).
  Proof. unfold Flatten.add_unique. destruct (forallb _ l); [|auto]. intros I. apply in_or_app. auto. Qed.
  Lemma add_unique_new l v : exists w, In w (add_unique l v) /\ (w = v \/ equivalent w v = true).
  Proof.
    unfold Flatten.add_unique. destruct (forallb _ l) eqn:F; [exists v; split; [apply in_or_app; right; left; reflexivity|auto]|].
    assert (X : existsb (fun x => equivalent x v) l = true).
    { clear -F. induction l as [|x l IH]; cbn in *; [discriminate|]. destruct (equivalent x v); cbn in *; auto. }
    apply existsb_exists in X. destruct X as (w & I & E). eauto.
  Qed.
  Lemma add_all_sound v : forall l y, In y (fold_left add_unique v l) -> In y l \/ In y v.
  Proof. induction v as [|x v IH]; cbn; intros l y I; [auto|]. apply IH in I. destruct I as [I|I]; [|auto]. apply add_unique_sound in I. destruct I as [I| ->]; auto. Qed.
  Lemma add_all_keep v : forall l y, In y l -> In y (fold_left add_unique v l).
  Proof. induction v as [|x v IH]; cbn; intros l y I; [auto|]. apply IH, add_unique_keep, I. Qed.
  Lemma add_all_new v : forall l y, In y v -> exists w, In w (fold_left add_unique v l) /\ (w = y \/ equivalent w y = true).
  Proof.
    induction v as [|x v IH]; cbn; intros l y I; [contradiction|]. destruct I as [->|I]; [|apply IH, I].
    destruct (add_unique_new l y) as (w & J & E). exists w. split; [apply add_all_keep, J|exact E].
  Qed.
  Lemma iau_sound k v l q vs y : In (q, vs) (insert_all_unique k v l) -> In y vs -> (exists ws, In (q, ws) l /\ In y ws) \/ (q = k /\ In y v).
  Proof.
    induction l as [|[k' w] l IH]; cbn; intros I J.
    - destruct I as [I|[]]. injection I as <- <-. apply add_all_sound in J. destruct J as [[]|J]; auto.
    - destruct (id_eqb_spec k k') as [->|N]; destruct I as [I|I].
      + injection I as <- <-. apply add_all_sound in J. destruct J as [J|J]; [left; exists w; auto|auto].
      + left. exists vs. auto.
      + injection I as <- <-. left. exists w. auto.
      + destruct (IH I J) as [(ws & A & B)|[A B]]; [left; exists ws; auto|auto].
  Qed.
  Lemma iau_keep k v l q ws y : In (q, ws) l -> In y ws -> exists vs, In (q, vs) (insert_all_unique k v l) /\ In y vs.
  Proof.
    induction l as [|[k' w] l IH]; cbn; intros I J; [contradiction|]. destruct (id_eqb_spec k k') as [->|N]; destruct I as [I|I].
    - injection I as -> ->. eexists. split; [left; reflexivity|]. apply add_all_keep, J.
    - exists ws. auto with datatypes.
    - injection I as -> ->. exists ws. auto with datatypes.
    - destruct (IH I J) as (vs & A & B). exists vs. auto with datatypes.
  Qed.
  Lemma iau_new k v l y : In y v -> exists vs w, In (k, vs) (insert_all_unique k v l) /\ In w vs /\ (w = y \/ equivalent w y = true).
  Proof.
    intros I. induction l as [|[k' w] l IH]; cbn.
    - destruct (add_all_new v [] y I) as (w & J & E). do 2 eexists. split; [left; reflexivity|]. eauto.
    - destruct (id_eqb_spec k k') as [->|N].
      + destruct (add_all_new v w y I) as (w' & J & E). do 2 eexists. split; [left; reflexivity|]. eauto.
      + destruct IH as (vs & w' & A & B). exists vs, w'. auto with datatypes.
  Qed.

  (** ** The fold *)
  Section Node.
    Variables (a : option id) (i : id).
    Notation F l := (fold_left (ap fin rnd a i) l None).
    Lemma F_snoc l q : F (l ++ [q]) = ap fin rnd a i (F l) q. Proof. rewrite fold_left_app. reflexivity. Qed.
    Lemma F_declared l : F l <> None <-> declared l a i.
    Proof.
      induction l as [|q l IH] using rev_ind; [split; [intros H; contradiction H; reflexivity|intros (x & [])]|]. rewrite F_snoc. split.
      - intros H. assert (X : F l <> None \/ exists x, q = ODeclare a i x).
        { destruct (F l) eqn:E; [left; discriminate|]. right. destruct q as [b j x|b j ts|j|b j v|b j p v]; cbn in H; try contradiction; destruct (here_spec a i b j) as [[-> ->]|_]; try contradiction. eauto. }
        destruct X as [X|(x & ->)]; [|exists x; apply in_or_app; right; left; reflexivity]. apply IH in X. destruct X as (x & X). exists x. apply in_or_app. auto.
      - intros (x & I). apply in_app_or in I. destruct I as [I|[->|[]]]; [apply ap_some, IH; exists x; exact I|]. cbn. rewrite here_refl. discriminate.
    Qed.
    (** The cases of one more operation. *)
    Lemma F_cases l q z n : F (l ++ [q]) = Some (z, n) ->
      F l = Some (z, n) \/
      (exists x, q = ODeclare a i x /\ ((F l = None /\ z = x /\ n = node_new (Some i)) \/ F l = Some (None, n))) \/
      exists n0, F l = Some (z, n0) /\ ((exists ts, q = OTypes a i ts /\ n = set_types ts n0)
        \/ (exists v, q = OEntry a i v /\ n = extend_graph fin rnd (collect_o fin rnd v) n0) \/ (exists p v, q = OProps a i p v /\ n = add_props fin rnd p v n0)).
    Proof.
      rewrite F_snoc. destruct q as [b j x|b j ts|j|b j v|b j p v]; cbn; auto; destruct (here_spec a i b j) as [[<- <-]|_]; auto; intros E.
      - destruct (F l) as [[[y|] n0]|]; injection E as <- <-; auto; right; left; exists x; auto.
      - right; right. destruct (F l) as [[y n0]|]; [|discriminate]. injection E as <- <-. exists n0. split; [reflexivity|]. left. eauto.
      - right; right. destruct (F l) as [[y n0]|]; [|discriminate]. injection E as <- <-. exists n0. split; [reflexivity|]. right; left. eauto.
      - right; right. destruct (F l) as [[y n0]|]; [|discriminate]. injection E as <- <-. exists n0. split; [reflexivity|]. right; right. eauto.
    Qed.
    (** A property of the node kept by every operation. *)
    Lemma F_ind (P : list op -> node -> Prop) :
      (forall l x, P (l ++ [ODeclare a i x]) (node_new (Some i))) -> (forall l q n, P l n -> P (l ++ [q]) n) ->
      (forall l ts n, P l n -> P (l ++ [OTypes a i ts]) (set_types ts n)) ->
      (forall l v n, P l n -> P (l ++ [OEntry a i v]) (extend_graph fin rnd (collect_o fin rnd v) n)) ->
      (forall l p v n, P l n -> P (l ++ [OProps a i p v]) (add_props fin rnd p v n)) ->
      forall l z n, F l = Some (z, n) -> P l n.
    Proof.
      intros H1 H2 H3 H4 H5 l. induction l as [|q l IH] using rev_ind; [discriminate|]. intros z n E. apply F_cases in E.
      destruct E as [E|[(x & -> & [(_ & _ & ->)|E])|(n0 & E & [(ts & -> & ->)|[(v & -> & ->)|(p & v & -> & ->)]])]]; eauto.
    Qed.
    Lemma F_shape l z n : F l = Some (z, n) -> n_id n = Some i /\ n_included n = None /\ n_reverse n = None.
    Proof.
      apply (F_ind (fun _ n => n_id n = Some i /\ n_included n = None /\ n_reverse n = None)); auto;
        intros; destruct n0; cbn in *; assumption.
    Qed.
    Lemma F_types_sound l z n ts : F l = Some (z, n) -> n_types n = Some ts -> In (OTypes a i ts) l.
    Proof.
      intros E. revert ts. revert l z n E. apply (F_ind (fun l n => forall ts, n_types n = Some ts -> In (OTypes a i ts) l)).
      - discriminate.
      - intros l q n H ts E. apply in_or_app. auto.
      - intros l ts n _ ts' E. destruct n. injection E as ->. apply in_or_app. right. left. reflexivity.
      - intros l v n H ts E. apply in_or_app. left. apply H. destruct n; exact E.
      - intros l p v n H ts E. apply in_or_app. left. apply H. destruct n; exact E.
    Qed.
    Lemma F_graph l z n : F l = Some (z, n) -> n_graph n <> None -> exists v, In (OEntry a i v) l.
    Proof.
      revert l z n. apply (F_ind (fun l n => n_graph n <> None -> exists v, In (OEntry a i v) l)).
      - intros l x H. contradiction H. reflexivity.
      - intros l q n H E. destruct (H E) as (v & I). exists v. apply in_or_app. auto.
      - intros l ts n H E. destruct H as (v & I); [destruct n; exact E|]. exists v. apply in_or_app. auto.
      - intros l v n _ _. exists v. apply in_or_app. right. left. reflexivity.
      - intros l p v n H E. destruct H as (v' & I); [destruct n; exact E|]. exists v'. apply in_or_app. auto.
    Qed.
    Lemma F_props_sound l z n p vs y : F l = Some (z, n) -> In (p, vs) (n_props n) -> In y vs -> exists ws, In (OProps a i p ws) l /\ In y ws.
    Proof.
      intros E. revert p vs y. revert l z n E. apply (F_ind (fun l n => forall p vs y, In (p, vs) (n_props n) -> In y vs -> exists ws, In (OProps a i p ws) l /\ In y ws)).
      - intros l x p vs y [].
      - intros l q n H p vs y I J. destruct (H _ _ _ I J) as (ws & A & B). exists ws. split; [apply in_or_app; auto|exact B].
      - intros l ts n H p vs y I J. destruct (H p vs y) as (ws & A & B); [destruct n; exact I|exact J|]. exists ws. split; [apply in_or_app; auto|exact B].
      - intros l v n H p vs y I J. destruct (H p vs y) as (ws & A & B); [destruct n; exact I|exact J|]. exists ws. split; [apply in_or_app; auto|exact B].
      - intros l q v n H p vs y I J. destruct n. cbn in I. apply (iau_sound _ _ _ _ _ _ I) in J. destruct J as [(ws & A & B)|[-> B]].
        + destruct (H p ws y A B) as (ws' & A' & B'). exists ws'. split; [apply in_or_app; auto|exact B'].
        + exists v. split; [apply in_or_app; right; left; reflexivity|exact B].
    Qed.
    (** Operations on nodes apply to declared nodes. *)
    Lemma F_props_complete l : fine [] l -> forall p ws y, In (OProps a i p ws) l -> In y ws ->
      exists z n vs w, F l = Some (z, n) /\ In (p, vs) (n_props n) /\ In w vs /\ (w = y \/ equivalent w y = true).
    Proof.
      induction l as [|q l IH] using rev_ind; [intros _ p ws y []|]. intros Fi p ws y I J. apply fine_app in Fi. destruct Fi as [Fi [G _]]. cbn in G. rewrite F_snoc.
      apply in_app_or in I. destruct I as [I|[->|[]]].
      - destruct (IH Fi p ws y I J) as (z & n & vs & w & E & A & B & C). rewrite E.
        assert (K : forall n', n_props n' = n_props n -> In (p, vs) (n_props n')) by (intros n' ->; exact A).
        destruct q as [b j x|b j ts|j|b j v|b j p' v]; cbn; [| |exists z, n, vs, w; auto| |]; (destruct (here_spec a i b j) as [[<- <-]|_]; [|exists z, n, vs, w; auto]).
        + destruct z as [z|]; do 2 eexists; exists vs, w; (split; [reflexivity|]); auto.
        + do 2 eexists; exists vs, w. split; [reflexivity|]. cbn. split; [apply K; destruct n; reflexivity|auto].
        + do 2 eexists; exists vs, w. split; [reflexivity|]. cbn. split; [apply K; destruct n; reflexivity|auto].
        + destruct (iau_keep p' v (n_props n) p vs w A B) as (vs' & A' & B'). do 2 eexists; exists vs', w. split; [reflexivity|]. cbn. split; [destruct n; exact A'|auto].
      - destruct G as (_ & D & _). apply F_declared in D. destruct (F l) as [[z n]|]; [|congruence]. cbn. rewrite here_refl. cbn.
        destruct (iau_new p ws (n_props n) y J) as (vs & w & A & B & C). do 2 eexists; exists vs, w. split; [reflexivity|]. cbn. split; [destruct n; exact A|auto].
    Qed.
    Lemma F_types_complete l : fine [] l -> forall ts, In (OTypes a i ts) l -> exists z n ts', F l = Some (z, n) /\ n_types n = Some ts'.
    Proof.
      induction l as [|q l IH] using rev_ind; [intros _ ts []|]. intros Fi ts I. apply fine_app in Fi. destruct Fi as [Fi [G _]]. cbn in G. rewrite F_snoc.
      apply in_app_or in I. destruct I as [I|[->|[]]].
      - destruct (IH Fi ts I) as (z & n & ts' & E & A). rewrite E.
        destruct q as [b j x|b j ts0|j|b j v|b j p' v]; cbn; [| |exists z, n, ts'; auto| |]; (destruct (here_spec a i b j) as [[<- <-]|_]; [|exists z, n, ts'; auto]).
        + destruct z as [z|]; do 2 eexists; exists ts'; auto.
        + do 2 eexists; exists ts0. split; [reflexivity|]. destruct n; reflexivity.
        + do 2 eexists; exists ts'. split; [reflexivity|]. destruct n; exact A.
        + do 2 eexists; exists ts'. split; [reflexivity|]. destruct n; exact A.
      - destruct G as (_ & D). apply F_declared in D. destruct (F l) as [[z n]|]; [|congruence]. cbn. rewrite here_refl. do 2 eexists; exists ts. split; [reflexivity|]. destruct n; reflexivity.
    Qed.
  End Node.

  (** ** The whole map *)
  Lemma fine_in l q : forall P, fine P l -> In q l -> exists P', incl P' (P ++ l) /\ good P' q.
  Proof.
    induction l as [|q' l IH]; intros P F I; [contradiction|]. destruct F as [G F]. destruct I as [->|I].
    - exists P. split; [intros z Z; apply in_or_app; auto|exact G].
    - destruct (IH _ F I) as (P' & Q & G'). exists P'. split; [|exact G']. intros z Z. specialize (Q z Z). rewrite <- app_assoc in Q. exact Q.
  Qed.

  Section Map.
    Variables (l : list op) (m : nmap).
    Hypothesis (Fl : fine [] l) (El : do_ops fin rnd nmap0 l = Ok m).
    Lemma map_at a i : at_node m a i = fold_left (ap fin rnd a i) l None.
    Proof. rewrite (do_ops_at fin rnd _ _ _ El). destruct a; reflexivity. Qed.
    Lemma map_keys : keys_ok m. Proof. eapply do_ops_keys; [exact El|]. repeat constructor. Qed.
    Lemma map_graph i : get_id i (snd m) <> None <-> In (OGraph i) l.
    Proof.
      pose proof (do_ops_graph fin rnd _ _ _ El (Some i)) as H. cbn in H. rewrite H. split; [|eauto]. intros [X|(j & X & I)]; [congruence|]. injection X as ->. exact I.
    Qed.
    (** A node in a graph of the map. *)
    Definition stored (a : option id) (i : id) (x : inode) : Prop := at_node m a i = Some x.
    Lemma stored_shape a i x : stored a i x -> n_id (snd x) = Some i /\ n_included (snd x) = None /\ n_reverse (snd x) = None.
    Proof. unfold stored. rewrite map_at. destruct x as [z n]. apply F_shape. Qed.
    Lemma stored_flat a i x : stored a i x -> forall p vs y, In (p, vs) (n_props (snd x)) -> In y vs -> flat_value y.
    Proof.
      unfold stored. rewrite map_at. destruct x as [z n]. intros E p vs y I J. destruct (F_props_sound _ _ _ _ _ _ _ _ E I J) as (ws & A & B).
      destruct (fine_in _ _ _ Fl A) as (P & _ & (_ & _ & Q)). exact (Forall_in _ _ _ Q B).
    Qed.
    Lemma stored_graph a i x : stored a i x -> n_graph (snd x) <> None -> get_id i (snd m) <> None.
    Proof.
      unfold stored. rewrite map_at. destruct x as [z n]. intros E G. destruct (F_graph _ _ _ _ _ E G) as (v & I). destruct (fine_in _ _ _ Fl I) as (P & Q & (_ & _ & X)).
      apply map_graph. exact (Q _ X).
    Qed.
  End Map.

  (** ** Attaching the graphs *)
  Section Attach.
    Variables (pg : list (id * graph) -> list (id * graph)) (pn : option id -> graph -> graph) (po : list inode -> list inode).
    Hypothesis (Hg : forall l, Permutation (pg l) l) (Hn : forall a g, Permutation (pn a g) g) (Ho : forall l, Permutation (po l) l).
    Definition base (i : id) (x : option inode) : inode := match x with Some x => x | None => (None, node_new (Some i)) end.
    Definition sub (i : id) (gr : graph) : list iobj := flat_map (fun e => filter_sub_graph (snd e)) (pn (Some i) gr).
    Definition attached (i : id) (gr : graph) (x : option inode) : inode :=
      (fst (base i x), set_graph_entry (Some (collect_o fin rnd (sub i gr))) (snd (base i x))).
    Lemma attach_spec g ig : NoDup (map fst g) -> exists g', attach fin rnd pn g ig = Ok g' /\ NoDup (map fst g') /\
      forall k, get_id k g' = if id_eqb k (fst ig) then Some (attached (fst ig) (snd ig) (get_id k g)) else get_id k g.
    Proof.
      intros K. destruct ig as [i gr]. unfold attach. cbn [fst snd]. unfold declare_node. destruct (get_id i g) as [[[y|] n]|] eqn:X; cbn [bind].
      - rewrite X. eexists. split; [reflexivity|]. split; [rewrite (set_keys i _ _ g X); exact K|]. intros k. rewrite get_set. destruct (id_eqb_spec k i) as [->|N]; [|reflexivity]. rewrite X. reflexivity.
      - rewrite X. eexists. split; [reflexivity|]. split; [rewrite (set_keys i _ _ g X); exact K|]. intros k. rewrite get_set. destruct (id_eqb_spec k i) as [->|N]; [|reflexivity]. rewrite X. reflexivity.
      - assert (Y : get_id i (g ++ [(i, (None, node_new (Some i)))]) = Some (None, node_new (Some i))) by (rewrite get_app, X; cbn; rewrite id_eqb_refl; reflexivity).
        match goal with |- context [match ?t with Some _ => _ | None => Err FPanic end] => replace t with (Some (None : option string, node_new (Some i))) by (symmetry; exact Y) end. eexists. split; [reflexivity|]. split.
        + rewrite (set_keys i _ _ _ Y), map_app. apply nodup_snoc; [exact K|apply get_none, X].
        + intros k. rewrite get_set, get_app. cbn. destruct (id_eqb_spec k i) as [->|N]; [rewrite X; reflexivity|]. destruct (get_id k g); reflexivity.
    Qed.
    Lemma attach_all_spec l : forall g, NoDup (map fst g) -> NoDup (map fst l) -> exists g', attach_all fin rnd pn g l = Ok g' /\ NoDup (map fst g') /\
      forall k, get_id k g' = match get_id k l with Some gr => Some (attached k gr (get_id k g)) | None => get_id k g end.
    Proof.
      induction l as [|[i gr] l IH]; intros g K Kl; [exists g; repeat split; auto|]. cbn [attach_all]. inversion Kl as [|? ? N1 N2]; subst.
      destruct (attach_spec g (i, gr) K) as (g1 & E & K1 & S1). rewrite E. cbn [bind]. destruct (IH g1 K1 N2) as (g2 & E2 & K2 & S2). exists g2. split; [exact E2|]. split; [exact K2|].
      intros k. rewrite S2, S1. cbn [get_id fst snd]. destruct (id_eqb_spec k i) as [->|N]; [|reflexivity].
      destruct (get_id i l) as [gr'|] eqn:X; [|reflexivity]. apply get_id_in in X. apply (in_map fst) in X. contradiction.
    Qed.

    Lemma get_perm {A} k (l l' : list (id * A)) : NoDup (map fst l) -> Permutation l' l -> get_id k l' = get_id k l.
    Proof.
      intros N P. assert (N' : NoDup (map fst l')) by (eapply Permutation_NoDup; [apply Permutation_map, Permutation_sym, P|exact N]).
      destruct (get_id k l) as [v|] eqn:E.
      - apply get_id_in in E. apply get_id_nodup; [exact N'|]. eapply Permutation_in; [apply Permutation_sym, P|exact E].
      - apply get_none in E. destruct (get_id k l') as [v|] eqn:E'; [|reflexivity]. exfalso. apply E. apply get_id_in in E'. eapply Permutation_in in E'; [|exact P]. apply (in_map fst) in E'. exact E'.
    Qed.
    Lemma nodup_flat {A B} (f : A -> list B) (ib : B -> option id) (g : list (id * A)) : NoDup (map fst g) ->
      (forall e y, In e g -> In y (f (snd e)) -> ib y = Some (fst e)) -> (forall x, f x = [] \/ exists y, f x = [y]) -> NoDup (map ib (flat_map (fun e => f (snd e)) g)).
    Proof.
      intros N H L. induction g as [|e g IH]; [constructor|]. inversion N as [|? ? N1 N2]; subst. cbn [flat_map].
      assert (R : NoDup (map ib (flat_map (fun e => f (snd e)) g))) by (apply IH; [exact N2|intros e' y I; apply H; right; exact I]).
      destruct (L (snd e)) as [->|(y & E)]; [exact R|]. rewrite E. cbn. constructor; [|exact R]. rewrite (H e y (or_introl eq_refl)) by (rewrite E; left; reflexivity).
      intros I. apply in_map_iff in I. destruct I as (y' & X & I). apply in_flat_map in I. destruct I as (e' & J & I). rewrite (H e' y' (or_intror J) I) in X. injection X as X.
      apply N1. rewrite <- X. apply in_map, J.
    Qed.

    Variables (l : list op) (m : nmap).
    Hypothesis (Fl : fine [] l) (El : do_ops fin rnd nmap0 l = Ok m).
    Definition oid (y : iobj) : option id := match snd y with ONode n => n_id n | _ => None end.
    Definition final (k : id) : option inode :=
      match get_id k (snd m) with Some gr => Some (attached k gr (at_node m None k)) | None => at_node m None k end.

    Lemma filter_sub_one x : filter_sub_graph x = [] \/ exists y, filter_sub_graph x = [y].
    Proof. destruct x as [[z|] [i ts g inc ps rs]]; cbn; [eauto|]. destruct ps; eauto. Qed.
    Lemma filter_one x : filter_graph x = [] \/ exists y, filter_graph x = [y].
    Proof. destruct x as [[z|] n]; cbn; [eauto|]. destruct (node_empty n); eauto. Qed.
    Lemma graph_at i gr : get_id i (snd m) = Some gr -> forall k, at_node m (Some i) k = get_id k gr.
    Proof. intros E k. unfold at_node. cbn. rewrite E. reflexivity. Qed.
    Lemma graph_keys i gr : get_id i (snd m) = Some gr -> NoDup (map fst gr).
    Proof. intros E. apply get_id_in in E. exact (Forall_in _ _ _ (proj2 (proj2 (map_keys l m El))) E). Qed.
    Lemma sub_in i gr y : get_id i (snd m) = Some gr -> (In y (sub i gr) <-> exists k x, stored m (Some i) k x /\ In y (filter_sub_graph x)).
    Proof.
      intros E. unfold sub. rewrite in_flat_map. split.
      - intros ([k x] & J & I). eapply Permutation_in in J; [|apply Hn]. exists k, x. split; [|exact I]. unfold stored. rewrite (graph_at i gr E). apply get_id_nodup; [exact (graph_keys i gr E)|exact J].
      - intros (k & x & S & I). unfold stored in S. rewrite (graph_at i gr E) in S. exists (k, x). split; [|exact I]. eapply Permutation_in; [apply Permutation_sym, Hn|]. apply get_id_in, S.
    Qed.
    Lemma sub_id k x y : n_id (snd x) = Some k -> In y (filter_sub_graph x) -> oid y = Some k.
    Proof. destruct x as [[z|] [i ts g inc ps rs]]; cbn; intros E I; [|destruct ps; [contradiction|]]; destruct I as [<-|[]]; exact E. Qed.
    Lemma sub_nodup i gr : get_id i (snd m) = Some gr -> NoDup (map oid (sub i gr)).
    Proof.
      intros E. unfold sub. apply (nodup_flat filter_sub_graph oid).
      - eapply Permutation_NoDup; [apply Permutation_map, Permutation_sym, Hn|exact (graph_keys i gr E)].
      - intros [k x] y J I. eapply Permutation_in in J; [|apply Hn]. apply (sub_id k x y); [|exact I].
        apply (stored_shape l m El (Some i) k x). unfold stored. rewrite (graph_at i gr E). apply get_id_nodup; [exact (graph_keys i gr E)|exact J].
      - apply filter_sub_one.
    Qed.
    Lemma node_eqb_id n n' : node_eqb fin rnd n n' = true -> n_id n = n_id n'.
    Proof. destruct n as [i ts g inc ps rs], n' as [i' ts' g' inc' ps' rs']. cbn [node_eqb]. rewrite !andb_true_iff. intros H. apply opt_ideq. apply H. Qed.
    Lemma distinct_ids (q : list iobj) : NoDup (map oid q) -> distinct (fun x y => oid x = oid y) q.
    Proof.
      induction q as [|x q IH]; intros N; [constructor|]. inversion N as [|? ? N1 N2]; subst. constructor; [|apply IH, N2].
      apply Forall_forall. intros y I E. apply N1. rewrite E. apply in_map, I.
    Qed.
    Lemma collect_sub i gr : get_id i (snd m) = Some gr -> collect_o fin rnd (sub i gr) = sub i gr.
    Proof.
      intros E. apply (set_collect _ _ (fun x y => oid x = oid y) (sub i gr) []); [|apply distinct_ids, sub_nodup, E].
      assert (Nd : forall y, In y (sub i gr) -> exists n, snd y = ONode n).
      { intros y I. apply (sub_in i gr y E) in I. destruct I as (k & [[z|] [j ts g inc ps rs]] & _ & I); cbn in I; [|destruct ps; [contradiction|]]; destruct I as [<-|[]]; cbn; eauto. }
      intros x y I J Q. destruct (Nd x I) as (n & X), (Nd y J) as (n' & Y). unfold iobj_eqb in Q. rewrite X, Y in Q. apply andb_true_iff in Q. unfold oid. rewrite X, Y. apply node_eqb_id, Q.
    Qed.
    Lemma final_shape k x : final k = Some x -> n_id (snd x) = Some k /\ n_included (snd x) = None /\ n_reverse (snd x) = None.
    Proof.
      unfold final. destruct (get_id k (snd m)) as [gr|] eqn:E; [|apply (stored_shape l m El None k x)]. intros X. injection X as <-. unfold attached. cbn [snd].
      assert (B : n_id (snd (base k (at_node m None k))) = Some k /\ n_included (snd (base k (at_node m None k))) = None /\ n_reverse (snd (base k (at_node m None k))) = None).
      { destruct (at_node m None k) as [y|] eqn:Y; [exact (stored_shape l m El None k y Y)|cbn; auto]. }
      destruct (snd (base k (at_node m None k))); exact B.
    Qed.
    Lemma final_props k x p vs : final k = Some x -> In (p, vs) (n_props (snd x)) -> exists x', stored m None k x' /\ In (p, vs) (n_props (snd x')).
    Proof.
      unfold final. destruct (get_id k (snd m)) as [gr|] eqn:E; [|intros H I; exists x; auto]. intros X. injection X as <-. unfold attached. cbn [snd].
      destruct (at_node m None k) as [y|] eqn:Y; cbn [base]; [|intros []]. intros I. exists y. split; [exact Y|]. destruct (snd y); exact I.
    Qed.
    Lemma final_of k x : stored m None k x -> exists x', final k = Some x' /\ fst x' = fst x /\ n_props (snd x') = n_props (snd x) /\ n_types (snd x') = n_types (snd x).
    Proof.
      unfold stored, final. intros S. rewrite S. destruct (get_id k (snd m)) as [gr|]; [|exists x; auto]. eexists. split; [reflexivity|]. cbn. destruct (snd x); auto.
    Qed.
    Lemma final_types k x ts : final k = Some x -> n_types (snd x) = Some ts -> exists x', stored m None k x' /\ n_types (snd x') = Some ts.
    Proof.
      unfold final. destruct (get_id k (snd m)) as [gr|] eqn:E; [|intros H I; exists x; auto]. intros X. injection X as <-. unfold attached. cbn [snd].
      destruct (at_node m None k) as [y|] eqn:Y; cbn [base]; [|discriminate]. intros I. exists y. split; [exact Y|]. destruct (snd y); exact I.
    Qed.
    (** Its graph. *)
    Lemma final_graph k x : final k = Some x ->
      match n_graph (snd x) with
      | Some v => In (OGraph k) l /\ NoDup (map oid v) /\ forall y, In y v <-> exists j x', stored m (Some k) j x' /\ In y (filter_sub_graph x')
      | None => ~ In (OGraph k) l
      end.
    Proof.
      unfold final. pose proof (map_graph l m El k) as G. destruct (get_id k (snd m)) as [gr|] eqn:E.
      - intros X. injection X as <-. unfold attached. cbn [snd]. rewrite (collect_sub k gr E).
        assert (V : n_graph (set_graph_entry (Some (sub k gr)) (snd (base k (at_node m None k)))) = Some (sub k gr)) by (destruct (snd (base k (at_node m None k))); reflexivity).
        unfold iobj in *. rewrite V. split; [apply G; discriminate|]. split; [exact (sub_nodup k gr E)|]. intros y. apply (sub_in k gr y E).
      - intros S. destruct (n_graph (snd x)) as [v|] eqn:V.
        + exfalso. apply (stored_graph l m Fl El None k x S); [rewrite V; discriminate|exact E].
        + intros I. apply G in I. congruence.
    Qed.
    Lemma flatten_map_spec : exists out, flatten_map fin rnd pg pn po m = Ok out /\ NoDup (map (fun x => n_id (snd x)) out) /\
      forall x, In x out <-> exists k, final k = Some x /\ In x (filter_graph x).
    Proof.
      destruct (map_keys l m El) as (K1 & K2 & K3).
      destruct (attach_all_spec (pg (snd m)) (fst m)) as (g & E & K & S); [exact K1|eapply Permutation_NoDup; [apply Permutation_map, Permutation_sym, Hg|exact K2]|].
      assert (S' : forall k, get_id k g = final k) by (intros k; rewrite S, (get_perm k _ _ K2 (Hg _)); reflexivity).
      unfold flatten_map. rewrite E. cbn [bind]. eexists. split; [reflexivity|].
      assert (K' : NoDup (map fst (pn None g))) by (eapply Permutation_NoDup; [apply Permutation_map, Permutation_sym, Hn|exact K]).
      assert (G : forall k x, In (k, x) (pn None g) <-> final k = Some x).
      { intros k x. rewrite <- S', <- (get_perm k _ _ K (Hn None g)). split; [apply get_id_nodup, K'|apply get_id_in]. }
      split.
      - eapply Permutation_NoDup; [apply Permutation_map, Permutation_sym, Ho|]. apply (nodup_flat filter_graph (fun x => n_id (snd x))); [exact K'| |apply filter_one].
        intros [k x] y I J. apply G in I. destruct (filter_one x) as [X|(y' & X)]; cbn [snd] in J; rewrite X in J; [contradiction|].
        assert (y = x) as ->. { destruct J as [<-|[]]. unfold filter_graph in X. destruct (fst x); [congruence|]. destruct (node_empty (snd x)); [discriminate|congruence]. }
        apply (final_shape k x I).
      - intros x. split.
        + intros I. eapply Permutation_in in I; [|apply Ho]. apply in_flat_map in I. destruct I as ([k y] & I & J). cbn [snd] in J. exists k.
          assert (x = y) as ->. { unfold filter_graph in J. destruct (fst y); [destruct J as [<-|[]]; reflexivity|]. destruct (node_empty (snd y)); [contradiction|]. destruct J as [<-|[]]; reflexivity. }
          split; [apply G, I|exact J].
        + intros (k & I & J). eapply Permutation_in; [apply Permutation_sym, Ho|]. apply in_flat_map. exists (k, x). split; [apply G, I|exact J].
    Qed.
  End Attach.
End Output.

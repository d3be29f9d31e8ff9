(** Proofs about the mapping of identifiers. *)
From Verif Require Import Prelude Json Enums LangTag LangString Str Keyword Container ContextSyntax Ctx Object ObjectEq ObjectJson ObjectJsonProofs MapIds.

(** ** Collections *)
Lemma cover_reordered {A} (R : A -> A -> Prop) a : forall b,
  (forall x y, R x y -> R y x) -> (forall x y z, R x y -> R y z -> R x z) -> distinct R a -> distinct R b ->
  (forall x, In x a -> exists y, In y b /\ R x y) -> (forall y, In y b -> exists x, In x a /\ R x y) -> reordered R a b.
Proof.
  induction a as [|x a IH]; intros b Sy Tr Da Db H K.
  - destruct b as [|y b]; [exists []; constructor|]. destruct (K y (or_introl eq_refl)) as (x & [] & _).
  - destruct (H x (or_introl eq_refl)) as (y & I & Rxy). apply in_split in I. destruct I as (b1 & b2 & ->).
    inversion Da as [|? ? DX DA]; subst. rewrite Forall_forall in DX.
    assert (Dy : distinct R (b1 ++ b2) /\ forall z, In z (b1 ++ b2) -> ~ R y z).
    { clear -Db Sy. induction b1 as [|w b1 IHb]; cbn in *.
      - inversion Db as [|? ? F D]; subst. rewrite Forall_forall in F. split; [exact D|exact F].
      - inversion Db as [|? ? F D]; subst. destruct (IHb D) as [D1 D2]. rewrite Forall_forall in F. split.
        + constructor; [|exact D1]. apply Forall_forall. intros z I. apply F. apply in_app_or in I. apply in_or_app. cbn. tauto.
        + intros z [<-|I]; [|apply D2, I]. intros Z. apply (F y); [apply in_or_app; right; left; reflexivity|apply Sy, Z]. }
    destruct Dy as [Db' Dy].
    destruct (IH (b1 ++ b2) Sy Tr DA Db') as [m P F].
    + intros z Iz. destruct (H z (or_intror Iz)) as (w & Iw & Rzw). exists w. split; [|exact Rzw].
      apply in_app_or in Iw. apply in_or_app. destruct Iw as [Iw|[E|Iw]]; auto. subst w. exfalso.
      apply (DX z Iz). eapply Tr; [exact Rxy|]. apply Sy, Rzw.
    + intros z Iz. destruct (K z) as (w & [<-|Iw] & Rwz).
      * apply in_app_or in Iz. apply in_or_app. cbn. tauto.
      * exfalso. apply (Dy z Iz). eapply Tr; [apply Sy, Rxy|exact Rwz].
      * eauto.
    + exists (y :: m); [|constructor; assumption]. eapply perm_trans; [apply Permutation_sym, Permutation_middle|]. constructor. exact P.
Qed.

Section Sets.
  Context {A : Type}.
  Variables (h : A -> N) (e : A -> A -> bool) (R : A -> A -> Prop) (W : A -> Prop).
  Hypothesis Rrefl : forall x, R x x.
  Hypothesis Rsym : forall x y, R x y -> R y x.
  Hypothesis Rtrans : forall x y z, R x y -> R y z -> R x z.
  Hypothesis Rhash : forall x y, R x y -> h x = h y.
  Hypothesis Reqb : forall x y, W x -> W y -> (e x y = true <-> R x y).

  Lemma insert_in s x y : In y (set_insert h e s x) -> In y s \/ y = x.
  Proof. unfold set_insert. destruct (existsb _ s); [auto|]. intros I. apply in_app_or in I. cbn in I. intuition. Qed.
  Lemma insert_keep s x y : In y s -> In y (set_insert h e s x).
  Proof. unfold set_insert. destruct (existsb _ s); [auto|]. intros I. apply in_or_app. auto. Qed.
  Lemma insert_cover s x : Forall W s -> W x -> exists y, In y (set_insert h e s x) /\ R y x.
  Proof.
    intros Ws Wx. unfold set_insert. destruct (existsb (fun y => N.eqb (h y) (h x) && e y x) s) eqn:E.
    - apply existsb_exists in E. destruct E as (y & I & E). apply andb_true_iff in E. exists y. split; [exact I|].
      apply Reqb; [exact (Forall_in _ _ _ Ws I)|exact Wx|tauto].
    - exists x. split; [apply in_or_app; right; left; reflexivity|apply Rrefl].
  Qed.
  Lemma insert_distinct s x : Forall W s -> W x -> distinct R s -> distinct R (set_insert h e s x).
  Proof.
    intros Ws Wx D. unfold set_insert. destruct (existsb (fun y => N.eqb (h y) (h x) && e y x) s) eqn:E; [exact D|].
    apply distinct_snoc; [exact D|]. intros y I Ry.
    assert (existsb (fun y => N.eqb (h y) (h x) && e y x) s = true); [|congruence]. apply existsb_exists. exists y. split; [exact I|].
    rewrite (Rhash y x Ry), N.eqb_refl. apply Reqb; auto. exact (Forall_in _ _ _ Ws I).
  Qed.
  Lemma insert_W s x : Forall W s -> W x -> Forall W (set_insert h e s x).
  Proof. intros Ws Wx. apply Forall_forall. intros y I. destruct (insert_in _ _ _ I) as [J| ->]; [exact (Forall_in _ _ _ Ws J)|exact Wx]. Qed.
  Lemma collect_facts l : forall s, Forall W l -> Forall W s -> distinct R s ->
    let r := fold_left (set_insert h e) l s in
    Forall W r /\ distinct R r /\ (forall x, In x r -> In x s \/ In x l) /\ (forall x, In x s -> In x r) /\
    (forall x, In x l -> exists y, In y r /\ R y x).
  Proof.
    induction l as [|x l IH]; cbn; intros s Wl Ws D.
    - repeat split; auto. intros x [].
    - inversion Wl as [|? ? Wx Wl']; subst. destruct (IH (set_insert h e s x) Wl' (insert_W _ _ Ws Wx) (insert_distinct _ _ Ws Wx D)) as (A1 & A2 & A3 & A4 & A5).
      repeat split; auto.
      + intros y I. destruct (A3 y I) as [J|J]; [|auto]. destruct (insert_in _ _ _ J) as [K| ->]; auto.
      + intros y I. apply A4, insert_keep, I.
      + intros y [<-|I]; [|auto]. destruct (insert_cover s x Ws Wx) as (z & J & Rz). exists z. split; [apply A4, J|exact Rz].
  Qed.
  Lemma collect_set_facts l : Forall W l -> let r := collect_set h e l in
    Forall W r /\ distinct R r /\ (forall x, In x r -> In x l) /\ (forall x, In x l -> exists y, In y r /\ R y x).
  Proof.
    intros Wl. destruct (collect_facts l [] Wl (Forall_nil _)) as (A1 & A2 & A3 & _ & A5); [constructor|].
    repeat split; auto. intros x I. destruct (A3 x I) as [[]|J]; exact J.
  Qed.
  Lemma collect_reordered a b : Forall W a -> Forall W b ->
    (forall x, In x a -> exists y, In y b /\ R x y) -> (forall y, In y b -> exists x, In x a /\ R x y) ->
    reordered R (collect_set h e a) (collect_set h e b).
  Proof.
    intros Wa Wb H K. destruct (collect_set_facts a Wa) as (_ & Da & Ia & Ca). destruct (collect_set_facts b Wb) as (_ & Db & Ib & Cb).
    apply cover_reordered; auto.
    - intros x I. destruct (H x (Ia x I)) as (y & J & Rxy). destruct (Cb y J) as (z & J' & Rz). exists z. split; [exact J'|]. eapply Rtrans; [exact Rxy|apply Rsym, Rz].
    - intros y I. destruct (K y (Ib y I)) as (x & J & Rxy). destruct (Ca x J) as (z & J' & Rz). exists z. split; [exact J'|]. eapply Rtrans; [exact Rz|exact Rxy].
  Qed.
  Lemma collect_set_distinct l : Forall W l -> distinct R l -> collect_set h e l = l.
  Proof.
    intros Wl D. unfold collect_set. rewrite (set_insert_all h e R l []); [reflexivity| |exact D].
    intros x y I J. cbn in I, J. apply Reqb; [exact (Forall_in _ _ _ Wl I)|exact (Forall_in _ _ _ Wl J)].
  Qed.
End Sets.

Section Maps.
  Context {A : Type}.
  Definition values (P : id -> bool) (l : list (id * list A)) : list A := flat_map (fun p => if P (fst p) then snd p else []) l.

  Lemma values_insert P k v l : Permutation (values P (insert_all k v l)) (values P l ++ if P k then v else []).
  Proof.
    unfold values. induction l as [|[k' w] l IH]; cbn.
    - rewrite app_nil_r. apply Permutation_refl.
    - destruct (id_eqb_spec k k') as [<-|N]; cbn.
      + destruct (P k); [|rewrite app_nil_r; apply Permutation_refl]. rewrite <- !app_assoc. apply Permutation_app_head, Permutation_app_comm.
      + rewrite <- app_assoc. apply Permutation_app_head, IH.
  Qed.
  Lemma values_fold P l : forall s, Permutation (values P (fold_left (fun r p => insert_all (fst p) (snd p) r) l s)) (values P s ++ values P l).
  Proof.
    induction l as [|[k v] l IH]; cbn; intros s; [rewrite app_nil_r; apply Permutation_refl|].
    eapply perm_trans; [apply IH|]. eapply perm_trans; [apply Permutation_app_tail, values_insert|]. rewrite <- app_assoc. apply Permutation_refl.
  Qed.
  Lemma values_collect P l : Permutation (values P (collect_map l)) (values P l).
  Proof. apply (values_fold P l []). Qed.
  Lemma collect_keys l k : In k (map fst (@collect_map A l)) <-> In k (map fst l).
  Proof.
    unfold collect_map. enough (G : forall s, In k (map fst (fold_left (fun r p => insert_all (fst p) (snd p) r) l s)) <-> In k (map fst s) \/ In k (map fst l)) by (rewrite G; cbn; tauto).
    induction l as [|[k' v] l IH]; cbn; intros s; [tauto|]. rewrite IH, insert_all_keys. intuition.
  Qed.
  Lemma collect_nodup l : NoDup (map fst (@collect_map A l)).
  Proof.
    unfold collect_map. enough (G : forall s : list (id * list A), NoDup (map fst s) -> NoDup (map fst (fold_left (fun r p => insert_all (fst p) (snd p) r) l s))) by (apply G; constructor).
    induction l as [|[k' v] l IH]; cbn; intros s D; [exact D|]. apply IH, insert_all_nodup, D.
  Qed.
  Lemma values_none k (l : list (id * list A)) : ~ In k (map fst l) -> values (id_eqb k) l = [].
  Proof.
    unfold values. induction l as [|[k' v] l IH]; cbn; intros N; [reflexivity|]. destruct (id_eqb_spec k k') as [->|_]; [exfalso; auto|]. apply IH. auto.
  Qed.
  Lemma values_at k v (l : list (id * list A)) : NoDup (map fst l) -> In (k, v) l -> values (id_eqb k) l = v.
  Proof.
    induction l as [|[k' w] l IH]; cbn; intros D I; [destruct I|]. inversion D as [|? ? NI D']; subst. unfold values. cbn.
    destruct I as [E|I].
    - injection E as -> ->. destruct (id_eqb_spec k k) as [_|N]; [|congruence]. fold (values (id_eqb k) l). rewrite values_none by exact NI. apply app_nil_r.
    - destruct (id_eqb_spec k k') as [->|N]; [exfalso; apply NI; apply (List.in_map fst) in I; exact I|]. apply IH; assumption.
  Qed.
  Lemma values_in k x (l : list (id * list A)) : In x (values (id_eqb k) l) <-> exists v, In (k, v) l /\ In x v.
  Proof.
    unfold values. rewrite in_flat_map. split.
    - intros ([k' v] & I & J). cbn in J. destruct (id_eqb_spec k k') as [->|N]; [|destruct J]. eauto.
    - intros (v & I & J). exists (k, v). split; [exact I|]. cbn. destruct (id_eqb_spec k k) as [_|N]; [exact J|congruence].
  Qed.
  Lemma collect_in k x (l : list (id * list A)) : (exists v, In (k, v) (collect_map l) /\ In x v) <-> (exists v, In (k, v) l /\ In x v).
  Proof.
    rewrite <- !values_in. split; apply Permutation_in; [apply values_collect|apply Permutation_sym, values_collect].
  Qed.

  Variable R : A -> A -> Prop.
  Hypothesis Rsym : forall x y, R x y -> R y x.
  Hypothesis Rtrans : forall x y z, R x y -> R y z -> R x z.
  Definition entries_same (p q : id * list A) : Prop := fst p = fst q /\ reordered R (snd p) (snd q).
  Lemma map_reordered a b : NoDup (map fst a) -> NoDup (map fst b) -> (forall k, In k (map fst a) <-> In k (map fst b)) ->
    (forall k, reordered R (values (id_eqb k) a) (values (id_eqb k) b)) -> reordered entries_same a b.
  Proof.
    intros Da Db K V. apply cover_reordered.
    - intros p q [E H]. split; [auto|]. eapply reordered_sym; [|exact H]. intros ? ? _. apply Rsym.
    - intros p q r [E H] [E' H']. split; [congruence|]. eapply reordered_trans; [|exact H|exact H']. intros ? ? ? _. apply Rtrans.
    - apply nodup_distinct, Da.
    - apply nodup_distinct, Db.
    - intros [k v] I. assert (J : In k (map fst b)) by (apply K; apply (List.in_map fst) in I; exact I).
      apply in_map_iff in J. destruct J as ([k' w] & E & J). cbn in E. subst k'. exists (k, w). split; [exact J|]. split; [reflexivity|]. cbn.
      specialize (V k). rewrite (values_at _ _ _ Da I), (values_at _ _ _ Db J) in V. exact V.
    - intros [k v] I. assert (J : In k (map fst a)) by (apply K; apply (List.in_map fst) in I; exact I).
      apply in_map_iff in J. destruct J as ([k' w] & E & J). cbn in E. subst k'. exists (k, w). split; [exact J|]. split; [reflexivity|]. cbn.
      specialize (V k). rewrite (values_at _ _ _ Db I), (values_at _ _ _ Da J) in V. exact V.
  Qed.
  Lemma reordered_app a b a' b' : reordered R a b -> reordered R a' b' -> reordered R (a ++ a') (b ++ b').
  Proof. intros [m P F] [m' P' F']. exists (m ++ m'); [apply Permutation_app; assumption|apply Forall2_app; assumption]. Qed.
  Lemma reordered_perm a a' b b' : Permutation a a' -> Permutation b b' -> reordered R a b -> reordered R a' b'.
  Proof.
    intros P Q [m P' F]. destruct (Forall2_perm_l R a a' m P F) as (m' & Q' & F'). exists m'; [|exact F'].
    eapply perm_trans; [apply Permutation_sym, Q|]. eapply perm_trans; [exact P'|exact Q'].
  Qed.
  Lemma reordered_values P a b : reordered entries_same a b -> reordered R (values P a) (values P b).
  Proof.
    intros [m Q F]. apply (reordered_perm (values P a) (values P a) (values P m) (values P b)); [apply Permutation_refl| |].
    - apply Permutation_flat_map, Permutation_sym, Q.
    - clear Q. unfold values. induction F as [|[k v] [k' w] a m [E V] F IH]; cbn; [exists []; constructor|]. cbn in E, V. subst k'.
      apply reordered_app; [|exact IH]. destruct (P k); [exact V|exists []; constructor].
  Qed.
End Maps.

(** ** Objects *)
Section Main.
  Variables (fin rnd : list word -> N).
  Notation ih := (iobj_hash fin rnd). Notation ie := (iobj_eqb fin rnd).
  Notation nh := (inode_hash fin rnd). Notation ne := (inode_eqb fin rnd).
  Definition wfi (x : iobj) : Prop := wf (snd x).
  Definition wfn (x : inode) : Prop := wf_node (snd x).
  Lemma same_i_refl x : same_i x x. Proof. split; [reflexivity|apply same_refl]. Qed.
  Lemma same_in_refl x : same_in x x. Proof. split; [reflexivity|apply same_refl_both]. Qed.
  Lemma ihash x y : same_i x y -> ih x = ih y.
  Proof. intros [E S]. unfold iobj_hash. f_equal. unfold iobj_words. rewrite E. f_equal. apply same_words_both, S. Qed.
  Lemma nhash x y : same_in x y -> nh x = nh y.
  Proof. intros [E S]. unfold inode_hash. f_equal. unfold inode_words. rewrite E. f_equal. apply same_words_both, S. Qed.
  Lemma ieqb x y : wfi x -> wfi y -> (ie x y = true <-> same_i x y).
  Proof. intros Wx Wy. unfold iobj_eqb. rewrite andb_true_iff, opt_streq, (proj1 (eqb_both fin rnd) _ _ Wx Wy). reflexivity. Qed.
  Lemma neqb x y : wfn x -> wfn y -> (ne x y = true <-> same_in x y).
  Proof. intros Wx Wy. unfold inode_eqb. rewrite andb_true_iff, opt_streq, (proj2 (eqb_both fin rnd) _ _ Wx Wy). reflexivity. Qed.
  Definition iset_facts l := collect_set_facts ih ie same_i wfi same_i_refl ihash ieqb l.
  Definition nset_facts l := collect_set_facts nh ne same_in wfn same_in_refl nhash neqb l.
  Definition iset_reordered a b := collect_reordered ih ie same_i wfi same_i_refl same_i_sym same_i_trans ihash ieqb a b.
  Definition nset_reordered a b := collect_reordered nh ne same_in wfn same_in_refl same_in_sym same_in_trans nhash neqb a b.

  Section One.
    Variables (f : string -> string) (g : id -> id).
    Notation oids := (obj_ids fin rnd f g). Notation nids := (node_ids fin rnd f g).
    Notation iids := (iobj_ids fin rnd f g). Notation nnids := (inode_ids fin rnd f g).
    Lemma node_ids_eq i ts gr inc ps rs : nids (MkNode i ts gr inc ps rs) =
      MkNode (option_map g i) (option_map (map g) ts)
        (option_map (fun l => collect_set ih ie (map iids l)) gr) (option_map (fun l => collect_set nh ne (map nnids l)) inc)
        (collect_map (map (fun p => (g (fst p), map iids (snd p))) ps))
        (option_map (fun l => collect_map (map (fun p => (g (fst p), map nnids (snd p))) l)) rs).
    Proof. reflexivity. Qed.
    Lemma collect_map_values {A} (P : A -> Prop) (l : list (id * list A)) : Forall (fun p => Forall P (snd p)) l -> Forall (fun p => Forall P (snd p)) (collect_map l).
    Proof.
      intros F. apply Forall_forall. intros [k v] I. apply Forall_forall. intros x J.
      destruct (proj1 (collect_in k x l)) as (w & I' & J'); [eauto|]. exact (Forall_in _ _ _ (Forall_in _ _ _ F I') J').
    Qed.

    Lemma ids_wf_both : (forall o, wf (oids o)) /\ (forall n, wf_node (nids n)).
    Proof.
      apply (obj_node_ind (fun o => wf (oids o)) (fun n => wf_node (nids n))).
      - intros v. constructor.
      - intros n H. constructor. exact H.
      - intros l H. cbn. constructor. apply Forall_map. eapply Forall_impl; [|exact H]. intros x Hx. exact Hx.
      - intros i ts gr inc ps rs Hg Hi Hp Hr. rewrite node_ids_eq.
        assert (Fg : Forall wfi (map iids (opt_list gr))) by (apply Forall_map; exact Hg).
        assert (Fi : Forall wfn (map nnids (opt_list inc))) by (apply Forall_map; exact Hi).
        constructor.
        + destruct gr; [|constructor]. apply (iset_facts _ Fg).
        + destruct gr; [|constructor]. apply (iset_facts _ Fg).
        + destruct inc; [|constructor]. apply (nset_facts _ Fi).
        + destruct inc; [|constructor]. apply (nset_facts _ Fi).
        + apply collect_nodup.
        + apply (collect_map_values wfi). apply Forall_map. eapply Forall_impl; [|exact Hp]. intros p H. cbn. apply Forall_map. exact H.
        + destruct rs; cbn; [apply collect_nodup|constructor].
        + destruct rs as [l|]; cbn; [|constructor]. apply (collect_map_values wfn). apply Forall_map. eapply Forall_impl; [|exact Hr]. intros p H. cbn. apply Forall_map. exact H.
    Qed.
    Lemma ids_wfi l : Forall wfi (map iids l).
    Proof. apply Forall_map, Forall_forall. intros x _. apply ids_wf_both. Qed.
    Lemma ids_wfn l : Forall wfn (map nnids l).
    Proof. apply Forall_map, Forall_forall. intros x _. apply ids_wf_both. Qed.

    Lemma reordered_map_rel {A B} (R : A -> A -> Prop) (S : B -> B -> Prop) (h : A -> B) l m :
      (forall x y, In x l -> R x y -> S (h x) (h y)) -> reordered R l m -> reordered S (map h l) (map h m).
    Proof.
      intros H [m' P F]. exists (map h m'); [apply Permutation_map, P|]. clear P.
      induction F; cbn; constructor; [apply H; [left; reflexivity|assumption]|]. apply IHF. intros; apply H; [right|]; assumption.
    Qed.
    Lemma reordered_cover {A} (R : A -> A -> Prop) l m : (forall x y, R x y -> R y x) -> reordered R l m ->
      (forall x, In x l -> exists y, In y m /\ R x y) /\ (forall y, In y m -> exists x, In x l /\ R x y).
    Proof.
      intros Sy H. split; [intros x I; eapply reordered_in; eassumption|]. intros y I.
      destruct (reordered_in R m l y) as (x & J & Ryx); [eapply reordered_sym; [|exact H]; intros ? ? _; apply Sy|exact I|]. eauto.
    Qed.
    Lemma collect_map_same {A} (R : A -> A -> Prop) a b : (forall x y, R x y -> R y x) -> (forall x y z, R x y -> R y z -> R x z) ->
      (forall k, In k (map fst a) <-> In k (map fst b)) ->
      (forall k, reordered R (values (id_eqb k) a) (values (id_eqb k) b)) -> reordered (entries_same R) (collect_map a) (collect_map b).
    Proof.
      intros Sy Tr K V. apply map_reordered; auto using collect_nodup.
      - intros k. rewrite !collect_keys. apply K.
      - intros k. eapply reordered_perm; [apply Permutation_sym, values_collect|apply Permutation_sym, values_collect|apply V].
    Qed.
    Lemma reordered_keys {A} (R : A -> A -> Prop) (a b : list (id * list A)) : reordered (entries_same R) a b ->
      forall k, In k (map fst a) <-> In k (map fst b).
    Proof.
      intros [m P F] k. assert (E : map fst a = map fst m) by (clear P; induction F as [|? ? ? ? [E _] F IH]; cbn; congruence).
      rewrite E. split; apply Permutation_in; [apply Permutation_sym|]; apply Permutation_map, P.
    Qed.

    Lemma ids_same_both : (forall a b, same a b -> same (oids a) (oids b)) /\ (forall a b, same_node a b -> same_node (nids a) (nids b)).
    Proof.
      apply (obj_node_ind (fun a => forall b, same a b -> same (oids a) (oids b)) (fun a => forall b, same_node a b -> same_node (nids a) (nids b))).
      - intros v b H. inversion H as [? w V| |]; subst. cbn. constructor. inversion V; subst; cbn; constructor; assumption.
      - intros n IH b H. inversion H; subst. cbn. constructor. apply IH. assumption.
      - intros l IH b H. inversion H as [| |? m F]; subst. cbn. constructor. clear H.
        induction F as [|x y l m [E X] F IHF]; cbn; constructor; inversion IH; subst; [split; [exact E|cbn; auto]|auto].
      - intros i ts gr inc ps rs Hg Hi Hp Hr b H. inversion H as [? ? ts' ? g' ? inc' ? ps' ? rs' Ht Bg Bi Op Br]; subst. rewrite !node_ids_eq.
        assert (Xg : forall l m, gr = Some l -> reordered same_i l m -> reordered same_i (map iids l) (map iids m)).
        { intros l m -> O. eapply reordered_map_rel; [|exact O]. intros x y I [E X]. split; [exact E|]. apply (Forall_in _ _ _ Hg I), X. }
        assert (Xi : forall l m, inc = Some l -> reordered same_in l m -> reordered same_in (map nnids l) (map nnids m)).
        { intros l m -> O. eapply reordered_map_rel; [|exact O]. intros x y I [E X]. split; [exact E|]. apply (Forall_in _ _ _ Hi I), X. }
        constructor.
        + destruct Ht as [|a b O]; cbn; constructor. eapply reordered_map_rel; [|exact O]. cbn. congruence.
        + destruct Bg as [|a b O]; cbn; constructor. specialize (Xg _ _ eq_refl O). apply reordered_cover in Xg; [|apply same_i_sym].
          apply iset_reordered; try apply ids_wfi; tauto.
        + destruct Bi as [|a b O]; cbn; constructor. specialize (Xi _ _ eq_refl O). apply reordered_cover in Xi; [|apply same_in_sym].
          apply nset_reordered; try apply ids_wfn; tauto.
        + assert (O : reordered (entries_same same_i) (map (fun p => (g (fst p), map iids (snd p))) ps) (map (fun p => (g (fst p), map iids (snd p))) ps')).
          { eapply reordered_map_rel; [|exact Op]. intros p q I [E X]. split; [exact (f_equal g E)|].
            eapply reordered_map_rel; [|exact X]. intros x y J [E' X']. split; [exact E'|]. apply (Forall_in _ _ _ (Forall_in _ _ _ Hp I) J), X'. }
          apply (collect_map_same same_i); [apply same_i_sym|apply same_i_trans|apply (reordered_keys same_i), O|]. intros k. apply reordered_values, O.
        + destruct Br as [|a b O']; cbn; constructor.
          assert (O : reordered (entries_same same_in) (map (fun p => (g (fst p), map nnids (snd p))) a) (map (fun p => (g (fst p), map nnids (snd p))) b)).
          { eapply reordered_map_rel; [|exact O']. intros p q I [E X]. split; [exact (f_equal g E)|].
            eapply reordered_map_rel; [|exact X]. intros x y J [E' X']. split; [exact E'|]. apply (Forall_in _ _ _ (Forall_in _ _ _ Hr I) J), X'. }
          apply (collect_map_same same_in); [apply same_in_sym|apply same_in_trans|apply (reordered_keys same_in), O|]. intros k. apply reordered_values, O.
    Qed.

    (** *** Renaming *)
    Lemma renamed_node_eq i ts gr inc ps rs : renamed_node f g (MkNode i ts gr inc ps rs) =
      MkNode (option_map g i) (option_map (map g) ts)
        (option_map (map (renamed_i f g)) gr) (option_map (map (renamed_in f g)) inc)
        (map (fun p => (g (fst p), map (renamed_i f g) (snd p))) ps)
        (option_map (map (fun p => (g (fst p), map (renamed_in f g) (snd p)))) rs).
    Proof. reflexivity. Qed.
    Hypothesis finj : forall a b, f a = f b -> a = b.
    Hypothesis ginj : forall a b, g a = g b -> a = b.
    Lemma reordered_unmap {A B} (R : A -> A -> Prop) (S : B -> B -> Prop) (h : A -> B) l m :
      (forall x y, In x l -> S (h x) (h y) -> R x y) -> reordered S (map h l) (map h m) -> reordered R l m.
    Proof.
      intros H [m' P F]. apply Permutation_sym, Permutation_map_inv in P. destruct P as (m0 & -> & P). exists m0; [exact P|]. clear P.
      revert m0 F. induction l as [|x l IH]; intros [|y m0] F; cbn in F; inversion F; subst; constructor; [apply H; [left; reflexivity|assumption]|].
      apply IH; [|assumption]. intros; apply H; [right|]; assumption.
    Qed.
    Lemma both_unmap {A B} (R : A -> A -> Prop) (S : B -> B -> Prop) (h : A -> B) a b :
      (forall x y, a = Some x -> S (h x) (h y) -> R x y) -> both S (option_map h a) (option_map h b) -> both R a b.
    Proof. intros H X. destruct a, b; cbn in X; inversion X; subst; constructor. apply H; auto. Qed.
    Lemma renamed_same_both : (forall a b, same (renamed f g a) (renamed f g b) -> same a b) /\
      (forall a b, same_node (renamed_node f g a) (renamed_node f g b) -> same_node a b).
    Proof.
      apply (obj_node_ind (fun a => forall b, same (renamed f g a) (renamed f g b) -> same a b) (fun a => forall b, same_node (renamed_node f g a) (renamed_node f g b) -> same_node a b)).
      - intros v b H. destruct v as [l [t|]|s|j], b as [[l' [t'|]|s'|j']| |]; cbn in H; inversion H as [? ? V| |]; subst; inversion V; subst; constructor; try (constructor; assumption);
          try (match goal with E : f _ = f _ |- _ => apply finj in E; rewrite E end; constructor).

      - intros n IH b H. destruct b as [[l' [t'|]|s'|j']| |]; cbn in H; inversion H; subst. constructor. apply IH. assumption.
      - intros l IH b H. destruct b as [[l' [t'|]|s'|j']| |m]; cbn in H; inversion H as [| |? ? F]; subst. constructor. clear H.
        revert m F. induction l as [|x l IHl]; intros [|y m] F; cbn in F; inversion F as [|? ? ? ? [E X] F']; subst; constructor; inversion IH; subst; [split; [exact E|auto]|apply IHl; auto].
      - intros i ts gr inc ps rs Hg Hi Hp Hr [i' ts' gr' inc' ps' rs'] H. rewrite !renamed_node_eq in H.
        inversion H as [? ? ? ? ? ? ? ? ? ? ? Ht Bg Bi Op Br]; subst.
        match goal with E : option_map g i' = option_map g i |- _ => rename E into EI | E : option_map g i = option_map g i' |- _ => rename E into EI end.
        assert (i = i') by (destruct i, i'; cbn in EI; try discriminate; [injection EI as EI; f_equal; apply ginj; congruence|reflexivity]). subst i'.
        constructor.
        + eapply both_unmap; [|exact Ht]. intros x y _ O. eapply reordered_unmap; [|exact O]. intros a b _ E. apply ginj, E.
        + eapply both_unmap; [|exact Bg]. intros x y -> O. eapply reordered_unmap; [|exact O]. intros a b I [E X]. split; [exact E|]. apply (Forall_in _ _ _ Hg I), X.
        + eapply both_unmap; [|exact Bi]. intros x y -> O. eapply reordered_unmap; [|exact O]. intros a b I [E X]. split; [exact E|]. apply (Forall_in _ _ _ Hi I), X.
        + eapply reordered_unmap; [|exact Op]. intros p q I [E X]. cbn in E, X. split; [apply ginj, E|].
          eapply reordered_unmap; [|exact X]. intros a b J [E' X']. split; [exact E'|]. apply (Forall_in _ _ _ (Forall_in _ _ _ Hp I) J), X'.
        + eapply both_unmap; [|exact Br]. intros x y -> O. eapply reordered_unmap; [|exact O]. intros p q I [E X]. cbn in E, X. split; [apply ginj, E|].
          eapply reordered_unmap; [|exact X]. intros a b J [E' X']. split; [exact E'|]. apply (Forall_in _ _ _ (Forall_in _ _ _ Hr I) J), X'.
    Qed.
    Lemma distinct_map {A B} (R : A -> A -> Prop) (S : B -> B -> Prop) (h : A -> B) l : (forall x y, S (h x) (h y) -> R x y) -> distinct R l -> distinct S (map h l).
    Proof.
      intros H. induction 1 as [|x l F D IH]; cbn; constructor; [|exact IH]. apply Forall_map. eapply Forall_impl; [|exact F]. cbn. intros y N X. apply N, H, X.
    Qed.
    Lemma nodup_ginj {A B} (h : A -> B) (l : list (id * A)) : NoDup (map fst l) -> NoDup (map fst (map (fun p => (g (fst p), h (snd p))) l)).
    Proof.
      induction l as [|p l IH]; cbn; intros D; [constructor|]. inversion D as [|? ? NI D']; subst. constructor; [|apply IH, D'].
      intros I. apply NI. apply in_map_iff in I. destruct I as (q & E & I). apply in_map_iff in I. destruct I as (r & <- & I). cbn in E. apply ginj in E. rewrite <- E.
      apply List.in_map, I.
    Qed.
    Lemma renamed_both : (forall o, wf o -> oids o = renamed f g o) /\ (forall n, wf_node n -> nids n = renamed_node f g n).
    Proof.
      apply (obj_node_ind (fun o => wf o -> oids o = renamed f g o) (fun n => wf_node n -> nids n = renamed_node f g n)).
      - intros v _. destruct v as [l [t|]|s|j]; reflexivity.
      - intros n IH W. inversion W; subst. cbn. f_equal. apply IH. assumption.
      - intros l IH W. inversion W as [| |? F]; subst. cbn. f_equal. apply map_ext_in. intros x I. f_equal. apply (Forall_in _ _ _ IH I), (Forall_in _ _ _ F I).
      - intros i ts gr inc ps rs Hg Hi Hp Hr W. inversion W as [? ? ? ? ? ? Wg Dg Wi Di Np Wp Nr Wr]; subst. rewrite node_ids_eq, renamed_node_eq.
        assert (Eg : map iids (opt_list gr) = map (renamed_i f g) (opt_list gr)).
        { apply map_ext_in. intros x I. unfold iobj_ids, renamed_i. f_equal. apply (Forall_in _ _ _ Hg I), (Forall_in _ _ _ Wg I). }
        assert (Ei : map nnids (opt_list inc) = map (renamed_in f g) (opt_list inc)).
        { apply map_ext_in. intros x I. unfold inode_ids, renamed_in. f_equal. apply (Forall_in _ _ _ Hi I), (Forall_in _ _ _ Wi I). }
        assert (Ep : map (fun p => (g (fst p), map iids (snd p))) ps = map (fun p => (g (fst p), map (renamed_i f g) (snd p))) ps).
        { apply map_ext_in. intros p I. f_equal. apply map_ext_in. intros x J. unfold iobj_ids, renamed_i. f_equal. apply (Forall_in _ _ _ (Forall_in _ _ _ Hp I) J), (Forall_in _ _ _ (Forall_in _ _ _ Wp I) J). }
        assert (Er : map (fun p => (g (fst p), map nnids (snd p))) (opt_list rs) = map (fun p => (g (fst p), map (renamed_in f g) (snd p))) (opt_list rs)).
        { apply map_ext_in. intros p I. f_equal. apply map_ext_in. intros x J. unfold inode_ids, renamed_in. f_equal. apply (Forall_in _ _ _ (Forall_in _ _ _ Hr I) J), (Forall_in _ _ _ (Forall_in _ _ _ Wr I) J). }
        assert (Cg : collect_set ih ie (map iids (opt_list gr)) = map (renamed_i f g) (opt_list gr)).
        { rewrite (collect_set_distinct ih ie same_i wfi ieqb); [exact Eg|apply ids_wfi|]. rewrite Eg. eapply distinct_map; [|exact Dg].
          intros x y [E X]. split; [exact E|]. apply renamed_same_both, X. }
        assert (Ci : collect_set nh ne (map nnids (opt_list inc)) = map (renamed_in f g) (opt_list inc)).
        { rewrite (collect_set_distinct nh ne same_in wfn neqb); [exact Ei|apply ids_wfn|]. rewrite Ei. eapply distinct_map; [|exact Di].
          intros x y [E X]. split; [exact E|]. apply renamed_same_both, X. }
        assert (Cp : collect_map (map (fun p => (g (fst p), map iids (snd p))) ps) = map (fun p => (g (fst p), map (renamed_i f g) (snd p))) ps).
        { rewrite Ep. unfold collect_map. rewrite (fold_insert_all _ []); [reflexivity|]. apply (nodup_ginj (map (renamed_i f g))), Np. }
        assert (Cr : collect_map (map (fun p => (g (fst p), map nnids (snd p))) (opt_list rs)) = map (fun p => (g (fst p), map (renamed_in f g) (snd p))) (opt_list rs)).
        { rewrite Er. unfold collect_map. rewrite (fold_insert_all _ []); [reflexivity|]. apply (nodup_ginj (map (renamed_in f g))), Nr. }
        rewrite Cp. f_equal.
        + destruct gr; cbn in *; [f_equal; exact Cg|reflexivity].
        + destruct inc; cbn in *; [f_equal; exact Ci|reflexivity].
        + destruct rs; cbn in *; [f_equal; exact Cr|reflexivity].
    Qed.
  End One.

  (** *** Composition *)
  Lemma values_map {A B} P (g : id -> id) (h : A -> B) l :
    values P (map (fun p => (g (fst p), map h (snd p))) l) = map h (values (fun k => P (g k)) l).
  Proof.
    unfold values. induction l as [|[k v] l IH]; cbn; [reflexivity|]. rewrite IH, map_app. destruct (P (g k)); reflexivity.
  Qed.
  Lemma in_values {A} P x (l : list (id * list A)) : In x (values P l) -> exists p, In p l /\ In x (snd p).
  Proof. unfold values. rewrite in_flat_map. intros (p & I & J). exists p. split; [exact I|]. destruct (P (fst p)); [exact J|destruct J]. Qed.
  Lemma map_rel {A B} (R : B -> B -> Prop) (h k : A -> B) l : (forall x, In x l -> R (h x) (k x)) -> Forall2 R (map h l) (map k l).
  Proof. induction l as [|x l IH]; cbn; intros H; constructor; [apply H; left; reflexivity|]. apply IH. intros; apply H; right; assumption. Qed.
  Lemma collect_twice {A} (R : A -> A -> Prop) (g1 g2 : id -> id) (h1 h2 h : A -> A) (l : list (id * list A)) :
    (forall x y, R x y -> R y x) -> (forall x y z, R x y -> R y z -> R x z) ->
    (forall p x, In p l -> In x (snd p) -> R (h2 (h1 x)) (h x)) ->
    reordered (entries_same R) (collect_map (map (fun p => (g2 (fst p), map h2 (snd p))) (collect_map (map (fun p => (g1 (fst p), map h1 (snd p))) l))))
      (collect_map (map (fun p => (g2 (g1 (fst p)), map h (snd p))) l)).
  Proof.
    intros Sy Tr H. apply collect_map_same; auto.
    - intros k. rewrite !map_map. cbn. split.
      + intros I. apply in_map_iff in I. destruct I as (p & <- & I). apply (List.in_map fst) in I; apply (proj1 (collect_keys _ _)) in I. rewrite map_map in I. cbn in I.
        apply in_map_iff in I. destruct I as (q & E & I). rewrite <- E. apply (List.in_map (fun q => g2 (g1 (fst q)))) in I. exact I.
      + intros I. apply in_map_iff in I. destruct I as (p & <- & I).
        assert (J : In (g1 (fst p)) (map fst (collect_map (map (fun p => (g1 (fst p), map h1 (snd p))) l)))).
        { apply collect_keys. rewrite map_map. cbn. apply (List.in_map (fun q => g1 (fst q))) in I. exact I. }
        apply in_map_iff in J. destruct J as (q & <- & J). apply (List.in_map (fun q => g2 (fst q))) in J. exact J.
    - intros k. rewrite (values_map _ g2 h2), (values_map _ (fun k => g2 (g1 k)) h).
      assert (P : Permutation (map h2 (values (fun k' => id_eqb k (g2 k')) (collect_map (map (fun p => (g1 (fst p), map h1 (snd p))) l))))
        (map (fun x => h2 (h1 x)) (values (fun k' => id_eqb k (g2 (g1 k'))) l))).
      { eapply perm_trans; [apply Permutation_map, values_collect|]. rewrite (values_map _ g1 h1), map_map. apply Permutation_refl. }
      eapply reordered_perm; [apply Permutation_sym, P|apply Permutation_refl|]. eexists; [apply Permutation_refl|].
      apply map_rel. intros x I. apply in_values in I. destruct I as (p & I & J). eapply H; eassumption.
  Qed.
  Section Two.
    Variables (f1 f2 : string -> string) (g1 g2 : id -> id).
    Notation o1 := (obj_ids fin rnd f1 g1). Notation o2 := (obj_ids fin rnd f2 g2).
    Notation o21 := (obj_ids fin rnd (fun u => f2 (f1 u)) (fun i => g2 (g1 i))).
    Notation n1 := (node_ids fin rnd f1 g1). Notation n2 := (node_ids fin rnd f2 g2).
    Notation n21 := (node_ids fin rnd (fun u => f2 (f1 u)) (fun i => g2 (g1 i))).
    Lemma compose_both : (forall o, same (o2 (o1 o)) (o21 o)) /\ (forall n, same_node (n2 (n1 n)) (n21 n)).
    Proof.
      apply (obj_node_ind (fun o => same (o2 (o1 o)) (o21 o)) (fun n => same_node (n2 (n1 n)) (n21 n))).
      - intros v. cbn. constructor. destruct v as [l [t|]|s|j]; cbn; apply same_value_refl.
      - intros n IH. cbn. constructor. exact IH.
      - intros l IH. cbn. constructor. rewrite map_map. apply map_rel. intros x I. split; [reflexivity|]. exact (Forall_in _ _ _ IH I).
      - intros i ts gr inc ps rs Hg Hi Hp Hr. rewrite !node_ids_eq.
        replace (option_map g2 (option_map g1 i)) with (option_map (fun i => g2 (g1 i)) i) by (destruct i; reflexivity).
        constructor.
        + destruct ts as [l|]; cbn; constructor. rewrite map_map. apply reordered_refl, Forall_forall. reflexivity.
        + destruct gr as [l|]; cbn; constructor. cbn in Hg.
          destruct (iset_facts (map (iobj_ids fin rnd f1 g1) l) (ids_wfi f1 g1 l)) as (_ & _ & I1 & C1).
          apply iset_reordered; try apply ids_wfi.
          * intros x I. apply in_map_iff in I. destruct I as (y & <- & I). apply I1, in_map_iff in I. destruct I as (z & <- & I).
            eexists. split; [apply List.in_map, I|]. split; [reflexivity|]. exact (Forall_in _ _ _ Hg I).
          * intros x I. apply in_map_iff in I. destruct I as (z & <- & I). destruct (C1 _ (List.in_map _ _ _ I)) as (y & J & E & S).
            eexists. split; [apply List.in_map, J|]. split; [exact E|]. cbn. eapply same_trans; [apply ids_same_both, S|]. exact (Forall_in _ _ _ Hg I).
        + destruct inc as [l|]; cbn; constructor. cbn in Hi.
          destruct (nset_facts (map (inode_ids fin rnd f1 g1) l) (ids_wfn f1 g1 l)) as (_ & _ & I1 & C1).
          apply nset_reordered; try apply ids_wfn.
          * intros x I. apply in_map_iff in I. destruct I as (y & <- & I). apply I1, in_map_iff in I. destruct I as (z & <- & I).
            eexists. split; [apply List.in_map, I|]. split; [reflexivity|]. exact (Forall_in _ _ _ Hi I).
          * intros x I. apply in_map_iff in I. destruct I as (z & <- & I). destruct (C1 _ (List.in_map _ _ _ I)) as (y & J & E & S).
            eexists. split; [apply List.in_map, J|]. split; [exact E|]. cbn. eapply same_trans_both; [apply ids_same_both, S|]. exact (Forall_in _ _ _ Hi I).
        + apply (collect_twice same_i g1 g2 (iobj_ids fin rnd f1 g1) (iobj_ids fin rnd f2 g2) (iobj_ids fin rnd (fun u => f2 (f1 u)) (fun i => g2 (g1 i)))); [apply same_i_sym|apply same_i_trans|].
          intros p x I J. split; [reflexivity|]. exact (Forall_in _ _ _ (Forall_in _ _ _ Hp I) J).
        + destruct rs as [l|]; cbn; constructor.
          apply (collect_twice same_in g1 g2 (inode_ids fin rnd f1 g1) (inode_ids fin rnd f2 g2) (inode_ids fin rnd (fun u => f2 (f1 u)) (fun i => g2 (g1 i)))); [apply same_in_sym|apply same_in_trans|].
          intros p x I J. split; [reflexivity|]. exact (Forall_in _ _ _ (Forall_in _ _ _ Hr I) J).
    Qed.
  End Two.

  Lemma ids_ext_both f g f' g' : (forall u, f u = f' u) -> (forall i, g i = g' i) ->
    (forall o, obj_ids fin rnd f g o = obj_ids fin rnd f' g' o) /\ (forall n, node_ids fin rnd f g n = node_ids fin rnd f' g' n).
  Proof.
    intros F G. apply (obj_node_ind (fun o => obj_ids fin rnd f g o = obj_ids fin rnd f' g' o) (fun n => node_ids fin rnd f g n = node_ids fin rnd f' g' n)).
    - intros [l [t|]|s|j]; cbn; rewrite ?F; reflexivity.
    - intros n IH. cbn. f_equal. exact IH.
    - intros l IH. cbn. f_equal. apply map_ext_in. intros x I. f_equal. exact (Forall_in _ _ _ IH I).
    - intros i ts gr inc ps rs Hg Hi Hp Hr. rewrite !node_ids_eq.
      assert (Eg : map (iobj_ids fin rnd f g) (opt_list gr) = map (iobj_ids fin rnd f' g') (opt_list gr)) by (apply map_ext_in; intros x I; unfold iobj_ids; f_equal; exact (Forall_in _ _ _ Hg I)).
      assert (Ei : map (inode_ids fin rnd f g) (opt_list inc) = map (inode_ids fin rnd f' g') (opt_list inc)) by (apply map_ext_in; intros x I; unfold inode_ids; f_equal; exact (Forall_in _ _ _ Hi I)).
      assert (Ep : map (fun p => (g (fst p), map (iobj_ids fin rnd f g) (snd p))) ps = map (fun p => (g' (fst p), map (iobj_ids fin rnd f' g') (snd p))) ps).
      { apply map_ext_in. intros p I. rewrite G. f_equal. apply map_ext_in. intros x J. unfold iobj_ids. f_equal. exact (Forall_in _ _ _ (Forall_in _ _ _ Hp I) J). }
      assert (Er : map (fun p => (g (fst p), map (inode_ids fin rnd f g) (snd p))) (opt_list rs) = map (fun p => (g' (fst p), map (inode_ids fin rnd f' g') (snd p))) (opt_list rs)).
      { apply map_ext_in. intros p I. rewrite G. f_equal. apply map_ext_in. intros x J. unfold inode_ids. f_equal. exact (Forall_in _ _ _ (Forall_in _ _ _ Hr I) J). }
      rewrite Ep. f_equal.
      + destruct i; cbn; rewrite ?G; reflexivity.
      + destruct ts; cbn; [f_equal; apply map_ext, G|reflexivity].
      + destruct gr; cbn in *; rewrite ?Eg; reflexivity.
      + destruct inc; cbn in *; rewrite ?Ei; reflexivity.
      + destruct rs; cbn in *; rewrite ?Er; reflexivity.
  Qed.
  Lemma map_id_in {A} (h : A -> A) l : (forall x, In x l -> h x = x) -> map h l = l.
  Proof. intros H. rewrite <- (List.map_id l) at 2. apply map_ext_in, H. Qed.
  Lemma renamed_id_both : (forall o, renamed (fun u => u) (fun i => i) o = o) /\ (forall n, renamed_node (fun u => u) (fun i => i) n = n).
  Proof.
    apply (obj_node_ind (fun o => renamed (fun u => u) (fun i => i) o = o) (fun n => renamed_node (fun u => u) (fun i => i) n = n)).
    - intros [l [t|]|s|j]; reflexivity.
    - intros n IH. cbn. f_equal. exact IH.
    - intros l IH. cbn. f_equal. apply map_id_in. intros [i x] I. cbn. f_equal. exact (Forall_in _ _ _ IH I).
    - intros i ts gr inc ps rs Hg Hi Hp Hr. rewrite renamed_node_eq. f_equal.
      + destruct i; reflexivity.
      + destruct ts; cbn; [f_equal; apply List.map_id|reflexivity].
      + destruct gr; cbn; [f_equal|reflexivity]. apply map_id_in. intros [j x] I. unfold renamed_i. cbn. f_equal. exact (Forall_in _ _ _ Hg I).
      + destruct inc; cbn; [f_equal|reflexivity]. apply map_id_in. intros [j x] I. unfold renamed_in. cbn. f_equal. exact (Forall_in _ _ _ Hi I).
      + apply map_id_in. intros [k v] I. cbn. f_equal. apply map_id_in. intros [j x] J. unfold renamed_i. cbn. f_equal. exact (Forall_in _ _ _ (Forall_in _ _ _ Hp I) J).
      + destruct rs; cbn; [f_equal|reflexivity]. apply map_id_in. intros [k v] I. cbn. f_equal. apply map_id_in. intros [j x] J. unfold renamed_in. cbn. f_equal. exact (Forall_in _ _ _ (Forall_in _ _ _ Hr I) J).
  Qed.
  Lemma ids_id_both : (forall o, wf o -> obj_ids fin rnd (fun u => u) (fun i => i) o = o) /\ (forall n, wf_node n -> node_ids fin rnd (fun u => u) (fun i => i) n = n).
  Proof.
    split; intros x W.
    - rewrite (proj1 (renamed_both (fun u => u) (fun i => i) (fun _ _ E => E) (fun _ _ E => E)) x W). apply renamed_id_both.
    - rewrite (proj2 (renamed_both (fun u => u) (fun i => i) (fun _ _ E => E) (fun _ _ E => E)) x W). apply renamed_id_both.
  Qed.

  (** *** What nodes say *)
  Lemma both_in {A} (R : A -> A -> Prop) (a b : option (list A)) x : both (fun l m => reordered R l m) a b -> In x (opt_list a) -> exists y, In y (opt_list b) /\ R x y.
  Proof. intros [|l m O] I; [destruct I|]. eapply reordered_in; eassumption. Qed.
  Lemma inside_same_both : (forall a b n, same a b -> inside a n -> exists m, inside b m /\ same_node n m) /\
    (forall a b n, same_node a b -> inside_node a n -> exists m, inside_node b m /\ same_node n m).
  Proof.
    apply (obj_node_ind (fun a => forall b n, same a b -> inside a n -> exists m, inside b m /\ same_node n m)
      (fun a => forall b n, same_node a b -> inside_node a n -> exists m, inside_node b m /\ same_node n m)).
    - intros v b n _ H. inversion H.
    - intros n IH b m S H. inversion H; subst. inversion S; subst. destruct (IH _ m ltac:(eassumption) ltac:(eassumption)) as (m' & I & X). exists m'. split; [constructor; exact I|exact X].
    - intros l IH b n S H. inversion H as [|? x ? I H']; subst. inversion S as [| |? m F]; subst.
      assert (exists y, In y m /\ same (snd x) (snd y)) as (y & J & X).
      { clear -F I. induction F as [|a b l m [_ X] F IHF]; [destruct I|]. destruct I as [->|I]; [exists b; cbn; auto|]. destruct (IHF I) as (y & J & Y). exists y. cbn; auto. }
      destruct (Forall_in _ _ _ IH I _ _ X H') as (m' & K & Y). exists m'. split; [econstructor; eassumption|exact Y].
    - intros i ts gr inc ps rs Hg Hi Hp Hr b n S H. inversion S as [? ? ts' ? g' ? inc' ? ps' ? rs' Ht Bg Bi Op Br]; subst.
      inversion H as [|? x ? I H'|? x ? I H'|? p x ? I J H'|? p x ? I J H']; subst; cbn in *.
      + eexists. split; [constructor|exact S].
      + destruct (both_in _ _ _ _ Bg I) as (y & J & _ & X). destruct (Forall_in _ _ _ Hg I _ _ X H') as (m' & K & Y). exists m'. split; [eapply InGraph; eassumption|exact Y].
      + destruct (both_in _ _ _ _ Bi I) as (y & J & _ & X). destruct (Forall_in _ _ _ Hi I _ _ X H') as (m' & K & Y). exists m'. split; [eapply InIncluded; eassumption|exact Y].
      + destruct (reordered_in _ _ _ _ Op I) as (q & I' & _ & O). destruct (reordered_in _ _ _ _ O J) as (y & J' & _ & X).
        destruct (Forall_in _ _ _ (Forall_in _ _ _ Hp I) J _ _ X H') as (m' & K & Y). exists m'. split; [eapply InProp; eassumption|exact Y].
      + destruct (both_in _ _ _ _ Br I) as (q & I' & _ & O). destruct (reordered_in _ _ _ _ O J) as (y & J' & _ & X).
        destruct (Forall_in _ _ _ (Forall_in _ _ _ Hr I) J _ _ X H') as (m' & K & Y). exists m'. split; [eapply InReverse; eassumption|exact Y].
  Qed.
  Lemma says_same n m c : same_node n m -> says n c -> exists c', says m c' /\ same_fact c c'.
  Proof.
    intros S H. inversion S as [? ? ts' ? g' ? inc' ? ps' ? rs' Ht Bg Bi Op Br]; subst. inversion H as [j E|t I|x I|x I|p l x I J|p l x I J]; subst; cbn in *.
    - exists (FcId j). split; [constructor; exact E|constructor].
    - destruct (both_in _ _ _ _ Ht I) as (y & J & <-). exists (FcType t). split; [constructor; exact J|constructor].
    - destruct (both_in _ _ _ _ Bg I) as (y & J & X). exists (FcGraph y). split; [constructor; exact J|constructor; exact X].
    - destruct (both_in _ _ _ _ Bi I) as (y & J & X). exists (FcIncluded y). split; [constructor; exact J|constructor; exact X].
    - destruct (reordered_in _ _ _ _ Op I) as ([q l'] & I' & E & O). cbn in E, O. subst q. destruct (reordered_in _ _ _ _ O J) as (y & J' & X).
      exists (FcProp p y). split; [eapply SyProp; eassumption|constructor; exact X].
    - destruct (both_in _ _ _ _ Br I) as ([q l'] & I' & E & O). cbn in E, O. subst q. destruct (reordered_in _ _ _ _ O J) as (y & J' & X).
      exists (FcReverse p y). split; [eapply SyReverse; eassumption|constructor; exact X].
  Qed.

  Section Facts.
    Variables (f : string -> string) (g : id -> id).
    Notation oids := (obj_ids fin rnd f g). Notation nids := (node_ids fin rnd f g).
    Notation iids := (iobj_ids fin rnd f g). Notation nnids := (inode_ids fin rnd f g).
    Lemma graph_in x n : In x (opt_list (n_graph (nids n))) -> exists y, In y (opt_list (n_graph n)) /\ x = iids y.
    Proof.
      destruct n as [i ts [l|] inc ps rs]; rewrite node_ids_eq; cbn [n_graph option_map opt_list]; [|intros []]. intros I.
      apply (iset_facts _ (ids_wfi f g l)), in_map_iff in I. destruct I as (y & E & I). eauto.
    Qed.
    Lemma graph_kept y n : In y (opt_list (n_graph n)) -> exists x, In x (opt_list (n_graph (nids n))) /\ same_i (iids y) x.
    Proof.
      destruct n as [i ts [l|] inc ps rs]; rewrite node_ids_eq; cbn [n_graph option_map opt_list]; [|intros []]. intros I.
      destruct (proj2 (proj2 (proj2 (iset_facts _ (ids_wfi f g l)))) _ (List.in_map _ _ _ I)) as (x & J & S). exists x. split; [exact J|apply same_i_sym, S].
    Qed.
    Lemma included_in x n : In x (opt_list (n_included (nids n))) -> exists y, In y (opt_list (n_included n)) /\ x = nnids y.
    Proof.
      destruct n as [i ts gr [l|] ps rs]; rewrite node_ids_eq; cbn [n_included option_map opt_list]; [|intros []]. intros I.
      apply (nset_facts _ (ids_wfn f g l)), in_map_iff in I. destruct I as (y & E & I). eauto.
    Qed.
    Lemma included_kept y n : In y (opt_list (n_included n)) -> exists x, In x (opt_list (n_included (nids n))) /\ same_in (nnids y) x.
    Proof.
      destruct n as [i ts gr [l|] ps rs]; rewrite node_ids_eq; cbn [n_included option_map opt_list]; [|intros []]. intros I.
      destruct (proj2 (proj2 (proj2 (nset_facts _ (ids_wfn f g l)))) _ (List.in_map _ _ _ I)) as (x & J & S). exists x. split; [exact J|apply same_in_sym, S].
    Qed.
    Lemma collect_mapped {A} (h : A -> A) (ps : list (id * list A)) k x :
      (exists v, In (k, v) (collect_map (map (fun p => (g (fst p), map h (snd p))) ps)) /\ In x v) <->
      (exists p l y, In (p, l) ps /\ In y l /\ k = g p /\ x = h y).
    Proof.
      rewrite collect_in. split.
      - intros (v & I & J). apply in_map_iff in I. destruct I as ([p l] & E & I). cbn in E. injection E as <- <-.
        apply in_map_iff in J. destruct J as (y & <- & J). exists p, l, y. auto.
      - intros (p & l & y & I & J & -> & ->). exists (map h l). split; [|apply List.in_map, J]. apply in_map_iff. exists (p, l). auto.
    Qed.
    Lemma props_in n k x : (exists v, In (k, v) (n_props (nids n)) /\ In x v) <-> (exists p l y, In (p, l) (n_props n) /\ In y l /\ k = g p /\ x = iids y).
    Proof. destruct n. rewrite node_ids_eq. cbn [n_props]. apply collect_mapped. Qed.
    Lemma reverse_in n k x : (exists v, In (k, v) (opt_list (n_reverse (nids n))) /\ In x v) <-> (exists p l y, In (p, l) (opt_list (n_reverse n)) /\ In y l /\ k = g p /\ x = nnids y).
    Proof.
      destruct n as [i ts gr inc ps [l|]]; rewrite node_ids_eq; cbn [n_reverse option_map opt_list]; [apply collect_mapped|].
      split; [intros (v & [] & _)|intros (p & l & y & [] & _)].
    Qed.

    Lemma says_kept n c : says n c -> exists c', says (nids n) c' /\ same_fact (fact_ids fin rnd f g c) c'.
    Proof.
      intros H. inversion H as [j E|t I|x I|x I|p l x I J|p l x I J]; subst; cbn [fact_ids].
      - exists (FcId (g j)). split; [|constructor]. constructor. destruct n; cbn in E |- *. rewrite E. reflexivity.
      - exists (FcType (g t)). split; [|constructor]. constructor. destruct n as [i [ts|] gr inc ps rs]; cbn in I |- *; [|destruct I]. apply List.in_map, I.
      - destruct (graph_kept _ _ I) as (y & J & S). exists (FcGraph y). split; constructor; assumption.
      - destruct (included_kept _ _ I) as (y & J & S). exists (FcIncluded y). split; constructor; assumption.
      - destruct (proj2 (props_in n (g p) (iids x))) as (v & I' & J'); [exists p, l, x; auto|]. exists (FcProp (g p) (iids x)). split; [eapply SyProp; eassumption|constructor; apply same_i_refl].
      - destruct (proj2 (reverse_in n (g p) (nnids x))) as (v & I' & J'); [exists p, l, x; auto|]. exists (FcReverse (g p) (nnids x)). split; [eapply SyReverse; eassumption|constructor; apply same_in_refl].
    Qed.
    Lemma says_only n c : says (nids n) c -> exists c0, says n c0 /\ c = fact_ids fin rnd f g c0.
    Proof.
      intros H. inversion H as [j E|t I|x I|x I|p l x I J|p l x I J]; subst.
      - destruct n as [[i|] ts gr inc ps rs]; cbn in E; [|discriminate]. injection E as <-. exists (FcId i). split; [constructor; reflexivity|reflexivity].
      - destruct n as [i [ts|] gr inc ps rs]; cbn in I; [|destruct I]. apply in_map_iff in I. destruct I as (u & <- & I). exists (FcType u). split; [constructor; exact I|reflexivity].
      - destruct (graph_in _ _ I) as (y & J & ->). exists (FcGraph y). split; [constructor; exact J|reflexivity].
      - destruct (included_in _ _ I) as (y & J & ->). exists (FcIncluded y). split; [constructor; exact J|reflexivity].
      - destruct (proj1 (props_in n p x)) as (q & m & y & I' & J' & -> & ->); [eauto|]. exists (FcProp q y). split; [eapply SyProp; eassumption|reflexivity].
      - destruct (proj1 (reverse_in n p x)) as (q & m & y & I' & J' & -> & ->); [eauto|]. exists (FcReverse q y). split; [eapply SyReverse; eassumption|reflexivity].
    Qed.

    Lemma inside_kept_both : (forall o n, inside o n -> exists m, inside (oids o) m /\ same_node (nids n) m) /\
      (forall o n, inside_node o n -> exists m, inside_node (nids o) m /\ same_node (nids n) m).
    Proof.
      apply (obj_node_ind (fun o => forall n, inside o n -> exists m, inside (oids o) m /\ same_node (nids n) m)
        (fun o => forall n, inside_node o n -> exists m, inside_node (nids o) m /\ same_node (nids n) m)).
      - intros v n H. inversion H.
      - intros n IH m H. inversion H; subst. destruct (IH m ltac:(assumption)) as (m' & I & S). exists m'. split; [constructor; exact I|exact S].
      - intros l IH n H. inversion H as [|? x ? I H']; subst. destruct (Forall_in _ _ _ IH I _ H') as (m' & K & S). exists m'. split; [|exact S].
        cbn. eapply InList; [apply (List.in_map (fun x => (fst x, oids (snd x)))), I|exact K].
      - intros i ts gr inc ps rs Hg Hi Hp Hr n H. set (n0 := MkNode i ts gr inc ps rs) in *.
        inversion H as [|? x ? I H'|? x ? I H'|? [p v] x ? I J H'|? [p v] x ? I J H']; subst.
        + eexists. split; [constructor|apply same_refl_both].
        + destruct (Forall_in _ _ _ Hg I _ H') as (m & K & S). destruct (graph_kept _ _ I) as (y & J & _ & S').
          destruct (proj1 inside_same_both _ _ _ S' K) as (m' & K' & S''). exists m'. split; [eapply InGraph; eassumption|eapply same_trans_both; eassumption].
        + destruct (Forall_in _ _ _ Hi I _ H') as (m & K & S). destruct (included_kept _ _ I) as (y & J & _ & S').
          destruct (proj2 inside_same_both _ _ _ S' K) as (m' & K' & S''). exists m'. split; [eapply InIncluded; eassumption|eapply same_trans_both; eassumption].
        + destruct (Forall_in _ _ _ (Forall_in _ _ _ Hp I) J _ H') as (m & K & S).
          destruct (proj2 (props_in n0 (g p) (iids x))) as (w & I' & J'); [exists p, v, x; auto|]. exists m. split; [eapply InProp; [exact I'|exact J'|exact K]|exact S].
        + destruct (Forall_in _ _ _ (Forall_in _ _ _ Hr I) J _ H') as (m & K & S).
          destruct (proj2 (reverse_in n0 (g p) (nnids x))) as (w & I' & J'); [exists p, v, x; auto|]. exists m. split; [eapply InReverse; [exact I'|exact J'|exact K]|exact S].
    Qed.
    Lemma inside_only_both : (forall o m, inside (oids o) m -> exists n, inside o n /\ m = nids n) /\
      (forall o m, inside_node (nids o) m -> exists n, inside_node o n /\ m = nids n).
    Proof.
      apply (obj_node_ind (fun o => forall m, inside (oids o) m -> exists n, inside o n /\ m = nids n)
        (fun o => forall m, inside_node (nids o) m -> exists n, inside_node o n /\ m = nids n)).
      - intros v m H. inversion H.
      - intros n IH m H. cbn in H. inversion H; subst. destruct (IH m ltac:(assumption)) as (m' & I & S). exists m'. split; [constructor; exact I|exact S].
      - intros l IH m H. cbn in H. inversion H as [|? x ? I H']; subst. apply in_map_iff in I. destruct I as (y & <- & I). destruct (Forall_in _ _ _ IH I _ H') as (n & K & S).
        exists n. split; [eapply InList; eassumption|exact S].
      - intros i ts gr inc ps rs Hg Hi Hp Hr m H. set (n0 := MkNode i ts gr inc ps rs) in *.
        inversion H as [|? x ? I H'|? x ? I H'|? [p v] x ? I J H'|? [p v] x ? I J H']; subst.
        + exists n0. split; [constructor|reflexivity].
        + destruct (graph_in _ _ I) as (y & J & ->). destruct (Forall_in _ _ _ Hg J _ H') as (n & K & S). exists n. split; [eapply InGraph; eassumption|exact S].
        + destruct (included_in _ _ I) as (y & J & ->). destruct (Forall_in _ _ _ Hi J _ H') as (n & K & S). exists n. split; [eapply InIncluded; eassumption|exact S].
        + destruct (proj1 (props_in n0 p x)) as (q & w & y & I' & J' & -> & ->); [eauto|]. destruct (Forall_in _ _ _ (Forall_in _ _ _ Hp I') J' _ H') as (n & K & S).
          exists n. split; [eapply InProp; [exact I'|exact J'|exact K]|exact S].
        + destruct (proj1 (reverse_in n0 p x)) as (q & w & y & I' & J' & -> & ->); [eauto|]. destruct (Forall_in _ _ _ (Forall_in _ _ _ Hr I') J' _ H') as (n & K & S).
          exists n. split; [eapply InReverse; [exact I'|exact J'|exact K]|exact S].
    Qed.
  End Facts.
End Main.

(** What is printed for a legible document without index is read as this document. *)
From Verif Require Import Prelude Json Enums LangTag LangString Str Keyword Container ContextSyntax Ctx Process Object ObjectEq ObjectJson ObjectJsonProofs Print PrintProofs.

Section Read.
  Variable io : iops.
  Variables (fin rnd : list word -> N).
  Notation show := (obj_shown "@index").
  Notation nshow := (node_shown "@index").
  Notation ishow := (iobj_shown "@index").
  Notation inshow := (inode_shown "@index").
  Notation pi := (parse_i io fin rnd).
  Notation pn := (parse_n io fin rnd).

  Lemma index_read {A} (f : jobject -> result A jerr) i m : ~ In "@index" (keys m) ->
    indexed_of_json f (JObj (entry_of "@index" i JStr ++ m)) = do x <- f m ; Ok (i, x).
  Proof.
    intros H. unfold indexed_of_json. destruct i as [i|]; cbn [entry_of app].
    - rewrite remove_unique_head by exact H. reflexivity.
    - rewrite remove_unique_none by exact H. reflexivity.
  Qed.
  Lemma index_fits i m : json_size (JObj m) <= json_size (JObj (entry_of "@index" i JStr ++ m)).
  Proof.
    destruct i as [i|]; cbn [entry_of app]; [|apply le_n].
    change (S (list_sum (map (fun e : string * json => json_size (snd e)) m)) <= S (1 + list_sum (map (fun e : string * json => json_size (snd e)) m))). lia.
  Qed.

  Lemma value_read p q v : pr_value io v -> ~ In "@index" (keys (value_shown v)) /\ obj_of_json io fin rnd p q (value_shown v) = Ok (OVal v).
  Proof.
    intros P. destruct P as [l t Ht|[d l r] T|j]; cbn [value_shown ls_language ls_direction ls_data].
    - destruct t as [t|]; cbn [entry_of].
      + destruct (Ht t eq_refl) as [O N]. split; [cbn; intuition discriminate|].
        unfold obj_of_json. rewrite remove_unique_none by (cbn; intuition discriminate). cbn [bind].
        rewrite remove_unique_head by (cbn; intuition discriminate). cbn [bind].
        unfold value_of_json. rewrite remove_unique_head by (cbn; tauto). cbn [bind].
        destruct (streq_spec t "@json") as [->|_]; [congruence|]. rewrite O. destruct l; reflexivity.
      + split; [cbn; intuition discriminate|]. destruct l; reflexivity.
    - destruct l as [l|], r as [r|]; cbn [entry_of app].
      4: { destruct T as [T|T]; cbn in T; congruence. }
      all: split; [cbn; intuition discriminate|]; try (destruct r; reflexivity); reflexivity.
    - split; [cbn; intuition discriminate|]. reflexivity.
  Qed.

  Lemma of_keys {A} k k' (o : option A) (f : A -> json) : k <> k' -> ~ In k (keys (entry_of k' o f)).
  Proof. intros N I. apply N, (entry_keys k' o f k I). Qed.
  Lemma unique_of {A} k (o : option A) f m : ~ In k (keys m) -> remove_unique k (entry_of k o f ++ m) = Ok (option_map f o, m).
  Proof. intros H. destruct o; cbn [entry_of app option_map]; [apply remove_unique_head|apply remove_unique_none]; exact H. Qed.

  Lemma node_read p q i ts g inc ps rs : legible_node io (MkNode i ts g inc ps rs) -> wf_node (MkNode i ts g inc ps rs) ->
    Forall (fun x => p (ishow x) = Ok x) (opt_list g) -> Forall (fun x => q (inshow x) = Ok x) (opt_list inc) ->
    Forall (fun y => Forall (fun x => p (ishow x) = Ok x) (snd y)) ps ->
    Forall (fun y => Forall (fun x => q (inshow x) = Ok x) (snd y)) (opt_list rs) ->
    node_of_json io fin rnd p q (nshow (MkNode i ts g inc ps rs)) = Ok (MkNode i ts g inc ps rs).
  Proof.
    intros P W Hg Hi Hp Hr. inversion P as [? ? ? ? ? ? Pi Pts Pg Pinc Pp Pr]; subst. inversion W as [? ? ? ? ? ? Wg Dg Wi Di Np Wp Nr Wr]; subst. clear P W.
    assert (Rp : Forall (fun p => readable io (fst p)) ps) by (eapply Forall_impl; [|exact Pp]; intros y Hx; exact (proj1 Hx)).
    cbn [node_shown]. set (e6 := map _ ps).
    assert (K : forall k, In k reserved -> ~ In k (keys e6)).
    { intros k R I. unfold keys in I. subst e6. rewrite map_map in I. apply in_map_iff in I. destruct I as (y & <- & I). apply (Forall_in _ _ _ Pp I). exact R. }
    unfold node_of_json.
    set (r5 := entry_of "@reverse" _ _ ++ e6). set (r4 := entry_of "@included" _ _ ++ r5). set (r3 := entry_of "@graph" _ _ ++ r4). set (r2 := entry_of "@type" _ _ ++ r3).
    assert (K5 : forall k, In k reserved -> k <> "@reverse" -> ~ In k (keys r5)).
    { intros k I N. subst r5. rewrite keys_app. apply not_in_app; [apply of_keys; assumption|apply K; assumption]. }
    assert (K4 : forall k, In k reserved -> k <> "@reverse" -> k <> "@included" -> ~ In k (keys r4)).
    { intros k I N N'. subst r4. rewrite keys_app. apply not_in_app; [apply of_keys; assumption|apply K5; assumption]. }
    assert (K3 : forall k, In k reserved -> k <> "@reverse" -> k <> "@included" -> k <> "@graph" -> ~ In k (keys r3)).
    { intros k I N N' N2. subst r3. rewrite keys_app. apply not_in_app; [apply of_keys; assumption|apply K4; assumption]. }
    assert (K2 : forall k, In k reserved -> k <> "@reverse" -> k <> "@included" -> k <> "@graph" -> k <> "@type" -> ~ In k (keys r2)).
    { intros k I N N' N2 N3. subst r2. rewrite keys_app. apply not_in_app; [apply of_keys; assumption|apply K3; assumption]. }
    rewrite unique_of by (apply K2; cbn; (tauto || congruence)). cbn [bind].
    assert (S1 : opt_r (id_of_json io) (option_map (fun i => JStr (id_str i)) i) = Ok i).
    { destruct i as [x|]; cbn [option_map opt_r]; [|reflexivity]. pose proof (id_parse io x (Pi x eq_refl)) as E. unfold id_json in E. rewrite E. reflexivity. }
    rewrite S1. cbn [bind]. subst r2.
    rewrite unique_of by (apply K3; cbn; (tauto || congruence)). cbn [bind].
    assert (S2 : opt_r (list_of_json (id_of_json io)) (option_map (fun l => JArr (map (fun i => JStr (id_str i)) l)) ts) = Ok ts).
    { destruct ts as [l|]; cbn [option_map opt_r]; [|reflexivity]. cbn [list_of_json]. rewrite map_r_map; [reflexivity|].
      eapply Forall_impl; [|exact Pts]. intros x. apply id_parse. }
    rewrite S2. cbn [bind]. subst r3.
    rewrite unique_of by (apply K4; cbn; (tauto || congruence)). cbn [bind].
    match goal with |- context [opt_r ?f (option_map ?h g)] => assert (S3 : opt_r f (option_map h g) = Ok g) end.
    { destruct g as [l|]; cbn [option_map opt_r]; [|reflexivity]. unfold set_of_json. cbn [list_of_json]. rewrite map_r_map by exact Hg. cbn [bind].
      cbn [opt_list] in *. rewrite (set_insert_all (iobj_hash fin rnd) (iobj_eqb fin rnd) same_i l []); [reflexivity| |exact Dg].
      cbn [app]. intros x y I J. unfold iobj_eqb. rewrite andb_true_iff, opt_streq. intros [E X]. split; [exact E|].
      apply (proj1 (eqb_both fin rnd)) in X; [exact X|exact (Forall_in _ _ _ Wg I)|exact (Forall_in _ _ _ Wg J)]. }
    rewrite S3. cbn [bind]. subst r4.
    rewrite unique_of by (apply K5; cbn; (tauto || congruence)). cbn [bind].
    match goal with |- context [opt_r ?f (option_map ?h inc)] => assert (S4 : opt_r f (option_map h inc) = Ok inc) end.
    { destruct inc as [l|]; cbn [option_map opt_r]; [|reflexivity]. unfold set_of_json. cbn [list_of_json]. rewrite map_r_map by exact Hi. cbn [bind].
      cbn [opt_list] in *. rewrite (set_insert_all (inode_hash fin rnd) (inode_eqb fin rnd) same_in l []); [reflexivity| |exact Di].
      cbn [app]. intros x y I J. unfold inode_eqb. rewrite andb_true_iff, opt_streq. intros [E X]. split; [exact E|].
      apply (proj2 (eqb_both fin rnd)) in X; [exact X|exact (Forall_in _ _ _ Wi I)|exact (Forall_in _ _ _ Wi J)]. }
    rewrite S4. cbn [bind]. subst r5.
    rewrite unique_of by (apply K; cbn; (tauto || congruence)). cbn [bind].
    match goal with |- context [opt_r ?f (option_map ?h rs)] => assert (S5 : opt_r f (option_map h rs) = Ok rs) end.
    { destruct rs as [l|]; cbn [option_map opt_r]; [|reflexivity]. cbn [opt_list] in *.
      match goal with |- context [props_of_json io q ?m] => assert (E : props_of_json io q m = Ok l); [|rewrite E; reflexivity] end.
      apply (props_parse io q inshow l); [exact Nr| |exact Hr]. eapply Forall_impl; [|exact Pr]; intros y Hx; exact (proj1 Hx). }
    rewrite S5. cbn [bind].
    assert (S6 : props_of_json io p e6 = Ok ps) by exact (props_parse io p ishow ps Np Rp Hp).
    rewrite S6. reflexivity.
  Qed.

  Lemma read_both :
    (forall o, legible io o -> wf o -> forall i n, json_size (ishow (i, o)) <= n -> pi n (ishow (i, o)) = Ok (i, o)) /\
    (forall x, legible_node io x -> wf_node x ->
      (forall k, In k ["@index"; "@context"; "@value"; "@list"] -> ~ In k (keys (nshow x))) /\
      (forall n, json_size (JObj (nshow x)) <= S n -> node_of_json io fin rnd (pi n) (pn n) (nshow x) = Ok x)).
  Proof.
    apply obj_node_ind.
    - intros v P _ i n L. inversion P as [? Pv| |]; subst. destruct n as [|n]; [pose proof (json_pos (ishow (i, OVal v))); lia|].
      rewrite parse_i_S. unfold iobj_shown. cbn [fst snd obj_shown].
      destruct (value_read (pi n) (pn n) v Pv) as [NI X]. rewrite index_read by exact NI. rewrite X. reflexivity.
    - intros x IH P W i n L. inversion P as [|? Px|]; inversion W as [|? Wx|]; subst.
      destruct (IH Px Wx) as (NI & X). destruct n as [|n]; [pose proof (json_pos (ishow (i, ONode x))); lia|].
      rewrite parse_i_S. unfold iobj_shown in *. cbn [fst snd obj_shown] in *. rewrite index_read by (apply NI; cbn; tauto).
      unfold obj_of_json. rewrite !remove_unique_none by (apply NI; cbn; tauto). cbn [bind].
      rewrite !remove_unique_none by (apply NI; cbn; tauto). cbn [bind].
      rewrite !remove_unique_none by (apply NI; cbn; tauto). cbn [bind].
      rewrite X; [reflexivity|]. eapply Nat.le_trans; [apply (index_fits i)|exact L].
    - intros l IH P W i n L. inversion P as [| |? Pl]; inversion W as [| |? Wl]; subst.
      destruct n as [|n]; [pose proof (json_pos (ishow (i, OList l))); lia|].
      rewrite parse_i_S. unfold iobj_shown in *. cbn [fst snd obj_shown] in *.
      pose proof (index_fits i (show (OList l))) as L'. cbn [obj_shown] in L'.
      rewrite index_read by (cbn; intuition discriminate).
      unfold obj_of_json. rewrite remove_unique_none by (cbn; intuition discriminate). cbn [bind].
      rewrite remove_unique_none by (cbn; intuition discriminate). cbn [bind].
      rewrite remove_unique_head by (cbn; tauto). cbn [bind list_of_json].
      rewrite map_r_map; [reflexivity|]. apply Forall_forall. intros [ix o] I.
      apply (Forall_in _ _ _ IH I (Forall_in _ _ _ Pl I) (Forall_in _ _ _ Wl I) ix n).
      pose proof (size_arr_map ishow l (ix, o) I) as S1.
      pose proof (size_obj [("@list", JArr (map ishow l))] "@list" _ (or_introl eq_refl)) as S2.
      apply Nat.lt_succ_r. eapply Nat.lt_le_trans; [|exact L]. eapply Nat.lt_le_trans; [exact S1|].
      eapply Nat.le_trans; [apply Nat.lt_le_incl, S2|exact L'].
    - intros i ts g inc ps rs Hg Hi Hp Hr P W.
      inversion P as [? ? ? ? ? ? Pi Pts Pg Pinc Pp Pr]; subst. pose proof W as W'. inversion W' as [? ? ? ? ? ? Wg Dg Wi Di Np Wp Nr Wr]; subst.
      assert (NODE : forall ix x n, (legible_node io x -> wf_node x -> (forall k, In k ["@index"; "@context"; "@value"; "@list"] -> ~ In k (keys (nshow x))) /\
          (forall n, json_size (JObj (nshow x)) <= S n -> node_of_json io fin rnd (pi n) (pn n) (nshow x) = Ok x)) ->
          legible_node io x -> wf_node x -> json_size (inshow (ix, x)) <= n -> pn n (inshow (ix, x)) = Ok (ix, x)).
      { intros ix x n H Px Wx L. destruct (H Px Wx) as [NI X]. destruct n as [|n]; [pose proof (json_pos (inshow (ix, x))); lia|].
        rewrite parse_n_S. unfold inode_shown in *. cbn [fst snd] in *. rewrite index_read by (apply NI; cbn; tauto).
        rewrite X; [reflexivity|]. eapply Nat.le_trans; [apply (index_fits ix)|exact L]. }
      split.
      + intros k I. cbn [node_shown]. rewrite !keys_app.
        repeat (apply not_in_app; [apply of_keys; intros ->; cbn in I; intuition discriminate|]).
        intros J. unfold keys in J. rewrite map_map in J. apply in_map_iff in J. destruct J as (y & <- & J).
        apply (Forall_in _ _ _ Pp J). cbn in I |- *. intuition (subst; auto).
      + intros n L. apply node_read; [assumption|assumption| | | |].
        * apply Forall_forall. intros [ix o] I. apply (Forall_in _ _ _ Hg I (Forall_in _ _ _ Pg I) (Forall_in _ _ _ Wg I)).
          destruct g as [g|]; [|destruct I]. cbn [opt_list] in I.
          pose proof (size_arr_map ishow g (ix, o) I) as S1.
          assert (J : In ("@graph", JArr (map ishow g)) (nshow (MkNode i ts (Some g) inc ps rs))).
          { cbn [node_shown]. do 2 (apply in_or_app; right). apply in_or_app; left. left; reflexivity. }
          exact (chain _ _ _ _ S1 (size_obj _ _ _ J) L).
        * apply Forall_forall. intros [ix x] I. apply (NODE ix x n (Forall_in _ _ _ Hi I) (Forall_in _ _ _ Pinc I) (Forall_in _ _ _ Wi I)).
          destruct inc as [l|]; [|destruct I]. cbn [opt_list] in I.
          pose proof (size_arr_map inshow l (ix, x) I) as S1.
          assert (J : In ("@included", JArr (map inshow l)) (nshow (MkNode i ts g (Some l) ps rs))).
          { cbn [node_shown]. do 3 (apply in_or_app; right). apply in_or_app; left. left; reflexivity. }
          exact (chain _ _ _ _ S1 (size_obj _ _ _ J) L).
        * apply Forall_forall. intros y J. apply Forall_forall. intros [ix o] I.
          destruct (Forall_in _ _ _ Pp J) as (_ & _ & Pp'). apply (Forall_in _ _ _ (Forall_in _ _ _ Hp J) I (Forall_in _ _ _ Pp' I) (Forall_in _ _ _ (Forall_in _ _ _ Wp J) I)).
          pose proof (size_arr_map ishow (snd y) (ix, o) I) as S1.
          assert (J' : In (id_str (fst y), JArr (map ishow (snd y))) (nshow (MkNode i ts g inc ps rs))).
          { cbn [node_shown]. do 5 (apply in_or_app; right). apply (in_map (fun p : id * list iobj => (id_str (fst p), JArr (map ishow (snd p)))) _ _ J). }
          exact (chain _ _ _ _ S1 (size_obj _ _ _ J') L).
        * apply Forall_forall. intros y J. apply Forall_forall. intros [ix x] I.
          destruct (Forall_in _ _ _ Pr J) as (_ & Pr').
          apply (NODE ix x n (Forall_in _ _ _ (Forall_in _ _ _ Hr J) I) (Forall_in _ _ _ Pr' I) (Forall_in _ _ _ (Forall_in _ _ _ Wr J) I)).
          destruct rs as [rs|]; [|destruct J]. cbn [opt_list] in J.
          pose proof (size_arr_map inshow (snd y) (ix, x) I) as S1.
          pose (R := map (fun p : id * list inode => (id_str (fst p), JArr (map inshow (snd p)))) rs).
          assert (J1 : In (id_str (fst y), JArr (map inshow (snd y))) R).
          { apply (in_map (fun p : id * list inode => (id_str (fst p), JArr (map inshow (snd p)))) _ _ J). }
          assert (J2 : In ("@reverse", JObj R) (nshow (MkNode i ts g inc ps (Some rs)))).
          { cbn [node_shown]. do 4 (apply in_or_app; right). apply in_or_app; left. left; reflexivity. }
          pose proof (size_obj _ _ _ J1) as S2. pose proof (size_obj _ _ _ J2) as S3.
          apply Nat.lt_le_incl. exact (Nat.lt_le_trans _ _ _ S1 (chain _ _ _ _ S2 S3 L)).
  Qed.

  (** Without indexes, the key of indexes does not matter. *)
  Lemma unindexed_both key :
    (forall o, unindexed o -> obj_shown key o = show o) /\ (forall n, unindexed_node n -> node_shown key n = nshow n).
  Proof.
    assert (L : forall l : list iobj, Forall (fun x => unindexed (snd x) -> obj_shown key (snd x) = show (snd x)) l ->
      Forall (fun x => fst x = None /\ unindexed (snd x)) l ->
      map (fun x => JObj (entry_of key (fst x) JStr ++ obj_shown key (snd x))) l = map (fun x => JObj (entry_of "@index" (fst x) JStr ++ show (snd x))) l).
    { intros l H U. apply map_ext_in. intros x I. destruct (Forall_in _ _ _ U I) as [E X]. rewrite E, (Forall_in _ _ _ H I X). reflexivity. }
    assert (N : forall l : list inode, Forall (fun x => unindexed_node (snd x) -> node_shown key (snd x) = nshow (snd x)) l ->
      Forall (fun x => unindexed_node (snd x)) l ->
      map (fun x => JObj (entry_of "@index" (fst x) JStr ++ node_shown key (snd x))) l = map (fun x => JObj (entry_of "@index" (fst x) JStr ++ nshow (snd x))) l).
    { intros l H U. apply map_ext_in. intros x I. rewrite (Forall_in _ _ _ H I (Forall_in _ _ _ U I)). reflexivity. }
    apply obj_node_ind.
    - reflexivity.
    - intros n H U. inversion U; subst. apply H. assumption.
    - intros l H U. inversion U as [| |? Ul]; subst. cbn [obj_shown]. unfold iobj in *. rewrite (L l H Ul). reflexivity.
    - intros i ts g inc ps rs Hg Hi Hp Hr U. inversion U as [? ? ? ? ? ? Ug Ui Up Ur]; subst. cbn [node_shown].
      do 2 (apply f_equal2; [reflexivity|]). apply f_equal2; [|apply f_equal2; [|apply f_equal2]].
      + apply entry_ext. intros l ->. f_equal. apply (L l Hg Ug).
      + apply entry_ext. intros l ->. f_equal. apply (N l Hi Ui).
      + apply entry_ext. intros l ->. f_equal. apply map_ext_in. intros y J. f_equal. f_equal. apply N; [exact (Forall_in _ _ _ Hr J)|exact (Forall_in _ _ _ Ur J)].
      + apply map_ext_in. intros y J. f_equal. f_equal. apply L; [exact (Forall_in _ _ _ Hp J)|exact (Forall_in _ _ _ Up J)].
  Qed.
End Read.

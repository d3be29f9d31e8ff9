(** Flattening as a sequence of operations on the node map, given by the identified document. *)
From Verif Require Import Prelude Json Enums LangTag LangString Str Keyword Container ContextSyntax Ctx Object ObjectEq ObjectJson Relabel RelabelProofs Flatten.

(** ** The document of references *)
Definition the_id (n : node) : id := match n_id n with Some i => i | None => IInvalid "" end.
Fixpoint ref_o (x : option string) (o : obj) : iobj :=
  match o with
  | OVal v => (x, OVal v)
  | OList l => (x, OList (map (fun y => ref_o (fst y) (snd y)) l))
  | ONode n => (None, ONode (node_new (Some (the_id n))))
  end.
Definition ref_i (y : iobj) : iobj := ref_o (fst y) (snd y).

Inductive op : Type :=
| ODeclare (a : option id) (i : id) (x : option string)
| OTypes (a : option id) (i : id) (ts : list id)
| OGraph (i : id)
| OEntry (a : option id) (i : id) (l : list iobj)
| OProps (a : option id) (i : id) (p : id) (l : list iobj).

Section Trace.
  Variables (fin rnd : list word -> N).
  Definition do_op (m : nmap) (o : op) : result nmap ferr :=
    match o with
    | ODeclare a i x => in_graph m a (fun g => declare_node g i x)
    | OTypes a i ts => in_node m a i (set_types ts)
    | OGraph i => Ok (declare_graph m i)
    | OEntry a i l => in_node m a i (extend_graph fin rnd (collect_o fin rnd l))
    | OProps a i p l => in_node m a i (add_props fin rnd p l)
    end.
  Fixpoint do_ops (m : nmap) (l : list op) : result nmap ferr :=
    match l with [] => Ok m | o :: l' => do m' <- do_op m o ; do_ops m' l' end.

  Fixpoint tr_o (a : option id) (x : option string) (o : obj) {struct o} : list op :=
    match o with
    | OVal v => []
    | OList l => flat_map (fun y => tr_o a (fst y) (snd y)) l
    | ONode n => tr_n a x n
    end
  with tr_n (a : option id) (x : option string) (n : node) {struct n} : list op :=
    match n with
    | MkNode i ts g inc ps rs =>
        let i := match i with Some i => i | None => IInvalid "" end in
        [ODeclare a i x]
        ++ match ts with Some l => [OTypes a i l] | None => [] end
        ++ match g with Some l => OGraph i :: flat_map (fun y => tr_o (Some i) (fst y) (snd y)) l ++ [OEntry a i (map ref_i l)] | None => [] end
        ++ match inc with Some l => flat_map (fun y => tr_n a (fst y) (snd y)) l | None => [] end
        ++ flat_map (fun p => flat_map (fun y => tr_o a (fst y) (snd y)) (snd p) ++ [OProps a i (fst p) (map ref_i (snd p))]) ps
        ++ match rs with
           | Some l => flat_map (fun p => flat_map (fun y => tr_n a (fst y) (snd y) ++ [OProps a (the_id (snd y)) (fst p) [(None, ONode (node_new (Some i)))]]) (snd p)) l
           | None => []
           end
    end.
  Definition tr_doc (d : list iobj) : list op := flat_map (fun y => tr_o None (fst y) (snd y)) d.

  Lemma do_ops_app l l' m : do_ops m (l ++ l') = (do m' <- do_ops m l ; do_ops m' l').
  Proof. revert m. induction l as [|o l IH]; intros m; cbn; [reflexivity|]. destruct (do_op m o); cbn; auto. Qed.

  Variable gen : nat -> id.
  (** [f] flattening [x] is the renaming [r], then the operations [t] of the result, giving [v]. *)
  Definition splits {X Y Z} (f : state -> X -> result (Z * state) ferr) (r : env -> X -> Y * env) (t : Y -> list op) (v : Y -> Z) (x : X) : Prop :=
    forall e m, f (e, m) x = let (y, e') := r e x in do m' <- do_ops m (t y) ; Ok (v y, (e', m')).

  Lemma map_splits {X Y Z} f (r : env -> X -> Y * env) t (v : Y -> Z) l : Forall (splits f r t v) l ->
    splits (map_r_st f) (map_st r) (flat_map t) (map v) l.
  Proof.
    intros H. induction H as [|x l Hx Hl IH]; intros e m; [reflexivity|]. cbn [map_r_st map_st]. fold (map_st r). fold (map_r_st f).
    rewrite Hx. destruct (r e x) as [y e1]. specialize (IH e1). destruct (map_st r e1 l) as [l1 e2]. cbn [flat_map map].
    rewrite do_ops_app. destruct (do_ops m (t y)) as [m1|e']; [|reflexivity]. cbn [bind]. rewrite IH. destruct (do_ops m1 (flat_map t l1)); reflexivity.
  Qed.

  Definition rl_i (a : env) (x : iobj) := let (o', s') := relabel_o gen (assign_id gen) ide ide a (snd x) in ((fst x, o'), s').
  Definition rl_in (a : env) (x : inode) := let (o', s') := relabel_n gen (assign_id gen) ide ide a (snd x) in ((fst x, o'), s').
  Lemma assign_node_some s i i' s1 : match i with Some i => assign_id gen s i | None => gen_next gen s end = (i', s1) -> True. Proof. auto. Qed.

  Lemma extend_list_eq s a x l : extend_o fin rnd gen s a x (OList l) =
    (do (l', s') <- map_r_st (fun s y => extend_o fin rnd gen s a (fst y) (snd y)) s l ; Ok ((x, OList l'), s')).
  Proof. reflexivity. Qed.
  Lemma extend_node_eq s a x n : extend_o fin rnd gen s a x (ONode n) = (do (i, s') <- extend_n fin rnd gen s a x n ; Ok ((None, ONode (node_new (Some i))), s')).
  Proof. reflexivity. Qed.
  Lemma extend_mk_eq s a x i ts g inc ps rs : extend_n fin rnd gen s a x (MkNode i ts g inc ps rs) =
          let (i, e) := match i with Some i => assign_id gen (fst s) i | None => gen_next gen (fst s) end in
          do m <- in_graph (snd s) a (fun gr => declare_node gr i x) ;
          do s <- match ts with
                  | Some l => let (l', e) := map_st (assign_id gen) e l in do m <- in_node m a i (set_types l') ; Ok (e, m)
                  | None => Ok (e, m)
                  end ;
          do s <- match g with
                  | Some l =>
                      do (l', s) <- map_r_st (fun s y => extend_o fin rnd gen s (Some i) (fst y) (snd y)) (fst s, declare_graph (snd s) i) l ;
                      do m <- in_node (snd s) a i (extend_graph fin rnd (collect_o fin rnd l')) ; Ok (fst s, m)
                  | None => Ok s
                  end ;
          do s <- match inc with
                  | Some l => do (_, s) <- map_r_st (fun s y => extend_n fin rnd gen s a (fst y) (snd y)) s l ; Ok s
                  | None => Ok s
                  end ;
          do (_, s) <- map_r_st (fun s p =>
                         do (l', s) <- map_r_st (fun s y => extend_o fin rnd gen s a (fst y) (snd y)) s (snd p) ;
                         do m <- in_node (snd s) a i (add_props fin rnd (fst p) l') ; Ok (tt, (fst s, m))) s ps ;
          do s <- match rs with
                  | Some l =>
                      do (_, s) <- map_r_st (fun s p =>
                                     do (_, s) <- map_r_st (fun s y =>
                                                    do (j, s) <- extend_n fin rnd gen s a (fst y) (snd y) ;
                                                    do m <- in_node (snd s) a j (add_props fin rnd (fst p) [(None, ONode (node_new (Some i)))]) ; Ok (tt, (fst s, m))) s (snd p) ;
                                     Ok (tt, s)) s l ; Ok s
                  | None => Ok s
                  end ;
          Ok (i, s).
  Proof. reflexivity. Qed.
  Lemma tr_mk_eq a x i ts g inc ps rs : tr_n a x (MkNode (Some i) ts g inc ps rs) =
        [ODeclare a i x]
        ++ match ts with Some l => [OTypes a i l] | None => [] end
        ++ match g with Some l => OGraph i :: flat_map (fun y => tr_o (Some i) (fst y) (snd y)) l ++ [OEntry a i (map ref_i l)] | None => [] end
        ++ match inc with Some l => flat_map (fun y => tr_n a (fst y) (snd y)) l | None => [] end
        ++ flat_map (fun p => flat_map (fun y => tr_o a (fst y) (snd y)) (snd p) ++ [OProps a i (fst p) (map ref_i (snd p))]) ps
        ++ match rs with
           | Some l => flat_map (fun p => flat_map (fun y => tr_n a (fst y) (snd y) ++ [OProps a (the_id (snd y)) (fst p) [(None, ONode (node_new (Some i)))]]) (snd p)) l
           | None => []
           end.
  Proof. reflexivity. Qed.
  Lemma do_ops_one m o : do_ops m [o] = do_op m o. Proof. cbn. destruct (do_op m o); reflexivity. Qed.
  Lemma bind_assoc {A B C E} (x : result A E) (f : A -> result B E) (g : B -> result C E) : bind (bind x f) g = bind x (fun y => bind (f y) g).
  Proof. destruct x; reflexivity. Qed.
  Lemma bind_ext {A B E} (x : result A E) (f g : A -> result B E) : (forall y, f y = g y) -> bind x f = bind x g.
  Proof. destruct x; cbn; auto. Qed.

  Ltac rw X := match type of X with ?L = _ => match goal with |- context C [map_r_st ?f ?s ?l] => let t := context C [L] in change t; rewrite X; clear X end end.
  Lemma extend_splits :
    (forall o a x, splits (fun s o => extend_o fin rnd gen s a x o) (fun e o => relabel_o gen (assign_id gen) ide ide e o) (tr_o a x) (ref_o x) o) /\
    (forall n a x, splits (fun s n => extend_n fin rnd gen s a x n) (fun e n => relabel_n gen (assign_id gen) ide ide e n) (tr_n a x) the_id n).
  Proof.
    assert (Po : forall (y : iobj) a, (forall a x, splits (fun s o => extend_o fin rnd gen s a x o) (fun e o => relabel_o gen (assign_id gen) ide ide e o) (tr_o a x) (ref_o x) (snd y)) ->
      splits (fun s y => extend_o fin rnd gen s a (fst y) (snd y)) (fun s x => let (o', s') := relabel_o gen (assign_id gen) ide ide s (snd x) in ((fst x, o'), s')) (fun y => tr_o a (fst y) (snd y)) ref_i y).
    { intros y a H e m. rewrite (H a (fst y) e m). destruct (relabel_o gen (assign_id gen) ide ide e (snd y)); reflexivity. }
    assert (Pn : forall (y : inode) a, (forall a x, splits (fun s n => extend_n fin rnd gen s a x n) (fun e n => relabel_n gen (assign_id gen) ide ide e n) (tr_n a x) the_id (snd y)) ->
      splits (fun s y => extend_n fin rnd gen s a (fst y) (snd y)) (fun s x => let (o', s') := relabel_n gen (assign_id gen) ide ide s (snd x) in ((fst x, o'), s')) (fun y => tr_n a (fst y) (snd y)) (fun y => the_id (snd y)) y).
    { intros y a H e m. rewrite (H a (fst y) e m). destruct (relabel_n gen (assign_id gen) ide ide e (snd y)); reflexivity. }
    apply (obj_node_ind (fun o => forall a x, splits (fun s o => extend_o fin rnd gen s a x o) (fun e o => relabel_o gen (assign_id gen) ide ide e o) (tr_o a x) (ref_o x) o)
      (fun n => forall a x, splits (fun s n => extend_n fin rnd gen s a x n) (fun e n => relabel_n gen (assign_id gen) ide ide e n) (tr_n a x) the_id n)).
    - intros v a x e m. reflexivity.
    - intros n IH a x e m. rewrite extend_node_eq, relabel_node_eq, IH. destruct (relabel_n gen (assign_id gen) ide ide e n) as [n' e'].
      change (tr_o a x (ONode n')) with (tr_n a x n'). destruct (do_ops m (tr_n a x n')); reflexivity.
    - intros l IH a x e m. rewrite extend_list_eq, relabel_list_eq.
      assert (F : Forall (splits (fun s y => extend_o fin rnd gen s a (fst y) (snd y)) (fun s x => let (o', s') := relabel_o gen (assign_id gen) ide ide s (snd x) in ((fst x, o'), s')) (fun y => tr_o a (fst y) (snd y)) ref_i) l).
      { eapply Forall_impl; [|exact IH]. intros y H. apply Po, H. }
      pose proof (map_splits _ _ _ _ l F e m) as X. rw X.
      unfold iobj, inode in *; match goal with |- context [map_st ?f e l] => destruct (map_st f e l) as [l' e'] end.
      change (tr_o a x (OList l')) with (flat_map (fun y => tr_o a (fst y) (snd y)) l'). destruct (do_ops m _); reflexivity.
    - intros i ts g inc ps rs Hg Hi Hp Hr a x e m. rewrite extend_mk_eq, relabel_mk_eq. cbn [fst snd].
      destruct (match i with Some i => assign_id gen e i | None => gen_next gen e end) as [i' e1].
      match goal with |- context [let (ts', s2) := ?t in let (g', s3) := _ in _] => set (TS := t) end.
      assert (X2 : forall m, match ts with
                  | Some l => let (l', e) := map_st (assign_id gen) e1 l in do m <- in_node m a i' (set_types l') ; Ok (e, m)
                  | None => Ok (e1, m)
                  end = (do m' <- do_ops m (match fst TS with Some l => [OTypes a i' l] | None => [] end) ; Ok (snd TS, m'))).
      { intros m0. unfold TS. destruct ts as [l|]; [|reflexivity]. destruct (map_st (assign_id gen) e1 l) as [l' e2]. cbn [fst snd]. rewrite do_ops_one. reflexivity. }
      destruct TS as [ts' e2]. cbn [fst snd] in X2.
      match goal with |- context [let (g', s3) := ?t in let (inc', s4) := _ in _] => set (TS := t) end.
      assert (X3 : forall m, match g with
                  | Some l =>
                      do (l', s) <- map_r_st (fun s y => extend_o fin rnd gen s (Some i') (fst y) (snd y)) (e2, declare_graph m i') l ;
                      do m <- in_node (snd s) a i' (extend_graph fin rnd (collect_o fin rnd l')) ; Ok (fst s, m)
                  | None => Ok (e2, m)
                  end = (do m' <- do_ops m (match fst TS with Some l => OGraph i' :: flat_map (fun y => tr_o (Some i') (fst y) (snd y)) l ++ [OEntry a i' (map ref_i l)] | None => [] end) ; Ok (snd TS, m'))).
      { intros m0. unfold TS. destruct g as [l|]; [|reflexivity].
        assert (F : Forall (splits (fun s y => extend_o fin rnd gen s (Some i') (fst y) (snd y)) (fun s x => let (o', s') := relabel_o gen (assign_id gen) ide ide s (snd x) in ((fst x, o'), s')) (fun y => tr_o (Some i') (fst y) (snd y)) ref_i) l).
        { eapply Forall_impl; [|exact Hg]. intros y H. apply Po, H. }
        pose proof (map_splits _ _ _ _ l F e2 (declare_graph m0 i')) as X. rw X.
        unfold iobj, inode in *; match goal with |- context [map_st ?f e2 l] => destruct (map_st f e2 l) as [l' e3] end.
        cbn [fst snd do_ops do_op bind]. rewrite do_ops_app. unfold ide. unfold iobj. destruct (do_ops (declare_graph m0 i') _) as [m1|]; [|reflexivity]. cbn [bind fst snd].
        rewrite do_ops_one. cbn [do_op]. unfold iobj. destruct (in_node m1 a i' _); reflexivity. }
      destruct TS as [g' e3]. cbn [fst snd] in X3.
      match goal with |- context [let (inc', s4) := ?t in let (ps', s5) := _ in _] => set (TS := t) end.
      assert (X4 : forall m, match inc with
                  | Some l => do (_, s) <- map_r_st (fun s y => extend_n fin rnd gen s a (fst y) (snd y)) (e3, m) l ; Ok s
                  | None => Ok (e3, m)
                  end = (do m' <- do_ops m (match fst TS with Some l => flat_map (fun y => tr_n a (fst y) (snd y)) l | None => [] end) ; Ok (snd TS, m'))).
      { intros m0. unfold TS. destruct inc as [l|]; [|reflexivity].
        assert (F : Forall (splits (fun s y => extend_n fin rnd gen s a (fst y) (snd y)) (fun s x => let (o', s') := relabel_n gen (assign_id gen) ide ide s (snd x) in ((fst x, o'), s')) (fun y => tr_n a (fst y) (snd y)) (fun y => the_id (snd y))) l).
        { eapply Forall_impl; [|exact Hi]. intros y H. apply Pn, H. }
        pose proof (map_splits _ _ _ _ l F e3 m0) as X. rw X.
        unfold iobj, inode in *; match goal with |- context [map_st ?f e3 l] => destruct (map_st f e3 l) as [l' e4] end.
        cbn [fst snd]. unfold ide, inode. destruct (do_ops m0 _); reflexivity. }
      destruct TS as [inc' e4]. cbn [fst snd] in X4.
      match goal with |- context [let (ps', s5) := ?t in let (rs', s6) := _ in _] => set (TS := t) end.
      assert (X5 : forall m, map_r_st (fun s p =>
                         do (l', s) <- map_r_st (fun s y => extend_o fin rnd gen s a (fst y) (snd y)) s (snd p) ;
                         do m <- in_node (snd s) a i' (add_props fin rnd (fst p) l') ; Ok (tt, (fst s, m))) (e4, m) ps
                  = (do m' <- do_ops m (flat_map (fun p => flat_map (fun y => tr_o a (fst y) (snd y)) (snd p) ++ [OProps a i' (fst p) (map ref_i (snd p))]) (fst TS)) ; Ok (map (fun _ => tt) (fst TS), (snd TS, m')))).
      { intros m0. unfold TS.
        assert (F : Forall (splits (fun s p => do (l', s) <- map_r_st (fun s y => extend_o fin rnd gen s a (fst y) (snd y)) s (snd p) ;
                         do m <- in_node (snd s) a i' (add_props fin rnd (fst p) l') ; Ok (tt, (fst s, m)))
            (fun s (p : id * list iobj) => let (l', s') := map_st (fun s x => let (o', s') := relabel_o gen (assign_id gen) ide ide s (snd x) in ((fst x, o'), s')) s (snd p) in ((fst p, l'), s'))
            (fun p => flat_map (fun y => tr_o a (fst y) (snd y)) (snd p) ++ [OProps a i' (fst p) (map ref_i (snd p))]) (fun _ => tt)) ps).
        { eapply Forall_impl; [|exact Hp]. intros p H e0 m1.
          assert (F : Forall (splits (fun s y => extend_o fin rnd gen s a (fst y) (snd y)) (fun s x => let (o', s') := relabel_o gen (assign_id gen) ide ide s (snd x) in ((fst x, o'), s')) (fun y => tr_o a (fst y) (snd y)) ref_i) (snd p)).
          { eapply Forall_impl; [|exact H]. intros y H'. apply Po, H'. }
          pose proof (map_splits _ _ _ _ (snd p) F e0 m1) as X. rw X.
          unfold iobj, inode in *; match goal with |- context [map_st ?f e0 (snd p)] => destruct (map_st f e0 (snd p)) as [l' e5] end.
          cbn [fst snd]. rewrite do_ops_app. unfold iobj. destruct (do_ops m1 _) as [m2|]; [|reflexivity]. cbn [bind fst snd]. rewrite do_ops_one. cbn [do_op].
          unfold iobj. destruct (in_node m2 a i' _); reflexivity. }
        pose proof (map_splits _ _ _ _ ps F e4 m0) as X. rw X.
        unfold iobj, inode in *; match goal with |- context [map_st ?f e4 ps] => destruct (map_st f e4 ps) as [l' e5] end. reflexivity. }
      destruct TS as [ps' e5]. cbn [fst snd] in X5.
      match goal with |- context [let (rs', s6) := ?t in (MkNode _ _ _ _ _ _, _)] => set (TS := t) end.
      assert (X6 : forall m, match rs with
                  | Some l =>
                      do (_, s) <- map_r_st (fun s p =>
                                     do (_, s) <- map_r_st (fun s y =>
                                                    do (j, s) <- extend_n fin rnd gen s a (fst y) (snd y) ;
                                                    do m <- in_node (snd s) a j (add_props fin rnd (fst p) [(None, ONode (node_new (Some i')))]) ; Ok (tt, (fst s, m))) s (snd p) ;
                                     Ok (tt, s)) (e5, m) l ; Ok s
                  | None => Ok (e5, m)
                  end = (do m' <- do_ops m (match fst TS with
           | Some l => flat_map (fun p => flat_map (fun y => tr_n a (fst y) (snd y) ++ [OProps a (the_id (snd y)) (fst p) [(None, ONode (node_new (Some i')))]]) (snd p)) l
           | None => [] end) ; Ok (snd TS, m'))).
      { intros m0. unfold TS. destruct rs as [l|]; [|reflexivity].
        assert (F : Forall (splits (fun s p => do (_, s) <- map_r_st (fun s y =>
                                                    do (j, s) <- extend_n fin rnd gen s a (fst y) (snd y) ;
                                                    do m <- in_node (snd s) a j (add_props fin rnd (fst p) [(None, ONode (node_new (Some i')))]) ; Ok (tt, (fst s, m))) s (snd p) ; Ok (tt, s))
            (fun s (p : id * list inode) => let (l', s') := map_st (fun s x => let (o', s') := relabel_n gen (assign_id gen) ide ide s (snd x) in ((fst x, o'), s')) s (snd p) in ((fst p, l'), s'))
            (fun p => flat_map (fun y => tr_n a (fst y) (snd y) ++ [OProps a (the_id (snd y)) (fst p) [(None, ONode (node_new (Some i')))]]) (snd p)) (fun _ => tt)) l).
        { eapply Forall_impl; [|exact Hr]. intros p H e0 m1.
          assert (F : Forall (splits (fun s y => do (j, s) <- extend_n fin rnd gen s a (fst y) (snd y) ;
                                                    do m <- in_node (snd s) a j (add_props fin rnd (fst p) [(None, ONode (node_new (Some i')))]) ; Ok (tt, (fst s, m)))
            (fun s x => let (o', s') := relabel_n gen (assign_id gen) ide ide s (snd x) in ((fst x, o'), s')) (fun y => tr_n a (fst y) (snd y) ++ [OProps a (the_id (snd y)) (fst p) [(None, ONode (node_new (Some i')))]]) (fun _ => tt)) (snd p)).
          { eapply Forall_impl; [|exact H]. intros y H' e6 m2. rewrite (H' a (fst y) e6 m2). destruct (relabel_n gen (assign_id gen) ide ide e6 (snd y)) as [n' e7]. cbn [fst snd].
            rewrite do_ops_app. destruct (do_ops m2 (tr_n a (fst y) n')) as [m3|]; [|reflexivity]. cbn [bind fst snd]. rewrite do_ops_one. cbn [do_op]. reflexivity. }
          pose proof (map_splits _ _ _ _ (snd p) F e0 m1) as X. rw X.
          unfold iobj, inode in *; match goal with |- context [map_st ?f e0 (snd p)] => destruct (map_st f e0 (snd p)) as [l' e6] end.
          cbn [fst snd]. unfold inode. destruct (do_ops m1 _) as [m2|]; reflexivity. }
        pose proof (map_splits _ _ _ _ l F e5 m0) as X. rw X.
        unfold iobj, inode in *; match goal with |- context [map_st ?f e5 l] => destruct (map_st f e5 l) as [l' e6] end. cbn [fst snd]. unfold inode. destruct (do_ops m0 _); reflexivity. }
      destruct TS as [rs' e6]. cbn [fst snd] in X6.
      rewrite tr_mk_eq. cbn [app do_ops do_op the_id n_id]. unfold iobj, inode in *.
      destruct (in_graph m a (fun gr => declare_node gr i' x)) as [m1|]; [|reflexivity]. cbn [bind]. rewrite X2.
      rewrite !do_ops_app. destruct (do_ops m1 _) as [m2|]; [|reflexivity]. cbn [bind fst snd]. rewrite X3.
      rewrite !do_ops_app. destruct (do_ops m2 _) as [m3|]; [|reflexivity]. cbn [bind fst snd]. rewrite X4.
      rewrite !do_ops_app. destruct (do_ops m3 _) as [m4|]; [|reflexivity]. cbn [bind fst snd]. rewrite X5.
      rewrite !do_ops_app. destruct (do_ops m4 _) as [m5|]; [|reflexivity]. cbn [bind fst snd]. rewrite X6.
      destruct (do_ops m5 _); reflexivity.
  Qed.

  Lemma node_map_trace d : node_map fin rnd gen d = do_ops nmap0 (tr_doc (fst (relabel_l gen (assign_id gen) ide ide env0 d))).
  Proof.
    unfold node_map, relabel_l, tr_doc.
    assert (F : Forall (splits (fun s (y : iobj) => extend_o fin rnd gen s None (fst y) (snd y)) (fun s (x : iobj) => let (o', s') := relabel_o gen (assign_id gen) ide ide s (snd x) in ((fst x, o'), s')) (fun y => tr_o None (fst y) (snd y)) ref_i) d).
    { apply Forall_forall. intros y _ e m. rewrite (proj1 extend_splits (snd y) None (fst y) e m). destruct (relabel_o gen (assign_id gen) ide ide e (snd y)); reflexivity. }
    pose proof (map_splits _ _ _ _ d F env0 nmap0) as X. rw X.
    unfold iobj, inode in *; match goal with |- context [map_st ?f env0 d] => destruct (map_st f env0 d) as [d' e'] end. cbn [fst].
    destruct (do_ops nmap0 _); reflexivity.
  Qed.
End Trace.

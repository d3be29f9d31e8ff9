(** What the iterators over the quads of a document yield. *)
From Verif Require Import Prelude Json Enums LangTag LangString Str Keyword Container ContextSyntax Ctx Object Flatten Rdf.
From Coq Require Import Lia Arith.

(** [f] gives [r] with enough fuel. *)
Definition evn {A} (f : nat -> option A) (r : A) : Prop := exists N, forall n, N <= n -> f n = Some r.
Lemma evn_S {A} (f : nat -> option A) r : evn (fun n => f (S n)) r -> evn f r.
Proof. intros [N H]. exists (S N). intros [|n] L; [lia|]. apply H. lia. Qed.
Lemma evn_ext {A} (f g : nat -> option A) r : (forall n, f n = g n) -> evn f r -> evn g r.
Proof. intros E [N H]. exists N. intros n L. rewrite <- E. apply H, L. Qed.
Lemma evn_const {A} (r : A) : evn (fun _ => Some r) r. Proof. exists 0. reflexivity. Qed.
Lemma evn_bind {A B} (f : nat -> option A) (x : A) (g : nat -> A -> option B) (r : B) :
  evn f x -> evn (fun n => g n x) r -> evn (fun n => match f n with Some y => g n y | None => None end) r.
Proof. intros [N H] [M K]. exists (N + M). intros n L. rewrite H by lia. apply K. lia. Qed.

(** ** JSON-LD quads *)
Fixpoint ld_n (g : option id) (n : node) : list ldquad :=
  match n with
  | MkNode (Some i) ts gr inc ps rs =>
      match ts with Some l => map (fun t => MkLq g i LType (LRef t)) l | None => [] end
      ++ flat_map (fun p => flat_map (fun y => MkLq g i (LProp (fst p)) (LObj (snd y)) :: ld_ob g (snd y)) (snd p)) ps
      ++ match rs with
         | Some l => flat_map (fun p => flat_map (fun y => match n_id (snd y) with Some j => [MkLq g j (LProp (fst p)) (LNode n)] | None => [] end ++ ld_n g (snd y)) (snd p)) l
         | None => []
         end
      ++ match inc with Some l => flat_map (fun y => ld_n g (snd y)) l | None => [] end
      ++ match gr with Some l => flat_map (fun y => ld_ob (Some i) (snd y)) l | None => [] end
  | MkNode None _ _ _ _ _ => []
  end
with ld_ob (g : option id) (o : obj) : list ldquad :=
    match o with
    | OVal _ => []
    | ONode n => ld_n g n
    | OList l => flat_map (fun y => ld_ob g (snd y)) l
    end.

Definition fr_out (f : frame) : list ldquad :=
  match f with
  | FrObjects g l => flat_map (fun y => ld_ob g (snd y)) l
  | FrNodes g l => flat_map (fun y => ld_n g (snd y)) l
  | FrTypes g s l => map (fun t => MkLq g s LType (LRef t)) l
  | FrProps g s l => flat_map (fun p => flat_map (fun y => MkLq g s (LProp (fst p)) (LObj (snd y)) :: ld_ob g (snd y)) (snd p)) l
  | FrReverse g n l => flat_map (fun p => flat_map (fun y => match n_id (snd y) with Some j => [MkLq g j (LProp (fst p)) (LNode n)] | None => [] end ++ ld_n g (snd y)) (snd p)) l
  | FrPropObjects g s p l => flat_map (fun y => MkLq g s (LProp p) (LObj (snd y)) :: ld_ob g (snd y)) l
  | FrSubjects g n p l => flat_map (fun y => match n_id (snd y) with Some j => [MkLq g j (LProp p) (LNode n)] | None => [] end ++ ld_n g (snd y)) l
  end.

Inductive ld_yields : list frame -> list ldquad -> Prop :=
| LyEnd : ld_yields [] []
| LySkip f st st' L : ld_step f st = (None, st') -> ld_yields st' L -> ld_yields (f :: st) L
| LyEmit f st st' q L : ld_step f st = (Some q, st') -> ld_yields st' L -> ld_yields (f :: st) (q :: L).

(** Frames over a list, given what their items do. *)
Section Frames.
  Variable st : list frame.
  Variable L : list ldquad.
  Hypothesis HL : ld_yields st L.
  Lemma fr_types g s l : ld_yields (FrTypes g s l :: st) (map (fun t => MkLq g s LType (LRef t)) l ++ L).
  Proof. induction l as [|t l IH]; [eapply LySkip; [reflexivity|exact HL]|]. eapply LyEmit; [reflexivity|exact IH]. Qed.
End Frames.
Definition o_ok (o : obj) : Prop := forall g st L, ld_yields st L -> ld_yields (push_object g o st) (ld_ob g o ++ L).
Definition n_ok (n : node) : Prop := forall g st L, ld_yields st L -> ld_yields (push_node g n st) (ld_n g n ++ L).
Lemma fr_objects g l st L : Forall (fun y => o_ok (snd y)) l -> ld_yields st L -> ld_yields (FrObjects g l :: st) (flat_map (fun y => ld_ob g (snd y)) l ++ L).
Proof.
  intros F H. induction F as [|y l O F IH]; [eapply LySkip; [reflexivity|exact H]|].
  eapply LySkip; [reflexivity|]. cbn [flat_map]. rewrite <- app_assoc. apply O, IH.
Qed.
Lemma fr_nodes g l st L : Forall (fun y => n_ok (snd y)) l -> ld_yields st L -> ld_yields (FrNodes g l :: st) (flat_map (fun y => ld_n g (snd y)) l ++ L).
Proof.
  intros F H. induction F as [|y l O F IH]; [eapply LySkip; [reflexivity|exact H]|].
  eapply LySkip; [reflexivity|]. cbn [flat_map]. rewrite <- app_assoc. apply O, IH.
Qed.
Lemma fr_prop_objects g s p l st L : Forall (fun y => o_ok (snd y)) l -> ld_yields st L -> ld_yields (FrPropObjects g s p l :: st) (fr_out (FrPropObjects g s p l) ++ L).
Proof.
  intros F H. induction F as [|y l O F IH]; [eapply LySkip; [reflexivity|exact H]|].
  cbn [fr_out flat_map app]. eapply LyEmit; [reflexivity|]. rewrite <- app_assoc. apply O, IH.
Qed.
Lemma fr_subjects g n p l st L : Forall (fun y => n_ok (snd y)) l -> ld_yields st L -> ld_yields (FrSubjects g n p l :: st) (fr_out (FrSubjects g n p l) ++ L).
Proof.
  intros F H. induction F as [|y l O F IH]; [eapply LySkip; [reflexivity|exact H]|].
  cbn [fr_out flat_map]. destruct (n_id (snd y)) as [j|] eqn:E.
  - cbn [app]. eapply LyEmit; [cbn [ld_step]; rewrite E; reflexivity|]. rewrite <- !app_assoc. apply O, IH.
  - eapply LySkip; [cbn [ld_step]; rewrite E; reflexivity|]. rewrite <- !app_assoc. apply O, IH.
Qed.
Lemma fr_props g s l st L : Forall (fun p => Forall (fun y => o_ok (snd y)) (snd p)) l -> ld_yields st L -> ld_yields (FrProps g s l :: st) (fr_out (FrProps g s l) ++ L).
Proof.
  intros F H. induction F as [|p l O F IH]; [eapply LySkip; [reflexivity|exact H]|].
  eapply LySkip; [reflexivity|]. cbn [fr_out flat_map]. rewrite <- app_assoc. apply (fr_prop_objects g s (fst p)); [exact O|exact IH].
Qed.
Lemma fr_reverse g n l st L : Forall (fun p => Forall (fun y => n_ok (snd y)) (snd p)) l -> ld_yields st L -> ld_yields (FrReverse g n l :: st) (fr_out (FrReverse g n l) ++ L).
Proof.
  intros F H. induction F as [|p l O F IH]; [eapply LySkip; [reflexivity|exact H]|].
  eapply LySkip; [reflexivity|]. cbn [fr_out flat_map]. rewrite <- app_assoc. apply (fr_subjects g n (fst p)); [exact O|exact IH].
Qed.
Lemma ld_ok : (forall o, o_ok o) /\ (forall n, n_ok n).
Proof.
  apply (obj_node_ind o_ok n_ok).
  - intros v g st L H. exact H.
  - intros n IH g st L H. exact (IH g st L H).
  - intros l IH g st L H. apply fr_objects; assumption.
  - intros i ts gr inc ps rs Hg Hi Hp Hr g st L H. destruct i as [i|]; [|exact H].
    cbn [push_node ld_n]. rewrite <- !app_assoc.
    assert (A1 : ld_yields (match gr with Some l => [FrObjects (Some i) l] | None => [] end ++ st)
      (match gr with Some l => flat_map (fun y => ld_ob (Some i) (snd y)) l | None => [] end ++ L))
      by (destruct gr as [l|]; [apply fr_objects; [exact Hg|exact H]|exact H]).
    assert (A2 : ld_yields (match inc with Some l => [FrNodes g l] | None => [] end ++ match gr with Some l => [FrObjects (Some i) l] | None => [] end ++ st)
      (match inc with Some l => flat_map (fun y => ld_n g (snd y)) l | None => [] end ++ match gr with Some l => flat_map (fun y => ld_ob (Some i) (snd y)) l | None => [] end ++ L))
      by (destruct inc as [l|]; [apply fr_nodes; [exact Hi|exact A1]|exact A1]).
    set (st2 := match inc with Some l => _ | None => _ end ++ _) in *. set (L2 := match inc with Some l => flat_map _ l | None => _ end ++ _) in *.
    assert (A3 : forall m, ld_yields (match rs with Some l => [FrReverse g m l] | None => [] end ++ st2)
      (match rs with Some l => fr_out (FrReverse g m l) | None => [] end ++ L2)).
    { intros m. destruct rs as [l|]; [|exact A2]. apply fr_reverse; [exact Hr|exact A2]. }
    specialize (A3 (MkNode (Some i) ts gr inc ps rs)).
    pose proof (fr_props g i ps _ _ Hp A3) as A4.
    destruct ts as [ts|]; [|exact A4]. exact (fr_types _ _ A4 g i ts).
Qed.

Definition frames_out (st : list frame) : list ldquad := flat_map fr_out st.
Theorem frames_yield st : ld_yields st (frames_out st).
Proof.
  destruct ld_ok as [Ho Hn].
  induction st as [|f st IH]; [constructor|]. cbn [frames_out flat_map].
  assert (FO : forall l, Forall (fun y : iobj => o_ok (snd y)) l) by (induction l; constructor; auto).
  assert (FN : forall l, Forall (fun y : inode => n_ok (snd y)) l) by (induction l; constructor; auto).
  destruct f.
  - apply fr_objects; auto.
  - apply fr_nodes; auto.
  - apply fr_types; auto.
  - apply fr_props; auto. induction l; constructor; auto.
  - apply fr_reverse; auto. induction l; constructor; auto.
  - apply fr_prop_objects; auto.
  - apply fr_subjects; auto.
Qed.

Lemma ld_yields_next st L : ld_yields st L ->
  match L with
  | [] => evn (fun n => ld_next n st) (None, [])
  | q :: L' => exists st', evn (fun n => ld_next n st) (Some q, st') /\ ld_yields st' L'
  end.
Proof.
  induction 1 as [|f st st' L S H IH|f st st' q L S H IH].
  - apply evn_S, evn_const.
  - destruct L as [|q L].
    + apply evn_S. cbn [ld_next]. rewrite S. exact IH.
    + destruct IH as (st2 & E & Y). exists st2. split; [|exact Y]. apply evn_S. cbn [ld_next]. rewrite S. exact E.
  - exists st'. split; [|exact H]. apply evn_S. cbn [ld_next]. rewrite S. apply evn_const.
Qed.

(** ** Lists *)
Definition r_first : vid := VIri (rdf "first").
Definition r_rest : vid := VIri (rdf "rest").
Definition r_nil : vid := VIri (rdf "nil").
Section Triples.
  Variables (io : rdf_io) (gen : nat -> vid) (dir : option rdf_direction) (generalized : bool).

  Definition link (prev : option vid) (i : vid) : list triple := match prev with Some p => [(p, r_rest, RId i)] | None => [] end.
  Definition close (prev : option vid) : list triple := match prev with Some p => [(p, r_rest, RId r_nil)] | None => [] end.
  Section Items.
    Variable rec : obj -> vid -> nat -> list triple * nat.
    Fixpoint trips_items (prev head : option vid) (l : list iobj) (k : nat) : list triple * nat :=
      match l with
      | [] => (close prev, k)
      | x :: l' =>
          let (i, k1) := match head with Some h => (h, k) | None => (gen k, S k) end in
          match object_rdf io gen dir k1 (snd x) with
          | (Some (r, t), k2) =>
              let (n, k3) := match t with Some (h, _) => rec (snd x) h k2 | None => ([], k2) end in
              let (m, k4) := trips_items (Some i) None l' k3 in
              (link prev i ++ (i, r_first, r) :: n ++ m, k4)
          | (None, k2) => trips_items (Some i) None l' k2
          end
      end.
  End Items.
  Fixpoint trips (o : obj) (h : vid) (k : nat) : list triple * nat :=
    match o with OList l => trips_items trips None (Some h) l k | _ => ([], k) end.

  Inductive lt_yields : nat -> lstate -> list triple -> nat -> Prop :=
  | TyEnd k : lt_yields k (None, []) [] k
  | TySkip k s k' s' L k2 : lt_step io gen dir k s = inr (s', k') -> lt_yields k' s' L k2 -> lt_yields k s L k2
  | TyEmit k s k' s' t L k2 : lt_step io gen dir k s = inl (Some t, s', k') -> lt_yields k' s' L k2 -> lt_yields k s (t :: L) k2.

  Lemma object_rdf_list k o r h l k' : object_rdf io gen dir k o = (Some (r, Some (h, l)), k') -> o = OList l /\ l <> [] /\ r = RId (gen k) /\ h = gen k /\ k' = S k.
  Proof.
    destruct o as [v|n|[|y l']]; cbn [object_rdf].
    - destruct (value_rdf io gen dir k v) as [[r'|] k2]; discriminate.
    - destruct (id_rdf (n_id n)); discriminate.
    - discriminate.
    - intros [= <- <- <- <-]. repeat split. discriminate.
  Qed.

  Definition o_trips (o : obj) : Prop := forall h k st L k2 T k1 l, o = OList l -> trips o h k = (T, k1) -> lt_yields k1 (None, st) L k2 ->
    lt_yields k (None, MkNested (Some h) None l :: st) (T ++ L) k2.
  Lemma items_yield l : Forall (fun y => o_trips (snd y)) l -> forall head prev k st L k2 T k1,
    trips_items trips prev head l k = (T, k1) -> lt_yields k1 (None, st) L k2 ->
    lt_yields k (None, MkNested head prev l :: st) (T ++ L) k2.
  Proof.
    induction 1 as [|x l O F IH]; intros head prev k st L k2 T k1 E Y.
    - cbn in E. injection E as <- <-. destruct prev as [p|]; cbn [close app]; [eapply TyEmit; [reflexivity|exact Y]|eapply TySkip; [reflexivity|exact Y]].
    - cbn [trips_items] in E.
      destruct (match head with Some h => (h, k) | None => (gen k, S k) end) as [i k3] eqn:Ei.
      destruct (object_rdf io gen dir k3 (snd x)) as [[[r t]|] k4] eqn:Er.
      + destruct (match t with Some (h, _) => trips (snd x) h k4 | None => ([], k4) end) as [n k5] eqn:En.
        destruct (trips_items trips (Some i) None l k5) as [m k6] eqn:Em. injection E as <- <-.
        pose proof (IH _ _ _ _ _ _ _ _ Em Y) as Y2.
        assert (Y3 : lt_yields k4 (None, match t with Some (h', l') => MkNested (Some h') None l' :: MkNested None (Some i) l :: st | None => MkNested None (Some i) l :: st end) (n ++ m ++ L) k2).
        { destruct t as [[h' l']|]; [|injection En as <- <-; exact Y2].
          destruct (object_rdf_list _ _ _ _ _ _ Er) as (Eo & _). exact (O _ _ _ _ _ _ _ _ Eo En Y2). }
        assert (Y4 : lt_yields k4 (Some (i, r_first, r), match t with Some (h', l') => MkNested (Some h') None l' :: MkNested None (Some i) l :: st | None => MkNested None (Some i) l :: st end) ((i, r_first, r) :: n ++ m ++ L) k2)
          by (eapply TyEmit; [reflexivity|exact Y3]).
        rewrite <- app_assoc. cbn [app]. rewrite <- app_assoc.
        destruct prev as [p|]; cbn [link app].
        * eapply TyEmit; [|exact Y4]. cbn [lt_step]. rewrite Ei, Er. reflexivity.
        * eapply TySkip; [|exact Y4]. cbn [lt_step]. rewrite Ei, Er. reflexivity.
      + pose proof (IH _ _ _ _ _ _ _ _ E Y) as Y2. eapply TySkip; [|exact Y2]. cbn [lt_step]. rewrite Ei, Er. reflexivity.
  Qed.
  Lemma all_o_trips : (forall o, o_trips o) /\ (forall n : node, True).
  Proof.
    apply (obj_node_ind o_trips (fun _ => True)); try (intros; exact I).
    - intros v h k st L k2 T k1 l E. discriminate.
    - intros n _ h k st L k2 T k1 l E. discriminate.
    - intros l F h k st L k2 T k1 l' [= <-] E Y. cbn in E. exact (items_yield l F _ _ _ _ _ _ _ _ E Y).
  Qed.
  Lemma list_yields l h k : lt_yields k (list_triples h l) (fst (trips (OList l) h k)) (snd (trips (OList l) h k)).
  Proof.
    destruct (trips (OList l) h k) as [T k1] eqn:E. rewrite <- (app_nil_r (fst _)).
    exact (proj1 all_o_trips _ _ _ _ _ _ _ _ _ eq_refl E (TyEnd _)).
  Qed.

  Lemma lt_yields_next k s L k2 : lt_yields k s L k2 ->
    match L with
    | [] => exists s', evn (fun n => lt_next io gen dir n k s) (None, s', k2)
    | t :: L' => exists s' k', evn (fun n => lt_next io gen dir n k s) (Some t, s', k') /\ lt_yields k' s' L' k2
    end.
  Proof.
    induction 1 as [k|k s k' s' L k2 S H IH|k s k' s' t L k2 S H IH].
    - eexists. apply evn_S, evn_const.
    - destruct L as [|t L].
      + destruct IH as [s2 IH]. exists s2. apply evn_S. cbn [lt_next]. rewrite S. exact IH.
      + destruct IH as (s2 & k3 & E & Y). exists s2, k3. split; [|exact Y]. apply evn_S. cbn [lt_next]. rewrite S. exact E.
    - exists s', k'. split; [|exact H]. apply evn_S. cbn [lt_next]. rewrite S. apply evn_const.
  Qed.
  Lemma lt_yields_all k s L k2 : lt_yields k s L k2 -> evn (fun n => lt_all io gen dir n k s) (L, k2).
  Proof.
    revert k s. induction L as [|t L IH]; intros k s Y; pose proof (lt_yields_next _ _ _ _ Y) as N.
    - destruct N as [s' N]. apply evn_S. cbn [lt_all]. refine (evn_bind _ _ (fun n r => match r with (Some t, s', k') => match lt_all io gen dir n k' s' with Some (l, k2) => Some (t :: l, k2) | None => None end | (None, _, k') => Some ([], k') end) _ N _). apply evn_const.
    - destruct N as (s' & k' & N & Y'). apply evn_S. cbn [lt_all].
      refine (evn_bind _ _ (fun n r => match r with (Some t, s', k') => match lt_all io gen dir n k' s' with Some (l, k2) => Some (t :: l, k2) | None => None end | (None, _, k') => Some ([], k') end) _ N _).
      destruct (IH _ _ Y') as [M E]. exists M. intros n Hn. rewrite (E n Hn). reflexivity.
  Qed.

  (** The triples of lists are about [rdf:first] and [rdf:rest]. *)
  Lemma trips_pred : (forall o h k, Forall (fun t => snd (fst t) = r_first \/ snd (fst t) = r_rest) (fst (trips o h k))) /\ (forall n : node, True).
  Proof.
    apply (obj_node_ind (fun o => forall h k, Forall (fun t => snd (fst t) = r_first \/ snd (fst t) = r_rest) (fst (trips o h k))) (fun _ => True));
      try (intros; exact I); try (intros; constructor).
    intros l F h k. cbn [trips]. generalize (Some h) as hd, (@None vid) as prev. intros hd prev. revert prev hd k.
    induction F as [|x l O F IH]; intros prev hd k; cbn [trips_items].
    - destruct prev; cbn; repeat constructor; right; reflexivity.
    - destruct (match hd with Some h => _ | None => _ end) as [i k1]. destruct (object_rdf io gen dir k1 (snd x)) as [[[r t]|] k2]; [|apply IH].
      destruct (match t with Some (h', _) => trips (snd x) h' k2 | None => ([], k2) end) as [n k3] eqn:En.
      specialize (IH (Some i) None k3). destruct (trips_items trips (Some i) None l k3) as [m k4]. cbn [fst] in *.
      apply Forall_app. split; [destruct prev; cbn; repeat constructor; right; reflexivity|].
      constructor; [left; reflexivity|]. apply Forall_app. split; [|exact IH].
      destruct t as [[h' l']|]; [|injection En as <- _; constructor]. specialize (O h' k2). rewrite En in O. exact O.
  Qed.

  (** ** The quads *)
  Definition conv (q : ldquad) (k : nat) : list quad * nat :=
    match spo generalized q with
    | None => ([], k)
    | Some (g, s, p) =>
        match ldobj_rdf io gen dir k (lq_object q) with
        | (None, k') => ([], k')
        | (Some (r, None), k') => ([(s, p, r, g)], k')
        | (Some (r, Some (h, l)), k') => let (T, k2) := trips (OList l) h k' in ((s, p, r, g) :: map (fun t => (t, g)) T, k2)
        end
    end.
  Fixpoint conv_all (l : list ldquad) (k : nat) : list quad :=
    match l with [] => [] | q :: l' => fst (conv q k) ++ conv_all l' (snd (conv q k)) end.

  Inductive q_yields : qstate -> list quad -> Prop :=
  | QyEnd s s' : evn (fun n => q_next io gen dir generalized n s) (None, s') -> q_yields s []
  | QyEmit s s' q L : evn (fun n => q_next io gen dir generalized n s) (Some q, s') -> q_yields s' L -> q_yields s (q :: L).
  Lemma q_yields_all s L : q_yields s L -> evn (fun n => q_all io gen dir generalized n s) L.
  Proof.
    induction 1 as [s s' E|s s' q L E Y IH].
    - apply evn_S. cbn [q_all]. refine (evn_bind _ _ (fun n r => match r with (Some q, s') => option_map (cons q) (q_all io gen dir generalized n s') | (None, _) => Some [] end) _ E _). apply evn_const.
    - apply evn_S. cbn [q_all]. refine (evn_bind _ _ (fun n r => match r with (Some q, s') => option_map (cons q) (q_all io gen dir generalized n s') | (None, _) => Some [] end) _ E _).
      destruct IH as [N IH]. exists N. intros n Hn. rewrite IH by exact Hn. reflexivity.
  Qed.
  Lemma q_yields_skip s s' L : (forall x, evn (fun n => q_next io gen dir generalized n s') x -> evn (fun n => q_next io gen dir generalized n s) x) -> q_yields s' L -> q_yields s L.
  Proof. intros H Y. inversion Y as [? ? E|? ? ? ? E Y']; subst; [eapply QyEnd, H, E|eapply QyEmit; [apply H, E|exact Y']]. Qed.

  (** 83-126, with what [from_quads] does made explicit. *)
  Definition from_quads (n : nat) (s : qstate) : option (option quad * qstate) :=
    match ld_next n (qs_quads s) with
    | None => None
    | Some (None, st) => Some (None, MkQs (qs_gen s) (qs_compound s) st)
    | Some (Some q, st) =>
        match spo generalized q with
        | None => q_next io gen dir generalized n (MkQs (qs_gen s) (qs_compound s) st)
        | Some (g, sb, p) =>
            match ldobj_rdf io gen dir (qs_gen s) (lq_object q) with
            | (Some (r, t), k) =>
                let c := match t with Some (h, l) => Some (g, list_triples h l) | None => qs_compound s end in
                Some (Some (sb, p, r, g), MkQs k c st)
            | (None, k) => q_next io gen dir generalized n (MkQs k (qs_compound s) st)
            end
        end
    end.
  Lemma q_next_S n s : q_next io gen dir generalized (S n) s =
    match qs_compound s with
    | Some (g, ls) =>
        match lt_next io gen dir n (qs_gen s) ls with
        | None => None
        | Some (Some (sb, p, o), ls', k) =>
            let s' := MkQs k (Some (g, ls')) (qs_quads s) in
            if generalized || negb (is_blank p) then Some (Some (sb, p, o, g), s') else from_quads n s'
        | Some (None, _, k) => from_quads n (MkQs k None (qs_quads s))
        end
    | None => from_quads n s
    end.
  Proof. reflexivity. Qed.

  Definition after (k : nat) (c : option (option vid * lstate)) (T : list quad) (k' : nat) : Prop :=
    match c with
    | None => T = [] /\ k' = k
    | Some (g, ls) => exists L, lt_yields k ls L k' /\ T = map (fun t => (t, g)) L /\ Forall (fun t => is_blank (snd (fst t)) = false) L
    end.
  (** When the compound triples are exhausted. *)
  Lemma drained k c k' st x : after k c [] k' -> evn (fun n => from_quads n (MkQs k' None st)) x -> evn (fun n => q_next io gen dir generalized n (MkQs k c st)) x.
  Proof.
    intros A E. apply evn_S. destruct c as [[g ls]|]; cbn [after] in A.
    - destruct A as (L & Y & EL & _). destruct L as [|t L]; [|discriminate].
      destruct (lt_yields_next _ _ _ _ Y) as [s' N]. eapply evn_ext; [intros n; symmetry; apply q_next_S|]. cbn [qs_compound qs_gen qs_quads].
      destruct N as [N1 N2], E as [M1 E2]. exists (N1 + M1). intros n Hn. rewrite N2 by lia. apply E2. lia.
    - destruct A as [_ ->]. eapply evn_ext; [intros n; symmetry; apply q_next_S|]. exact E.
  Qed.
  Lemma quads_yield LQ : forall st k c T k', ld_yields st LQ -> after k c T k' -> q_yields (MkQs k c st) (T ++ conv_all LQ k').
  Proof.
    induction LQ as [|q LQ IHQ].
    - intros st k c T. revert k c. induction T as [|t T IHT]; intros k c k' Y A.
      + eapply QyEnd. eapply drained; [exact A|]. unfold from_quads. cbn [qs_quads qs_gen qs_compound].
        destruct (ld_yields_next _ _ Y) as [N E]. exists N. intros n Hn. rewrite (E n Hn). reflexivity.
      + destruct c as [[g ls]|]; [|destruct A as [A _]; discriminate]. destruct A as (L & Yl & EL & F). destruct L as [|t' L]; [discriminate|]. injection EL as -> ->.
        destruct (lt_yields_next _ _ _ _ Yl) as (s' & k1 & N & Yl'). inversion F as [|? ? F1 F2]; subst. cbn [app].
        eapply QyEmit; [|apply (IHT k1 (Some (g, s')) k' Y); exists L; repeat split; assumption].
        apply evn_S. eapply evn_ext; [intros n; symmetry; apply q_next_S|]. cbn [qs_compound qs_gen qs_quads].
        destruct N as [N1 N2]. exists N1. intros n Hn. rewrite N2 by exact Hn.
        destruct t' as [[sb p] o]. cbn in F1. rewrite F1. rewrite orb_true_r. reflexivity.
    - intros st k c T. revert k c. induction T as [|t T IHT]; intros k c k' Y A.
      + cbn [conv_all app]. destruct (ld_yields_next _ _ Y) as (st' & N & Y').
        assert (FQ : forall x, evn (fun n => match spo generalized q with
            | None => q_next io gen dir generalized n (MkQs k' None st')
            | Some (g, sb, p) => match ldobj_rdf io gen dir k' (lq_object q) with
               | (Some (r, t), k2) => Some (Some (sb, p, r, g), MkQs k2 (match t with Some (h, l) => Some (g, list_triples h l) | None => None end) st')
               | (None, k2) => q_next io gen dir generalized n (MkQs k2 None st') end end) x -> evn (fun n => q_next io gen dir generalized n (MkQs k c st)) x).
        { intros x E. eapply drained; [exact A|]. unfold from_quads. cbn [qs_quads qs_gen qs_compound].
          destruct N as [N1 N2], E as [M1 E2]. exists (N1 + M1). intros n Hn. rewrite N2 by lia. exact (E2 n ltac:(lia)). }
        unfold conv. destruct (spo generalized q) as [[[g sb] p]|].
        * destruct (ldobj_rdf io gen dir k' (lq_object q)) as [[[r t]|] k2].
          -- destruct t as [[h l]|].
             ++ destruct (trips (OList l) h k2) as [TT k3] eqn:ET. cbn [fst snd app]. eapply QyEmit; [apply FQ, evn_const|].
                apply IHQ; [exact Y'|]. exists TT. pose proof (list_yields l h k2) as LY. rewrite ET in LY. split; [exact LY|]. split; [reflexivity|].
                pose proof (proj1 trips_pred (OList l) h k2) as F. rewrite ET in F. eapply Forall_impl; [|exact F]. intros a [E|E]; rewrite E; reflexivity.
             ++ cbn [fst snd app]. eapply QyEmit; [apply FQ, evn_const|]. apply (IHQ _ _ None []); [exact Y'|split; reflexivity].
          -- cbn [fst snd app]. eapply q_yields_skip; [exact FQ|]. apply (IHQ _ _ None []); [exact Y'|split; reflexivity].
        * cbn [fst snd app]. eapply q_yields_skip; [exact FQ|]. apply (IHQ _ _ None []); [exact Y'|split; reflexivity].
      + destruct c as [[g ls]|]; [|destruct A as [A _]; discriminate]. destruct A as (L & Yl & EL & F). destruct L as [|t' L]; [discriminate|]. injection EL as -> ->.
        destruct (lt_yields_next _ _ _ _ Yl) as (s' & k1 & N & Yl'). inversion F as [|? ? F1 F2]; subst. cbn [app].
        eapply QyEmit; [|apply (IHT k1 (Some (g, s')) k' Y); exists L; repeat split; assumption].
        apply evn_S. eapply evn_ext; [intros n; symmetry; apply q_next_S|]. cbn [qs_compound qs_gen qs_quads].
        destruct N as [N1 N2]. exists N1. intros n Hn. rewrite N2 by exact Hn.
        destruct t' as [[sb p] o]. cbn in F1. rewrite F1. rewrite orb_true_r. reflexivity.
  Qed.

  (** ** More fuel gives the same result *)
  Lemma ld_next_mono n : forall st r, ld_next n st = Some r -> ld_next (S n) st = Some r.
  Proof.
    induction n as [|n IH]; intros st r; [discriminate|]. intros E. cbn [ld_next] in E |- *. destruct st as [|f st]; [exact E|].
    destruct (ld_step f st) as [[q|] st2]; [exact E|]. apply IH in E. exact E.
  Qed.
  Lemma lt_next_mono n : forall k s r, lt_next io gen dir n k s = Some r -> lt_next io gen dir (S n) k s = Some r.
  Proof.
    induction n as [|n IH]; intros k s r; [discriminate|]. intros E. cbn [lt_next] in E |- *.
    destruct (lt_step io gen dir k s) as [x|[s' k']]; [exact E|]. apply IH in E. exact E.
  Qed.
  Lemma q_next_mono n : forall s r, q_next io gen dir generalized n s = Some r -> q_next io gen dir generalized (S n) s = Some r.
  Proof.
    induction n as [|n IH]; intros s r; [discriminate|]. rewrite !q_next_S.
    assert (FQ : forall s, from_quads n s = Some r -> from_quads (S n) s = Some r).
    { intros s0 E. unfold from_quads in *. destruct (ld_next n (qs_quads s0)) as [x|] eqn:El; [|discriminate]. rewrite (ld_next_mono _ _ _ El).
      destruct x as [[q|] st]; [|exact E]. destruct (spo generalized q) as [[[g sb] p]|]; [|apply IH, E].
      destruct (ldobj_rdf io gen dir (qs_gen s0) (lq_object q)) as [[[r' t]|] k]; [exact E|apply IH, E]. }
    destruct (qs_compound s) as [[g ls]|]; [|apply FQ].
    destruct (lt_next io gen dir n (qs_gen s) ls) as [x|] eqn:El; [|discriminate]. rewrite (lt_next_mono _ _ _ _ El).
    destruct x as [[[[[sb p] o]|] ls'] k]; [|apply FQ]. cbv zeta. destruct (generalized || negb (is_blank p)); [exact (fun E => E)|apply FQ].
  Qed.
  Lemma q_all_mono n : forall s r, q_all io gen dir generalized n s = Some r -> q_all io gen dir generalized (S n) s = Some r.
  Proof.
    induction n as [|n IH]; intros s r; [discriminate|]. intros E. cbn [q_all] in E. change (match q_next io gen dir generalized (S n) s with
      | Some (Some q, s') => option_map (cons q) (q_all io gen dir generalized (S n) s') | Some (None, _) => Some [] | None => None end = Some r).
    destruct (q_next io gen dir generalized n s) as [x|] eqn:El; [|discriminate]. rewrite (q_next_mono _ _ _ El).
    destruct x as [[q|] s']; [|exact E]. destruct (q_all io gen dir generalized n s') as [l|] eqn:Ea; [|discriminate]. rewrite (IH _ _ Ea). exact E.
  Qed.
  Lemma lt_all_mono n : forall k s r, lt_all io gen dir n k s = Some r -> lt_all io gen dir (S n) k s = Some r.
  Proof.
    induction n as [|n IH]; intros k s r; [discriminate|]. intros E. cbn [lt_all] in E. change (match lt_next io gen dir (S n) k s with
      | Some (Some t, s', k') => match lt_all io gen dir (S n) k' s' with Some (l, k2) => Some (t :: l, k2) | None => None end | Some (None, _, k') => Some ([], k') | None => None end = Some r).
    destruct (lt_next io gen dir n k s) as [x|] eqn:El; [|discriminate]. rewrite (lt_next_mono _ _ _ _ El).
    destruct x as [[[t|] s'] k']; [|exact E]. destruct (lt_all io gen dir n k' s') as [l|] eqn:Ea; [|discriminate]. rewrite (IH _ _ _ Ea). exact E.
  Qed.
  Lemma mono_unique {A} (f : nat -> option A) : (forall n r, f n = Some r -> f (S n) = Some r) -> forall x r n, evn f x -> f n = Some r -> r = x.
  Proof.
    intros M x r n [N H] E. assert (G : forall m, f (m + n) = Some r) by (induction m; [exact E|apply M; assumption]).
    specialize (G N). rewrite H in G by lia. congruence.
  Qed.

  (** All the quads. *)
  Theorem rdf_quads_are fs : evn (fun n => rdf_quads io gen dir generalized n fs) (conv_all (frames_out fs) 0).
  Proof. apply q_yields_all. apply (quads_yield _ _ _ None []); [apply frames_yield|split; reflexivity]. Qed.
  Theorem rdf_quads_spec fs n qs : rdf_quads io gen dir generalized n fs = Some qs -> qs = conv_all (frames_out fs) 0.
  Proof. apply (mono_unique (fun n => rdf_quads io gen dir generalized n fs)); [intros; apply q_all_mono; assumption|apply rdf_quads_are]. Qed.
  Theorem lt_all_are l h k : evn (fun n => lt_all io gen dir n k (list_triples h l)) (trips (OList l) h k).
  Proof. rewrite (surjective_pairing (trips (OList l) h k)). apply lt_yields_all, list_yields. Qed.
  Theorem lt_all_spec l h k n r : lt_all io gen dir n k (list_triples h l) = Some r -> r = trips (OList l) h k.
  Proof. apply (mono_unique (fun n => lt_all io gen dir n k (list_triples h l))); [intros; apply lt_all_mono; assumption|apply lt_all_are]. Qed.
End Triples.
